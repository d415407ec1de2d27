(* Weighted least squares with any design matrix, of full column rank or not. *)
Set Warnings "-notation-overridden,-ambiguous-paths".
From mathcomp Require Import all_ssreflect all_algebra.
From Verif Require Import FEMxLemmas.

Set Implicit Arguments.
Unset Strict Implicit.
Unset Printing Implicit Defensive.

Import GRing.Theory Num.Theory Order.POrderTheory.
Local Open Scope ring_scope.

Section Gram.
Variable F : realFieldType.
Variables n k : nat.
Variable A : 'M[F]_(n, k).
Variable w : 'I_n -> F.
Hypothesis pw : forall r, 0 < w r.
Local Notation D := (diag_mx (\row_r w r)).
Local Notation M := (A^T *m D *m A).

Lemma w_quad (v : 'cV[F]_n) : (v^T *m D *m v) 0 0 = \sum_r w r * v r 0 ^+ 2.
Proof.
rewrite mxE; apply: eq_bigr => r _.
by rewrite mul_mx_diag !mxE expr2 [v r 0 * w r]mulrC mulrA.
Qed.

Lemma w_quad0 (v : 'cV[F]_n) : (v^T *m D *m v) 0 0 = 0 -> v = 0.
Proof.
rewrite w_quad => e; apply/colP => r; rewrite mxE.
have nn (s : 'I_n) : true -> 0 <= w s * v s 0 ^+ 2 by move=> _; rewrite mulr_ge0 ?sqr_ge0 ?ltW.
have /eqP := e; rewrite psumr_eq0 // => /allP /(_ r (mem_index_enum r)) /=.
by rewrite mulf_eq0 (gt_eqF (pw r)) /= sqrf_eq0 => /eqP.
Qed.

Lemma gram_sym : M^T = M.
Proof. by rewrite !trmx_mul trmxK tr_diag_mx mulmxA. Qed.

Lemma gram_ker q (X : 'M[F]_(k, q)) : M *m X = 0 -> A *m X = 0.
Proof.
move=> e; apply/matrixP => r c.
suff /colP/(_ r) : A *m col c X = 0 by rewrite colE mulmxA -colE !mxE.
apply: w_quad0; rewrite trmx_mul.
have -> : (col c X)^T *m A^T *m D *m (A *m col c X) = (col c X)^T *m col c (M *m X).
  by rewrite !colE !mulmxA.
by rewrite e colE mul0mx mulmx0 mxE.
Qed.

Lemma gram_rank : \rank M = \rank A.
Proof.
apply/eqP; rewrite eqn_leq mxrankM_maxr /=.
rewrite -mxrank_tr -[X in (_ <= X)%N]mxrank_tr.
have le : (kermx M^T <= kermx A^T)%MS.
  apply/sub_kermxP; apply: trmx_inj; rewrite trmx_mul trmxK trmx0.
  by apply: gram_ker; apply: trmx_inj; rewrite trmx_mul trmxK trmx0 mulmx_ker.
have := mxrankS le; rewrite !mxrank_ker => /(leq_sub2l k).
by rewrite !subKn ?rank_leq_row.
Qed.

Lemma gram_row : (A :=: M)%MS.
Proof.
apply/eqmxP; rewrite [X in (_ && X)](_ : _ = true) ?andbT; last exact: submxMl.
by rewrite -(geq_leqif (mxrank_leqif_sup (submxMl _ _))) gram_rank.
Qed.

(* The normal equations always have solutions. *)
Lemma gram_solve q (Y : 'M[F]_(n, q)) : exists X, M *m X = A^T *m D *m Y.
Proof.
have /submxP[U e] : (Y^T *m D *m A <= M)%MS by rewrite -gram_row submxMl.
exists U^T; apply: trmx_inj; rewrite trmx_mul trmxK gram_sym -e.
by rewrite !trmx_mul trmxK tr_diag_mx mulmxA.
Qed.

Lemma gram_unit : (M \in unitmx) <-> (forall x : 'cV[F]_k, A *m x = 0 -> x = 0).
Proof.
split=> [u x e|h].
  by rewrite -(mulKmx u x) -!mulmxA e !mulmx0.
rewrite -row_free_unit -kermx_eq0; apply/eqP.
apply/row_matrixP => i; rewrite row0; apply: trmx_inj; rewrite trmx0; apply: h.
apply: gram_ker; apply: trmx_inj; rewrite trmx_mul trmxK gram_sym trmx0.
by rewrite -row_mul mulmx_ker row0.
Qed.

Lemma normal_min (Y : 'cV[F]_n) (g h : 'cV[F]_k) : M *m g = A^T *m D *m Y ->
  \sum_r w r * (Y r 0 - (A *m h) r 0) ^+ 2
  = \sum_r w r * (Y r 0 - (A *m g) r 0) ^+ 2 + \sum_r w r * ((A *m (g - h)) r 0) ^+ 2.
Proof.
move=> e.
have qe (v : 'cV[F]_n) (f : 'I_n -> F) : (forall r, v r 0 = f r) ->
    \sum_r w r * f r ^+ 2 = (v^T *m D *m v) 0 0.
  by move=> hv; rewrite w_quad; apply: eq_bigr => r _; rewrite hv.
rewrite (qe (Y - A *m h)); last by move=> r; rewrite addmE oppmE.
rewrite (qe (Y - A *m g)); last by move=> r; rewrite addmE oppmE.
rewrite (qe (A *m (g - h))) //.
have -> : Y - A *m h = (Y - A *m g) + A *m (g - h) by rewrite mulmxBr addrA subrK.
set u := Y - A *m g; set v := A *m (g - h).
have uv : u^T *m D *m v = 0.
  apply: trmx_inj; rewrite !trmx_mul trmxK tr_diag_mx trmx0 -mulmxA.
  suff -> : A^T *m (D *m u) = 0 by rewrite mulmx0.
  by rewrite /u !mulmxBr !mulmxA -e -!mulmxA subrr.
have sw (a b : 'cV[F]_n) : (a^T *m D *m b)^T = b^T *m D *m a.
  by rewrite !trmx_mul trmxK tr_diag_mx mulmxA.
have vu : v^T *m D *m u = 0 by rewrite -sw uv trmx0.
have trD (a b : 'cV[F]_n) : (a + b)^T = a^T + b^T by apply/matrixP => i j; rewrite !mxE.
clearbody u v.
by rewrite trD !mulmxDl !mulmxDr uv vu addr0 add0r addmE.
Qed.

(* Any two solutions have the same fitted values. *)
Lemma same_fit (Y : 'cV[F]_n) (g h : 'cV[F]_k) :
  M *m g = A^T *m D *m Y -> M *m h = A^T *m D *m Y -> A *m g = A *m h.
Proof.
by move=> e1 e2; apply/eqP; rewrite -subr_eq0 -mulmxBr; apply/eqP/gram_ker; rewrite mulmxBr e1 e2 subrr.
Qed.

(* The projection onto the columns. *)
Section Proj.
Variable X : 'M[F]_(k, n).
Hypothesis eX : M *m X = A^T *m D.
Local Notation P := (A *m X).

Lemma proj_fit (Y : 'cV[F]_n) (g : 'cV[F]_k) : M *m g = A^T *m D *m Y -> A *m g = P *m Y.
Proof. by move=> e; rewrite -mulmxA; apply: same_fit e _; rewrite mulmxA eX. Qed.

Lemma proj_A : P *m A = A.
Proof.
have e : A *m (X *m A - 1%:M) = 0 by apply: gram_ker; rewrite mulmxBr mulmx1 mulmxA eX subrr.
by apply/eqP; rewrite -subr_eq0 -e mulmxBr mulmx1 mulmxA.
Qed.

Lemma proj_idem : P *m P = P.
Proof. by rewrite mulmxA proj_A. Qed.

Lemma proj_sym : P^T *m D = D *m P.
Proof.
have e : P^T *m D = X^T *m (M *m X) by rewrite eX trmx_mul mulmxA.
have -> : D *m P = (P^T *m D)^T by rewrite trmx_mul trmxK tr_diag_mx.
by rewrite e [RHS]trmx_mul trmxK [(M *m X)^T]trmx_mul gram_sym !mulmxA.
Qed.
End Proj.
End Gram.

Section Trace.
Variable F : realFieldType.
Variables n k : nat.
Variable A : 'M[F]_(n, k).
Variable w : 'I_n -> F.
Hypothesis pw : forall r, 0 < w r.
Local Notation D := (diag_mx (\row_r w r)).
Variable X : 'M[F]_(k, n).
Hypothesis eX : (A^T *m D *m A) *m X = A^T *m D.

Lemma proj_trace : \tr (A *m X) = (\rank A)%:R.
Proof.
have [r [C [B [er [eA [fC [U eU]]]]]]] : exists r (C : 'M[F]_(n, r)) (B : 'M[F]_(r, k)),
    \rank A = r /\ A = C *m B /\ (exists V, V *m C = 1%:M) /\ (exists U, B *m U = 1%:M).
  exists (\rank A), (col_base A), (row_base A); split=> //; split; first by rewrite mulmx_base.
  split; first by apply/row_fullP; exact: col_base_full.
  by apply/row_freeP; exact: row_base_free.
have [V eV] := fC; rewrite er.
have uC : C^T *m D *m C \in unitmx.
  by apply/(gram_unit C pw) => x e; rewrite -[x]mul1mx -eV -mulmxA e mulmx0.
pose X2 := invmx (C^T *m D *m C) *m (C^T *m D).
have eP2 : (C^T *m D *m C) *m X2 = C^T *m D by rewrite mulKVmx.
have s1 := proj_sym eX; have s2 := proj_sym eP2.
have CA : C = A *m U by rewrite eA -mulmxA eU mulmx1.
have a1 := proj_A pw eX; have a2 := proj_A pw eP2.
have trX : \tr (C *m X2) = r%:R by rewrite mxtrace_mulC /X2 -(mulmxA (invmx _)) mulVmx // mxtrace1.
have p12 : (A *m X) *m (C *m X2) = C *m X2.
  by rewrite mulmxA CA mulmxA a1.
have p21 : (C *m X2) *m (A *m X) = A *m X by rewrite mulmxA eA mulmxA a2.
have uD : D \in unitmx.
  rewrite unitmxE det_diag unitfE; apply/prodf_neq0 => i _; rewrite mxE.
  by rewrite gt_eqF.
rewrite -trX; congr (\tr _).
clear trX; move: s1 s2 p12 p21; move: (A *m X) (C *m X2) => P1 P2 s1 s2 p12 p21.
have h : D *m P2 = D *m P1.
  by rewrite -{1}p12 mulmxA -s1 -mulmxA -s2 mulmxA -trmx_mul p21 s1.
by rewrite -[LHS](mulKmx uD) -h mulKmx.
Qed.
End Trace.

(* The algebra of L = G A' D and R = 1 - A L when G inverts A' D A. *)
Section Alg.
Variable F : realFieldType.
Variables n k : nat.
Variable A : 'M[F]_(n, k).
Variables D V : 'M[F]_n.
Variable G : 'M[F]_k.
Hypothesis GM : G *m (A^T *m D *m A) = 1%:M.
Hypothesis Gs : G^T = G.
Hypothesis Ds : D^T = D.
Hypothesis Vs : V^T = V.
Hypothesis DV : D *m V = 1%:M.
Local Notation L := (G *m (A^T *m D)).
Local Notation R := (1%:M - A *m L).

Lemma alg_LA : L *m A = 1%:M.
Proof. by rewrite -GM -!mulmxA. Qed.
Lemma alg_LV : L *m V = G *m A^T.
Proof. by rewrite -!mulmxA DV mulmx1. Qed.
Lemma alg_VL : V *m L^T = A *m G.
Proof. by rewrite -[LHS]trmxK trmx_mul trmxK Vs alg_LV trmx_mul trmxK Gs. Qed.
Lemma alg_LVL : L *m V *m L^T = G.
Proof. by rewrite -mulmxA alg_VL mulmxA alg_LA mul1mx. Qed.
Lemma alg_trB (a b : nat) (X Y : 'M[F]_(a, b)) : (X - Y)^T = X^T - Y^T.
Proof. by apply/matrixP => i j; rewrite !mxE. Qed.
Lemma alg_RA : R *m A = 0.
Proof. by rewrite mulmxBl mul1mx -mulmxA alg_LA mulmx1 subrr. Qed.
Lemma alg_RV : R *m V = V - A *m G *m A^T.
Proof. by rewrite mulmxBl mul1mx -mulmxA alg_LV mulmxA. Qed.
Lemma alg_RVR : R *m V *m R^T = V - A *m G *m A^T.
Proof.
rewrite alg_trB trmx1 mulmxBr mulmx1 alg_RV trmx_mul.
have -> : (V - A *m G *m A^T) *m (L^T *m A^T) = 0; last by rewrite subr0.
rewrite -alg_RV mulmxA -[R *m V *m L^T]mulmxA alg_VL mulmxA alg_RA.
by rewrite !mul0mx.
Qed.
End Alg.
