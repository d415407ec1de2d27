(* Least squares facts about [fit_a_alpha]. *)
Set Warnings "-notation-overridden,-ambiguous-paths".
From mathcomp Require Import all_ssreflect all_algebra.
From Verif Require Import FEModel FESpec FERegSpec FEMxLemmas FEGramLemmas InterModel InterSpec.

Set Implicit Arguments.
Unset Strict Implicit.
Unset Printing Implicit Defensive.

Import GRing.Theory Num.Theory Order.POrderTheory.
Local Open Scope ring_scope.

Section Inter.
Variable F : realFieldType.
Variables nn nf1 nw : nat.
Variable d : frame F nn nf1 nw.
Variable B : 'cV[F]_nf1.+1.
Local Notation Bf := (fun j => B j 0).
Variable solver : 'M[F]_nf1 -> 'cV[F]_nf1 -> 'cV[F]_nf1.
Hypothesis pw : positive_weights d.
Hypothesis wn : worker_norms d Bf.
Hypothesis hs : consistent solver (i_M d B).

Local Notation J := (i_J d).
Local Notation W := (i_W d B).
Local Notation D := (diag_mx (\row_r wgt d r)).
Local Notation Di := (diag_mx (\row_k i_Dwinv d B k)).
Local Notation XX := (row_mx J W).

Lemma DpJE : i_DpJ d = D *m J.
Proof.
rewrite /i_DpJ; case E: (fw d) => [w|]; last first.
  by rewrite [D](_ : _ = 1%:M) ?mul1mx //; apply/matrixP => a b; rewrite !mxE /wgt E.
by rewrite dxmE; congr (diag_mx _ *m _); apply/rowP => r; rewrite !mxE /wgt E.
Qed.

Lemma DpWE : i_DpW d B = D *m W.
Proof.
rewrite /i_DpW; case E: (fw d) => [w|]; last first.
  by rewrite [D](_ : _ = 1%:M) ?mul1mx //; apply/matrixP => a b; rewrite !mxE /wgt E.
by rewrite dxmE; congr (diag_mx _ *m _); apply/rowP => r; rewrite !mxE /wgt E.
Qed.

(* W' D W is diagonal, with positive entries. *)
Lemma WDW k l : (W^T *m D *m W) k l
  = if k == l then \sum_(r | fi d r == k) wgt d r * B (fj d r) 0 ^+ 2 else 0.
Proof.
have e : (W^T *m D *m W) k l = \sum_r wgt d r * (W r k * W r l).
  by rewrite mxE; apply: eq_bigr => r _; rewrite mul_mx_diag !mxE; rewrite mulrAC mulrC.
rewrite e; case: eqP => [<-|ne].
  rewrite [RHS]big_mkcond; apply: eq_bigr => r _; rewrite !mxE.
  by case: eqP => _; rewrite ?expr2 ?mulr0.
apply: big1 => r _; rewrite !mxE; case: eqP => [e1|_]; last by rewrite mul0r mulr0.
by case: eqP => [e2|_]; rewrite ?mulr0 //; case: ne; rewrite -e1 -e2.
Qed.

Lemma norm_pos k : 0 < \sum_(r | fi d r == k) wgt d r * B (fj d r) 0 ^+ 2.
Proof.
have [r er nz] := wn k.
rewrite (bigD1 r) ?er ?eqxx //=; apply: ltr_paddr.
  by apply: sumr_ge0 => s _; rewrite mulr_ge0 ?sqr_ge0 ?ltW.
by rewrite mulr_gt0 // lt_def sqr_ge0 sqrf_eq0 nz.
Qed.

Lemma DiWW : Di *m (W^T *m D *m W) = 1%:M.
Proof.
apply/matrixP => k l; rewrite mul_diag_mx [LHS]mxE [X in X * _]mxE [RHS]mxE.
rewrite /i_Dwinv diag_prodE DpWE mulmxA !WDW eqxx.
by case: eqP => [->|_]; rewrite ?mulr0 // mulVf ?gt_eqF ?norm_pos.
Qed.

Lemma WWDi : W^T *m D *m W *m Di = 1%:M.
Proof. exact: (mulmx1C DiWW). Qed.

Lemma DwE : i_DwinvWtDpJ d B = Di *m (W^T *m D *m J).
Proof. by rewrite /i_DwinvWtDpJ dxmE /i_WtDpJ DpJE -[in RHS]mulmxA. Qed.

(* Residual of J on W; M is its Gram matrix. *)
Local Notation R := (J - W *m (Di *m (W^T *m D *m J))).

Lemma WDR : W^T *m D *m R = 0.
Proof. by rewrite mulmxBr [W^T *m D *m (W *m _)]mulmxA mulmxA WWDi mul1mx subrr. Qed.

Lemma ME : i_M d B = J^T *m D *m R.
Proof.
rewrite /i_M DpJE DwE /i_WtDpJ DpJE mulmxBr mulmxA; congr (_ - _).
by rewrite !trmx_mul trmxK tr_diag_mx !mulmxA.
Qed.

Lemma MR : i_M d B = R^T *m D *m R.
Proof.
rewrite ME [R^T]alg_trB mulmxBl mulmxBl trmx_mul.
have h (Z : 'M[F]_(nf1, nw)) : Z *m W^T *m D *m R = 0 by rewrite -[RHS](mulmx0 nf1 Z) -WDR !mulmxA.
by rewrite h subr0.
Qed.

Lemma rhsE (Y : 'cV[F]_nn) : (i_DpJ d)^T *m Y - (i_DwinvWtDpJ d B)^T *m ((i_DpW d B)^T *m Y) = R^T *m D *m Y.
Proof.
rewrite DpJE DpWE DwE [R^T]alg_trB !mulmxBl; congr (_ - _).
  by rewrite trmx_mul tr_diag_mx.
by rewrite [(W *m _)^T]trmx_mul [(D *m W)^T]trmx_mul tr_diag_mx !mulmxA.
Qed.

Lemma A_eq Y : i_M d B *m i_A d B solver Y = R^T *m D *m Y.
Proof.
rewrite /i_A rhsE; apply: hs; rewrite MR.
exact: (gram_solve R pw Y).
Qed.

Lemma alphaE Y : i_alpha d B solver Y = Di *m (W^T *m D *m (Y - J *m i_A d B solver Y)).
Proof.
rewrite /i_alpha DwE DpWE.
have -> : \col_k (i_Dwinv d B k * ((D *m W)^T *m Y) k 0) = Di *m (W^T *m D *m Y).
  apply/colP => k; rewrite trmx_mul tr_diag_mx mul_diag_mx [LHS]mxE [RHS]mxE.
  by congr (_ * _); rewrite mxE.
by rewrite -[X in _ - X]mulmxA -mulmxBr [W^T *m D *m (Y - _)]mulmxBr [W^T *m D *m (J *m _)]mulmxA.
Qed.

Lemma normal_W Y : W^T *m D *m (Y - (J *m i_A d B solver Y + W *m i_alpha d B solver Y)) = 0.
Proof.
rewrite alphaE opprD addrA mulmxBr [W^T *m D *m (W *m _)]mulmxA.
by rewrite [X in _ - X]mulmxA WWDi mul1mx subrr.
Qed.

Lemma normal_J Y : J^T *m D *m (Y - (J *m i_A d B solver Y + W *m i_alpha d B solver Y)) = 0.
Proof.
set a := i_A d B solver Y; set al := i_alpha d B solver Y.
have e : R^T *m D *m (Y - (J *m a + W *m al)) = 0.
  rewrite mulmxBr mulmxDr -(A_eq Y) -/a MR.
  have -> : R^T *m D *m (W *m al) = 0.
    have -> : R^T *m D *m (W *m al) = (W^T *m D *m R)^T *m al.
      by rewrite !trmx_mul trmxK tr_diag_mx !mulmxA.
    by rewrite WDR trmx0 mul0mx.
  rewrite addr0 -[RHS](subrr (R^T *m D *m R *m a)); congr (_ - _).
  have -> : R^T *m D *m (J *m a) = R^T *m D *m J *m a by rewrite mulmxA.
  congr (_ *m _); rewrite mulmxBr -[LHS]subr0; congr (_ - _).
  rewrite mulmxA; have -> : R^T *m D *m W = (W^T *m D *m R)^T.
    by rewrite !trmx_mul trmxK tr_diag_mx !mulmxA.
  by rewrite WDR trmx0 mul0mx.
rewrite -[RHS]e [R^T]alg_trB mulmxBl mulmxBl -[LHS]subr0; congr (_ - _).
rewrite trmx_mul.
have h (Z : 'M[F]_(nf1, nw)) : Z *m W^T *m D *m (Y - (J *m a + W *m al)) = 0.
  by rewrite -[RHS](mulmx0 1 Z) -(normal_W Y) !mulmxA.
exact/esym/h.
Qed.

(* The fitted value as a product. *)
Lemma fitE (A : 'cV[F]_nf1) (al : 'cV[F]_nw) r :
  (XX *m col_mx A al) r 0 = i_fit d Bf (i_append0 A) (fun i => al i 0) r.
Proof.
rewrite mul_row_col addmE /i_fit; congr (_ + _).
  rewrite mxE /i_append0; case: unliftP => [k e|e].
    rewrite (bigD1 k) //= !mxE e eqxx mul1r big1 ?addr0 // => l nl.
    by rewrite !mxE e (inj_eq lift_inj) eq_sym (negbTE nl) mul0r.
  by rewrite big1 // => l _; rewrite !mxE e (negbTE (neq_lift _ _)) mul0r.
rewrite mxE (bigD1 (fi d r)) //= !mxE eqxx big1 ?addr0 // => l nl.
by rewrite !mxE eq_sym (negbTE nl) mul0r.
Qed.


Local Notation est Y := (col_mx (i_A d B solver Y) (i_alpha d B solver Y)).

Lemma est_eq Y : XX^T *m D *m XX *m est Y = XX^T *m D *m Y.
Proof.
have e : XX^T *m D *m (Y - XX *m est Y) = 0.
  by rewrite mul_row_col tr_row_mx mul_col_mx mul_col_mx normal_J normal_W col_mx0.
by apply/esym/subr0_eq; rewrite -[RHS]e mulmxBr [in RHS]mulmxA.
Qed.

(* The effects of a row in the vocabulary of the specification. *)
Lemma eff_mx (A : 'I_nf1.+1 -> F) (al : 'I_nw -> F) r : A ord_max = 0 ->
  i_fit d Bf A al r = (XX *m col_mx (\col_k A (lift ord_max k)) (\col_i al i)) r 0.
Proof.
move=> a0; rewrite fitE /i_fit mxE; congr (_ + _).
by rewrite /i_append0; case: unliftP => [k ->|->]; rewrite ?mxE ?a0.
Qed.

Local Notation Ah Y := (fit_a_alpha d B solver Y).1.
Local Notation alh Y := (fit_a_alpha d B solver Y).2.

Lemma t_last Y : Ah Y ord_max = 0.
Proof. by rewrite /fit_a_alpha /i_append0 /= unlift_none. Qed.

Lemma t_fit Y r : i_fit d Bf (Ah Y) (alh Y) r = (XX *m est Y) r 0.
Proof. by rewrite fitE. Qed.

Lemma t_firm (Y : 'cV[F]_nn) j : j != ord_max ->
  \sum_(r | fj d r == j) wgt d r * (Y r 0 - i_fit d Bf (Ah Y) (alh Y) r) = 0.
Proof.
case: (unliftP ord_max j) => [k ->|->]; last by rewrite eqxx.
move=> _; have := normal_J Y => /colP /(_ k); rewrite [RHS]mxE => e; rewrite -[RHS]e {e}.
rewrite -mul_row_col [RHS]mxE [LHS]big_mkcond; apply: eq_bigr => r _.
rewrite mul_mx_diag [in RHS]mxE [in RHS]mxE addmE oppmE t_fit [X in _ = X * _ * _]mxE [X in _ = _ * X * _]mxE.
rewrite [X in _ = X * _ * _]mxE.
by case: eqP => _; rewrite ?mul1r ?mul0r.
Qed.

Lemma t_worker (Y : 'cV[F]_nn) i :
  \sum_(r | fi d r == i) wgt d r * B (fj d r) 0 * (Y r 0 - i_fit d Bf (Ah Y) (alh Y) r) = 0.
Proof.
have := normal_W Y => /colP /(_ i); rewrite [RHS]mxE => e; rewrite -[RHS]e {e}.
rewrite -mul_row_col [RHS]mxE [LHS]big_mkcond; apply: eq_bigr => r _.
rewrite mul_mx_diag [in RHS]mxE [in RHS]mxE addmE oppmE t_fit [X in _ = X * _ * _]mxE [X in _ = _ * X * _]mxE.
by case: eqP => _; rewrite ?mul0r // [X in X * _]mulrC.
Qed.

Lemma t_min Y A al : A ord_max = 0 -> i_ssr d Bf Y (Ah Y) (alh Y) <= i_ssr d Bf Y A al.
Proof.
move=> a0; pose h := col_mx (\col_k A (lift ord_max k)) (\col_i al i).
have e1 : i_ssr d Bf Y A al = \sum_r wgt d r * (Y r 0 - (XX *m h) r 0) ^+ 2.
  by apply: eq_bigr => r _; rewrite eff_mx.
have e2 : i_ssr d Bf Y (Ah Y) (alh Y) = \sum_r wgt d r * (Y r 0 - (XX *m est Y) r 0) ^+ 2.
  by apply: eq_bigr => r _; rewrite t_fit.
rewrite e1 e2 (normal_min h (est_eq Y)) ler_addl.
by apply: sumr_ge0 => r _; rewrite mulr_ge0 ?sqr_ge0 ?ltW.
Qed.

(* Whatever effects, with the last intercept 0 or not, fit no better. *)
Lemma shift_fit (A : 'I_nf1.+1 -> F) (al : 'I_nw -> F) c r :
  i_fit d Bf (fun j => A j - c * B j 0) (fun i => al i + c) r = i_fit d Bf A al r.
Proof. by rewrite /i_fit mulrDr addrACA addrA -addrA [_ * c]mulrC addNr addr0. Qed.

Lemma t_min_all Y A al : B ord_max 0 != 0 ->
  i_ssr d Bf Y (Ah Y) (alh Y) <= i_ssr d Bf Y A al.
Proof.
move=> nz; pose c := A ord_max / B ord_max 0.
have -> : i_ssr d Bf Y A al = i_ssr d Bf Y (fun j => A j - c * B j 0) (fun i => al i + c).
  by apply: eq_bigr => r _; rewrite shift_fit.
by apply: t_min; rewrite /c divfK // subrr.
Qed.

Lemma t_recover (A : 'I_nf1.+1 -> F) (al : 'I_nw -> F) : B ord_max 0 != 0 ->
  let Y := \col_r i_fit d Bf A al r in
  forall r, i_fit d Bf (Ah Y) (alh Y) r = i_fit d Bf A al r.
Proof.
move=> nz Y r; pose c := A ord_max / B ord_max 0.
pose h := col_mx (\col_k (A (lift ord_max k) - c * B (lift ord_max k) 0)) (\col_i (al i + c)).
have eY : Y = XX *m h.
  apply/colP => s; rewrite mxE -(shift_fit A al c) eff_mx; last by rewrite /c divfK // subrr.
  by congr ((_ *m col_mx _ _) _ _); apply/colP => k; rewrite !mxE.
rewrite t_fit (same_fit pw (est_eq Y) (h := h)); last by rewrite eY !mulmxA.
by rewrite -eY mxE.
Qed.

Lemma t_exact (A : 'I_nf1.+1 -> F) (al : 'I_nw -> F) : B ord_max 0 != 0 ->
  i_identified d Bf ->
  let Y := \col_r i_fit d Bf A al r in let c := A ord_max / B ord_max 0 in
  (forall j, Ah Y j = A j - c * B j 0) /\ (forall i, alh Y i = al i + c).
Proof.
move=> nz id Y c; apply: id; first exact: t_last.
  by rewrite /c divfK // subrr.
by move=> r; rewrite t_recover // shift_fit.
Qed.

End Inter.
