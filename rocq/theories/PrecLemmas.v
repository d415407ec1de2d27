(* Damped Jacobi sweeps, the V-cycle and definiteness. *)
Set Warnings "-notation-overridden,-ambiguous-paths".
From mathcomp Require Import all_ssreflect all_algebra.
From Verif Require Base.
From Verif Require Import FieldTac PrecModel PrecSpec.

Set Implicit Arguments.
Unset Strict Implicit.
Unset Printing Implicit Defensive.

Import GRing.Theory Num.Theory Order.POrderTheory Order.TotalTheory.
Local Open Scope ring_scope.

Section Lemmas.
Variable F : realFieldType.
Add Field Ff : (field_th F).

Lemma dotE n (x y : 'cV[F]_n) : dot x y = (x^T *m y) 0 0.
Proof. by rewrite /dot mxE; apply: eq_bigr => i _; rewrite mxE. Qed.
Lemma symE n (A : 'M[F]_n) : symmetric A <-> A^T = A.
Proof.
split=> [s|e i j]; first by apply/matrixP => i j; rewrite mxE s.
by rewrite -{1}e mxE.
Qed.
Lemma dotDr n (x y z : 'cV[F]_n) : dot x (y + z) = dot x y + dot x z.
Proof. by rewrite !dotE mulmxDr mxE. Qed.
Lemma dotBr n (x y z : 'cV[F]_n) : dot x (y - z) = dot x y - dot x z.
Proof. by rewrite !dotE mulmxBr mxE [in X in _ + X]mxE. Qed.
Lemma dotZr n a (x y : 'cV[F]_n) : dot x (a *: y) = a * dot x y.
Proof. by rewrite !dotE -scalemxAr mxE. Qed.
Lemma dotC n (x y : 'cV[F]_n) : dot x y = dot y x.
Proof. by apply: eq_bigr => i _; rewrite mulrC. Qed.
Lemma dot_tr n p (B : 'M[F]_(n, p)) (x : 'cV[F]_n) y : dot x (B *m y) = dot (B^T *m x) y.
Proof. by rewrite !dotE trmx_mul trmxK mulmxA. Qed.
Lemma dot_ge0 n (x : 'cV[F]_n) : 0 <= dot x x.
Proof. by apply: sumr_ge0 => i _; rewrite -expr2 sqr_ge0. Qed.
Lemma dot_gt0 n (x : 'cV[F]_n) : x != 0 -> 0 < dot x x.
Proof.
move=> x0; rewrite lt_neqAle dot_ge0 andbT eq_sym.
apply: contra x0; rewrite /dot psumr_eq0; last by move=> i _; rewrite -expr2 sqr_ge0.
move/allP => h; apply/eqP/matrixP => i j; rewrite ord1 mxE.
have := h i; rewrite mem_index_enum => /(_ isT) /=.
by rewrite mulf_eq0 orbb => /eqP.
Qed.

Definition psd n (A : 'M[F]_n) : Prop := forall x, 0 <= dot x (A *m x).
Lemma pd_psd n (A : 'M[F]_n) : pos_def A -> psd A.
Proof.
move=> pd x; case: (eqVneq x 0) => [->|x0]; last by apply: ltW; apply: pd.
by rewrite mulmx0 dotE mulmx0 mxE.
Qed.
Lemma psd_unit n (A : 'M[F]_n) : symmetric A -> psd A -> A \in unitmx -> pos_def A.
Proof.
move=> /symE sA pA uA x x0; rewrite lt_neqAle pA andbT eq_sym.
apply: contra x0 => /eqP q0.
set y := A *m x; case: (eqVneq y 0) => [y0|/dot_gt0 a0].
  by rewrite -(mulKmx uA x) -/y y0 mulmx0.
have b0 := pA y; set a := dot y y in a0; set b := dot y (A *m y) in b0.
have b1 : 0 < b + 1 by rewrite (ltr_paddl b0) // ltr01.
pose t := a / (b + 1); have t0 : 0 < t by rewrite divr_gt0.
have := pA (x - t *: y).
have -> : dot (x - t *: y) (A *m (x - t *: y)) = t * (t * b - a *+ 2).
  rewrite mulmxBr -scalemxAr -/y dotBr dotZr.
  rewrite ![dot (x - _) _]dotC !dotBr !dotZr [dot y x]dotC -/(A *m x) q0.
  have -> : dot (A *m y) x = a by rewrite dotC dot_tr sA.
  by rewrite [dot (A *m y) y]dotC -/a -/b mulr2n; fring F.
rewrite pmulr_rge0 // subr_ge0 mulr2n /t mulrAC ler_pdivl_mulr //.
move=> h; have : (a + a) * (b + 1) <= a * (b + 1).
  by apply: le_trans h _; rewrite ler_pmul2l // ler_addl ler01.
by rewrite ler_pmul2r // ger_addl leNgt a0.
Qed.

(* ---- sweeps ---- *)
Section Sweeps.
Variables (om : F) (n : nat) (A : 'M[F]_n).
Definition G : 'M[F]_n := diag_mx (\row_i (om / A i i)).
Definition M1 : 'M[F]_n := 1%:M - G *m A.
Fixpoint Bm (m : nat) : 'M[F]_n := if m is m'.+1 then G + M1 *m Bm m' else 0.

Lemma GE x : G *m x = \col_i (om / A i i * x i 0) :> 'cV[F]_n.
Proof. by rewrite /G; apply/matrixP => i j; rewrite mul_diag_mx !mxE ord1. Qed.
Lemma sweepE b x : sweep om A b x = G *m b + M1 *m x.
Proof.
rewrite /sweep /M1 mulmxBl mul1mx addrCA -mulmxA -mulmxBr GE; congr (_ + _).
by apply/matrixP => i j; rewrite ord1 !mxE mulrAC.
Qed.
Lemma iter_sweep b k m : iter k (sweep om A b) (Bm m *m b) = Bm (m + k) *m b.
Proof.
elim: k => [|k IH] /=; first by rewrite addn0.
by rewrite IH sweepE mulmxA -mulmxDl addnS.
Qed.
Lemma start_E b k : jacobi_step om A b None k = Bm k *m b.
Proof.
case: k => [|k] /=; first by rewrite mul0mx.
have -> : \col_i (om * b i 0 / A i i) = Bm 1 *m b.
  rewrite /= mulmx0 addr0 GE; apply/matrixP => i j; rewrite !mxE mulrAC //.
by rewrite iter_sweep add1n.
Qed.
Lemma damped_E b m : damped om A b m = Bm m *m b.
Proof.
elim: m => [|m IH]; first by rewrite /= mul0mx.
transitivity (sweep om A b (damped om A b m)); last by rewrite IH sweepE mulmxA -mulmxDl.
by rewrite /sweep /=; apply/matrixP => i j; rewrite ord1 !mxE.
Qed.

Hypothesis sA : A^T = A.
Lemma G_sym : G^T = G. Proof. exact: tr_diag_mx. Qed.
Lemma comm m : G *m A *m Bm m = Bm m *m A *m G.
Proof.
elim: m => [|m IH] /=; first by rewrite mulmx0 !mul0mx.
have c : G *m A *m M1 = M1 *m (G *m A) by rewrite /M1 mulmxBl mulmxBr mul1mx mulmx1.
by rewrite mulmxDr [(_ + _) *m A]mulmxDl [(_ + _) *m G]mulmxDl; congr (_ + _); rewrite mulmxA c -mulmxA IH !mulmxA.
Qed.
Lemma Bm_sym m : (Bm m)^T = Bm m.
Proof.
elim: m => [|m IH] /=; first by rewrite trmx0.
rewrite linearD /= trmx_mul IH G_sym; congr (_ + _).
by rewrite /M1 linearB /= trmx1 trmx_mul sA G_sym mulmxBr mulmx1 mulmxA -comm mulmxBl mul1mx.
Qed.
Lemma Bm2 m : Bm m.+2 = G *+ 2 - G *m A *m G + M1 *m Bm m *m M1^T.
Proof.
have e : M1 *m Bm m = Bm m *m M1^T.
  by rewrite /M1 linearB /= trmx1 trmx_mul sA G_sym mulmxBr mulmx1 mulmxA -comm mulmxBl mul1mx.
rewrite /= mulmxDr e !mulmxA e addrA; congr (_ + _).
by rewrite /M1 mulmxBl mul1mx mulr2n addrA.
Qed.

Hypothesis om0 : 0 < om.
Hypothesis d0 : forall i, 0 < A i i.
Lemma G_pd : pos_def G.
Proof.
move=> x x0; rewrite GE; have := dot_gt0 x0 => /lt0r_neq0.
have g0 i : 0 < om / A i i by rewrite divr_gt0.
move=> h; rewrite lt_neqAle; apply/andP; split; last first.
  by apply: sumr_ge0 => i _; rewrite mxE mulrCA mulr_ge0 ?(ltW (g0 i)) // -expr2 sqr_ge0.
apply: contra x0; rewrite eq_sym /dot psumr_eq0; last first.
  by move=> i _; rewrite mxE mulrCA mulr_ge0 ?(ltW (g0 i)) // -expr2 sqr_ge0.
move/allP => e; apply/eqP/matrixP => i j; rewrite ord1 mxE.
have := e i; rewrite mem_index_enum => /(_ isT) /=.
by rewrite !mxE mulrCA mulf_eq0 (gt_eqF (g0 i)) /= mulf_eq0 orbb => /eqP.
Qed.
Definition Dx (y : 'cV[F]_n) : F := \sum_i A i i * y i 0 ^+ 2.
Lemma two_form x : let y := G *m x in om * dot x ((G *+ 2 - G *m A *m G) *m x) = Dx y *+ 2 - om * dot y (A *m y).
Proof.
move=> y; rewrite mulmxBl dotBr mulrBr; congr (_ - _); last first.
  by rewrite -!mulmxA dot_tr G_sym -/y.
rewrite mulr2n mulmxDl dotDr mulrDr -mulr2n; congr (_ *+ 2).
rewrite -/y /Dx /y GE /dot big_distrr /=; apply: eq_bigr => i _.
have di : A i i != 0 by rewrite gt_eqF.
rewrite !mxE; move: (x i 0) (A i i) di => c d di.
have := di => /eqP di'; ffield F; exact: di'.
Qed.
Lemma GV_neq0 (x : 'cV[F]_n) : x != 0 -> G *m x != 0.
Proof.
move=> x0; apply/eqP => e; have := G_pd x0.
by rewrite e dotE mulmx0 mxE ltxx.
Qed.
Hypothesis smooth : forall y, y != 0 -> om * dot y (A *m y) < Dx y *+ 2.
Lemma two_pd : pos_def (G *+ 2 - G *m A *m G).
Proof.
move=> x x0; rewrite -(pmulr_rgt0 _ om0) two_form subr_gt0; apply: smooth; exact: GV_neq0.
Qed.
Lemma Bm_pd m : psd (Bm m) /\ ((0 < m)%N -> pos_def (Bm m)).
Proof.
have H : forall m, (psd (Bm m) /\ ((0 < m)%N -> pos_def (Bm m))) /\ pos_def (Bm m.+1).
  elim=> [|k [[p0 p1] p2]].
    split; last by rewrite /= mulmx0 addr0; exact: G_pd.
    by split=> // x; rewrite mul0mx dotE mulmx0 mxE.
  split; first by split=> // x; apply: pd_psd.
  move=> x x0; rewrite Bm2 mulmxDl dotDr; apply: ltr_paddr; last exact: two_pd.
  by rewrite -!mulmxA dot_tr; exact: p0.
by case: (H m).
Qed.
End Sweeps.

(* ---- the V-cycle ---- *)
Section Cycle.
Variable spsolve : forall n, 'M[F]_n -> 'cV[F]_n -> Base.res 'cV[F]_n.
Variables (npre npost : nat) (om : F).

Lemma empty_mul n m (U : 'M[F]_(n, m)) (x : 'cV[F]_m) : m = 0%N -> U *m x = 0.
Proof. by move=> m0; subst m; rewrite thinmx0 mul0mx. Qed.

Lemma vcycle_direct direct fuel h w n (A : 'M[F]_n) b : (h * w <= direct)%N ->
  vcycle_step spsolve npre npost om direct fuel.+1 h w A b = spsolve A b.
Proof. by move=> le /=; rewrite le. Qed.
Lemma vcycle_coarse direct fuel h w n (A : 'M[F]_n) b : (direct < h * w)%N ->
  vcycle_step spsolve npre npost om direct fuel.+1 h w A b =
  let x := jacobi_step om A b None npre in
  Base.bind (vcycle_step spsolve npre npost om direct fuel (h %/ 2) (w %/ 2)
    (downsample F h w n *m A *m upsample F h w n) (downsample F h w n *m (b - A *m x)))
    (fun cx => Base.Ok (jacobi_step om A b (Some (x + upsample F h w n *m cx)) npost)).
Proof. by rewrite ltnNge => /negbTE le /=; rewrite le. Qed.

Lemma fe_vcycle_E fuel n (A : 'M[F]_n) r : solves_empty spsolve -> (1 < fuel)%N -> (0 < n)%N ->
  fe_vcycle spsolve npre npost om fuel A r = Base.Ok (damped om A r (npre + npost)).
Proof.
move=> se; case: fuel => [|[|fuel]] // _ n0; rewrite /fe_vcycle vcycle_coarse; last by rewrite muln1.
cbv zeta; have z : ((n %/ 2) * (1 %/ 2) = 0)%N by rewrite muln0.
rewrite vcycle_direct; last by rewrite z.
case: (se _ (downsample F n 1 n *m A *m upsample F n 1 n)
  (downsample F n 1 n *m (r - A *m jacobi_step om A r None npre)) z) => x ->.
rewrite /Base.bind (empty_mul _ _ z) addr0 start_E; congr Base.Ok.
by rewrite /jacobi_step iter_sweep damped_E.
Qed.

Lemma cycle_sym : npre = npost -> solves_symmetric spsolve ->
  forall direct fuel h w n (A : 'M[F]_n), symmetric A ->
  (exists B, symmetric B /\ forall b, vcycle_step spsolve npre npost om direct fuel h w A b = Base.Ok (B *m b)) \/
  (exists e, forall b, vcycle_step spsolve npre npost om direct fuel h w A b = Base.Err e).
Proof.
move=> ee ss direct; elim=> [|fuel IH] h w n A sA; first by right; exists Base.OutOfFuel.
case: (leqP (h * w) direct) => le.
  by case: (ss n A sA) => [[B [sB e]]|[e H]]; [left; exists B|right; exists e]; move: le => /= ->.
set dn := downsample F h w n; set up := upsample F h w n.
have sc : symmetric (dn *m A *m up).
  by apply/symE; rewrite !trmx_mul (proj1 (symE A) sA) /up /upsample trmxK mulmxA.
move/symE: sA => sA.
case: (IH (h %/ 2)%N (w %/ 2)%N _ _ sc) => [[C [/symE sC e]]|[e H]]; last first.
  by right; exists e => b; rewrite vcycle_coarse //= H.
left; pose W := Bm om A npre.
pose B := Bm om A (npre + npost) + iter npost (mulmx (M1 om A)) (up *m C *m dn *m (1%:M - A *m W)).
exists B; split; last first.
  move=> b; rewrite vcycle_coarse //; cbv zeta; rewrite e start_E /Base.bind /jacobi_step; congr Base.Ok.
  rewrite -/W mulmxDl -iter_sweep -/W.
  set v := up *m (C *m _).
  have -> : iter npost (mulmx (M1 om A)) (up *m C *m dn *m (1%:M - A *m W)) *m b = iter npost (mulmx (M1 om A)) v.
    rewrite /v; elim: (npost) => [|k IHk] /=; last by rewrite -mulmxA IHk.
    by rewrite -!mulmxA mulmxBl mul1mx -mulmxA.
  elim: (npost) => [//|k IHk] /=.
  by rewrite IHk !sweepE mulmxDr addrA.
apply/symE; rewrite linearD /= Bm_sym //; congr (_ + _).
have tr : forall k, 1%:M - A *m Bm om A k = (iter k (mulmx (M1 om A)) 1%:M)^T.
  elim=> [|k IHk] /=; first by rewrite mulmx0 subr0 trmx1.
  have t1 : (M1 om A)^T = 1%:M - A *m G om A by rewrite /M1 linearB /= trmx1 trmx_mul sA G_sym.
  have m1 : M1 om A *m Bm om A k = Bm om A k - Bm om A k *m A *m G om A.
    by rewrite /M1 mulmxBl mul1mx comm.
  rewrite trmx_mul -IHk t1 m1 mulmxDr !mulmxBr mulmx1 mulmxBl mul1mx !mulmxA.
  move: (1%:M) (A *m G om A) (A *m Bm om A k) (A *m Bm om A k *m A *m G om A) => X Y Z T.
  by apply/matrixP => i j; rewrite !mxE; fring F.
have it p (X : 'M[F]_(n, p)) k : iter k (mulmx (M1 om A)) X = iter k (mulmx (M1 om A)) 1%:M *m X.
  by elim: k => [|k IHk] /=; rewrite ?mul1mx // IHk mulmxA.
rewrite it /W tr ee; set P := iter _ _ _.
by rewrite !trmx_mul trmxK sC /up /upsample trmxK !mulmxA.
Qed.
End Cycle.
End Lemmas.
