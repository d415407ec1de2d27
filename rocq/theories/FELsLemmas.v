(* Normal equations, least squares, recovery, leverages: proofs for C21-C24. *)
Set Warnings "-notation-overridden,-ambiguous-paths".
From mathcomp Require Import all_ssreflect all_algebra.
From Verif Require Import FieldTac FEModel FESpec FEMxLemmas FESolveLemmas.

Set Implicit Arguments.
Unset Strict Implicit.
Unset Printing Implicit Defensive.

Import GRing.Theory Num.Theory Order.POrderTheory.
Local Open Scope ring_scope.

Section LS.
Variable F : realFieldType.
Variable sq : F -> F.
Variables nn nf1 nw : nat.
Variable d : frame F nn nf1 nw.

Add Field Ff : (field_th F).

Local Notation J := (J_mx d).
Local Notation W := (W_mx d).
Local Notation DD := (diag_mx (\row_r wgt d r)).

Lemma J_mul (p : 'cV[F]_nf1) r : (J *m p) r 0 = firm_eff p (fj d r).
Proof.
rewrite mxE /firm_eff.
under eq_bigr do rewrite !mxE.
case: unliftP => [k e|e].
- rewrite (bigD1 k) //= e eqxx mul1r big1 ?addr0 // => l ne.
  by rewrite (inj_eq lift_inj) eq_sym (negbTE ne) mul0r.
- rewrite big1 // => l _; rewrite e.
  by rewrite (negbTE (neq_lift _ _)) mul0r.
Qed.

Lemma W_mul (a : 'cV[F]_nw) r : (W *m a) r 0 = a (fi d r) 0.
Proof.
rewrite mxE; under eq_bigr do rewrite !mxE.
rewrite (bigD1 (fi d r)) //= eqxx mul1r big1 ?addr0 // => l ne.
by rewrite eq_sym (negbTE ne) mul0r.
Qed.

Lemma mult_A_no p a r :
  (mult_A sq d p a Wno) r 0 = fitted d (firm_eff p) (fun i => a i 0) r.
Proof. by rewrite /mult_A wJ_no wW_no mxE J_mul W_mul. Qed.

Lemma design_mul p a : design d *m col_mx p a = mult_A sq d p a Wno.
Proof. by rewrite designE mul_row_col /mult_A wJ_no wW_no. Qed.

Lemma JtD (e : 'cV[F]_nn) k :
  (J^T *m DD *m e) k 0 = \sum_(r | fj d r == lift ord0 k) wgt d r * e r 0.
Proof.
rewrite -mulmxA mul_diag_mx mxE [RHS]big_mkcond; apply: eq_bigr => r _.
by rewrite !mxE; case: eqP => _; rewrite ?mul1r ?mul0r.
Qed.

Lemma WtD (e : 'cV[F]_nn) k :
  (W^T *m DD *m e) k 0 = \sum_(r | fi d r == k) wgt d r * e r 0.
Proof.
rewrite -mulmxA mul_diag_mx mxE [RHS]big_mkcond; apply: eq_bigr => r _.
by rewrite !mxE; case: eqP => _; rewrite ?mul1r ?mul0r.
Qed.

Lemma wsum_gt0 : positive_weights d -> workers_observed d ->
  forall k, 0 < wsum d k.
Proof.
move=> pw ob k; case: (ob k) => r e.
rewrite /wsum (bigD1 r) /=; last by rewrite e.
by apply: ltr_paddr; rewrite ?pw // sumr_ge0 // => s _; apply/ltW/pw.
Qed.

Lemma wsum_neq0 : positive_weights d -> workers_observed d ->
  forall k, wsum d k != 0.
Proof. by move=> pw ob k; apply: lt0r_neq0; apply: wsum_gt0. Qed.

Section Solve.
Hypothesis wne : forall k, wsum d k != 0.
Variable solver : 'M[F]_nf1 -> 'cV[F]_nf1 -> 'cV[F]_nf1.
Variable Y : 'cV[F]_nn.

Local Notation out := (estimate_ols sq d solver Y).
Local Notation rhs := ((wJ sq d Wyes)^T *m Y - (DwinvWtDpJ sq d)^T *m ((wW sq d Wyes)^T *m Y)).

Lemma estE : out = mult_AAinv sq d solver ((wJ sq d Wyes)^T *m Y) ((wW sq d Wyes)^T *m Y).
Proof. by []. Qed.

Lemma DtJ : (wJ sq d Wyes)^T = J^T *m DD.
Proof. by rewrite wJ_yes trmx_mul tr_diag_mx. Qed.
Lemma DtW : (wW sq d Wyes)^T = W^T *m DD.
Proof. by rewrite wW_yes trmx_mul tr_diag_mx. Qed.

Lemma normal_fit p a :
  normal_mx d *m col_mx p a =
  col_mx (J^T *m DD *m mult_A sq d p a Wno) (W^T *m DD *m mult_A sq d p a Wno).
Proof.
rewrite /normal_mx -mulmxA design_mul {1}designE tr_row_mx.
by rewrite mul_col_mx mul_col_mx.
Qed.

Lemma fit_eqs :
  J^T *m DD *m (Y - mult_A sq d out.1 out.2 Wno)
    = rhs - Minv sq d *m solver (Minv sq d) rhs
  /\ W^T *m DD *m (Y - mult_A sq d out.1 out.2 Wno) = 0.
Proof.
have := @mult_AAinv_normal _ sq _ _ _ d wne solver ((wJ sq d Wyes)^T *m Y) ((wW sq d Wyes)^T *m Y).
cbv zeta; rewrite -estE normal_fit => /eq_col_mx [h1 h2].
split; first by rewrite mulmxBr h1 DtJ opprB addrC subrK.
by rewrite mulmxBr h2 DtW subrr.
Qed.

Local Notation psih := (firm_eff out.1).
Local Notation alphah := (fun i => out.2 i 0).

Lemma resid_entry r :
  (Y - mult_A sq d out.1 out.2 Wno) r 0 = Y r 0 - fitted d psih alphah r.
Proof. by rewrite [LHS]mxE [X in _ + X]mxE mult_A_no. Qed.

Lemma worker_eqns i : worker_eqn d Y psih alphah i.
Proof.
case: fit_eqs => _ /colP /(_ i); rewrite WtD [X in _ = X -> _]mxE => e.
rewrite /worker_eqn -[RHS]e; apply: eq_bigr => r _; by rewrite resid_entry.
Qed.

Lemma firm_resid k :
  \sum_(r | fj d r == lift ord0 k) wgt d r * (Y r 0 - fitted d psih alphah r)
  = (rhs - Minv sq d *m solver (Minv sq d) rhs) k 0.
Proof.
case: fit_eqs => /colP /(_ k) e _; rewrite -e JtD.
by apply: eq_bigr => r _; rewrite resid_entry.
Qed.

Lemma sum_by_firm (f : 'I_nn -> F) :
  \sum_r f r = \sum_j \sum_(r | fj d r == j) f r.
Proof. by rewrite (partition_big (fj d) predT). Qed.
Lemma sum_by_worker (f : 'I_nn -> F) :
  \sum_r f r = \sum_i \sum_(r | fi d r == i) f r.
Proof. by rewrite (partition_big (fi d) predT). Qed.

Hypothesis ex : Minv sq d *m solver (Minv sq d) rhs = rhs.

Lemma firm_eqns j : firm_eqn d Y psih alphah j.
Proof.
have pos k : firm_eqn d Y psih alphah (lift ord0 k).
  by rewrite /firm_eqn firm_resid ex subrr mxE.
case: (unliftP ord0 j) => [k ->|->]; first exact: pos.
have t0 : \sum_r wgt d r * (Y r 0 - fitted d psih alphah r) = 0.
  by rewrite sum_by_worker big1 // => i _; exact: worker_eqns.
move: t0; rewrite sum_by_firm big_ord_recl [X in _ + X]big1 ?addr0 // => k _.
exact: pos.
Qed.

End Solve.

(* Any coefficients that satisfy the normal equations minimise the SSR. *)
Lemma normal_minimises (Y : 'cV[F]_nn) psi alpha psi' alpha' :
  (forall r, 0 <= wgt d r) ->
  (forall j, firm_eqn d Y psi alpha j) -> (forall i, worker_eqn d Y psi alpha i) ->
  ssr d Y psi' alpha' =
    ssr d Y psi alpha
    + \sum_r wgt d r * (fitted d psi' alpha' r - fitted d psi alpha r) ^+ 2.
Proof.
move=> w0 fe we; pose e r := Y r 0 - fitted d psi alpha r.
pose dl r := fitted d psi' alpha' r - fitted d psi alpha r.
have cross : \sum_r wgt d r * e r * dl r = 0.
  have -> : \sum_r wgt d r * e r * dl r =
     \sum_r wgt d r * e r * (psi' (fj d r) - psi (fj d r))
     + \sum_r wgt d r * e r * (alpha' (fi d r) - alpha (fi d r)).
    rewrite -big_split; apply: eq_bigr => r _ /=; rewrite -mulrDr; congr (_ * _).
    by rewrite /dl /fitted opprD addrACA.
  rewrite sum_by_firm sum_by_worker big1 ?add0r; last first.
    move=> j _; rewrite (eq_bigr (fun r => (wgt d r * e r) * (psi' j - psi j))).
      by rewrite -mulr_suml fe mul0r.
    by move=> r /eqP ->.
  rewrite big1 // => i _.
  rewrite (eq_bigr (fun r => (wgt d r * e r) * (alpha' i - alpha i))).
    by rewrite -mulr_suml we mul0r.
  by move=> r /eqP ->.
rewrite /ssr -big_split /=.
apply/eqP; rewrite -subr_eq0 -sumrB; apply/eqP.
rewrite (eq_bigr (fun r => - (wgt d r * e r * dl r) *+ 2)).
  by rewrite sumrMnl sumrN cross oppr0 mul0rn.
move=> r _; have -> : Y r 0 - fitted d psi' alpha' r = e r - dl r.
  by rewrite /e /dl opprB addrA subrK.
rewrite -/(e r) -/(dl r); move: (e r) (dl r) (wgt d r) => a b c; fring F.
Qed.

Lemma fitted_same_const psi alpha psi' alpha' :
  (forall r, fitted d psi alpha r = fitted d psi' alpha' r) ->
  forall j, reach d j -> psi j - psi' j = psi ord0 - psi' ord0.
Proof.
move=> e j; elim=> [//|r s ei _ IH].
rewrite -IH; have er := e r; have es := e s; move: er es; rewrite /fitted ei.
move: (psi _) (alpha _) (psi' _) (alpha' _) (psi (fj d s)) (psi' (fj d s)).
move=> p a p' a' q q' e1 e2.
have -> : p = p' + a' - a by rewrite -e1; fring F.
have -> : q = q' + a' - a by rewrite -e2; fring F.
fring F.
Qed.

Lemma ssr0_fitted (Y : 'cV[F]_nn) psi alpha :
  positive_weights d -> ssr d Y psi alpha <= 0 ->
  forall r, Y r 0 = fitted d psi alpha r.
Proof.
move=> pw le r.
have ge0 s : true -> 0 <= wgt d s * (Y s 0 - fitted d psi alpha s) ^+ 2.
  by move=> _; rewrite mulr_ge0 ?sqr_ge0 // ltW.
have e0 : ssr d Y psi alpha = 0.
  by apply/eqP; rewrite eq_le le /= /ssr sumr_ge0.
move/eqP: e0; rewrite /ssr psumr_eq0 // => /allP /(_ r).
rewrite mem_index_enum => /(_ isT) /=.
rewrite mulf_eq0 (gt_eqF (pw r)) /= sqrf_eq0 subr_eq0.
by move/eqP.
Qed.

Lemma recovery solver psi alpha :
  positive_weights d -> workers_observed d -> connected d ->
  exact_solver solver (Minv sq d) ->
  let out := estimate_ols sq d solver (outcome d psi alpha (fun _ => 0)) in
  (forall j, firm_eff out.1 j = psi j - psi ord0) /\
  (forall i, out.2 i 0 = alpha i + psi ord0).
Proof.
move=> pw ob cn ex; set Y := outcome _ _ _ _; move=> out.
have wne := wsum_neq0 pw ob.
have fe : forall j, firm_eqn d Y (firm_eff out.1) (fun i => out.2 i 0) j.
  by apply: (@firm_eqns wne solver Y); rewrite ex.
have we : forall i, worker_eqn d Y (firm_eff out.1) (fun i => out.2 i 0) i.
  exact: worker_eqns.
have z : ssr d Y psi alpha = 0.
  by rewrite /ssr big1 // => r _; rewrite mxE addr0 subrr expr0n mulr0.
have le : ssr d Y (firm_eff out.1) (fun i => out.2 i 0) <= 0.
  rewrite -z (@normal_minimises Y _ _ psi alpha _ fe we); last by move=> r; apply/ltW/pw.
  rewrite ler_addl sumr_ge0 // => r _; rewrite mulr_ge0 ?sqr_ge0 //; exact/ltW/pw.
have fitE r : fitted d (firm_eff out.1) (fun i => out.2 i 0) r = fitted d psi alpha r.
  by rewrite -(ssr0_fitted pw le) mxE addr0.
have e0 : firm_eff out.1 ord0 = 0 by rewrite /firm_eff unlift_none.
have hf j : firm_eff out.1 j = psi j - psi ord0.
  have := fitted_same_const fitE (cn j); rewrite e0 sub0r => /eqP.
  by rewrite subr_eq addrC => /eqP.
split=> // i; case: (ob i) => r <-.
have := fitE r; rewrite /fitted hf => /eqP.
rewrite -subr_eq0 => /eqP h; apply/eqP; rewrite -subr_eq0; apply/eqP.
by rewrite -[RHS]h; fring F.
Qed.

Lemma Minv_unit : positive_weights d -> workers_observed d -> connected d ->
  Minv sq d \in unitmx.
Proof.
move=> pw ob cn; have wne := wsum_neq0 pw ob.
rewrite -row_free_unit; apply: inj_row_free => v.
move/(congr1 trmx); rewrite trmx_mul Minv_sym trmx0 => Mv0.
have := @mult_AAinv_normal _ sq _ _ _ d wne (fun _ _ => v^T) 0 0.
rewrite /= !mulmx0 subrr Mv0 subr0 subr0 col_mx0.
set a := dxm _ _ - _ => N0.
have q0 : ssr d 0 (firm_eff v^T) (fun i => a i 0) <= 0.
  have : ((col_mx v^T a)^T *m (normal_mx d *m col_mx v^T a)) 0 0 = 0.
    by rewrite N0 mulmx0 mxE.
  rewrite /normal_mx -mulmxA design_mul !mulmxA -trmx_mul design_mul.
  rewrite -mulmxA mul_diag_mx mxE => e; rewrite /ssr -[X in _ <= X]e.
  rewrite le_eqVlt; apply/orP; left; apply/eqP; apply: eq_bigr => r _.
  rewrite -(mult_A_no v^T a r); move: (mult_A _ _ _ _ _) => mm.
  rewrite !mxE; fring F.
have fit0 r : fitted d (firm_eff v^T) (fun i => a i 0) r = fitted d (fun _ => 0) (fun _ => 0) r.
  by rewrite -(ssr0_fitted pw q0) /fitted addr0 mxE.
have e0 : firm_eff v^T ord0 = 0 by rewrite /firm_eff unlift_none.
apply/rowP => k; have := fitted_same_const fit0 (cn (lift ord0 k)).
by rewrite e0 /firm_eff liftK !subr0 !mxE.
Qed.

End LS.
