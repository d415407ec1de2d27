(* Unbiasedness: proofs for C25-C27. *)
Set Warnings "-notation-overridden,-ambiguous-paths".
From mathcomp Require Import all_ssreflect all_algebra.
From Verif Require Base.
From Verif Require Import FieldTac FEModel FESpec FEMxLemmas FESolveLemmas FELsLemmas
  FELevLemmas FECovLemmas FEExpLemmas FEBiasLemmas FETraceLemmas.

Set Implicit Arguments.
Unset Strict Implicit.
Unset Printing Implicit Defensive.

Import GRing.Theory Num.Theory Order.POrderTheory.
Local Open Scope ring_scope.

Section Fin.
Variable F : realFieldType.
Variable sq : F -> F.
Variables nn nf1 nw : nat.
Variable d : frame F nn nf1 nw.
Add Field Ff : (field_th F).

Local Notation J := (J_mx d).
Local Notation W := (W_mx d).
Local Notation DD := (diag_mx (\row_r wgt d r)).
Local Notation DI := (diag_mx (\row_r (wgt d r)^-1)).
Local Notation A := (design d).
Local Notation G := (invmx (normal_mx d)).
Local Notation L := (Lmx d).
Local Notation M := (Mmx d).

Hypothesis pw : positive_weights d.
Hypothesis ob : workers_observed d.
Hypothesis cn : connected d.
Variable solver : 'M[F]_nf1 -> 'cV[F]_nf1 -> 'cV[F]_nf1.
Hypothesis ex : exact_solver solver (Minv sq d).
Hypothesis rok : root_ok d sq.

Let wne := wsum_neq0 pw ob.
Let uM : Minv sq d \in unitmx := Minv_unit sq pw ob cn.
Let uN : normal_mx d \in unitmx := normal_unit wne uM.
Local Notation H := (hat d (row_root d sq)).

Lemma AGA_diag r : (A *m G *m A^T) r r = H r r / wgt d r.
Proof.
rewrite hat_entry [_ * _ * row_root _ _ _]mulrAC row_root_sq // mulrAC mulfV ?mul1r //; exact: wgt_ne.
Qed.

Definition dof_den : F := \sum_r (wgt d r)^-1 - \tr (A *m G *m A^T).

Lemma dof_denE : dof_den = \sum_r (1 - H r r) / wgt d r.
Proof.
rewrite /dof_den /mxtrace -sumrB; apply: eq_bigr => r _.
by rewrite AGA_diag mulrBl mul1r.
Qed.

Lemma dof_den_gt0 : (nf1 + nw < nn)%N -> 0 < dof_den.
Proof.
move=> dof; rewrite dof_denE.
have ge0 r : true -> 0 <= (1 - H r r) / wgt d r.
  move=> _; apply: divr_ge0; last exact/ltW/pw.
  by rewrite subr_ge0 (hat_le1 wne uM rok).
rewrite lt_neqAle sumr_ge0 // andbT eq_sym; apply/negP => /eqP e0.
have all1 r : H r r = 1.
  move/eqP: e0; rewrite psumr_eq0 // => /allP /(_ r).
  rewrite mem_index_enum => /(_ isT) /=.
  rewrite mulf_eq0 invr_eq0 (gt_eqF (pw r)) orbF subr_eq0.
  by move/eqP.
have := hat_trace wne uM rok; rewrite (eq_bigr (fun _ => 1)) ?sum_ones; last by move=> r _.
by move/eqP; rewrite eqr_nat => /eqP e; move: dof; rewrite -e ltnn.
Qed.

Lemma DD_const c : (forall r, wgt d r = c) -> \tr (A *m G *m A^T) * c = (nf1 + nw)%:R.
Proof.
move=> wc; rewrite -(hat_trace wne uM rok) /mxtrace mulr_suml; apply: eq_bigr => r _.
by rewrite AGA_diag wc divfK // -(wc r); exact: wgt_ne.
Qed.

(* The residual variance is the unweighted sum of squares over the right
   number of degrees of freedom. *)
Lemma sigma_2_hoE Y : (0 < nn)%N ->
  sigma_2_ho sq d solver (exact_trace_sigma_2 sq d) Y
  = (\sum_r resid sq d solver Y r 0 ^+ 2) / dof_den.
Proof.
move=> n0; have nne : nn%:R != 0 :> F by rewrite pnatr_eq0 -lt0n.
rewrite /sigma_2_ho; case e : (fw d) => [w|].
  rewrite mulrCA mulfV // mulr1 /dof_den (tr_AGA_exact sq pw ob cn); congr (_ / (_ - _)).
  by apply: eq_bigr => r _; rewrite div1r /wgt e.
rewrite /sigma_2_fe /weighted_mean e mulrCA mulfV // mulr1.
congr (_ / _).
  by apply: eq_bigr => r _; rewrite mxE DpE /wgt e mul1r.
rewrite /dof_den.
have w1 r : wgt d r = 1 by rewrite /wgt e.
have -> : \tr (A *m G *m A^T) = (nf1 + nw)%:R by rewrite -(DD_const w1) mulr1.
rewrite (eq_bigr (fun _ => 1)); last by move=> r _; rewrite w1 invr1.
rewrite sum_ones; congr (_ - _).
by rewrite -addn1 !natrD addrA addrK addrC.
Qed.

Section Noise.
Variable Om : finType.
Variable p : Om -> F.
Hypothesis dist : is_dist p.
Variable eps : Om -> 'I_nn -> F.
Variable v : 'I_nn -> F.
Hypothesis unc : uncorrelated p eps v.
Variable psi : 'I_nf1.+1 -> F.
Variable alpha : 'I_nw -> F.
Local Notation Y_ o := (outcome d psi alpha (eps o)).
Local Notation V_ := (diag_mx (\row_r v r)).

Section Homo.
Variable s2 : F.
Hypothesis vE : forall r, v r = s2 / wgt d r.

Lemma V_homo : V_ = s2 *: DI.
Proof.
apply/matrixP => i j; rewrite !mxE vE; case: eqP => _; by rewrite ?mulr1n ?mulr0n ?mulr0.
Qed.

Lemma Ex_ssr_homo :
  Ex p (fun o => \sum_r resid sq d solver (Y_ o) r 0 ^+ 2) = s2 * dof_den.
Proof.
rewrite (Ex_ssr pw ob cn ex unc) V_homo -scalemxAr -scalemxAl (MDM sq pw ob cn) linearZ /=.
congr (_ * _); rewrite linearB /= /dof_den; congr (_ - _).
by apply: eq_bigr => r _; rewrite !mxE eqxx mulr1n.
Qed.

Lemma sigma_unbiased : (nf1 + nw < nn)%N ->
  Ex p (fun o => sigma_2_ho sq d solver (exact_trace_sigma_2 sq d) (Y_ o)) = s2.
Proof.
move=> dof; have n0 : (0 < nn)%N by apply: leq_ltn_trans dof.
rewrite (eq_Ex p (g := fun o => (\sum_r resid sq d solver (Y_ o) r 0 ^+ 2) * dof_den^-1)).
  rewrite Ex_mulr Ex_ssr_homo mulfK //; exact/lt0r_neq0/dof_den_gt0.
by move=> o; rewrite sigma_2_hoE.
Qed.

Lemma TT_homo q (hl hr : half F nf1 nw q) wl wr :
  TT sq hl hr wl wr (L *m V_ *m L^T) = s2 * TT sq hl hr wl wr G.
Proof.
rewrite V_homo -scalemxAr -scalemxAl (LDL sq pw ob cn) /TT -scalemxAr linearZ //.
Qed.

Lemma ho_unbiased_gen q (hl hr : half F nf1 nw q) wl wr : (nf1 + nw < nn)%N ->
  Ex p (fun o => corrected_ho
     (cov_fe sq hl hr wl wr (estimate_ols sq d solver (Y_ o)))
     (sigma_2_ho sq d solver (exact_trace_sigma_2 sq d) (Y_ o))
     (TT sq hl hr wl wr G))
  = weighted_cov sq (full hl *m beta0 psi alpha) (full hr *m beta0 psi alpha) wl wr.
Proof.
move=> dof; rewrite /corrected_ho Ex_sub Ex_mulr sigma_unbiased //.
by rewrite (Ex_cov_fe pw ob cn ex dist unc) -/(TT _ _ _ _ _ _) TT_homo addrK.
Qed.

End Homo.

(* True components. *)
Hypothesis rsq : root_sq_ok d sq.

Definition shift (o : qopt) (c : F) : F :=
  match o with VarPsi => - c | VarAlpha => c | VarPsiPlusAlpha => 0 end.

Lemma full_beta o r :
  (full (get_Q d o) *m beta0 psi alpha) r 0 = row_effect d o psi alpha r + shift o (psi ord0).
Proof.
rewrite /beta0 -half_full; case: o; rewrite /row_effect /shift.
- by rewrite half_psi firm_eff_norm.
- by rewrite half_alpha mxE.
- by rewrite half_sum firm_eff_norm mxE addrACA [- _ + _]addrC subrr.
Qed.

Lemma true_component ol or : (0 < nn)%N ->
  weighted_cov sq (full (get_Q d ol) *m beta0 psi alpha)
                  (full (get_Q d or) *m beta0 psi alpha) (fw d) (fw d)
  = component d ol or psi alpha.
Proof.
move=> n0; rewrite (weighted_cov_same _ _ (root_sq_same rsq)) /component.
rewrite (eq_cov_w (fun r => wvec_wgt d r) (full_beta ol) (full_beta or)) cov_w_shift //.
exact/lt0r_neq0/(sum_wgt_gt0 pw n0).
Qed.

(* HE: the corrected component for any error-variance estimates. *)
Definition kappa q (hl hr : half F nf1 nw q) wl wr (r : 'I_nn) : F :=
  (L^T *m ((full hl)^T *m C_mx sq wl wr *m full hr) *m L) r r.

Lemma TT_diag q (hl hr : half F nf1 nw q) wl wr (S : 'I_nn -> F) :
  TT sq hl hr wl wr (L *m diag_mx (\row_r S r) *m L^T) = \sum_r kappa hl hr wl wr r * S r.
Proof.
rewrite /TT /kappa -(tr_diag _ S); move: (_ *m full hr) (diag_mx _) L => Q D X.
by rewrite !mulmxA [LHS]mxtrace_mulC !mulmxA.
Qed.

Lemma he_bias q (hl hr : half F nf1 nw q) wl wr (S : Om -> 'I_nn -> F) :
  Ex p (fun o => corrected_he
     (cov_fe sq hl hr wl wr (estimate_ols sq d solver (Y_ o)))
     (TT sq hl hr wl wr (L *m diag_mx (\row_r S o r) *m L^T)))
  = weighted_cov sq (full hl *m beta0 psi alpha) (full hr *m beta0 psi alpha) wl wr
    + \sum_r kappa hl hr wl wr r * (v r - Ex p (fun o => S o r)).
Proof.
rewrite /corrected_he Ex_sub (Ex_cov_fe pw ob cn ex dist unc) -/(TT _ _ _ _ _ _).
rewrite TT_diag -addrA; congr (_ + _).
rewrite (eq_Ex p (g := fun o => \sum_r kappa hl hr wl wr r * S o r)); last first.
  by move=> o; rewrite TT_diag.
rewrite Ex_sum -sumrB; apply: eq_bigr => r _; by rewrite Ex_mull mulrBr.
Qed.

(* Expectation of the leave-one-out variance estimate. *)
Lemma M_ones : M *m const_mx 1 = 0 :> 'cV[F]_nn.
Proof.
have e1 : A *m col_mx 0 (const_mx 1) = const_mx 1 :> 'cV[F]_nn.
  rewrite designE mul_row_col mulmx0 add0r; apply/colP => r.
  by rewrite W_mul !mxE.
rewrite /Mmx mulmxBl mul1mx -e1 -mulmxA (mulmxA L) (LA sq pw ob cn) mul1mx subrr //.
Qed.

Lemma M_row_sum r : \sum_s M r s = 0.
Proof.
have /colP/(_ r) := M_ones; rewrite [RHS]mxE => e.
by rewrite -[RHS]e mxE; apply: eq_bigr => s _; rewrite [const_mx _ _ _]mxE mulr1.
Qed.

Lemma resid_sum o r : resid sq d solver (Y_ o) r 0 = \sum_s M r s * eps o s.
Proof.
rewrite (resid_eps pw ob cn ex) mxE; apply: eq_bigr => s _; by rewrite [(\col__ _) _ _]mxE.
Qed.

Lemma Ex_eps_resid r s : Ex p (fun o => eps o s * resid sq d solver (Y_ o) r 0) = M r s * v s.
Proof.
rewrite (eq_Ex p (g := fun o => \sum_t M r t * (eps o s * eps o t))); last first.
  by move=> o; rewrite resid_sum mulr_sumr; apply: eq_bigr => t _; rewrite mulrCA.
rewrite Ex_sum (bigD1 s) //= big1 ?addr0.
  by rewrite Ex_mull; case: unc => _ ->; rewrite eqxx.
by move=> t ne; rewrite Ex_mull; case: unc => _ ->; rewrite eq_sym (negbTE ne) mulr0.
Qed.

Lemma Ex_resid r : Ex p (fun o => resid sq d solver (Y_ o) r 0) = 0.
Proof.
rewrite (eq_Ex p (g := fun o => \sum_t M r t * eps o t)); last by move=> o; rewrite resid_sum.
rewrite Ex_sum big1 // => t _; rewrite Ex_mull; case: unc => -> _; by rewrite mulr0.
Qed.

Lemma Ex_Sii P r : P r = H r r -> H r r < 1 ->
  Ex p (fun o => Sii_term sq d solver P None (Y_ o) r)
  = v r - (\sum_s wgt d s * v s * M r s) / ((\sum_s wgt d s) * (1 - H r r)).
Proof.
move=> PE lt.
have n0 : (0 < nn)%N by apply: leq_ltn_trans (ltn_ord r).
pose W0 := \sum_s wgt d s.
have W0n : W0 != 0 by exact/lt0r_neq0/(sum_wgt_gt0 pw n0).
have mn : 1 - H r r != 0 by rewrite subr_eq0 eq_sym (lt_eqF lt).
pose mu s := fitted d psi alpha s.
pose mbar := (\sum_s wgt d s * mu s) / W0.
have e0 o : Sii_term sq d solver P None (Y_ o) r
  = ((mu r - mbar) * resid sq d solver (Y_ o) r 0
     + (eps o r * resid sq d solver (Y_ o) r 0
        - \sum_s (wgt d s / W0) * (eps o s * resid sq d solver (Y_ o) r 0))) * (1 - H r r)^-1.
  rewrite /Sii_term PE mulrA; congr (_ / _).
  have -> : Y_bar d (Y_ o) = mbar + (\sum_s wgt d s / W0 * eps o s).
    rewrite /Y_bar.
    have -> : \sum_s Dp d s = W0 by apply: eq_bigr => s _; rewrite DpE.
    have -> : \sum_s Dp d s * Y_ o s 0 = \sum_s wgt d s * mu s + \sum_s wgt d s * eps o s.
      by rewrite -big_split; apply: eq_bigr => s _ /=; rewrite DpE !mxE mulrDr.
    rewrite mulrDl; congr (_ + _); rewrite mulr_suml; apply: eq_bigr => s _.
    by rewrite mulrAC.
  have -> : Y_ o r 0 = mu r + eps o r by rewrite mxE.
  move: (resid _ _ _ _ _ _) => x.
  have -> : \sum_s wgt d s / W0 * (eps o s * x) = (\sum_s wgt d s / W0 * eps o s) * x.
    by rewrite mulr_suml; apply: eq_bigr => s _; rewrite mulrA.
  move: (\sum_s _ / _ * _) => S; fring F.
rewrite (eq_Ex p e0) Ex_mulr Ex_add Ex_mull Ex_resid mulr0 add0r Ex_sub Ex_sum.
rewrite Ex_eps_resid (Mmx_diag (sq := sq)) //.
have -> : \sum_i Ex p (fun o => wgt d i / W0 * (eps o i * resid sq d solver (Y_ o) r 0))
  = (\sum_s wgt d s * v s * M r s) / W0.
  rewrite mulr_suml; apply: eq_bigr => s _; rewrite Ex_mull Ex_eps_resid.
  move: (W0^-1) (M r s) (v s) (wgt d s) => a b c e; fring F.
rewrite -/W0; move: (\sum_s _) => S.
clear e0; move: mn W0n; clearbody mbar; clearbody W0; move: (H r r) (v r) => h vr h1 w1.
ffield F.
by split; apply/eqP.
Qed.

Lemma Ex_Sii_homo s2 P r : P r = H r r -> H r r < 1 ->
  (forall r, v r = s2 / wgt d r) ->
  Ex p (fun o => Sii_term sq d solver P None (Y_ o) r) = v r.
Proof.
move=> PE lt vE; rewrite Ex_Sii //.
have -> : \sum_s wgt d s * v s * M r s = s2 * \sum_s M r s.
  rewrite mulr_sumr; apply: eq_bigr => s _; rewrite vE mulrCA mulfV ?mulr1 //.
  exact: wgt_ne.
by rewrite M_row_sum mulr0 mul0r subr0.
Qed.

End Noise.
End Fin.
