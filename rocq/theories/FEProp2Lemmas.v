(* Statements of C27 and C29-C31 assembled from the lemma files. *)
Set Warnings "-notation-overridden,-ambiguous-paths".
From mathcomp Require Import all_ssreflect all_algebra.
From Verif Require Base.
From Verif Require Import FieldTac FEModel FESpec FEMxLemmas FESolveLemmas FELsLemmas
  FELevLemmas FECovLemmas FEExpLemmas FEBiasLemmas FETraceLemmas FEFinLemmas FEDrawLemmas
  FEPropLemmas.

Set Implicit Arguments.
Unset Strict Implicit.
Unset Printing Implicit Defensive.

Import GRing.Theory Num.Theory Order.POrderTheory.
Local Open Scope ring_scope.

Section P2.
Variable F : realFieldType.
Variable sq : F -> F.
Variables nn nf1 nw : nat.
Variable d : frame F nn nf1 nw.
Variable solver : 'M[F]_nf1 -> 'cV[F]_nf1 -> 'cV[F]_nf1.
Add Field Ff : (field_th F).
Local Notation H := (hat d (row_root d sq)).
Local Notation G := (invmx (normal_mx d)).

(* ---- C29, C30 ---- *)
Section Named.
Hypothesis rsq : root_sq_ok d sq.

Lemma p_var_named o pa :
  var_fe (get_Q d o) (fw d) pa
  = var_w (wgt d) (row_effect d o (firm_eff pa.1) (fun i => pa.2 i 0)).
Proof.
rewrite /var_fe weighted_varE; apply: eq_cov_w; first exact: wvec_wgt.
  by case: o => r; [rewrite half_psi|rewrite half_alpha|rewrite half_sum].
by case: o => r; [rewrite half_psi|rewrite half_alpha|rewrite half_sum].
Qed.

Lemma p_cov_named pa :
  cov_fe sq (cov_Ql d) (cov_Qr d) (fw d) (fw d) pa
  = cov_w (wgt d) (fun r => firm_eff pa.1 (fj d r)) (fun r => pa.2 (fi d r) 0).
Proof.
rewrite /cov_fe weighted_cov_same; last exact: root_sq_same.
apply: eq_cov_w; first exact: wvec_wgt.
  by move=> r; rewrite -(half_psi d pa.1 pa.2).
by move=> r; rewrite -(half_alpha d pa.1 pa.2).
Qed.

Lemma p_adds pa :
  var_fe (get_Q d VarPsiPlusAlpha) (fw d) pa
  = var_fe (get_Q d VarPsi) (fw d) pa + var_fe (get_Q d VarAlpha) (fw d) pa
    + 2%:R * cov_fe sq (cov_Ql d) (cov_Qr d) (fw d) (fw d) pa.
Proof. by rewrite !p_var_named p_cov_named -var_w_sum. Qed.

Lemma form_adds V : V^T = V ->
  \tr (form sq d VarPsiPlusAlpha VarPsiPlusAlpha *m V)
  = \tr (form sq d VarPsi VarPsi *m V) + \tr (form sq d VarAlpha VarAlpha *m V)
    + 2%:R * \tr (form sq d VarPsi VarAlpha *m V).
Proof.
move=> Vs.
have e : form sq d VarPsiPlusAlpha VarPsiPlusAlpha
  = form sq d VarPsi VarPsi + form sq d VarAlpha VarAlpha + form sq d VarPsi VarAlpha
    + (form sq d VarPsi VarAlpha)^T.
  apply: bilin_inj => b c.
  rewrite !mulmxDr !mulmxDl !addmE.
  have -> : (b^T *m (form sq d VarPsi VarAlpha)^T *m c) 0 0
     = (c^T *m form sq d VarPsi VarAlpha *m b) 0 0.
    move: (form sq d VarPsi VarAlpha) => Q.
    have -> : b^T *m Q^T *m c = (c^T *m Q *m b)^T by rewrite !trmx_mul trmxK mulmxA.
    by rewrite [LHS]mxE.
  rewrite !(form_is rsq) /= cov_wDl !cov_wDr -[in RHS](cov_w_sym _ (fun r => dsubmx b (fi d r) 0)).
  move: (cov_w _ _ _) (cov_w _ _ _) (cov_w _ _ _) (cov_w _ _ _) => x y z t; fring F.
rewrite e !mulmxDl !mxtraceD.
have -> : \tr ((form sq d VarPsi VarAlpha)^T *m V) = \tr (form sq d VarPsi VarAlpha *m V).
  move: (form sq d VarPsi VarAlpha) => Q.
  by rewrite -[LHS]mxtrace_tr trmx_mul trmxK Vs mxtrace_mulC.
move: (\tr _) (\tr _) (\tr _) => x y z; fring F.
Qed.

Lemma p_adds_corrected V Qs Qp Qa Qc pa s2 : V^T = V ->
  is_form d VarPsiPlusAlpha VarPsiPlusAlpha Qs -> is_form d VarPsi VarPsi Qp ->
  is_form d VarAlpha VarAlpha Qa -> is_form d VarPsi VarAlpha Qc ->
  corrected_ho (var_fe (get_Q d VarPsiPlusAlpha) (fw d) pa) s2 (\tr (Qs *m V))
  = corrected_ho (var_fe (get_Q d VarPsi) (fw d) pa) s2 (\tr (Qp *m V))
    + corrected_ho (var_fe (get_Q d VarAlpha) (fw d) pa) s2 (\tr (Qa *m V))
    + 2%:R * corrected_ho (cov_fe sq (cov_Ql d) (cov_Qr d) (fw d) (fw d) pa) s2 (\tr (Qc *m V)).
Proof.
move=> Vs hs hp ha hc.
rewrite (form_unique rsq hs) (form_unique rsq hp) (form_unique rsq ha) (form_unique rsq hc).
rewrite (form_adds Vs) p_adds /corrected_ho.
move: (\tr (form _ _ VarPsi VarPsi *m _)) (\tr (form _ _ VarAlpha VarAlpha *m _)) => t1 t2.
move: (\tr (form _ _ VarPsi VarAlpha *m _)) (cov_fe _ _ _ _ _ _) => t3 t4.
move: (var_fe (get_Q d VarPsi) _ _) (var_fe (get_Q d VarAlpha) _ _) => t5 t6; fring F.
Qed.

Lemma p_adds_corrected_he V Qs Qp Qa Qc pa : V^T = V ->
  is_form d VarPsiPlusAlpha VarPsiPlusAlpha Qs -> is_form d VarPsi VarPsi Qp ->
  is_form d VarAlpha VarAlpha Qa -> is_form d VarPsi VarAlpha Qc ->
  corrected_he (var_fe (get_Q d VarPsiPlusAlpha) (fw d) pa) (\tr (Qs *m V))
  = corrected_he (var_fe (get_Q d VarPsi) (fw d) pa) (\tr (Qp *m V))
    + corrected_he (var_fe (get_Q d VarAlpha) (fw d) pa) (\tr (Qa *m V))
    + 2%:R * corrected_he (cov_fe sq (cov_Ql d) (cov_Qr d) (fw d) (fw d) pa) (\tr (Qc *m V)).
Proof.
move=> Vs hs hp ha hc; have := p_adds_corrected pa 1 Vs hs hp ha hc.
by rewrite /corrected_ho /corrected_he !mul1r.
Qed.
End Named.

Lemma p_shift o (psi : 'I_nf1.+1 -> F) alpha c : positive_weights d -> (0 < nn)%N ->
  var_w (wgt d) (row_effect d o (fun j => psi j + c) (fun i => alpha i - c))
  = var_w (wgt d) (row_effect d o psi alpha).
Proof.
move=> pw n0.
have w0 : \sum_r wgt d r != 0 by exact/lt0r_neq0/(sum_wgt_gt0 pw n0).
case: o => /=; rewrite /var_w ?(cov_w_shift _ _ _ _ w0) //.
by apply: eq_cov_w => // r /=; rewrite /row_effect; move: (psi (fj d r)) (alpha (fi d r)) => a b; fring F.
Qed.

Lemma p_shift_cov (psi : 'I_nf1.+1 -> F) alpha c : positive_weights d -> (0 < nn)%N ->
  cov_w (wgt d) (fun r => psi (fj d r) + c) (fun r => alpha (fi d r) - c)
  = cov_w (wgt d) (fun r => psi (fj d r)) (fun r => alpha (fi d r)).
Proof. by move=> pw n0; rewrite cov_w_shift //; exact/lt0r_neq0/(sum_wgt_gt0 pw n0). Qed.

(* ---- C31 ---- *)
Lemma p_batches so ndraw ncore b batches : (0 < ndraw)%N ->
  batchsize_he true ndraw ncore = Base.Ok b ->
  size batches = ncore -> (forall x, x \in map size batches -> x = b) ->
  same_result (estimate_approximate_leverages sq d solver so ndraw batches)
              (estimate_approximate_leverages sq d solver so ndraw [:: flatten batches]).
Proof.
move=> n0 /batch_sizes [dv ->] _ hb.
have b0 : (0 < ndraw %/ ncore)%N by rewrite divn_gt0 ?(dvdn_leq n0) //; exact: dvdn_gt0 dv.
have st r := combine_long sq d solver hb b0 r.
rewrite /estimate_approximate_leverages /=.
set s1 := lev_combine _ _ _ _; set s2 := leverage_approx _ _ _ _.
have eP : lev_normalise d so s1 =1 lev_normalise d so s2.
  by move=> r; rewrite /lev_normalise; have [-> [_ [-> _]]] := st r.
case: existsP => //= x0.
have -> : [exists r, check_rows d so r && (1 <= lev_normalise d so s1 r)]
  = [exists r, check_rows d so r && (1 <= lev_normalise d so s2 r)].
  by apply: eq_existsb => r; rewrite eP.
case: existsP => //= _; split=> // r.
by rewrite /jla_factor eP; have [_ [-> [_ [-> ->]]]] := st r.
Qed.

Lemma p_uneven ndraw ncore : ~~ (ncore %| ndraw)%N ->
  batchsize_he true ndraw ncore = Base.Err Base.ValueError.
Proof. by rewrite /batchsize_he /dvdn /= => ->. Qed.

(* ---- C27: exact heteroskedastic traces ---- *)
Hypothesis pw : positive_weights d.
Hypothesis ob : workers_observed d.
Hypothesis cn : connected d.
Hypothesis rok : root_ok d sq.
Hypothesis rsq : root_sq_ok d sq.
Let wne := wsum_neq0 pw ob.
Let uM : Minv sq d \in unitmx := Minv_unit sq pw ob cn.

Local Notation X0 := (J_mx d *m AA_inv_A sq d + W_mx d *m AA_inv_C sq d).

Lemma L_psi S : ulsubmx (ls_map d *m diag_mx (\row_r S r) *m (ls_map d)^T)
  = X0^T *m diag_mx (\row_r (wgt d r * S r * wgt d r)) *m X0.
Proof.
have Lt : (ls_map d)^T = diag_mx (\row_r wgt d r) *m row_mx X0 (J_mx d *m AA_inv_B sq d + W_mx d *m D_true sq d).
  rewrite -/(Lmx d) Ltr -mulmxA; congr (_ *m _).
  by rewrite (normal_inverse wne uM) designE mul_row_block.
rewrite -[X in ulsubmx (X *m _ *m _)]trmxK Lt mul_mx_row tr_row_mx mul_col_mx mul_col_row.
rewrite block_mxKul trmx_mul tr_diag_mx.
have -> : diag_mx (\row_r (wgt d r * S r * wgt d r))
  = diag_mx (\row_r wgt d r) *m diag_mx (\row_r S r) *m diag_mx (\row_r wgt d r) :> 'M[F]_nn.
  rewrite -mulmxA mul_diag_mx mul_diag_mx; apply/matrixP => i j; rewrite !mxE.
  by case: (i =P j) => [->|_]; rewrite ?mulr0 // !mulr1n mulrA.
by rewrite !mulmxA.
Qed.

Lemma he_side S : he_side_psi sq d S
  = ulsubmx (ls_map d *m diag_mx (\row_r (S r / wgt d r)) *m (ls_map d)^T).
Proof.
rewrite (L_psi (fun r => S r / wgt d r)) /he_side_psi wJ_sqrt wW_sqrt dxmE.
have -> : diag_mx (\row_r row_root d sq r) *m J_mx d *m AA_inv_A sq d
   + diag_mx (\row_r row_root d sq r) *m W_mx d *m AA_inv_C sq d
   = diag_mx (\row_r row_root d sq r) *m X0 by rewrite -!mulmxA -mulmxDr.
rewrite trmx_mul tr_diag_mx !mulmxA; congr (_ *m _); rewrite -!mulmxA; congr (_ *m _).
rewrite !mul_diag_mx; apply/matrixP => i j; rewrite !mxE.
case: (i =P j) => [->|_]; rewrite ?mulr0 // !mulr1n.
rewrite mulrCA row_root_sq //.
have := wgt_ne pw j; move: (wgt d j) (S j) => w s w0.
by ffield F; apply/eqP.
Qed.

Lemma p_he_exact_psi Q S : is_form d VarPsi VarPsi Q ->
  exact_trace_he_var sq d (get_Q d VarPsi) (fw d) S
  = Base.Ok (\tr (Q *m (ls_map d *m diag_mx (\row_r (S r / wgt d r)) *m (ls_map d)^T))).
Proof.
move=> /(form_unique rsq) ->; rewrite -TT_form.
set V := ls_map d *m _ *m _.
rewrite /exact_trace_he_var /= sum_diag_prodE he_side -/V.
rewrite (Q_var_mxE _ (roots_fw rok rsq) (root_sq_same rsq)).
by rewrite -[in RHS](submxK V) TT_pp.
Qed.

Lemma p_he_exact_const Q S c : (forall r, wgt d r = c) -> is_form d VarPsi VarPsi Q ->
  (0 < nn)%N -> exists t, exact_trace_he_var sq d (get_Q d VarPsi) (fw d) S = Base.Ok t
    /\ c * t = \tr (Q *m (ls_map d *m diag_mx (\row_r S r) *m (ls_map d)^T)).
Proof.
move=> hc hQ n0; eexists; split; first exact: p_he_exact_psi.
have c0 : c != 0 by rewrite -(hc (Ordinal n0)) (wgt_ne pw).
have -> : diag_mx (\row_r S r) = c *: diag_mx (\row_r (S r / wgt d r)) :> 'M[F]_nn.
  apply/matrixP => i j; rewrite !mxE; case: (i =P j) => [->|_]; rewrite ?mulr0 //.
  by rewrite !mulr1n hc mulrC divfK.
by rewrite -scalemxAr -scalemxAl -scalemxAr mxtraceZ.
Qed.

(* Homoskedastic errors: everything together. *)
Hypothesis ex : exact_solver solver (Minv sq d).
Section Noise.
Variable Om : finType.
Variable p : Om -> F.
Hypothesis dist : is_dist p.
Variable eps : Om -> 'I_nn -> F.
Variable psi : 'I_nf1.+1 -> F.
Variable alpha : 'I_nw -> F.
Local Notation Y_ o := (outcome d psi alpha (eps o)).
Local Notation sgns := ({ffun 'I_nf1 -> bool} * {ffun 'I_nw -> bool})%type.

Lemma p_he_homo ol or k so s2 (S : Om -> 'I_nn -> F) : (0 < nn)%N -> (0 < k)%N ->
  uncorrelated p eps (fun r => s2 / wgt d r) ->
  (forall r, H r r < 1) ->
  (forall r, fm d r) \/ (fw d = None /\ so = UpperBound) ->
  (forall o, estimate_Sii_he sq d solver so (fun r => H r r) None (Y_ o) = Base.Ok (S o)) ->
  Ex p (fun o => uniform (fun z : {ffun 'I_k -> sgns} => corrected_he
    (cov_fe sq (get_Q d ol) (get_Q d or) (fw d) (fw d) (estimate_ols sq d solver (Y_ o)))
    (mean_draws (fun t => trace_he_cov_draw sq d solver (get_Q d ol) (get_Q d or) (fw d) (fw d)
       (S o) (signs F (z t).1, signs F (z t).2)))))
  = component d ol or psi alpha.
Proof.
move=> n0 k0 unc lt cs hS.
apply: (p_he_draws pw ob cn ex rsq dist psi alpha unc) => // r.
rewrite -(p_Sii_homo pw ob cn rok ex psi alpha unc (s2 := s2) (lt r) (fun r => erefl)).
apply: eq_Ex => o; have := hS o; rewrite /estimate_Sii_he; case: cs => [mv|[-> ->]].
- case: so hS => _; case: (fw d) => [w|].
  + by case=> <-; rewrite mv.
  + by case=> <-; rewrite mv.
  + by case: existsP => // _ [<-]; rewrite mv.
  + by case: existsP => // _ [<-].
- by case: existsP => // _ [<-].
Qed.

(* The bias of the corrected component when the variances are estimated by
   [Sii_term] with exact leverages. *)
Lemma p_he_bias ol or Q k v : (0 < nn)%N -> (0 < k)%N -> is_form d ol or Q ->
  uncorrelated p eps v -> (forall r, H r r < 1) ->
  Ex p (fun o => uniform (fun z : {ffun 'I_k -> sgns} => corrected_he
    (cov_fe sq (get_Q d ol) (get_Q d or) (fw d) (fw d) (estimate_ols sq d solver (Y_ o)))
    (mean_draws (fun t => trace_he_cov_draw sq d solver (get_Q d ol) (get_Q d or) (fw d) (fw d)
       (Sii_term sq d solver (fun r => H r r) None (Y_ o)) (signs F (z t).1, signs F (z t).2)))))
  = component d ol or psi alpha
    + \sum_r ((ls_map d)^T *m Q *m ls_map d) r r
        * ((\sum_s wgt d s * v s * ((r == s)%:R - (design d *m ls_map d) r s))
           / ((\sum_s wgt d s) * (1 - H r r))).
Proof.
move=> n0 k0 hQ unc lt.
have := he_bias pw ob cn ex dist unc psi alpha (get_Q d ol) (get_Q d or) (fw d) (fw d)
  (fun o => Sii_term sq d solver (fun r => H r r) None (Y_ o)).
rewrite (true_component pw psi alpha rsq) // => e.
transitivity (component d ol or psi alpha
  + \sum_r kappa sq d (get_Q d ol) (get_Q d or) (fw d) (fw d) r
     * (v r - Ex p (fun o => Sii_term sq d solver (fun r => H r r) None (Y_ o) r))).
  rewrite -e; apply: eq_Ex => o.
  rewrite uniform_he ?card_ffun ?expn_gt0 ?card_pair_ff //.
  rewrite (uniform_mean_draws (fun z : sgns => trace_he_cov_draw sq d solver (get_Q d ol)
     (get_Q d or) (fw d) (fw d) (Sii_term sq d solver (fun r => H r r) None (Y_ o))
     (signs F z.1, signs F z.2)) (card_pair_ff _ _) k0).
  by rewrite (he_draw_uniform pw ob cn ex).
congr (_ + _); apply: eq_bigr => r _.
rewrite (p_Sii pw ob cn rok ex psi alpha unc (lt r)) opprB addrC subrK.
by rewrite /kappa (form_unique rsq hQ).
Qed.
End Noise.
End P2.
