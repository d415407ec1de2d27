(* Statements of C21-C31 and C56 assembled from the lemma files. *)
Set Warnings "-notation-overridden,-ambiguous-paths".
From mathcomp Require Import all_ssreflect all_algebra.
From Verif Require Base.
From Verif Require Import FieldTac FEModel FESpec FEMxLemmas FESolveLemmas FELsLemmas
  FELevLemmas FECovLemmas FEExpLemmas FEBiasLemmas FETraceLemmas FEFinLemmas FEDrawLemmas.

Set Implicit Arguments.
Unset Strict Implicit.
Unset Printing Implicit Defensive.

Import GRing.Theory Num.Theory Order.POrderTheory.
Local Open Scope ring_scope.

Section P1.
Variable F : realFieldType.
Variable sq : F -> F.
Variables nn nf1 nw : nat.
Variable d : frame F nn nf1 nw.
Variable solver : 'M[F]_nf1 -> 'cV[F]_nf1 -> 'cV[F]_nf1.
Add Field Ff : (field_th F).

Hypothesis pw : positive_weights d.
Hypothesis ob : workers_observed d.
Let wne := wsum_neq0 pw ob.
Local Notation est Y := (estimate_ols sq d solver Y).
Local Notation psih Y := (firm_eff (est Y).1).
Local Notation alphah Y := (fun i => (est Y).2 i 0).
Local Notation H := (hat d (row_root d sq)).

(* ---- C21, C22 ---- *)
Lemma p_worker_any Y i : worker_eqn d Y (psih Y) (alphah Y) i.
Proof. exact: worker_eqns. Qed.

Lemma attached Y r :
  attach_psi d (est Y).1 r = psih Y (fj d r) /\ attach_alpha d (est Y).2 r = alphah Y (fi d r).
Proof. by []. Qed.

Section Ex.
Hypothesis ex : exact_solver solver (Minv sq d).

Lemma p_firm Y j : firm_eqn d Y (psih Y) (alphah Y) j.
Proof. by apply: (firm_eqns wne); rewrite ex. Qed.

Lemma p_min_eq Y psi alpha :
  ssr d Y psi alpha = ssr d Y (psih Y) (alphah Y)
    + \sum_r wgt d r * (fitted d psi alpha r - fitted d (psih Y) (alphah Y) r) ^+ 2.
Proof.
apply: normal_minimises; [by move=> r; apply/ltW/pw|exact: p_firm|exact: p_worker_any].
Qed.

Lemma p_min Y psi alpha : ssr d Y (psih Y) (alphah Y) <= ssr d Y psi alpha.
Proof.
rewrite (p_min_eq Y psi alpha) ler_addl sumr_ge0 // => r _.
by rewrite mulr_ge0 ?sqr_ge0 //; apply/ltW/pw.
Qed.

Lemma p_unique Y psi alpha : connected d ->
  ssr d Y psi alpha <= ssr d Y (psih Y) (alphah Y) -> psi ord0 = 0 ->
  (forall j, psi j = psih Y j) /\ (forall i, alpha i = alphah Y i).
Proof.
move=> cn le p0.
have ge0 r : true -> 0 <= wgt d r * (fitted d psi alpha r - fitted d (psih Y) (alphah Y) r) ^+ 2.
  by move=> _; rewrite mulr_ge0 ?sqr_ge0 //; apply/ltW/pw.
have fitE r : fitted d psi alpha r = fitted d (psih Y) (alphah Y) r.
  move: le; rewrite (p_min_eq Y psi alpha) -ler_subr_addl subrr => le.
  have : \sum_r wgt d r * (fitted d psi alpha r - fitted d (psih Y) (alphah Y) r) ^+ 2 == 0.
    by rewrite eq_le le /= sumr_ge0.
  rewrite psumr_eq0 // => /allP /(_ r); rewrite mem_index_enum => /(_ isT) /=.
  by rewrite mulf_eq0 (gt_eqF (pw r)) /= sqrf_eq0 subr_eq0 => /eqP.
have e0 : psih Y ord0 = 0 by rewrite /firm_eff unlift_none.
have hf j : psi j = psih Y j.
  have := fitted_same_const fitE (cn j); rewrite e0 p0 subrr => /eqP.
  by rewrite subr_eq0 => /eqP.
split=> // i; case: (ob i) => r <-.
by have := fitE r; rewrite /fitted hf => /addrI.
Qed.

Lemma p_recovery psi alpha : connected d ->
  let Y := outcome d psi alpha (fun _ => 0) in
  (forall j, psih Y j = psi j - psi ord0) /\ (forall i, alphah Y i = alpha i + psi ord0)
  /\ (forall r, attach_psi d (est Y).1 r = psi (fj d r) - psi ord0
        /\ attach_alpha d (est Y).2 r = alpha (fi d r) + psi ord0).
Proof.
move=> cn Y; have [h1 h2] := recovery psi alpha pw ob cn ex.
by split=> //; split=> // r; have [-> ->] := attached Y r; split; [exact: h1|exact: h2].
Qed.
End Ex.

(* ---- C23 ---- *)
Hypothesis cn : connected d.
Let uM : Minv sq d \in unitmx := Minv_unit sq pw ob cn.
Local Notation G := (invmx (normal_mx d)).

Lemma p_normal_unit : normal_mx d \in unitmx.
Proof. exact: normal_unit wne uM. Qed.

Lemma p_blocks :
  ulsubmx G = AA_inv_A sq d /\ ursubmx G = AA_inv_B sq d /\ dlsubmx G = AA_inv_C sq d
  /\ (forall k, AA_inv_D sq d k k = drsubmx G k k)
  /\ (forall l k, l != k ->
        AA_inv_D sq d l k - drsubmx G l k = (\sum_(r | fi d r == k) wgt d r)^-1).
Proof.
rewrite (normal_inverse wne uM) block_mxKul block_mxKur block_mxKdl block_mxKdr.
split=> //; split=> //; split=> //; split=> [k|l k ne].
  by rewrite AA_inv_DE eqxx addr0.
by rewrite AA_inv_DE (negbTE ne) addrC addKr.
Qed.

Lemma p_blocks_iff :
  block_mx (AA_inv_A sq d) (AA_inv_B sq d) (AA_inv_C sq d) (AA_inv_D sq d) = G
  <-> (nw <= 1)%N.
Proof.
rewrite (normal_inverse wne uM); split.
- move/(congr1 drsubmx); rewrite !block_mxKdr => e.
  rewrite leqNgt; apply/negP => lt.
  have lt0 : (0 < nw)%N by apply: ltn_trans lt.
  have /matrixP/(_ (Ordinal lt0) (Ordinal lt)) := e; rewrite AA_inv_DE.
  have -> : Ordinal lt0 == Ordinal lt = false by [].
  move/eqP; rewrite -subr_eq0 addrC addKr invr_eq0 => /eqP z.
  by have := wne (Ordinal lt); rewrite z eqxx.
- move=> le; congr block_mx; apply/matrixP => l k; rewrite AA_inv_DE.
  have -> : l == k; last by rewrite addr0.
  apply/eqP/val_inj => /=.
  have := leq_trans (ltn_ord l) le; have := leq_trans (ltn_ord k) le.
  by rewrite !ltnS !leqn0 => /eqP -> /eqP ->.
Qed.

(* ---- C24 ---- *)
Hypothesis rok : root_ok d sq.

Lemma p_hat_range r : 0 <= H r r <= 1.
Proof. by rewrite (hat_ge0 wne uM rok) (hat_le1 wne uM rok). Qed.
Lemma p_hat_sum : \sum_r H r r = nf1%:R + nw%:R.
Proof. by rewrite (hat_trace wne uM rok) natrD. Qed.

Lemma p_lev_explicit r : lev_rows d r -> lev_vec sq d solver true r = H r r.
Proof. by move=> h; rewrite /lev_vec h; exact: pii_explicit. Qed.
Lemma p_lev_solver r : exact_solver solver (Minv sq d) ->
  lev_rows d r -> lev_vec sq d solver false r = H r r.
Proof. by move=> ex h; rewrite /lev_vec h; exact: pii_solver. Qed.

Lemma check_lev so r : check_rows d so r -> lev_rows d r.
Proof. by rewrite /check_rows /lev_rows; case: (fw d) => // _; case: so. Qed.

Lemma lev_wantedE r : leverage_wanted d r = lev_rows d r.
Proof. by rewrite /leverage_wanted /lev_rows; case: (fw d) => [w|]; rewrite ?orbF ?orbT. Qed.
Lemma lev_usedE so r : leverage_used d so r = check_rows d so r.
Proof.
by rewrite /leverage_used /check_rows; case: (fw d) => [w|]; case: so; rewrite ?orbF ?orbT.
Qed.

Lemma p_lev_vec explicit r : (explicit = false -> exact_solver solver (Minv sq d)) ->
  leverage_wanted d r -> lev_vec sq d solver explicit r = H r r.
Proof.
by case: explicit => ex; rewrite lev_wantedE; [exact: p_lev_explicit | exact: (p_lev_solver (ex erefl))].
Qed.

Lemma p_lev_ok so P : estimate_exact_leverages sq d solver so = Base.Ok P ->
  (forall r, leverage_wanted d r -> P r = H r r) /\
  (exists r, leverage_used d so r) /\ (forall r, leverage_used d so r -> 0 <= P r < 1).
Proof.
rewrite /estimate_exact_leverages /lev_check.
case: existsP => //= -[r0 cr0]; case: existsP => //= ne -[<-].
split; first by move=> r; rewrite lev_wantedE; exact: p_lev_explicit.
split; first by exists r0; rewrite lev_usedE.
move=> r; rewrite lev_usedE => cr; rewrite (p_lev_explicit (check_lev cr)).
have /andP[-> le] := p_hat_range r; rewrite Order.TotalTheory.ltNge; apply/negP => ge; case: ne; exists r.
by rewrite cr (p_lev_explicit (check_lev cr)).
Qed.

Lemma p_lev_err so : (exists r, leverage_used d so r) ->
  (estimate_exact_leverages sq d solver so = Base.Err Base.ValueError
   <-> exists r, leverage_used d so r /\ H r r = 1).
Proof.
case=> r0 cr0; rewrite /estimate_exact_leverages /lev_check.
have x0 : exists r, check_rows d so r by exists r0; rewrite -lev_usedE.
case: existsP => //= _; case: existsP => [[r /andP[cr ge]]|ne]; split=> //.
- move=> _; exists r; split; first by rewrite lev_usedE.
  apply/eqP; rewrite eq_le.
  have /andP[_ ->] := p_hat_range r.
  by move: ge; rewrite (p_lev_explicit (check_lev cr)).
- case=> r [cr h1]; rewrite lev_usedE in cr.
  by case: ne; exists r; rewrite cr (p_lev_explicit (check_lev cr)) h1 lexx.
Qed.

(* ---- C25-C28 ---- *)
Hypothesis ex : exact_solver solver (Minv sq d).
Hypothesis rsq : root_sq_ok d sq.

(* The matrix of a named component. *)
Definition form (ol or : qopt) : 'M[F]_(nf1 + nw) :=
  (full (get_Q d ol))^T *m C_mx sq (fw d) (fw d) *m full (get_Q d or).

Lemma bilin_inj n (Q Q' : 'M[F]_n) :
  (forall b c : 'cV[F]_n, (b^T *m Q *m c) 0 0 = (b^T *m Q' *m c) 0 0) -> Q = Q'.
Proof.
move=> h; apply/matrixP => i j.
have e (R : 'M[F]_n) : ((delta_mx i 0 : 'cV[F]_n)^T *m R *m (delta_mx j 0 : 'cV[F]_n)) 0 0 = R i j.
  by rewrite trmx_delta -rowE -colE !mxE.
by rewrite -e h e.
Qed.

Lemma form_is ol or : is_form d ol or (form ol or).
Proof.
move=> b c; rewrite /form.
have -> : b^T *m ((full (get_Q d ol))^T *m C_mx sq (fw d) (fw d) *m full (get_Q d or)) *m c
  = (full (get_Q d ol) *m b)^T *m C_mx sq (fw d) (fw d) *m (full (get_Q d or) *m c).
  by rewrite trmx_mul !mulmxA.
rewrite -weighted_covE (weighted_cov_same _ _ (root_sq_same rsq)).
apply: eq_cov_w; first exact: wvec_wgt.
- move=> r; rewrite -[b in LHS]vsubmxK -half_full; case: ol.
  + by rewrite half_psi. + by rewrite half_alpha. + by rewrite half_sum.
- move=> r; rewrite -[c in LHS]vsubmxK -half_full; case: or.
  + by rewrite half_psi. + by rewrite half_alpha. + by rewrite half_sum.
Qed.

Lemma form_unique ol or Q : is_form d ol or Q -> Q = form ol or.
Proof. by move=> h; apply: bilin_inj => b c; rewrite h form_is. Qed.

Lemma p_form_exists ol or : exists Q, is_form d ol or Q.
Proof. by exists (form ol or); exact: form_is. Qed.

Lemma TT_form ol or V :
  TT sq (get_Q d ol) (get_Q d or) (fw d) (fw d) V = \tr (form ol or *m V).
Proof. by []. Qed.

Lemma roots_fw : roots_ok sq (fw d) (fw d).
Proof.
move=> r; rewrite /w3; have := rok r; have := rsq r; rewrite /wgt /wvec.
case: (fw d) => [w|] /=; first by move=> -> ->.
by move=> _ ->.
Qed.

Lemma var_cov_fe o pa : var_fe (get_Q d o) (fw d) pa = cov_fe sq (get_Q d o) (get_Q d o) (fw d) (fw d) pa.
Proof.
rewrite /var_fe /cov_fe weighted_varE weighted_cov_same //; exact: root_sq_same.
Qed.

Section Noise.
Variable Om : finType.
Variable p : Om -> F.
Hypothesis dist : is_dist p.
Variable eps : Om -> 'I_nn -> F.
Variable psi : 'I_nf1.+1 -> F.
Variable alpha : 'I_nw -> F.
Local Notation Y_ o := (outcome d psi alpha (eps o)).

Section Homo.
Variable s2 : F.
Hypothesis unc : uncorrelated p eps (fun r => s2 / wgt d r).
Hypothesis dof : (nf1 + nw < nn)%N.
Let n0 : (0 < nn)%N := leq_ltn_trans (leq0n _) dof.
Local Notation sig o := (sigma_2_ho sq d solver (exact_trace_sigma_2 sq d) (Y_ o)).

Lemma p_sigma : Ex p (fun o => sig o) = s2.
Proof. exact: (sigma_unbiased pw ob cn ex rok unc). Qed.

Lemma p_sigma_unweighted tr : fw d = None ->
  Ex p (fun o => sigma_2_ho sq d solver tr (Y_ o)) = s2.
Proof. by move=> e; rewrite -p_sigma /sigma_2_ho e. Qed.

Lemma ho_named ol or :
  Ex p (fun o => corrected_ho
     (cov_fe sq (get_Q d ol) (get_Q d or) (fw d) (fw d) (est (Y_ o))) (sig o)
     (TT sq (get_Q d ol) (get_Q d or) (fw d) (fw d) G))
  = component d ol or psi alpha.
Proof.
rewrite (ho_unbiased_gen pw ob cn ex rok dist unc psi alpha (s2 := s2)) //.
exact: true_component.
Qed.

Lemma p_ho_var_psi : exists tr,
  exact_trace_ho_var sq d (get_Q d VarPsi) (fw d) = Base.Ok tr /\
  Ex p (fun o => corrected_ho (var_fe (get_Q d VarPsi) (fw d) (est (Y_ o))) (sig o) tr)
  = component d VarPsi VarPsi psi alpha.
Proof.
eexists; split; first exact: (exact_ho_var_psi pw ob cn _ roots_fw (root_sq_same rsq)).
rewrite -ho_named; apply: eq_Ex => o; by rewrite var_cov_fe.
Qed.

Lemma p_ho_cov : exists tr,
  exact_trace_ho_cov sq d (cov_Ql d) (cov_Qr d) (fw d) (fw d) = Base.Ok tr /\
  Ex p (fun o => corrected_ho (cov_fe sq (cov_Ql d) (cov_Qr d) (fw d) (fw d) (est (Y_ o))) (sig o) tr)
  = component d VarPsi VarAlpha psi alpha.
Proof.
eexists; split; first exact: (exact_ho_cov_pa pw ob cn _ _ roots_fw).
by rewrite -ho_named.
Qed.

Lemma wsum_total : \sum_k wsum d k = \sum_r wgt d r.
Proof. by rewrite (sum_by_worker d (fun r => wgt d r)). Qed.

Lemma W_delta k : W_mx d *m (delta_mx k 0 : 'cV[F]_nw) = \col_r (fi d r == k)%:R.
Proof. by rewrite -colE; apply/colP => r; rewrite !mxE. Qed.

Lemma WCW_diag k : let N := \sum_r wgt d r in
  ((W_mx d)^T *m C_mx sq (fw d) (fw d) *m W_mx d) k k = wsum d k / N * (1 - wsum d k / N).
Proof.
move=> N; have N0 : N != 0 by exact/lt0r_neq0/(sum_wgt_gt0 pw n0).
have e (R : 'M[F]_nw) : R k k = ((delta_mx k 0 : 'cV[F]_nw)^T *m R *m (delta_mx k 0 : 'cV[F]_nw)) 0 0.
  by rewrite trmx_delta -rowE -colE !mxE.
rewrite e.
have -> : (delta_mx k 0 : 'cV[F]_nw)^T *m ((W_mx d)^T *m C_mx sq (fw d) (fw d) *m W_mx d) *m (delta_mx k 0 : 'cV[F]_nw)
  = (W_mx d *m delta_mx k 0)^T *m C_mx sq (fw d) (fw d) *m (W_mx d *m (delta_mx k 0 : 'cV[F]_nw)).
  by rewrite trmx_mul !mulmxA.
rewrite -weighted_covE (weighted_cov_same _ _ (root_sq_same rsq)) W_delta.
pose x r : F := (fi d r == k)%:R.
rewrite (@eq_cov_w _ _ _ (wgt d) _ x _ x (fun r => wvec_wgt d r)); try by move=> r; rewrite mxE.
have av : avg_w (wgt d) x = wsum d k / N.
  rewrite /avg_w -/N /wsum [in RHS]big_mkcond; congr (_ / _); apply: eq_bigr => r _.
  by rewrite /x; case: eqP => _; rewrite ?mulr1 ?mulr0.
rewrite /cov_w av -/N; set a := wsum d k / N.
have -> : \sum_r wgt d r * (x r - a) * (x r - a)
  = (1 - 2%:R * a) * wsum d k + a * a * N.
  have -> : wsum d k = \sum_r wgt d r * x r.
    rewrite /wsum [in LHS]big_mkcond; apply: eq_bigr => r _.
    by rewrite /x; case: eqP => _; rewrite ?mulr1 ?mulr0.
  rewrite /N !mulr_sumr -big_split; apply: eq_bigr => r _ /=.
  have xx : x r * x r = x r by rewrite /x; case: eqP => _; rewrite ?mulr1 ?mulr0.
  have -> : wgt d r * (x r - a) * (x r - a) = wgt d r * (x r * x r - 2%:R * a * x r + a * a).
    by move: (x r) (wgt d r) a => b c f; fring F.
  by rewrite xx; move: (x r) (wgt d r) a => b c f; fring F.
rewrite /a; clear a av; move: N0; move: N (wsum d k) => n ws N0; ffield F.
by apply/eqP.
Qed.

Lemma WCW_ones : (W_mx d)^T *m C_mx sq (fw d) (fw d) *m W_mx d *m const_mx 1 = 0 :> 'cV[F]_nw.
Proof.
have -> : (W_mx d)^T *m C_mx sq (fw d) (fw d) *m W_mx d *m (const_mx 1 : 'cV[F]_nw)
  = (W_mx d)^T *m (C_mx sq (fw d) (fw d) *m (const_mx 1 : 'cV[F]_nn)).
  rewrite -!mulmxA; congr (_ *m (_ *m _)); apply/colP => r; by rewrite W_mul !mxE.
have -> : C_mx sq (fw d) (fw d) *m (const_mx 1 : 'cV[F]_nn) = 0.
  rewrite /C_mx -scalemxAl -mulmxA.
  have -> : demean (wvec (fw d)) *m (const_mx 1 : 'cV[F]_nn) = 0.
    apply/colP => r; rewrite demeanE [RHS]mxE.
    rewrite (@eq_avg_w _ _ _ (wgt d) _ (fun _ => 1) (fun r => wvec_wgt d r)); last by move=> s; rewrite mxE.
    rewrite avg_w_const ?mxE ?subrr //; exact/lt0r_neq0/(sum_wgt_gt0 pw n0).
  by rewrite mulmx0 scaler0.
by rewrite mulmx0.
Qed.

Lemma p_ho_var_alpha : exists tr,
  exact_trace_ho_var sq d (get_Q d VarAlpha) (fw d) = Base.Ok tr /\
  Ex p (fun o => corrected_ho (var_fe (get_Q d VarAlpha) (fw d) (est (Y_ o))) (sig o) tr)
  = component d VarAlpha VarAlpha psi alpha + s2 * ((nw%:R - 1) / \sum_r wgt d r).
Proof.
eexists; split.
  exact: (exact_ho_var_alpha_gen pw ob cn roots_fw (root_sq_same rsq) WCW_ones).
set N := \sum_r wgt d r.
have N0 : N != 0 by exact/lt0r_neq0/(sum_wgt_gt0 pw n0).
have bE : \sum_k ((W_mx d)^T *m C_mx sq (fw d) (fw d) *m W_mx d) k k / wsum d k
   = (nw%:R - 1) / N.
  rewrite (eq_bigr (fun k => N^-1 - wsum d k / (N * N))); last first.
    move=> k _; rewrite WCW_diag -/N; have w0 := wne k.
    by move: N0 w0; move: N (wsum d k) => n ws h1 h2; ffield F; split; apply/eqP.
  rewrite sumrB -mulr_suml wsum_total -/N sumr_const card_ord -[N^-1 *+ _]mulr_natl.
  by move: N0; move: N (nw%:R : F) => n ws h1; ffield F; apply/eqP.
rewrite -(ho_named VarAlpha VarAlpha) -bE -p_sigma -Ex_mulr -Ex_add; apply: eq_Ex => o.
rewrite var_cov_fe /corrected_ho /=.
move: (cov_fe _ _ _ _ _ _) (sigma_2_ho _ _ _ _ _) (TT _ _ _ _ _ _) (\sum_k _) => a b c f.
fring F.
Qed.

(* Averages over the errors and over k independent draws of the trace. *)
Local Notation sgns := ({ffun 'I_nf1 -> bool} * {ffun 'I_nw -> bool})%type.

Lemma uniform_corrected (T : finType) (a b : F) (t : T -> F) : (0 < #|T|)%N ->
  uniform (fun z => corrected_ho a b (t z)) = corrected_ho a b (uniform t).
Proof.
move=> c0; rewrite /corrected_ho !uniformE Ex_sub Ex_mull Ex_const //.
exact: uniform_dist.
Qed.

Lemma p_ho_draws ol or k : (0 < k)%N ->
  Ex p (fun o => uniform (fun z : {ffun 'I_k -> sgns} => corrected_ho
    (cov_fe sq (get_Q d ol) (get_Q d or) (fw d) (fw d) (est (Y_ o))) (sig o)
    (mean_draws (fun t => trace_ho_cov_draw sq d solver (get_Q d ol) (get_Q d or) (fw d) (fw d)
       (signs F (z t).1, signs F (z t).2)))))
  = component d ol or psi alpha.
Proof.
move=> k0; rewrite -ho_named; apply: eq_Ex => o.
rewrite uniform_corrected ?card_ffun ?expn_gt0 ?card_pair_ff //.
rewrite (uniform_mean_draws (fun z : sgns => trace_ho_cov_draw sq d solver (get_Q d ol)
   (get_Q d or) (fw d) (fw d) (signs F z.1, signs F z.2)) (card_pair_ff _ _) k0).
by rewrite (ho_draw_uniform pw ob cn ex).
Qed.

(* Custom Q classes. *)
Lemma p_ho_custom q (hl hr : half F nf1 nw q) wl wr k : (0 < k)%N ->
  Ex p (fun o => uniform (fun z : {ffun 'I_k -> sgns} => corrected_ho
    (cov_fe sq hl hr wl wr (est (Y_ o))) (sig o)
    (mean_draws (fun t => trace_ho_cov_draw sq d solver hl hr wl wr
       (signs F (z t).1, signs F (z t).2)))))
  = cov_fe sq hl hr wl wr (normalised psi alpha).
Proof.
move=> k0.
have -> : cov_fe sq hl hr wl wr (normalised psi alpha)
  = weighted_cov sq (full hl *m beta0 psi alpha) (full hr *m beta0 psi alpha) wl wr.
  by rewrite /cov_fe !half_full.
rewrite -(ho_unbiased_gen pw ob cn ex rok dist unc psi alpha (s2 := s2) (fun r => erefl) hl hr wl wr dof).
apply: eq_Ex => o.
rewrite uniform_corrected ?card_ffun ?expn_gt0 ?card_pair_ff //.
rewrite (uniform_mean_draws (fun z : sgns => trace_ho_cov_draw sq d solver hl hr wl wr
   (signs F z.1, signs F z.2)) (card_pair_ff _ _) k0).
by rewrite (ho_draw_uniform pw ob cn ex).
Qed.
End Homo.

(* ---- C27 ---- *)
Variable v : 'I_nn -> F.
Hypothesis unc : uncorrelated p eps v.

Lemma p_Sii r : H r r < 1 ->
  Ex p (fun o => Sii_term sq d solver (fun s => H s s) None (Y_ o) r)
  = v r - (\sum_s wgt d s * v s * ((r == s)%:R - (design d *m ls_map d) r s))
          / ((\sum_s wgt d s) * (1 - H r r)).
Proof.
move=> lt; rewrite (Ex_Sii pw ob cn ex rok unc) //; congr (_ - _ / _).
by apply: eq_bigr => s _; rewrite /Mmx addmE oppmE !mxE.
Qed.

Lemma p_Sii_homo s2 r : H r r < 1 -> (forall r, v r = s2 / wgt d r) ->
  Ex p (fun o => Sii_term sq d solver (fun s => H s s) None (Y_ o) r) = v r.
Proof. by move=> lt vE; exact: (Ex_Sii_homo pw ob cn ex rok unc). Qed.

Local Notation sgns := ({ffun 'I_nf1 -> bool} * {ffun 'I_nw -> bool})%type.

Lemma uniform_he (T : finType) (a : F) (t : T -> F) : (0 < #|T|)%N ->
  uniform (fun z => corrected_he a (t z)) = corrected_he a (uniform t).
Proof.
move=> c0; rewrite /corrected_he !uniformE Ex_sub Ex_const //.
exact: uniform_dist.
Qed.

Lemma p_he_draws ol or k (S : Om -> 'I_nn -> F) : (0 < nn)%N -> (0 < k)%N ->
  (forall r, Ex p (fun o => S o r) = v r) ->
  Ex p (fun o => uniform (fun z : {ffun 'I_k -> sgns} => corrected_he
    (cov_fe sq (get_Q d ol) (get_Q d or) (fw d) (fw d) (est (Y_ o)))
    (mean_draws (fun t => trace_he_cov_draw sq d solver (get_Q d ol) (get_Q d or) (fw d) (fw d)
       (S o) (signs F (z t).1, signs F (z t).2)))))
  = component d ol or psi alpha.
Proof.
move=> n0 k0 uS.
rewrite -[RHS](true_component pw psi alpha rsq) //.
have := he_bias pw ob cn ex dist unc psi alpha (get_Q d ol) (get_Q d or) (fw d) (fw d) S.
rewrite [X in _ = _ + X -> _]big1 ?addr0; last by move=> r _; rewrite uS subrr mulr0.
move=> <-; apply: eq_Ex => o.
rewrite uniform_he ?card_ffun ?expn_gt0 ?card_pair_ff //.
rewrite (uniform_mean_draws (fun z : sgns => trace_he_cov_draw sq d solver (get_Q d ol)
   (get_Q d or) (fw d) (fw d) (S o) (signs F z.1, signs F z.2)) (card_pair_ff _ _) k0).
by rewrite (he_draw_uniform pw ob cn ex).
Qed.

End Noise.

(* ---- C28 ---- *)
Local Notation sgns := ({ffun 'I_nf1 -> bool} * {ffun 'I_nw -> bool})%type.

Lemma p_ho_trace ol or Q k : is_form d ol or Q -> (0 < k)%N ->
  uniform (fun z : {ffun 'I_k -> sgns} =>
    mean_draws (fun t => trace_ho_cov_draw sq d solver (get_Q d ol) (get_Q d or) (fw d) (fw d)
       (signs F (z t).1, signs F (z t).2)))
  = \tr (Q *m invmx (normal_mx d)).
Proof.
move=> /form_unique -> k0; rewrite -TT_form -(ho_draw_uniform pw ob cn ex).
exact: (uniform_mean_draws (fun z : sgns => trace_ho_cov_draw sq d solver (get_Q d ol)
   (get_Q d or) (fw d) (fw d) (signs F z.1, signs F z.2)) (card_pair_ff _ _) k0).
Qed.

Lemma p_he_trace ol or Q S k : is_form d ol or Q -> (0 < k)%N ->
  uniform (fun z : {ffun 'I_k -> sgns} =>
    mean_draws (fun t => trace_he_cov_draw sq d solver (get_Q d ol) (get_Q d or) (fw d) (fw d)
       S (signs F (z t).1, signs F (z t).2)))
  = \tr (Q *m (ls_map d *m diag_mx (\row_r S r) *m (ls_map d)^T)).
Proof.
move=> /form_unique -> k0; rewrite -TT_form -(he_draw_uniform pw ob cn ex).
exact: (uniform_mean_draws (fun z : sgns => trace_he_cov_draw sq d solver (get_Q d ol)
   (get_Q d or) (fw d) (fw d) S (signs F z.1, signs F z.2)) (card_pair_ff _ _) k0).
Qed.

Lemma p_sigma_trace k : (0 < k)%N ->
  uniform (fun z : {ffun 'I_k -> {ffun 'I_nn -> bool}} =>
    mean_draws (fun t => trace_sigma_2_draw sq d solver (signs F (z t))))
  = \tr (design d *m invmx (normal_mx d) *m (design d)^T).
Proof.
move=> k0; rewrite -(sigma_draw_uniform pw ob cn ex).
exact: (uniform_mean_draws (fun b => trace_sigma_2_draw sq d solver (signs F b)) (card_ff _) k0).
Qed.

Lemma p_hutch k (Q : 'M[F]_(nn, k)) : (0 < k)%N -> Q^T *m Q = 1%:M ->
  uniform (fun z : {ffun 'I_k -> {ffun 'I_nn -> bool}} =>
    hutchpp_sigma_2 sq d solver Q (\matrix_(r, c) signs F (z c) r 0))
  = \tr (design d *m invmx (normal_mx d) *m (design d)^T).
Proof. by move=> k0 oQ; exact: (hutch_uniform pw ob cn ex). Qed.

Lemma p_sigma_exact : exact_trace_sigma_2 sq d
  = \tr (design d *m invmx (normal_mx d) *m (design d)^T).
Proof. exact: tr_AGA_exact. Qed.

Lemma p_exact_psi Q : is_form d VarPsi VarPsi Q ->
  exact_trace_ho_var sq d (get_Q d VarPsi) (fw d) = Base.Ok (\tr (Q *m invmx (normal_mx d))).
Proof.
move=> /form_unique ->; rewrite -TT_form.
exact: (exact_ho_var_psi pw ob cn _ roots_fw (root_sq_same rsq)).
Qed.

Lemma p_exact_cov Q : is_form d VarPsi VarAlpha Q ->
  exact_trace_ho_cov sq d (cov_Ql d) (cov_Qr d) (fw d) (fw d)
  = Base.Ok (\tr (Q *m invmx (normal_mx d))).
Proof.
move=> /form_unique ->; rewrite -TT_form.
exact: (exact_ho_cov_pa pw ob cn _ _ roots_fw).
Qed.

(* ---- C56 ---- *)
Lemma p_lev_draws r k : (0 < k)%N ->
  uniform (fun z : {ffun 'I_k -> {ffun 'I_nn -> bool}} =>
     st_P (leverage_approx sq d solver [seq signs F (z t) | t <- enum 'I_k]) r) = H r r
  /\ uniform (fun z : {ffun 'I_k -> {ffun 'I_nn -> bool}} =>
     st_M (leverage_approx sq d solver [seq signs F (z t) | t <- enum 'I_k]) r) = 1 - H r r.
Proof.
move=> k0.
have sE (g : 'cV[F]_nn -> F) (z : {ffun 'I_k -> {ffun 'I_nn -> bool}}) :
  foldl (fun t R2 => t + g R2) 0 [seq signs F (z t) | t <- enum 'I_k]
    / (size [seq signs F (z t) | t <- enum 'I_k])%:R
  = mean_draws (fun t => g (signs F (z t))).
  rewrite foldl_sum add0r big_map big_enum /= /mean_draws size_map size_enum_ord //.
split.
- rewrite -(draw_P pw ob cn ex rok).
  rewrite -(uniform_mean_draws (fun b => (lev_draw sq d solver (signs F b)).1 r) (card_ff _) k0).
  rewrite /uniform; congr (_ / _); apply: eq_bigr => z _.
  exact: (sE (fun R2 => (lev_draw sq d solver R2).1 r)).
- rewrite -(draw_M pw ob cn ex rok).
  rewrite -(uniform_mean_draws (fun b => (lev_draw sq d solver (signs F b)).2 r) (card_ff _) k0).
  rewrite /uniform; congr (_ / _); apply: eq_bigr => z _.
  exact: (sE (fun R2 => (lev_draw sq d solver R2).2 r)).
Qed.

End P1.
