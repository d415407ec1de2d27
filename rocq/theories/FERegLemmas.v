(* The regression with controls: proofs for C57-C59. *)
Set Warnings "-notation-overridden,-ambiguous-paths".
From mathcomp Require Import all_ssreflect all_algebra.
From Verif Require Base.
From Verif Require Import FieldTac FEModel FESpec FEMxLemmas FECovLemmas FEExpLemmas FETraceLemmas
  FEGramLemmas FECtlModel FECtlSpec FECtlLemmas FECtlNameLemmas FECtlPropLemmas FERegModel FERegSpec.

Set Implicit Arguments.
Unset Strict Implicit.
Unset Printing Implicit Defensive.

Import GRing.Theory Num.Theory Order.POrderTheory.
Local Open Scope ring_scope.

Section Reg.
Variable F : realFieldType.
Add Field Ff : (field_th F).
Variable sq : F -> F.
Variable N : eqType.
Variables npsi nalpha : N.
Variable d : cdata F N.
Local Notation nn := (c_nn d).
Local Notation k := (n_cov npsi nalpha d).
Variable solver : 'M[F]_k -> 'cV[F]_k -> 'cV[F]_k.
Local Notation A := (A_mx npsi nalpha d).
Local Notation fit := (row_fit npsi nalpha d).
Local Notation W := (@cwgt F N d).
Local Notation D := (diag_mx (\row_r W r)).
Local Notation gh := (gamma_hat sq solver).
Local Notation vl := (@vlist F N npsi nalpha d).
Hypothesis nok : names_ok npsi nalpha d.
Hypothesis iok : ids_ok npsi nalpha d.

Definition cvec (g : seq F) : 'cV[F]_k := \col_i nth 0 g i.

Lemma size_vl v : size (vl v) = k.
Proof. by rewrite size_map size_enum_ord. Qed.

Lemma nth_vl v (i : 'I_k) : nth 0 (vl v) i = v i 0.
Proof. by rewrite (nth_map i) ?size_enum_ord // nth_ord_enum. Qed.

Lemma vlK v : cvec (vl v) = v.
Proof. by apply/colP => i; rewrite mxE nth_vl. Qed.

Lemma cvecK g : size g = k -> vl (cvec g) = g.
Proof.
move=> sg; apply: (@eq_from_nth _ 0); first by rewrite size_vl.
move=> i; rewrite size_vl => lt; rewrite -[i]/(val (Ordinal lt)) nth_vl mxE //.
Qed.

Lemma coefsE g : coefs npsi nalpha d g <-> size g = k.
Proof. by rewrite /coefs n_covE. Qed.

Lemma A_fit g (r : 'I_nn) : size g = k -> (A *m cvec g) r 0 = fit g r.
Proof.
move=> sg; rewrite /row_fit -A_mulE // /A_mul (dotp_nth (n := k)) ?size_A_row //.
by rewrite mxE; apply: eq_bigr => i _; rewrite !mxE.
Qed.

Lemma A_vl v (r : 'I_nn) : (A *m v) r 0 = fit (vl v) r.
Proof. by rewrite -{1}(vlK v) A_fit // size_vl. Qed.

(* The pieces of the normal equations. *)
Lemma wA_yes : wA sq npsi nalpha d Wyes = D *m A.
Proof.
rewrite /wA; apply/matrixP => r c; rewrite mul_diag_mx mxE.
have -> : (\row_r0 W r0) 0 r = W r by rewrite mxE.
rewrite /cwgt; case: (c_w d) => [w|]; last by rewrite mul1r.
by rewrite /dxm mxE.
Qed.

Lemma AtDpAE : AtDpA sq npsi nalpha d = A^T *m D *m A.
Proof. by rewrite /AtDpA wA_yes mulmxA. Qed.

Lemma At_yes Y : @r_mult_At F sq N npsi nalpha d Y Wyes = A^T *m D *m Y.
Proof. by rewrite /r_mult_At wA_yes trmx_mul tr_diag_mx. Qed.

Section Fit.
Hypothesis pw : c_positive d.
Hypothesis cs : consistent solver (AtDpA sq npsi nalpha d).

Lemma normal_eq Y : (A^T *m D *m A) *m gh Y = A^T *m D *m Y.
Proof.
rewrite -AtDpAE /gamma_hat /r_solve /r_AAinv At_yes; apply: cs.
by rewrite AtDpAE; apply: gram_solve.
Qed.

Lemma residE Y : r_resid sq solver Y = Y - A *m gh Y.
Proof. by rewrite /r_resid /r_mult_A /wA; case: (c_w d). Qed.

Lemma rssrE Y v : rssr npsi nalpha Y (vl v) = \sum_r W r * (Y r 0 - (A *m v) r 0) ^+ 2.
Proof. by apply: eq_bigr => r _; rewrite A_vl. Qed.

Lemma min_gap Y g : size g = k ->
  rssr npsi nalpha Y g = rssr npsi nalpha Y (vl (gh Y))
    + \sum_r W r * ((A *m (gh Y - cvec g)) r 0) ^+ 2.
Proof.
move=> sg; rewrite -{1}(cvecK sg) !rssrE.
exact: (normal_min _ (normal_eq Y)).
Qed.

Lemma t_min Y g : size g = k -> rssr npsi nalpha Y (vl (gh Y)) <= rssr npsi nalpha Y g.
Proof.
move=> sg; rewrite (min_gap Y sg) ler_addl sumr_ge0 // => r _.
by rewrite mulr_ge0 ?sqr_ge0 ?ltW.
Qed.

Lemma same_ssr_fit Y g : size g = k ->
  rssr npsi nalpha Y g <= rssr npsi nalpha Y (vl (gh Y)) ->
  forall r : 'I_nn, fit g r = fit (vl (gh Y)) r.
Proof.
move=> sg; rewrite (min_gap Y sg) ger_addl => le r.
have z : A *m (gh Y - cvec g) = 0.
  apply: (w_quad0 pw); rewrite w_quad; apply/eqP; rewrite eq_le le /=.
  by apply: sumr_ge0 => s _; rewrite mulr_ge0 ?sqr_ge0 ?ltW.
have /colP/(_ r) := z; rewrite mulmxBr addmE oppmE A_fit // A_vl [RHS]mxE => /eqP.
by rewrite subr_eq0 => /eqP.
Qed.

Lemma t_orth Y b1 b b2 c : blocks npsi nalpha d = b1 ++ b :: b2 -> (c < width b.2)%N ->
  \sum_r W r * column_entry b.2 c r * r_resid sq solver Y r 0 = 0.
Proof.
move=> e lt.
have lk : (first_col b1 + c < k)%N.
  by rewrite n_covE // e map_cat sumn_cat /= ltn_add2l ltn_addr.
have z : A^T *m (D *m r_resid sq solver Y) = 0.
  by rewrite residE mulmxA mulmxBr -normal_eq -!mulmxA subrr.
have /colP/(_ (Ordinal lk)) := z; rewrite [RHS]mxE => {2}<-.
rewrite mxE; apply: eq_bigr => r _.
rewrite mul_diag_mx !mxE /= (c_columns nok r e lt).
by rewrite mulrCA mulrA.
Qed.

Lemma t_recover_fit g : size g = k ->
  forall r : 'I_nn, fit (vl (gh (c_outcome npsi nalpha g (fun _ => 0)))) r = fit g r.
Proof.
move=> sg r.
have ey : c_outcome npsi nalpha g (fun _ => 0) = A *m cvec g.
  by apply/colP => s; rewrite mxE addr0 A_fit.
rewrite ey -A_vl -A_fit //.
have e := normal_eq (A *m cvec g).
by rewrite (same_fit pw e (_ : _ *m cvec g = _)) // -!mulmxA.
Qed.

Lemma identified_unit : identified npsi nalpha d -> A^T *m D *m A \in unitmx.
Proof.
move=> id; apply/(gram_unit A pw) => x e.
have := id (vl x) (vl 0).
rewrite !coefsE !size_vl => /(_ erefl erefl) h.
rewrite -(vlK x) h ?vlK // => r; rewrite -!A_vl e mulmx0 //.
Qed.

Lemma not_identified : A^T *m D *m A \in unitmx -> identified npsi nalpha d.
Proof.
move=> /(gram_unit A pw) h g g' /coefsE sg /coefsE sg' e.
rewrite -(cvecK sg) -(cvecK sg'); congr vlist; apply/eqP; rewrite -subr_eq0; apply/eqP/h.
by apply/colP => r; rewrite mulmxBr addmE oppmE !A_fit // e [RHS]mxE subrr.
Qed.

(* ---- with identified coefficients -------------------------------------- *)
Section Ident.
Hypothesis id : identified npsi nalpha d.
Local Notation M := (A^T *m D *m A).
Local Notation G := (invmx M).
Let uM : M \in unitmx := identified_unit id.

Lemma AAinvE b : r_AAinv sq solver b = G *m b.
Proof.
have e : M *m r_AAinv sq solver b = b.
  rewrite -AtDpAE; apply: cs; rewrite AtDpAE; exists (G *m b).
  by rewrite mulKVmx.
by rewrite -{2}e mulKmx.
Qed.

Lemma ghE Y : gh Y = G *m A^T *m D *m Y.
Proof. by rewrite /gamma_hat /r_solve AAinvE At_yes !mulmxA. Qed.

Definition Lm : 'M[F]_(k, nn) := G *m (A^T *m D).
Lemma LmE : M *m Lm = A^T *m D.
Proof. by rewrite /Lm mulKVmx. Qed.
Lemma ghL Y : gh Y = Lm *m Y.
Proof. by rewrite ghE /Lm !mulmxA. Qed.
Lemma GM : G *m (A^T *m D *m A) = 1%:M.
Proof. by rewrite mulVmx. Qed.
Lemma LmA : Lm *m A = 1%:M.
Proof. exact: (alg_LA GM). Qed.
Lemma Gs : G^T = G.
Proof. by rewrite trmx_inv gram_sym. Qed.

Lemma outcome_mx g eps : size g = k ->
  c_outcome npsi nalpha g eps = A *m cvec g + \col_r eps r.
Proof. by move=> sg; apply/colP => r; rewrite addmE A_fit // !mxE. Qed.

Lemma gh_outcome g eps : size g = k ->
  gh (c_outcome npsi nalpha g eps) = cvec g + Lm *m \col_r eps r.
Proof. by move=> sg; rewrite ghL outcome_mx // mulmxDr mulmxA LmA mul1mx. Qed.

Definition Rm : 'M[F]_nn := 1%:M - A *m Lm.
Lemma resid_R Y : r_resid sq solver Y = Rm *m Y.
Proof. by rewrite residE ghL mulmxA /Rm mulmxBl mul1mx. Qed.
Lemma RmA : Rm *m A = 0.
Proof. exact: (alg_RA GM). Qed.
Lemma resid_eps g eps : size g = k ->
  r_resid sq solver (c_outcome npsi nalpha g eps) = Rm *m \col_r eps r.
Proof. by move=> sg; rewrite resid_R outcome_mx // mulmxDr mulmxA RmA mul0mx add0r. Qed.

Local Notation V := (diag_mx (\row_r (W r)^-1)).
Lemma DV : D *m V = 1%:M.
Proof.
apply/matrixP => r s; rewrite mul_diag_mx !mxE; case: eqP => [->|_] /=; last by rewrite mulr0.
by rewrite mulr1n mulfV // gt_eqF.
Qed.

Lemma LVL : Lm *m V *m Lm^T = G.
Proof. exact: (alg_LVL GM Gs (tr_diag_mx _) DV). Qed.

Lemma RVR : Rm *m V *m Rm^T = V - A *m G *m A^T.
Proof. exact: (alg_RVR GM Gs (tr_diag_mx _) DV). Qed.

(* ---- named covariates --------------------------------------------------- *)
Definition Qm (names : seq N) : 'M[F]_(nn, k) :=
  \matrix_(r, i) ((count_mem (val i) (flatten (map (idx_of npsi nalpha d) names)))%:R * A r i).

Lemma coefs_nth (Z : seq F) x : size Z = k -> x \in [seq b.1 | b <- blocks npsi nalpha d] ->
  coefs_of npsi nalpha d Z x = [seq nth 0 Z c | c <- idx_of npsi nalpha d x].
Proof.
move=> sZ /split_fst [l1 [b [l2 [e <-]]]].
rewrite /coefs_of /idx_of (dget_layout nok e) /= addKn map_nth_iota //.
by rewrite sZ n_covE // e map_cat sumn_cat /= leq_add2l leq_addr.
Qed.

Lemma idx_lt names : all (fun x => x \in [seq b.1 | b <- blocks npsi nalpha d]) names ->
  all (fun c => (c < k)%N) (flatten (map (idx_of npsi nalpha d) names)).
Proof.
move=> /allP kn; apply/allP => c /flatten_mapP [x /kn /split_fst [l1 [b [l2 [e <-]]]]].
rewrite /idx_of (dget_layout nok e) /= addKn mem_iota => /andP [_ lt].
apply: (leq_trans lt).
by rewrite n_covE // e map_cat sumn_cat /= leq_add2l leq_addr.
Qed.

Lemma sum_count (idx : seq nat) (f : nat -> F) : all (fun c => (c < k)%N) idx ->
  \sum_(c <- idx) f c = \sum_(i < k) (count_mem (val i) idx)%:R * f i.
Proof.
elim: idx => [|c l IH] /=.
  by rewrite big_nil big1 // => i _; rewrite mul0r.
move=> /andP [lt al]; rewrite big_cons IH //.
transitivity (\sum_(i < k) ((c == val i)%:R * f i + (count_mem (val i) l)%:R * f i)).
  rewrite big_split /=; congr (_ + _).
  rewrite (bigD1 (Ordinal lt)) //= eqxx mul1r big1 ?addr0 // => i ne.
  case: eqP => [e|_]; last by rewrite mul0r.
  by case/eqP: ne; apply: val_inj.
by apply: eq_bigr => i _; rewrite natrD mulrDl.
Qed.

Lemma named_lin names v (r : 'I_nn) : good_names npsi nalpha d names ->
  named_effect npsi nalpha d names (vl v) r = (Qm names *m v) r 0.
Proof.
move=> /and3P [ne un kn].
rewrite /named_effect.
have -> : \sum_(e <- effects npsi nalpha d (vl v) r | e.1 \in names) e.2
    = \sum_(x <- names) eff_of npsi nalpha d (vl v) r x by rewrite sum_names.
rewrite -(dotp_names nok iok) ?size_vl //.
have -> : flatten (map (coefs_of npsi nalpha d (vl v)) names)
   = [seq nth 0 (vl v) c | c <- flatten (map (idx_of npsi nalpha d) names)].
  rewrite map_flatten -map_comp; congr flatten; apply/eq_in_map => x /(allP kn) kx.
  by rewrite coefs_nth // size_vl.
rewrite -sum_prod_dotp sum_count ?idx_lt // mxE; apply: eq_bigr => i _.
by rewrite nth_vl !mxE mulrA.
Qed.

Lemma effect_lin names v : good_names npsi nalpha d names ->
  exists2 f, covariate_effect npsi nalpha d names (vl v) = Base.Ok f & as_col d f = Qm names *m v.
Proof.
move=> gn; have [f [e h]] := covariate_effectE nok iok gn (size_vl v).
exists f => //; apply/colP => r; rewrite [LHS]mxE (h (nat_of_ord r) (ltn_ord r)); exact: named_lin.
Qed.

Local Notation C := (C_mx sq (c_wopt d) (c_wopt d)).
Local Notation QQ n1 n2 := ((Qm n1)^T *m C *m Qm n2).

Lemma term_lin n1 n2 u v : good_names npsi nalpha d n1 -> good_names npsi nalpha d n2 ->
  r_trace_term sq n1 n2 u v = Base.Ok ((u^T *m QQ n1 n2 *m v) 0 0).
Proof.
move=> g1 g2; rewrite /r_trace_term.
have [f1 -> e1] := effect_lin u g1; have [f2 -> e2] := effect_lin v g2.
by rewrite weighted_covE e1 e2 trmx_mul !mulmxA.
Qed.

Lemma cov_lin n1 n2 Y : good_names npsi nalpha d n1 -> good_names npsi nalpha d n2 ->
  r_cov sq solver n1 n2 Y = Base.Ok (((gh Y)^T *m QQ n1 n2 *m gh Y) 0 0).
Proof.
move=> g1 g2; rewrite -(term_lin _ _ g1 g2) /r_cov /ctl_cov_fe /r_trace_term.
by case: (covariate_effect _ _ _ n1 _) => // f1; case: (covariate_effect _ _ _ n2 _).
Qed.

Lemma wvec_c r : wvec (c_wopt d) r = W r.
Proof. by rewrite /wvec /c_wopt /cwgt; case: (c_w d). Qed.

Lemma c_sq_same2 : c_root_sq_ok d sq -> sq_same sq (c_wopt d).
Proof.
move=> h r; have := h r; rewrite /c_wopt /cwgt /=.
by case: (c_w d).
Qed.

Lemma component_lin n1 n2 g : c_root_sq_ok d sq -> size g = k ->
  good_names npsi nalpha d n1 -> good_names npsi nalpha d n2 ->
  ((cvec g)^T *m QQ n1 n2 *m cvec g) 0 0 = c_component npsi nalpha d n1 n2 g.
Proof.
move=> rs sg g1 g2; rewrite !mulmxA -trmx_mul -[(_ *m C) *m _ *m _]mulmxA -weighted_covE.
rewrite weighted_cov_same; last exact: c_sq_same2.
apply: eq_cov_w => r; first by rewrite wvec_c.
- by rewrite -named_lin // cvecK.
- by rewrite -named_lin // cvecK.
Qed.

(* ---- draws ---------------------------------------------------------------- *)
Lemma ho_lin n1 n2 Z : good_names npsi nalpha d n1 -> good_names npsi nalpha d n2 ->
  r_trace_ho_draw sq solver n1 n2 Z = Base.Ok ((Z^T *m (QQ n1 n2 *m G) *m Z) 0 0).
Proof. by move=> g1 g2; rewrite /r_trace_ho_draw term_lin // AAinvE !mulmxA. Qed.

Lemma LmT : Lm^T = D *m A *m G.
Proof. by rewrite /Lm !trmx_mul trmxK tr_diag_mx Gs. Qed.

Lemma he_lin n1 n2 S Z : good_names npsi nalpha d n1 -> good_names npsi nalpha d n2 ->
  r_trace_he_draw sq solver n1 n2 S Z
  = Base.Ok ((Z^T *m (QQ n1 n2 *m (Lm *m diag_mx (\row_r S r) *m Lm^T)) *m Z) 0 0).
Proof.
move=> g1 g2; rewrite /r_trace_he_draw term_lin // !AAinvE At_yes.
congr (Base.Ok _).
have -> : \col_r (S r * (r_mult_A sq (G *m Z) Wyes) r 0) = diag_mx (\row_r S r) *m (Lm^T *m Z).
  have e : r_mult_A sq (G *m Z) Wyes = Lm^T *m Z by rewrite /r_mult_A wA_yes LmT !mulmxA.
  by apply/colP => r; rewrite e; move: (Lm^T *m Z) => x; rewrite mul_diag_mx !mxE.
by rewrite /Lm -!mulmxA.
Qed.

(* ---- noise ---------------------------------------------------------------- *)
Section Noise.
Variable Om : finType.
Variable p : Om -> F.
Hypothesis dist : is_dist p.
Variable eps : Om -> 'I_nn -> F.
Variable v : 'I_nn -> F.
Hypothesis unc : uncorrelated p eps v.
Variable g : seq F.
Hypothesis sg : size g = k.
Local Notation e_ o := (\col_r eps o r).
Local Notation V_ := (diag_mx (\row_r v r)).
Local Notation Y_ o := (c_outcome npsi nalpha g (eps o)).

Lemma n_eps : EM p (fun o => e_ o) = 0.
Proof.
case: unc => h _; apply/colP => r; rewrite EM_entry [RHS]mxE -(h r).
by apply: eq_Ex => o; rewrite mxE.
Qed.

Lemma n_eps2 : EM p (fun o => e_ o *m (e_ o)^T) = V_.
Proof.
case: unc => _ h; apply/matrixP => r s; rewrite EM_entry !mxE.
rewrite (eq_Ex p (g := fun o => eps o r * eps o s)).
  by rewrite h; case: eqP => _; rewrite ?mulr1n.
by move=> o; rewrite mxE big_ord1 !mxE.
Qed.

Lemma n_ssr : Ex p (fun o => \sum_r r_resid sq solver (Y_ o) r 0 ^+ 2) = \tr (Rm *m V_ *m Rm^T).
Proof.
rewrite -n_eps2 -EM_mull -EM_mulr -Ex_trace; apply: eq_Ex => o.
rewrite resid_eps // -mulmxA -mulmxA -trmx_mul mulmxA.
apply: eq_bigr => r _.
by move: (Rm *m _) => x; rewrite mxE big_ord1 mxE expr2.
Qed.

Lemma n_plug n1 n2 : c_root_sq_ok d sq ->
  good_names npsi nalpha d n1 -> good_names npsi nalpha d n2 ->
  Ex p (fun o => ((gh (Y_ o))^T *m QQ n1 n2 *m gh (Y_ o)) 0 0)
  = c_component npsi nalpha d n1 n2 g + \tr (QQ n1 n2 *m (Lm *m V_ *m Lm^T)).
Proof.
move=> rs g1 g2; rewrite -component_lin //.
have e0 : EM p (fun o => Lm *m e_ o) = 0 by rewrite EM_mull n_eps mulmx0.
have e2 : EM p (fun o => (Lm *m e_ o) *m (Lm *m e_ o)^T) = Lm *m V_ *m Lm^T.
  by rewrite -n_eps2 -EM_mull -EM_mulr; apply: eq_EM => o; rewrite trmx_mul !mulmxA.
rewrite -(@Ex_quad _ _ p dist _ (cvec g) _ (QQ n1 n2) _ e0 e2); apply: eq_Ex => o.
by rewrite gh_outcome.
Qed.

Lemma n_coef (c : 'I_k) : Ex p (fun o => (gh (Y_ o) c 0 - nth 0 g c) ^+ 2) = (Lm *m V_ *m Lm^T) c c.
Proof.
have e2 : EM p (fun o => (Lm *m e_ o) *m (Lm *m e_ o)^T) = Lm *m V_ *m Lm^T.
  by rewrite -n_eps2 -EM_mull -EM_mulr; apply: eq_EM => o; rewrite trmx_mul !mulmxA.
rewrite -e2 EM_entry; apply: eq_Ex => o; rewrite gh_outcome // addmE [cvec g c 0]mxE [X in X - _]addrC addrK.
by move: (Lm *m _) => x; rewrite mxE big_ord1 mxE expr2.
Qed.

Lemma n_mean (c : 'I_k) : Ex p (fun o => gh (Y_ o) c 0) = nth 0 g c.
Proof.
rewrite (eq_Ex p (g := fun o => nth 0 g c + (Lm *m e_ o) c 0)); last first.
  by move=> o; rewrite gh_outcome // addmE [cvec g c 0]mxE.
rewrite Ex_add Ex_const // -EM_entry EM_mull n_eps mulmx0 mxE addr0 //.
Qed.
End Noise.

End Ident.
End Fit.
End Reg.
