(* Glue for the properties C57-C59 of the regression with controls. *)
Set Warnings "-notation-overridden,-ambiguous-paths".
From mathcomp Require Import all_ssreflect all_algebra.
From Verif Require Base.
From Verif Require Import FieldTac FEModel FESpec FEMxLemmas FECovLemmas FEExpLemmas FETraceLemmas
  FEDrawLemmas FEGramLemmas FECtlModel FECtlSpec FECtlLemmas FECtlNameLemmas FECtlPropLemmas
  FERegModel FERegSpec FERegLemmas.

Set Implicit Arguments.
Unset Strict Implicit.
Unset Printing Implicit Defensive.

Import GRing.Theory Num.Theory Order.POrderTheory.
Local Open Scope ring_scope.

Section Glue.
Variable F : realFieldType.
Add Field Ff : (field_th F).
Variable sq : F -> F.
Variable N : eqType.
Variables npsi nalpha : N.
Variable d : cdata F N.
Local Notation nn := (c_nn d).
Local Notation k := (n_cov npsi nalpha d).
Variable solver : 'M[F]_k -> 'cV[F]_k -> 'cV[F]_k.
Local Notation A := (A_mx npsi nalpha d).
Local Notation fit := (row_fit npsi nalpha d).
Local Notation W := (@cwgt F N d).
Local Notation D := (diag_mx (\row_r W r)).
Local Notation gh := (gamma_hat sq solver).
Local Notation vl := (@vlist F N npsi nalpha d).
Hypothesis nok : names_ok npsi nalpha d.
Hypothesis iok : ids_ok npsi nalpha d.
Hypothesis pw : c_positive d.
Hypothesis cs : consistent solver (AtDpA sq npsi nalpha d).
Local Notation M := (A^T *m D *m A).
Local Notation G := (invmx M).

Lemma r_min Y g : coefs npsi nalpha d g -> rssr npsi nalpha Y (vl (gh Y)) <= rssr npsi nalpha Y g.
Proof. by move=> /(coefsE nok); exact: t_min. Qed.

Lemma r_fit Y (r : 'I_nn) : r_resid sq solver Y r 0 = Y r 0 - fit (vl (gh Y)) r.
Proof. by rewrite residE addmE oppmE A_vl. Qed.

Lemma r_coefs Y : coefs npsi nalpha d (vl (gh Y)).
Proof. by apply/(coefsE nok); exact: size_vl. Qed.

Lemma r_unique Y g : identified npsi nalpha d -> coefs npsi nalpha d g ->
  rssr npsi nalpha Y g <= rssr npsi nalpha Y (vl (gh Y)) -> g = vl (gh Y).
Proof.
move=> id cg le; apply: id => //; first exact: r_coefs.
by apply: same_ssr_fit => //; apply/(coefsE nok).
Qed.

Lemma r_recover g : coefs npsi nalpha d g ->
  let Y := c_outcome npsi nalpha g (fun _ => 0) in
  (forall r : 'I_nn, fit (vl (gh Y)) r = fit g r)
  /\ (identified npsi nalpha d -> vl (gh Y) = g).
Proof.
move=> cg /=; have h := t_recover_fit nok iok pw cs (proj1 (coefsE nok g) cg).
split=> // id; apply: id => //; exact: r_coefs.
Qed.

Lemma card_ff2 a b : (0 < #|{: {ffun 'I_a -> {ffun 'I_b -> bool}}}|)%N.
Proof. by rewrite card_ffun expn_gt0 card_ff. Qed.

(* ---- C58: variance of the errors ----------------------------------------- *)
Lemma mean_E2 Y : (0 < nn)%N -> nn%:R * r_mean_E2 sq solver Y = \sum_r r_resid sq solver Y r 0 ^+ 2.
Proof.
by move=> n0; rewrite /r_mean_E2 mulrC divfK // pnatr_eq0 -lt0n.
Qed.

Lemma sigma_fe_unw Y : c_w d = None -> r_sigma_2_fe sq solver Y = r_mean_E2 sq solver Y.
Proof.
move=> e; rewrite /r_sigma_2_fe /r_mean_E2 /weighted_mean /c_wopt e /=; congr (_ / _).
by apply: eq_bigr => r _; rewrite mxE /rDp e mul1r.
Qed.

Lemma scale_diag s2 : diag_mx (\row_r (s2 / W r)) = s2 *: diag_mx (\row_r (W r)^-1).
Proof.
by apply/matrixP => r s; rewrite !mxE; case: eqP => _; rewrite ?mulr1n ?mulr0n ?mulr0.
Qed.

Lemma mxtraceB n (X Y : 'M[F]_n) : \tr (X - Y) = \tr X - \tr Y.
Proof. by rewrite -scaleN1r mxtraceD mxtraceZ mulN1r. Qed.

Section Ident.
Hypothesis id : identified npsi nalpha d.
Local Notation L := (Lm npsi nalpha d).
Local Notation Rr := (Rm npsi nalpha d).
Local Notation V := (diag_mx (\row_r (W r)^-1)).

Lemma trace_V : \tr V = \sum_r (W r)^-1.
Proof. by rewrite /mxtrace; apply: eq_bigr => r _; rewrite !mxE eqxx mulr1n. Qed.

Lemma exact_trace T : r_exact_trace_sigma sq npsi nalpha d = Base.Ok T -> T = \tr (A *m G *m A^T).
Proof.
rewrite /r_exact_trace_sigma AtDpAE; case: (_ \in unitmx) => // [[<-]].
by rewrite sum_diag_prodE mxtrace_mulC mulmxA mxtrace_mulC mulmxA.
Qed.

Lemma exact_trace_ok : r_exact_trace_sigma sq npsi nalpha d = Base.Ok (\tr (A *m G *m A^T)).
Proof.
rewrite /r_exact_trace_sigma AtDpAE (identified_unit nok iok pw id).
by congr (Base.Ok _); rewrite sum_diag_prodE mxtrace_mulC mulmxA mxtrace_mulC mulmxA.
Qed.

Lemma rank_A : \rank A = k.
Proof.
rewrite -(gram_rank A pw).
have := identified_unit nok iok pw id; rewrite -row_free_unit => /eqP.
by [].
Qed.

Lemma gap_neq0 : (k < nn)%N -> \tr (V - A *m G *m A^T) != 0.
Proof.
move=> lt; rewrite -(RVR nok iok pw id).
apply/eqP => z.
have qd (X : 'M[F]_nn) i : (X *m V *m X^T) i i = \sum_j X i j ^+ 2 / W j.
  by rewrite mxE; apply: eq_bigr => j _; rewrite mul_mx_diag !mxE mulrAC -expr2.
have pos (X : 'M[F]_nn) i j : 0 <= X i j ^+ 2 / W j.
  by rewrite mulr_ge0 ?sqr_ge0 ?invr_ge0 ?ltW ?pw.
have eR : Rr = 0.
  move: z; move: (Rr) => X z; apply/matrixP => r s.
  have /eqP := z; rewrite /mxtrace psumr_eq0; last by move=> i _; rewrite qd sumr_ge0.
  move=> /allP /(_ r (mem_index_enum r)) /=.
  rewrite qd psumr_eq0 // => /allP /(_ s (mem_index_enum s)) /=.
  rewrite mulf_eq0 sqrf_eq0 invr_eq0 (gt_eqF (pw _)) orbF => /eqP ->.
  by rewrite mxE.
have e : A *m L = 1%:M by apply/eqP; rewrite eq_sym -subr_eq0; apply/eqP.
have := proj_trace pw (LmE nok iok pw id); rewrite e mxtrace1 rank_A => /eqP.
by rewrite eqr_nat gtn_eqF.
Qed.

Variable Om : finType.
Variable p : Om -> F.
Hypothesis dist : is_dist p.
Variable eps : Om -> 'I_nn -> F.
Variable g : seq F.
Hypothesis cg : coefs npsi nalpha d g.
Local Notation Y_ o := (c_outcome npsi nalpha g (eps o)).
Let sg : size g = k := proj1 (coefsE nok g) cg.

Lemma r_sigma s2 T : uncorrelated p eps (fun r => s2 / W r) -> (k < nn)%N ->
  r_exact_trace_sigma sq npsi nalpha d = Base.Ok T ->
  Ex p (fun o => r_sigma_2_ho sq solver T (Y_ o)) = s2.
Proof.
move=> unc lt eT.
have n0 : (0 < nn)%N by apply: leq_trans lt.
have ss : Ex p (fun o => \sum_r r_resid sq solver (Y_ o) r 0 ^+ 2) = s2 * \tr (V - A *m G *m A^T).
  rewrite (n_ssr nok iok pw cs id unc sg) scale_diag -scalemxAr -scalemxAl mxtraceZ.
  by rewrite (RVR nok iok pw id).
have e : Ex p (fun o => r_sigma_2_ho sq solver T (Y_ o))
   = Ex p (fun o => \sum_r r_resid sq solver (Y_ o) r 0 ^+ 2) / \tr (V - A *m G *m A^T).
  rewrite -Ex_mulr; apply: eq_Ex => o.
  rewrite mxtraceB trace_V /r_sigma_2_ho; case ew: (c_w d) => [w|].
    rewrite mean_E2 // (exact_trace eT); congr (_ / (_ - _)).
    by apply: eq_bigr => r _; rewrite /cwgt ew mul1r.
  rewrite sigma_fe_unw // mean_E2 //; congr (_ / _).
  have W1 r : W r = 1 by rewrite /cwgt ew.
  have D1 : D = 1%:M by rewrite -diag_one; congr diag_mx; apply/rowP => r; rewrite !mxE W1.
  rewrite (eq_bigr (fun _ => 1)) => [|r _]; last by rewrite W1 invr1.
  rewrite sum_ones; congr (_ - _).
  have -> : A *m G *m A^T = A *m L by rewrite /Lm D1 mulmx1 mulmxA.
  by rewrite (proj_trace pw (LmE nok iok pw id)) rank_A.
by rewrite e ss mulfK // gap_neq0.
Qed.

Variables n1 n2 : seq N.
Hypothesis g1 : good_names npsi nalpha d n1.
Hypothesis g2 : good_names npsi nalpha d n2.
Hypothesis rs : c_root_sq_ok d sq.

Lemma r_ho_sigma s2 T kd : uncorrelated p eps (fun r => s2 / W r) -> (k < nn)%N -> (0 < kd)%N ->
  r_exact_trace_sigma sq npsi nalpha d = Base.Ok T ->
  exists (C : 'cV[F]_nn -> F) (H : 'cV[F]_k -> F),
    [/\ forall Y, r_cov sq solver n1 n2 Y = Base.Ok (C Y),
        forall Z, r_trace_ho_draw sq solver n1 n2 Z = Base.Ok (H Z)
      & Ex p (fun o => uniform (fun z : {ffun 'I_kd -> {ffun 'I_k -> bool}} =>
          corrected_ho (C (Y_ o)) (r_sigma_2_ho sq solver T (Y_ o))
                       (mean_draws (fun t => H (signs F (z t))))))
        = c_component npsi nalpha d n1 n2 g].
Proof.
move=> unc lt k0 eT.
pose Q := (Qm npsi nalpha d n1)^T *m C_mx sq (c_wopt d) (c_wopt d) *m Qm npsi nalpha d n2.
exists (fun Y => ((gh Y)^T *m Q *m gh Y) 0 0), (fun Z => (Z^T *m (Q *m G) *m Z) 0 0).
split=> [Y|Z|]; first exact: cov_lin.
  exact: ho_lin.
have e o : uniform (fun z : {ffun 'I_kd -> {ffun 'I_k -> bool}} =>
     corrected_ho (((gh (Y_ o))^T *m Q *m gh (Y_ o)) 0 0) (r_sigma_2_ho sq solver T (Y_ o))
       (mean_draws (fun t => ((signs F (z t))^T *m (Q *m G) *m signs F (z t)) 0 0)))
   = ((gh (Y_ o))^T *m Q *m gh (Y_ o)) 0 0 - r_sigma_2_ho sq solver T (Y_ o) * \tr (Q *m G).
  rewrite /corrected_ho uniformE Ex_sub Ex_const; last exact: uniform_dist (card_ff2 _ _).
  rewrite Ex_mull -uniformE.
  have := @uniform_mean_draws F kd _ (fun s => ((signs F s)^T *m (Q *m G) *m signs F s) 0 0)
    (card_ff k) k0.
  by rewrite uniform_quad1 => ->.
rewrite (eq_Ex p e) Ex_sub Ex_mulr (r_sigma unc lt eT).
rewrite (n_plug nok iok pw cs id dist unc sg rs g1 g2) -/Q.
by rewrite scale_diag -scalemxAr -scalemxAl (LVL nok iok pw id) -scalemxAr mxtraceZ addrK.
Qed.

Lemma r_he v (S : Om -> 'I_nn -> F) kd : uncorrelated p eps v -> (0 < kd)%N ->
  (forall r, Ex p (fun o => S o r) = v r) ->
  exists (C : 'cV[F]_nn -> F) (H : ('I_nn -> F) -> 'cV[F]_k -> F),
    [/\ forall Y, r_cov sq solver n1 n2 Y = Base.Ok (C Y),
        forall Si Z, r_trace_he_draw sq solver n1 n2 Si Z = Base.Ok (H Si Z)
      & Ex p (fun o => uniform (fun z : {ffun 'I_kd -> {ffun 'I_k -> bool}} =>
          corrected_he (C (Y_ o)) (mean_draws (fun t => H (S o) (signs F (z t))))))
        = c_component npsi nalpha d n1 n2 g].
Proof.
move=> unc k0 eS.
pose Q := (Qm npsi nalpha d n1)^T *m C_mx sq (c_wopt d) (c_wopt d) *m Qm npsi nalpha d n2.
pose X (Si : 'I_nn -> F) := Q *m (L *m diag_mx (\row_r Si r) *m L^T).
exists (fun Y => ((gh Y)^T *m Q *m gh Y) 0 0), (fun Si Z => (Z^T *m X Si *m Z) 0 0).
split=> [Y|Si Z|]; first exact: cov_lin.
  exact: he_lin.
have e o : uniform (fun z : {ffun 'I_kd -> {ffun 'I_k -> bool}} =>
     corrected_he (((gh (Y_ o))^T *m Q *m gh (Y_ o)) 0 0)
       (mean_draws (fun t => ((signs F (z t))^T *m X (S o) *m signs F (z t)) 0 0)))
   = ((gh (Y_ o))^T *m Q *m gh (Y_ o)) 0 0 - \tr (X (S o)).
  rewrite /corrected_he uniformE Ex_sub Ex_const; last exact: uniform_dist (card_ff2 _ _).
  rewrite -uniformE.
  have := @uniform_mean_draws F kd _ (fun s => ((signs F s)^T *m X (S o) *m signs F s) 0 0)
    (card_ff k) k0.
  by rewrite uniform_quad1 => ->.
rewrite (eq_Ex p e) Ex_sub (n_plug nok iok pw cs id dist unc sg rs g1 g2) -/Q.
rewrite Ex_trace EM_mull EM_mulr EM_mull.
have -> : EM p (fun o => diag_mx (\row_r S o r)) = diag_mx (\row_r v r).
  apply/matrixP => r s; rewrite EM_entry !mxE; case: eqP => [->|ne].
    by rewrite mulr1n -eS; apply: eq_Ex => o; rewrite !mxE eqxx mulr1n.
  rewrite mulr0n; transitivity (Ex p (fun _ => 0)); last exact: Ex_const.
  by apply: eq_Ex => o; rewrite !mxE; move/eqP/negbTE: ne => ->; rewrite mulr0n.
by rewrite addrK.
Qed.

End Ident.

(* ---- C58: collinear columns ------------------------------------------------ *)
Lemma r_sigma_rank (Om : finType) (p : Om -> F) (eps : Om -> 'I_nn -> F) g s2 T :
  is_dist p -> uncorrelated p eps (fun _ => s2) -> coefs npsi nalpha d g -> c_w d = None ->
  (k < nn)%N ->
  Ex p (fun o => r_sigma_2_ho sq solver T (c_outcome npsi nalpha g (eps o)))
  = s2 * (nn%:R - (\rank A)%:R) / (nn%:R - k%:R).
Proof.
move=> dist unc /(coefsE nok) sg ew lt.
have n0 : (0 < nn)%N by apply: leq_trans lt.
have [X eX] := gram_solve A pw 1%:M; rewrite mulmx1 in eX.
have D1 : D = 1%:M by rewrite -diag_one; congr diag_mx; apply/rowP => r; rewrite !mxE /cwgt ew.
have ps : (A *m X)^T = A *m X by have := proj_sym eX; rewrite D1 mulmx1 mul1mx.
have pi := proj_idem pw eX; have pA := proj_A pw eX; have pt := proj_trace pw eX.
have pf Y := proj_fit pw eX (normal_eq pw cs Y).
move: ps pi pA pt pf; move: (A *m X) => P ps pi pA pt pf.
have re o : r_resid sq solver (c_outcome npsi nalpha g (eps o)) = (1%:M - P) *m \col_r eps o r.
  rewrite residE pf outcome_mx // mulmxDr mulmxA pA mulmxBl mul1mx opprD addrACA subrr.
  by rewrite add0r.
have ss : Ex p (fun o => \sum_r r_resid sq solver (c_outcome npsi nalpha g (eps o)) r 0 ^+ 2)
   = s2 * (nn%:R - (\rank A)%:R).
  transitivity (\tr ((1%:M - P) *m diag_mx (\row_(r < nn) s2) *m (1%:M - P)^T)).
    rewrite -(n_eps2 unc) -EM_mull -EM_mulr -Ex_trace; apply: eq_Ex => o.
    rewrite re -mulmxA -mulmxA -trmx_mul mulmxA; apply: eq_bigr => r _.
    by move: (_ *m _) => x; rewrite mxE big_ord1 mxE expr2.
  have -> : diag_mx (\row_(r < nn) s2) = s2 *: 1%:M.
    by apply/matrixP => r s; rewrite !mxE; case: eqP => _; rewrite ?mulr1n ?mulr0n ?mulr0 ?mulr1.
  rewrite -scalemxAr -scalemxAl mxtraceZ mulmx1 alg_trB trmx1 ps; congr (_ * _).
  rewrite mulmxBl mul1mx mulmxBr mulmx1 pi subrr subr0.
  by rewrite mxtraceB mxtrace1 pt.
rewrite -ss -Ex_mulr; apply: eq_Ex => o.
by rewrite /r_sigma_2_ho ew sigma_fe_unw // mean_E2.
Qed.

Lemma rank_lt : ~ identified npsi nalpha d -> (\rank A < k)%N.
Proof.
move=> ni; rewrite ltn_neqAle rank_leq_col andbT; apply/negP => /eqP e; apply: ni.
apply: (not_identified nok iok pw).
by rewrite -row_free_unit /row_free (gram_rank A pw) e.
Qed.

Lemma r_sigma_collinear (Om : finType) (p : Om -> F) (eps : Om -> 'I_nn -> F) g s2 T :
  is_dist p -> uncorrelated p eps (fun _ => s2) -> coefs npsi nalpha d g -> c_w d = None ->
  (k < nn)%N -> ~ identified npsi nalpha d -> 0 < s2 ->
  s2 < Ex p (fun o => r_sigma_2_ho sq solver T (c_outcome npsi nalpha g (eps o))).
Proof.
move=> dist unc cg ew lt /rank_lt rl s0.
rewrite (r_sigma_rank T dist unc cg ew lt).
have dp : 0 < nn%:R - k%:R :> F by rewrite subr_gt0 ltr_nat.
rewrite ltr_pdivl_mulr // ltr_pmul2l // ltr_add2l ltr_opp2 ltr_nat //.
Qed.

Lemma r_trace_singular : ~ identified npsi nalpha d ->
  r_exact_trace_sigma sq npsi nalpha d = Base.Err Base.LinAlgError.
Proof.
move=> ni; rewrite /r_exact_trace_sigma AtDpAE ifF //; apply/negP => u; apply: ni.
exact: (not_identified nok iok pw).
Qed.

(* ---- C58: leverages, traces, variances of rows ------------------------------ *)
Section Ident2.
Hypothesis id : identified npsi nalpha d.
Local Notation L := (Lm npsi nalpha d).
Local Notation Rr := (Rm npsi nalpha d).
Local Notation fitY := (fun Y (r : 'I_nn) => fit (vl (gh Y)) r).

Lemma fitY_L Y r : fitY Y r = (A *m L *m Y) r 0.
Proof. by rewrite /= -A_vl // (ghL nok iok pw cs id) mulmxA. Qed.

Lemma resp_AL r s h : response_of fitY r s h <-> h = (A *m L) r s.
Proof.
split=> [e|-> Y t].
  have := e 0 1; rewrite !fitY_L mulmx0 scale1r !add0r mulr1 -colE.
  by rewrite !mxE add0r => <-.
rewrite !fitY_L mulmxDr -scalemxAr -colE addmE scalemE; congr (_ + _).
by rewrite [col _ _ _ _]mxE mulrC.
Qed.
Lemma lev_AL r h : leverage_of fitY r h <-> h = (A *m L) r r.
Proof. exact: resp_AL. Qed.

Definition rt (r : 'I_nn) : F := if c_w d is Some w then sq (w r) else 1.
Lemma wA_sqrt : wA sq npsi nalpha d Wsqrt = diag_mx (\row_r rt r) *m A.
Proof.
rewrite /wA; apply/matrixP => r c; rewrite mul_diag_mx mxE.
have -> : (\row_r0 rt r0) 0 r = rt r by rewrite mxE.
rewrite /rt; case: (c_w d) => [w|]; last by rewrite mul1r.
by rewrite /dxm mxE.
Qed.

Lemma rt2 : c_root_ok d sq -> forall r, rt r * rt r = W r.
Proof. by move=> h r; have := h r; rewrite /rt /cwgt; case: (c_w d) => // _; rewrite mulr1. Qed.

Lemma r_lev r h : c_root_ok d sq -> leverage_of fitY r h ->
  uniform (fun b => r_leverage_draw sq solver (signs F b) r) = h.
Proof.
move=> ro /lev_AL ->.
pose RA := diag_mx (\row_r rt r) *m A.
pose X := RA *m G *m RA^T.
have RR : diag_mx (\row_r rt r) *m diag_mx (\row_r rt r) = D.
  apply/matrixP => i j; rewrite mul_diag_mx !mxE; case: eqP => [->|_]; last by rewrite !mulr0n mulr0.
  by rewrite !mulr1n rt2.
have RM : RA^T *m RA = M.
  by rewrite /RA trmx_mul tr_diag_mx mulmxA; congr (_ *m A); rewrite -mulmxA RR.
have e b : r_leverage_draw sq solver (signs F b) r = (X *m signs F b) r 0 ^+ 2.
  rewrite /r_leverage_draw /r_proj /r_mult_A /r_solve (AAinvE nok iok pw cs id) /r_mult_At wA_sqrt -/RA.
  by rewrite /X !mulmxA.
have -> : uniform (fun b => r_leverage_draw sq solver (signs F b) r)
   = uniform (fun b => (X *m signs F b) r 0 ^+ 2).
  by rewrite /uniform; congr (_ / _); apply: eq_bigr => b _; exact: e.
have Gs := Gs npsi nalpha d.
have GM := GM nok iok pw id.
rewrite uniform_sq.
have XX (Z : 'M[F]_(nn, k)) (H : 'M[F]_k) : H^T = H -> H *m (Z^T *m Z) = 1%:M ->
    (Z *m H *m Z^T) *m (Z *m H *m Z^T)^T = Z *m H *m Z^T.
  move=> Hs e1; rewrite !trmx_mul trmxK Hs -!mulmxA [Z^T *m (Z *m _)]mulmxA.
  by rewrite [H *m (_ *m _)]mulmxA e1 mul1mx.
rewrite XX //; last by rewrite RM.
rewrite -/X.
have -> : X = diag_mx (\row_r rt r) *m (A *m G *m A^T) *m diag_mx (\row_r rt r).
  by rewrite /X /RA trmx_mul tr_diag_mx !mulmxA.
have -> : A *m L = A *m G *m A^T *m D by rewrite /Lm !mulmxA.
move: (A *m G *m A^T) => Z.
by rewrite !mul_mx_diag mul_diag_mx !mxE -(rt2 ro) mulrAC mulrC mulrA.
Qed.

Lemma r_tr_draw T : r_exact_trace_sigma sq npsi nalpha d = Base.Ok T ->
  uniform (fun b => r_trace_sigma_draw sq solver (signs F b)) = T.
Proof.
move=> /exact_trace ->.
rewrite -uniform_quad1 /uniform; congr (_ / _); apply: eq_bigr => b _.
have wn : wA sq npsi nalpha d Wno = A by rewrite /wA; case: (c_w d).
rewrite /r_trace_sigma_draw /r_mult_A /r_solve (AAinvE nok iok pw cs id) /r_mult_At wn.
by rewrite !mulmxA.
Qed.

(* Weighted residuals sum to 0, because the worker columns add up to the constant. *)
Lemma resid_sum0 Y : \sum_r W r * r_resid sq solver Y r 0 = 0.
Proof.
pose b : N * block F := (nalpha, Free F (c_nw d) (c_i d)).
have [b2 eb] : exists b2, blocks npsi nalpha d = [:: (npsi, Normalised F (c_nf d) (c_j d))] ++ b :: b2.
  by eexists.
transitivity (\sum_(c < c_nw d) \sum_r W r * column_entry b.2 c r * r_resid sq solver Y r 0).
  rewrite exchange_big /=; apply: eq_bigr => r _; rewrite -mulr_suml -mulr_sumr; congr (_ * _).
  have lt : (c_i d r < c_nw d)%N by have := in_range_at iok (ltn_ord r) eb.
  rewrite (bigD1 (Ordinal lt)) //= eqxx big1 ?addr0 ?mulr1 // => c ne.
  by case: eqP => // e; case/eqP: ne; apply: val_inj; rewrite /= e.
by apply: big1 => c _; exact: (t_orth nok pw cs Y eb (ltn_ord c)).
Qed.

Lemma R_sym r s : W r * Rr r s = W s * Rr s r.
Proof.
have e := proj_sym (LmE nok iok pw id).
rewrite /Rm; move: (A *m L) e => P e.
have h : P r s * W r = W s * P s r.
  by have /matrixP/(_ s r) := e; rewrite mul_diag_mx mul_mx_diag !mxE.
rewrite !addmE !oppmE !mulrBr [W r * P r s]mulrC h; congr (_ - _).
by rewrite !mxE eq_sym; case: eqP => [->|_] //; rewrite !mulr0.
Qed.

Lemma R_ones r : \sum_s Rr r s = 0.
Proof.
have e s : \sum_r W r * Rr r s = 0.
  rewrite -[RHS](resid_sum0 (delta_mx s 0)); apply: eq_bigr => q _.
  by rewrite (resid_R nok iok pw cs id) -colE [col _ _ _ _]mxE.
have : W r * (\sum_s Rr r s) = 0.
  by rewrite mulr_sumr -[RHS](e r); apply: eq_bigr => s _; rewrite R_sym.
by move/eqP; rewrite mulf_eq0 (gt_eqF (pw r)) => /eqP.
Qed.

Lemma r_sii (Om : finType) (p : Om -> F) (eps : Om -> 'I_nn -> F) g v (P : 'I_nn -> F) r :
  is_dist p -> uncorrelated p eps v -> coefs npsi nalpha d g ->
  leverage_of fitY r (P r) -> P r < 1 ->
  Ex p (fun o => r_Sii_term sq solver P (c_outcome npsi nalpha g (eps o)) r)
  = v r - (\sum_s W s * v s * Rr r s) / ((\sum_s W s) * (1 - P r)).
Proof.
move=> dist unc /(coefsE nok) sg lv lt.
have ne : 1 - P r != 0 by rewrite subr_eq0 eq_sym lt_eqF.
have Rrr : Rr r r = 1 - P r by rewrite /Rm addmE oppmE mxE eqxx; have /lev_AL -> := lv.
have rD s : rDp s = W s by rewrite /rDp /cwgt; case: (c_w d).
have sW : \sum_s W s != 0.
  rewrite gt_eqF // (bigD1 r) //= ltr_paddr ?pw // sumr_ge0 // => s _; exact: ltW.
pose u : 'rV[F]_nn := \row_s ((r == s)%:R - W s / \sum_s W s).
have uY (Y : 'cV[F]_nn) : Y r 0 - r_Y_bar Y = (u *m Y) 0 0.
  rewrite mxE /r_Y_bar; transitivity (\sum_s ((r == s)%:R * Y s 0 - W s / (\sum_s W s) * Y s 0)).
    rewrite sumrB; congr (_ - _).
      by rewrite (bigD1 r) //= eqxx mul1r big1 ?addr0 // => s /negbTE h; rewrite eq_sym h mul0r.
    rewrite (eq_bigr (fun s => W s * Y s 0)) => [|s _]; last by rewrite rD.
    have -> : \sum_s @rDp F N d s = \sum_s W s by apply: eq_bigr => s _.
    by rewrite mulr_suml; apply: eq_bigr => s _; rewrite mulrAC.
  by apply: eq_bigr => s _; rewrite mxE mulrBl.
have step o : r_Sii_term sq solver P (c_outcome npsi nalpha g (eps o)) r
  = ((u *m (A *m cvec npsi nalpha d g)) 0 0 * (row r Rr *m \col_r eps o r) 0 0
     + (u *m \col_r eps o r) 0 0 * (row r Rr *m \col_r eps o r) 0 0) / (1 - P r).
  rewrite /r_Sii_term uY (resid_eps nok iok pw cs id) // outcome_mx // mulmxDr addmE mulrA -mulrDl.
  by rewrite -row_mul [row _ _ _ _]mxE.
rewrite (eq_Ex p step) Ex_mulr Ex_add Ex_mull.
have z : Ex p (fun o => (row r Rr *m \col_r eps o r) 0 0) = 0.
  by rewrite -EM_entry EM_mull (n_eps unc) mulmx0 mxE.
rewrite z mulr0 add0r (Ex_prod _ _ (n_eps2 unc)).
have -> : (u *m diag_mx (\row_r0 v r0) *m (row r Rr)^T) 0 0
   = v r * (1 - P r) - (\sum_s W s * v s * Rr r s) / \sum_s W s.
  rewrite -Rrr mxE.
  transitivity (\sum_s ((r == s)%:R * (v s * Rr r s) - W s * v s * Rr r s / \sum_s W s)).
    apply: eq_bigr => s _; rewrite mul_mx_diag [(row r Rr)^T _ _]mxE [row r Rr _ _]mxE.
    by move: (Rr r s) => x; rewrite !mxE; ffield F; apply/eqP.
  rewrite sumrB; congr (_ - _); last by rewrite mulr_suml.
  by rewrite (bigD1 r) //= eqxx mul1r big1 ?addr0 // => s /negbTE h; rewrite eq_sym h mul0r.
by ffield F; split; apply/eqP.
Qed.

Lemma r_sii_resp (Om : finType) (p : Om -> F) (eps : Om -> 'I_nn -> F) g v (P : 'I_nn -> F) (H : 'I_nn -> F) r :
  is_dist p -> uncorrelated p eps v -> coefs npsi nalpha d g ->
  (forall s, response_of fitY r s (H s)) -> H r < 1 -> P r = H r ->
  Ex p (fun o => r_Sii_term sq solver P (c_outcome npsi nalpha g (eps o)) r)
  = v r - (W r * v r - \sum_s W s * v s * H s) / ((\sum_s W s) * (1 - H r)).
Proof.
move=> dist unc cg lv lt e; have lr : leverage_of fitY r (P r) by rewrite /leverage_of e; exact: lv.
rewrite (r_sii dist unc cg lr) e //.
congr (_ - _ / _).
have Rs s : Rr r s = (r == s)%:R - H s.
  by rewrite /Rm addmE oppmE; have /resp_AL <- := lv s; rewrite mxE.
rewrite (eq_bigr (fun s => W s * v s * (r == s)%:R - W s * v s * H s)) => [|s _]; last by rewrite Rs mulrBr.
rewrite sumrB; congr (_ - _).
by rewrite (bigD1 r) //= eqxx mulr1 big1 ?addr0 // => s /negbTE h; rewrite eq_sym h mulr0.
Qed.

Lemma r_sii_homo (Om : finType) (p : Om -> F) (eps : Om -> 'I_nn -> F) g s2 (P : 'I_nn -> F) r :
  is_dist p -> uncorrelated p eps (fun r => s2 / W r) -> coefs npsi nalpha d g ->
  leverage_of fitY r (P r) -> P r < 1 ->
  Ex p (fun o => r_Sii_term sq solver P (c_outcome npsi nalpha g (eps o)) r) = s2 / W r.
Proof.
move=> dist unc cg lv lt; rewrite (r_sii dist unc cg lv lt).
rewrite (eq_bigr (fun s => s2 * Rr r s)) => [|s _].
  by rewrite -mulr_sumr R_ones mulr0 mul0r subr0.
by congr (_ * _); rewrite mulrC divfK // gt_eqF.
Qed.

End Ident2.
End Glue.
