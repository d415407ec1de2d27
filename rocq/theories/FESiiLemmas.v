(* Variances of stayers and leverages: proofs for C56, C77 and C78. *)
Set Warnings "-notation-overridden,-ambiguous-paths".
From mathcomp Require Import all_ssreflect all_algebra.
From Verif Require Base.
From Verif Require Import FieldTac FEModel FESpec FEMxLemmas FESolveLemmas FELsLemmas
  FELevLemmas FECovLemmas FEExpLemmas FEBiasLemmas FETraceLemmas FEFinLemmas FEDrawLemmas
  FEPropLemmas FEProp2Lemmas FESiiSpec.

Set Implicit Arguments.
Unset Strict Implicit.
Unset Printing Implicit Defensive.

Import GRing.Theory Num.Theory Order.POrderTheory.
Local Open Scope ring_scope.

Section Sii.
Variable F : realFieldType.
Variable sq : F -> F.
Variables nn nf1 nw : nat.
Variable d : frame F nn nf1 nw.
Variable solver : 'M[F]_nf1 -> 'cV[F]_nf1 -> 'cV[F]_nf1.
Add Field Ff : (field_th F).
Local Notation H := (hat d (row_root d sq)).
Local Notation G := (invmx (normal_mx d)).
Local Notation DD := (diag_mx (\row_r wgt d r)).
Local Notation A := (design d).

(* ---- precomputed leverages ---- *)
Lemma p_levfile so files P : precomputed_leverages d so files = Base.Ok P ->
  files <> [::]
  /\ (forall r, P r = (\sum_(f <- files) f r) / (size files)%:R)
  /\ (exists r, leverage_used d so r) /\ (forall r, leverage_used d so r -> P r < 1).
Proof.
rewrite /precomputed_leverages /lev_check.
have [->//|nz] : files = [::] \/ files <> [::] by case: (files) => [|f fs]; [left|right].
have -> : (if files is [::] then Base.Err Base.AssertionError else
   if ~~ [exists r, check_rows d so r] then Base.Err Base.ValueError
   else if [exists r, check_rows d so r
        && (1 <= foldl (fun t (pp : 'I_nn -> F) => t + pp r / (size files)%:R) 0 files)]
   then Base.Err Base.ValueError
   else Base.Ok (fun r => foldl (fun t (pp : 'I_nn -> F) => t + pp r / (size files)%:R) 0 files))
  = (if ~~ [exists r, check_rows d so r] then Base.Err Base.ValueError
   else if [exists r, check_rows d so r
        && (1 <= foldl (fun t (pp : 'I_nn -> F) => t + pp r / (size files)%:R) 0 files)]
   then Base.Err Base.ValueError
   else Base.Ok (fun r => foldl (fun t (pp : 'I_nn -> F) => t + pp r / (size files)%:R) 0 files)).
  by case: files nz.
case: existsP => //= -[r0 cr0]; case: existsP => // ne [<-].
split=> //; split.
  move=> r; rewrite (foldl_sum (fun pp : 'I_nn -> F => pp r / (size files)%:R)) add0r.
  by rewrite -mulr_suml.
split; first by exists r0; rewrite lev_usedE.
move=> r; rewrite lev_usedE => cr; rewrite Order.TotalTheory.ltNge; apply/negP => ge.
by case: ne; exists r; rewrite cr.
Qed.

Hypothesis pw : positive_weights d.
Hypothesis ob : workers_observed d.
Hypothesis cn : connected d.
Hypothesis ex : exact_solver solver (Minv sq d).
Let wne := wsum_neq0 pw ob.
Let uM : Minv sq d \in unitmx := Minv_unit sq pw ob cn.
Let uN : normal_mx d \in unitmx := normal_unit wne uM.

(* ---- C56 ---- *)
Lemma p_reported (draws : seq 'cV[F]_nn) so ndraw P jla r :
  draws != [::] -> (forall R2, R2 \in draws -> R2 r 0 ^+ 2 = 1) ->
  estimate_approximate_leverages sq d solver so ndraw [:: draws] = Base.Ok (P, jla) ->
  leverage_used d so r ->
  0 <= P r < 1
  /\ P r = (\sum_(R <- draws) (H *m R) r 0 ^+ 2)
           / (\sum_(R <- draws) ((H *m R) r 0 ^+ 2 + (R r 0 - (H *m R) r 0) ^+ 2)).
Proof.
move=> nz hs; rewrite /estimate_approximate_leverages /=.
case: existsP => //= x0; case: existsP => // ne [<- _]; rewrite lev_usedE => cr.
split.
  have /andP[-> _] := normalised_range sq (d := d) solver nz hs cr; rewrite Order.TotalTheory.ltNge.
  by apply/negP => ge; case: ne; exists r; rewrite cr.
rewrite /lev_normalise cr /= !foldl_sum !add0r big_split /=.
have s0 : (size draws)%:R != 0 :> F by rewrite pnatr_eq0 size_eq0.
rewrite -mulrDl invfM mulrACA divff ?invr_eq0 // ?mulr1.
have e1 : \sum_(x <- draws) proj sq d solver x Wsqrt Wsqrt r 0 ^+ 2
   = \sum_(x <- draws) (H *m x) r 0 ^+ 2.
  by apply: eq_bigr => x _; rewrite (proj_hat pw ob cn ex).
have e2 : \sum_(x <- draws) (x r 0 - proj sq d solver x Wsqrt Wsqrt r 0) ^+ 2
   = \sum_(x <- draws) (x r 0 - (H *m x) r 0) ^+ 2.
  by apply: eq_bigr => x _; rewrite (proj_hat pw ob cn ex).
by rewrite e1 e2.
Qed.

(* ---- stayers ---- *)
Hypothesis rok : root_ok d sq.

(* The leverage of a stayer's row is its share of the worker's weight. *)
Lemma stayer_lev r : stayer_row d r -> H r r = wgt d r / worker_weight d r.
Proof.
move=> st.
have T0 : worker_weight d r != 0 by exact: wne.
pose c : 'cV[F]_(nf1 + nw) := col_mx 0 (delta_mx (fi d r) 0).
have Ac s : (A *m c) s 0 = (fi d s == fi d r)%:R.
  rewrite designE /c mul_row_col mulmx0 add0r -colE !mxE //.
have nc : normal_mx d *m c = worker_weight d r *: (row r A)^T.
  rewrite /normal_mx -!mulmxA; apply/colP => k; rewrite !mxE /worker_weight mulr_suml.
  rewrite [RHS]big_mkcond /=; apply: eq_bigr => s _.
  rewrite mul_diag_mx [X in _ * X]mxE Ac [X in X * _]mxE mxE.
  case: eqP => [e|_]; last by rewrite !mulr0.
  have [_ ej] := st s e.
  rewrite mulr1 mulrC; congr (_ * _).
    by rewrite mxE.
  by case: (fintype.split k) => l; rewrite !mxE ?ej ?e.
have Gc : G *m (row r A)^T = (worker_weight d r)^-1 *: c.
  by rewrite -[(row r A)^T](scalerK T0) -nc -scalemxAr mulKmx.
rewrite hat_entry -/(row_root _ _ _) mulrAC row_root_sq // ; congr (_ * _).
rewrite -mulmxA mulmxA.
have -> : (A *m G *m A^T) r r = (row r A *m (G *m (row r A)^T)) 0 0.
  by rewrite quad_row mulmxA.
rewrite Gc -scalemxAr scalemE.
have -> : (row r A *m c) 0 0 = (A *m c) r 0 by rewrite -row_mul [LHS]mxE.
by rewrite Ac eqxx mulr1.
Qed.

Section Noise.
Variable Om : finType.
Variable p : Om -> F.
Hypothesis dist : is_dist p.
Variable eps : Om -> 'I_nn -> F.
Variable psi : 'I_nf1.+1 -> F.
Variable alpha : 'I_nw -> F.
Variable s2 : F.
Hypothesis unc : uncorrelated p eps (fun r => s2 / wgt d r).
Local Notation Y_ o := (outcome d psi alpha (eps o)).
Local Notation sgns := ({ffun 'I_nf1 -> bool} * {ffun 'I_nw -> bool})%type.
Local Notation Sm o := (Sii_term sq d solver (fun r => H r r) None (Y_ o)).

Lemma sm_unbiased r : H r r < 1 -> Ex p (fun o => Sm o r) = s2 / wgt d r.
Proof. by move=> lt; exact: (p_Sii_homo pw ob cn rok ex psi alpha unc (s2 := s2) lt (fun r => erefl)). Qed.

Lemma firm_mean_unbiased j :
  (forall r, fm d r -> H r r < 1) -> (exists s, fm d s /\ fj d s = j) ->
  Ex p (fun o => firm_mean_Sii d (Sm o) j) = s2.
Proof.
move=> lt [s0 [m0 j0]]; rewrite /firm_mean_Sii.
have wE := fun r => erefl (wgt d r).
case ew : (fw d) => [w|].
- have wr r : wgt d r = w r by rewrite /wgt ew.
  rewrite Ex_mulr.
  have -> : Ex p (fun o => \sum_(r | fm d r && (fj d r == j)) w r ^+ 2 * Sm o r)
     = \sum_(r | fm d r && (fj d r == j)) w r * s2.
    rewrite /Ex; under eq_bigr do rewrite mulr_sumr.
    rewrite exchange_big /=; apply: eq_bigr => r /andP [mr _].
    have := sm_unbiased (lt r mr); rewrite wr /Ex => e.
    under eq_bigr do rewrite mulrCA.
    rewrite -mulr_sumr e.
    have := wgt_ne pw r; rewrite wr; move: (w r) => x x0.
    by ffield F; apply/eqP.
  rewrite -mulr_suml mulrC mulKf //; apply: lt0r_neq0.
  rewrite (bigD1 s0) /=; last by rewrite m0 j0 eqxx.
  apply: ltr_paddr; last by have := pw s0; rewrite wr.
  by rewrite sumr_ge0 // => r _; have := pw r; rewrite wr => /ltW.
- have wr r : wgt d r = 1 by rewrite /wgt ew.
  rewrite Ex_mulr.
  have -> : Ex p (fun o => \sum_(r | fm d r && (fj d r == j)) Sm o r)
     = \sum_(r | fm d r && (fj d r == j)) s2.
    rewrite /Ex; under eq_bigr do rewrite mulr_sumr.
    rewrite exchange_big /=; apply: eq_bigr => r /andP [mr _].
    by have := sm_unbiased (lt r mr); rewrite wr divr1.
  rewrite sumr_const -[s2 *+ _]mulr_natr mulfK // pnatr_eq0 -lt0n.
  by apply/card_gt0P; exists s0; rewrite unfold_in /= m0 j0 eqxx.
Qed.

Lemma p_firm_mean (S : Om -> 'I_nn -> F) r :
  (forall r, fm d r -> H r r < 1) -> movers_everywhere d ->
  (forall o, estimate_Sii_he sq d solver FirmMean (fun r => H r r) None (Y_ o) = Base.Ok (S o)) ->
  Ex p (fun o => S o r) = s2 / wgt d r.
Proof.
move=> lt me hS; case mr : (fm d r).
  rewrite -(sm_unbiased (lt r mr)); apply: eq_Ex => o.
  by have := hS o; rewrite /estimate_Sii_he; case: (fw d) => [w|] [<-]; rewrite mr.
have := firm_mean_unbiased lt (me r mr); case ew : (fw d) => [w|] e.
- have -> : wgt d r = w r by rewrite /wgt ew.
  rewrite -e -Ex_mulr; apply: eq_Ex => o.
  by have := hS o; rewrite /estimate_Sii_he ew => -[<-]; rewrite mr.
- have -> : wgt d r = 1 by rewrite /wgt ew.
  rewrite -e divr1; apply: eq_Ex => o.
  by have := hS o; rewrite /estimate_Sii_he ew => -[<-]; rewrite mr.
Qed.

Hypothesis rsq : root_sq_ok d sq.
Lemma p_firm_mean_corrected ol or k (S : Om -> 'I_nn -> F) : (0 < nn)%N -> (0 < k)%N ->
  (forall r, fm d r -> H r r < 1) -> movers_everywhere d ->
  (forall o, estimate_Sii_he sq d solver FirmMean (fun r => H r r) None (Y_ o) = Base.Ok (S o)) ->
  Ex p (fun o => uniform (fun z : {ffun 'I_k -> sgns} => corrected_he
    (cov_fe sq (get_Q d ol) (get_Q d or) (fw d) (fw d) (estimate_ols sq d solver (Y_ o)))
    (mean_draws (fun t => trace_he_cov_draw sq d solver (get_Q d ol) (get_Q d or) (fw d) (fw d)
       (S o) (signs F (z t).1, signs F (z t).2)))))
  = component d ol or psi alpha.
Proof.
move=> n0 k0 lt me hS.
apply: (p_he_draws pw ob cn ex rsq dist psi alpha unc) => // r.
exact: p_firm_mean.
Qed.

(* Upper bounds of stayers, weighted. *)
Lemma p_upper_weighted w (S : Om -> 'I_nn -> F) r :
  fw d = Some w -> stayer_row d r -> wgt d r < worker_weight d r ->
  (forall o, estimate_Sii_he sq d solver UpperBound (fun r => H r r) None (Y_ o) = Base.Ok (S o)) ->
  worker_weight d r <> 1
  /\ Ex p (fun o => S o r)
  = s2 / w r * ((worker_weight d r - w r) / ((worker_weight d r - 1) * w r)).
Proof.
move=> ew st lt hS; have wr s : wgt d s = w s by rewrite /wgt ew.
have T0 : worker_weight d r != 0 by exact: wne.
have hl := stayer_lev st.
have l1 : H r r < 1.
  rewrite hl ltr_pdivr_mulr ?mul1r //.
  by apply: lt_trans lt; exact: pw.
have mr : fm d r = false by exact: (st r erefl).1.
have PE : Pii_s d w r = (worker_weight d r)^-1.
  rewrite /Pii_s div1r; congr (_^-1); rewrite /worker_weight.
  apply: eq_big => [s|s _]; last by rewrite wr.
  case: eqP => [e|_]; last by rewrite andbF.
  by rewrite (st s e).1.
have T1 : worker_weight d r <> 1.
  case: (pickP (fun _ : Om => true)) => [o _|no].
    have := hS o; rewrite /estimate_Sii_he ew; case: existsP => // ne _ e1.
    by case: ne; exists r; rewrite mr PE e1 invr1 eqxx.
  have [_] := dist; rewrite big_pred0 // => /eqP; by rewrite eq_sym oner_eq0.
split=> //.
have -> : Ex p (fun o => S o r)
   = Ex p (fun o => Sm o r) * ((1 - H r r) / ((1 - (worker_weight d r)^-1) * w r)).
  rewrite -Ex_mulr; apply: eq_Ex => o.
  have := hS o; rewrite /estimate_Sii_he ew; case: existsP => // _ [<-]; rewrite mr PE.
  rewrite /Sii_term.
  have h1 : 1 - H r r != 0 by rewrite subr_eq0 eq_sym lt_eqF.
  move: (Y_ o r 0 - _) (resid _ _ _ _ _ _) h1 (1 - _^-1) (w r) => a b h1 x y.
  rewrite -!mulrA; congr (_ * (_ * _)).
  by rewrite mulKf // invfM.
rewrite (sm_unbiased l1) wr hl wr; congr (_ * _).
have := wgt_ne pw r; rewrite wr; move: T0 T1 (w r) => T0 T1 x x0.
have T1' : worker_weight d r - 1 != 0 by rewrite subr_eq0; apply/eqP.
move: (worker_weight d r) T0 T1' => T T0 T1'.
have T1'' : 1 - T^-1 != 0.
  by rewrite subr_eq0 eq_sym invr_eq1 -subr_eq0.
have -> : 1 - T^-1 = (T - 1) / T by rewrite mulrBl mulfV // mul1r.
ffield F; split; [apply/eqP | split; apply/eqP] => //.
Qed.

Lemma p_upper_weighted_iff w (S : Om -> 'I_nn -> F) r :
  fw d = Some w -> stayer_row d r -> wgt d r < worker_weight d r -> s2 != 0 ->
  (forall o, estimate_Sii_he sq d solver UpperBound (fun r => H r r) None (Y_ o) = Base.Ok (S o)) ->
  Ex p (fun o => S o r) = s2 / w r <-> w r = 1.
Proof.
move=> ew st lt s0 hS; have [T1 ->] := p_upper_weighted ew st lt hS.
have x0 : w r != 0 by have := wgt_ne pw r; rewrite /wgt ew.
have T0 : worker_weight d r != 0 by exact: wne.
have T1' : worker_weight d r - 1 != 0 by rewrite subr_eq0; apply/eqP.
move: (worker_weight d r) T0 T1' (w r) x0 => T T0 T1' x x0; split=> [e|->].
- have sx : s2 / x != 0 by rewrite mulf_neq0 ?invr_eq0.
  have {}e : (T - x) / ((T - 1) * x) = 1.
    by apply: (mulfI sx); rewrite mulr1.
  have {}e : T - x = (T - 1) * x.
    by rewrite -[LHS](@divfK _ ((T - 1) * x)) ?mulf_neq0 // e mul1r.
  apply: (mulfI T0); apply/eqP; rewrite mulr1 -subr_eq0; apply/eqP.
  have -> : T * x - T = (T - 1) * x - (T - x) by fring F.
  by rewrite e subrr.
- by rewrite mulr1 divff // mulr1.
Qed.
End Noise.
End Sii.

Section Indep.
Variable F : realFieldType.
Add Field Ff3 : (field_th F).

(* Independent draws: products of functions of two different draws. *)
Lemma uniform_pair (k : nat) (T : finType) (s t : 'I_k) (f g : T -> F) :
  s != t -> \sum_x f x = 0 ->
  \sum_(zs : {ffun 'I_k -> T}) f (zs s) * g (zs t) = 0.
Proof.
move=> ne f0.
have : \prod_(i < k) (\sum_x (if i == s then f x else if i == t then g x else 1))
   = \sum_(zs : {ffun 'I_k -> T})
       \prod_(i < k) (if i == s then f (zs i) else if i == t then g (zs i) else 1).
  by rewrite bigA_distr_bigA.
rewrite (bigD1 s) //= eqxx f0 mul0r => e; rewrite [RHS]e; apply: eq_bigr => zs _.
rewrite (bigD1 s) //= eqxx (bigD1 t) /=; last by rewrite eq_sym.
rewrite eq_sym (negbTE ne) eqxx big1 ?mulr1 // => i /andP [/negbTE -> /negbTE -> //].
Qed.

Lemma uniform_sum (T : finType) (f : T -> F) : (0 < #|T|)%N ->
  uniform f = 0 -> \sum_x f x = 0.
Proof.
move=> c0; rewrite /uniform => /eqP; rewrite mulf_eq0 invr_eq0 pnatr_eq0.
by case/orP => [/eqP //|/eqP e]; rewrite e in c0.
Qed.

(* The mean of products of means of k independent draws. *)
Lemma uniform_means (k : nat) (T : finType) (f g : T -> F) :
  (0 < #|T|)%N -> (0 < k)%N -> uniform f = 0 ->
  uniform (fun zs : {ffun 'I_k -> T} =>
     mean_draws (fun t => f (zs t)) * mean_draws (fun t => g (zs t)))
  = uniform (fun x => f x * g x) / k%:R.
Proof.
move=> c0 k0 f0; have s0 := uniform_sum c0 f0.
have k1 : k%:R != 0 :> F by rewrite pnatr_eq0 -lt0n.
have -> : uniform (fun zs : {ffun 'I_k -> T} =>
     mean_draws (fun t => f (zs t)) * mean_draws (fun t => g (zs t)))
  = uniform (fun zs : {ffun 'I_k -> T} => mean_draws (fun t => f (zs t) * g (zs t))) / k%:R.
  rewrite /uniform mulrAC; congr (_ / _); rewrite /mean_draws.
  have -> : \sum_(zs : {ffun 'I_k -> T}) (\sum_t f (zs t)) / k%:R * ((\sum_t g (zs t)) / k%:R)
    = (\sum_(zs : {ffun 'I_k -> T}) (\sum_t f (zs t)) * (\sum_t g (zs t))) / k%:R / k%:R.
    rewrite !mulr_suml; apply: eq_bigr => zs _.
    by move: (\sum_t _) (\sum_t _) => a b; ffield F; apply/eqP.
  rewrite -[in RHS]mulr_suml; congr (_ / _ / _).
  transitivity (\sum_(zs : {ffun 'I_k -> T}) \sum_s \sum_t f (zs s) * g (zs t)).
    apply: eq_bigr => zs _; rewrite mulr_suml; apply: eq_bigr => s _.
    by rewrite mulr_sumr.
  rewrite exchange_big [RHS]exchange_big /=; apply: eq_bigr => s _.
  rewrite exchange_big /= (bigD1 s) //= [X in _ + X]big1 ?addr0 // => t ne.
  by apply: uniform_pair => //; rewrite eq_sym.
by rewrite (uniform_mean_draws (fun x => f x * g x)).
Qed.
End Indep.

Section Jla.
Variable F : realFieldType.
Add Field Ff4 : (field_th F).

Lemma p_taylor (p m x y : F) : m != 0 -> y != 0 -> x + y != 0 ->
  inv_rest x y = taylor2 p m x y + taylor_rest p m x y.
Proof.
move=> m0 y0 xy0; rewrite /inv_rest /taylor2 /taylor_rest.
have -> : 1 - x / (x + y) = y / (x + y).
  by rewrite -[X in X - _](divff xy0) -mulrBl addrAC subrr add0r.
by ffield F; repeat split; apply/eqP.
Qed.

(* The mean of the second-order polynomial at the means of k independent draws. *)
Lemma p_taylor_mean (T : finType) (f g : T -> F) k p m :
  (0 < #|T|)%N -> (0 < k)%N -> uniform f = p -> uniform g = m -> p + m = 1 -> m != 0 ->
  uniform (fun zs : {ffun 'I_k -> T} =>
    taylor2 p m (mean_draws (fun t => f (zs t))) (mean_draws (fun t => g (zs t))))
  = 1 / m * (1 + (p * uniform (fun x => g x ^+ 2) / m - uniform (fun x => f x * g x)) / m / k%:R).
Proof.
move=> c0 k0 fp gm pm m0.
have k1 : k%:R != 0 :> F by rewrite pnatr_eq0 -lt0n.
have cT := card_ffun.
have cF : (0 < #|{: {ffun 'I_k -> T}}|)%N by rewrite card_ffun expn_gt0 c0.
have dT := uniform_dist F c0.
have dF := uniform_dist F cF.
have mc (h : T -> F) c (zs : {ffun 'I_k -> T}) :
   mean_draws (fun t => h (zs t) - c) = mean_draws (fun t => h (zs t)) - c.
  rewrite /mean_draws sumrB mulrBl; congr (_ - _).
  by rewrite sumr_const card_ord -[c *+ _]mulr_natr mulfK.
have f0 : uniform (fun x => f x - p) = 0.
  by rewrite uniformE Ex_sub Ex_const // -uniformE fp subrr.
have g0 : uniform (fun x => g x - m) = 0.
  by rewrite uniformE Ex_sub Ex_const // -uniformE gm subrr.
have e1 : uniform (fun zs : {ffun 'I_k -> T} => mean_draws (fun t => f (zs t) - p)) = 0.
  by rewrite (uniform_mean_draws (fun x => f x - p)).
have e2 : uniform (fun zs : {ffun 'I_k -> T} => mean_draws (fun t => g (zs t) - m)) = 0.
  by rewrite (uniform_mean_draws (fun x => g x - m)).
have e3 := @uniform_means F k T (fun x => f x - p) (fun x => g x - m) c0 k0 f0.
have e4 := @uniform_means F k T (fun x => g x - m) (fun x => g x - m) c0 k0 g0.
have c3 : uniform (fun x => (f x - p) * (g x - m)) = uniform (fun x => f x * g x) - p * m.
  transitivity (uniform (fun x => f x * g x) - p * uniform (fun x => g x - m) - m * uniform (fun x => f x)).
    rewrite !uniformE -!Ex_mull -!Ex_sub; apply: eq_Ex => x; by fring F.
  by rewrite g0 fp mulr0 subr0 mulrC.
have c4 : uniform (fun x => (g x - m) * (g x - m)) = uniform (fun x => g x ^+ 2) - m * m.
  transitivity (uniform (fun x => g x ^+ 2) - m * uniform (fun x => g x - m) - m * uniform (fun x => g x)).
    rewrite !uniformE -!Ex_mull -!Ex_sub; apply: eq_Ex => x; by fring F.
  by rewrite g0 gm mulr0 subr0.
transitivity (uniform (fun zs : {ffun 'I_k -> T} =>
   (1 / m + mean_draws (fun t => f (zs t) - p) * (1 / m)
    + mean_draws (fun t => g (zs t) - m) * (- (p / m ^+ 2))
    + mean_draws (fun t => f (zs t) - p) * mean_draws (fun t => g (zs t) - m) * (- (1 / m ^+ 2))
    + mean_draws (fun t => g (zs t) - m) * mean_draws (fun t => g (zs t) - m) * (p / m ^+ 3)))).
  rewrite /uniform; congr (_ / _); apply: eq_bigr => zs _; rewrite /taylor2 !mc pm.
  by move: (mean_draws _) (mean_draws _) => a b; ffield F; apply/eqP.
rewrite uniformE in e1; rewrite uniformE in e2.
rewrite [LHS]uniformE in e3; rewrite [LHS]uniformE in e4.
rewrite uniformE !Ex_add Ex_const // Ex_mulr e1 Ex_mulr e2 Ex_mulr e3 Ex_mulr e4 c3 c4.
move: (uniform _) (uniform _) => a b.
by ffield F; repeat split; apply/eqP.
Qed.
End Jla.
