(* Exact traces, sign draws: proofs for C26-C28. *)
Set Warnings "-notation-overridden,-ambiguous-paths".
From mathcomp Require Import all_ssreflect all_algebra.
From Verif Require Base.
From Verif Require Import FieldTac FEModel FESpec FEMxLemmas FESolveLemmas FELsLemmas
  FELevLemmas FECovLemmas FEExpLemmas FEBiasLemmas.

Set Implicit Arguments.
Unset Strict Implicit.
Unset Printing Implicit Defensive.

Import GRing.Theory Num.Theory Order.POrderTheory.
Local Open Scope ring_scope.

(* ---- averages over sign vectors ----------------------------------------- *)
Section Signs.
Variable F : realFieldType.

Lemma sum_anti (T : finType) (g : T -> T) (f : T -> F) :
  involutive g -> (forall t, f (g t) = - f t) -> \sum_t f t = 0.
Proof.
move=> gi h; have e : \sum_t f t = - \sum_t f t.
  rewrite {1}(reindex_inj (inv_inj gi)) -sumrN; apply: eq_bigr => t _; exact: h.
apply/eqP; move/eqP: e; rewrite -subr_eq0 opprK -mulr2n mulrn_eq0 /=.
by [].
Qed.

Definition sgn (b : bool) : F := if b then 1 else -1.
Lemma sgnN b : sgn (~~ b) = - sgn b.
Proof. by case: b; rewrite /sgn ?opprK. Qed.
Lemma sgn_sq b : sgn b * sgn b = 1.
Proof. by case: b; rewrite /sgn ?mulr1 // mulrNN mulr1. Qed.

Definition flip n (i : 'I_n) (b : {ffun 'I_n -> bool}) : {ffun 'I_n -> bool} :=
  [ffun k => if k == i then ~~ b k else b k].
Lemma flipK n (i : 'I_n) : involutive (flip i).
Proof.
move=> b; apply/ffunP => k; rewrite !ffunE; case: eqP => // _; by rewrite negbK.
Qed.

Lemma signsE n (b : {ffun 'I_n -> bool}) i : signs F b i 0 = sgn (b i).
Proof. by rewrite mxE. Qed.

Lemma uniformE (T : finType) (f : T -> F) : uniform f = Ex (fun _ => #|T|%:R^-1) f.
Proof. by rewrite /uniform /Ex mulr_suml; apply: eq_bigr => t _; rewrite mulrC. Qed.

Lemma uniform_dist (T : finType) : (0 < #|T|)%N ->
  is_dist (F := F) (fun _ : T => #|T|%:R^-1).
Proof.
move=> c0; split; first by move=> o; rewrite invr_ge0 ler0n.
by rewrite sumr_const -[_^-1 *+ _]mulr_natl mulfV // pnatr_eq0 -lt0n.
Qed.

(* The pair of sign vectors of one draw, stacked. *)
Definition zpair a b (t : {ffun 'I_a -> bool} * {ffun 'I_b -> bool}) : 'cV[F]_(a + b) :=
  col_mx (signs F t.1) (signs F t.2).

Lemma card_ff n : (0 < #|{: {ffun 'I_n -> bool}}|)%N.
Proof. by rewrite card_ffun card_bool expn_gt0. Qed.

Lemma card_pair_ff a b :
  (0 < #|{: {ffun 'I_a -> bool} * {ffun 'I_b -> bool}}|)%N.
Proof. by rewrite card_prod muln_gt0 !card_ff. Qed.

Local Notation unif T := (fun _ : T => #|{: T}|%:R^-1 : F).

Lemma Ex_one (T : finType) (f : T -> F) : (0 < #|T|)%N ->
  (forall t, f t = 1) -> Ex (fun _ => #|T|%:R^-1) f = 1.
Proof.
move=> c0 h; rewrite -[RHS](@Ex_const F T _ (uniform_dist c0)).
by apply: eq_Ex => t; rewrite h.
Qed.

Lemma Ex_zero (T : finType) (f : T -> F) c :
  \sum_t f t = 0 -> Ex (fun _ => c) f = 0.
Proof. by move=> h; rewrite /Ex -mulr_sumr h mulr0. Qed.

Lemma EM_signs n :
  EM (unif {ffun 'I_n -> bool}) (fun b => signs F b *m (signs F b)^T) = 1%:M.
Proof.
apply/matrixP => i j; rewrite EM_entry mxE.
rewrite (eq_Ex _ (g := fun b : {ffun 'I_n -> bool} => sgn (b i) * sgn (b j))); last first.
  by move=> b; rewrite mxE big_ord1 [_^T _ _]mxE !signsE.
case: (i =P j) => [->|ne] /=.
  by rewrite Ex_one ?card_ff // => b; rewrite sgn_sq.
apply: Ex_zero; apply: (sum_anti (flipK i)) => b.
rewrite !ffunE eqxx sgnN; case: eqP => [e|_]; first by case: ne.
by rewrite mulNr.
Qed.

Lemma EM_zpair a b :
  EM (unif ({ffun 'I_a -> bool} * {ffun 'I_b -> bool}))
     (fun t => zpair t *m (zpair t)^T) = 1%:M.
Proof.
set T := ({ffun 'I_a -> bool} * {ffun 'I_b -> bool})%type.
apply/matrixP => i j; rewrite EM_entry mxE.
pose s (t : T) (k : 'I_(a + b)) := match fintype.split k with inl l => sgn (t.1 l) | inr l => sgn (t.2 l) end.
have zE t k : zpair t k 0 = s t k.
  by rewrite /zpair /s mxE; case: (fintype.split k) => l; rewrite signsE.
rewrite (eq_Ex _ (g := fun t : T => s t i * s t j)); last first.
  by move=> t; rewrite mxE big_ord1 [_^T _ _]mxE !zE.
have ssq t k : s t k * s t k = 1 by rewrite /s; case: (fintype.split k) => l; rewrite sgn_sq.
case: (i =P j) => [->|ne] /=.
  by rewrite Ex_one ?card_pair_ff.
apply: Ex_zero.
pose fl (t : T) : T := match fintype.split i with
  | inl l => (flip l t.1, t.2) | inr l => (t.1, flip l t.2) end.
have flK : involutive fl.
  by move=> [t1 t2]; rewrite /fl; case: (fintype.split i) => l /=; rewrite flipK.
apply: (sum_anti flK) => t.
have -> : s (fl t) i = - s t i.
  by rewrite /s /fl; case: (fintype.split i) => l /=; rewrite ffunE eqxx sgnN.
have -> : s (fl t) j = s t j; last by rewrite mulNr.
rewrite /s /fl.
have nij : fintype.split i <> fintype.split j by move=> e; apply: ne; exact: (can_inj splitK) e.
case: (fintype.split i) nij => l; case: (fintype.split j) => k //= nij; rewrite ffunE;
  case: eqP => // e; by case: nij; rewrite e.
Qed.

Lemma quad_trace n (Q : 'M[F]_n) (z : 'cV[F]_n) :
  (z^T *m Q *m z) 0 0 = \tr (Q *m (z *m z^T)).
Proof.
have tr11 (M : 'M[F]_1) : M 0 0 = \tr M by rewrite /mxtrace big_ord1.
by rewrite tr11 -[in LHS]mulmxA [LHS]mxtrace_mulC mulmxA.
Qed.

Lemma uniform_quad a b (Q : 'M[F]_(a + b)) :
  uniform (fun t => ((zpair (a := a) (b := b) t)^T *m Q *m zpair t) 0 0) = \tr Q.
Proof.
rewrite uniformE.
have := @Ex_trace F _ (unif ({ffun 'I_a -> bool} * {ffun 'I_b -> bool}))
  _ (fun t => Q *m (zpair t *m (zpair t)^T)).
rewrite EM_mull EM_zpair mulmx1 => <-; apply: eq_Ex => t.
exact: quad_trace.
Qed.

Lemma uniform_quad1 n (Q : 'M[F]_n) :
  uniform (fun b => ((signs F b)^T *m Q *m signs F b) 0 0) = \tr Q.
Proof.
rewrite uniformE.
have := @Ex_trace F _ (unif {ffun 'I_n -> bool})
  _ (fun t => Q *m (signs F t *m (signs F t)^T)).
rewrite EM_mull EM_signs mulmx1 => <-; apply: eq_Ex => t.
exact: quad_trace.
Qed.

(* Several independent draws: one coordinate of a uniform tuple is uniform. *)
Lemma uniform_coord (k : nat) (T : finType) (t : 'I_k) (f : T -> F) :
  (0 < #|T|)%N ->
  uniform (fun zs : {ffun 'I_k -> T} => f (zs t)) = uniform f.
Proof.
move=> c0; rewrite /uniform.
have -> : \sum_(zs : {ffun 'I_k -> T}) f (zs t) = (\sum_x f x) * (#|T| ^ k.-1)%:R.
  have : \prod_(i < k) (\sum_x (if i == t then f x else 1))
     = \sum_(zs : {ffun 'I_k -> T}) \prod_(i < k) (if i == t then f (zs i) else 1).
    by rewrite bigA_distr_bigA.
  rewrite (bigD1 t) //= eqxx.
  have -> : \prod_(i < k | i != t) (\sum_j (if i == t then f j else 1)) = (#|T| ^ k.-1)%:R.
    rewrite (eq_bigr (fun _ => #|T|%:R)); last first.
      by move=> i /negbTE ->; rewrite sumr_const.
    rewrite prodr_const -natrX; congr ((_ ^ _)%:R).
    have -> : #|(fun i : 'I_k => i != t)| = #|predC1 t| by apply: eq_card.
    by have := cardC1 t; rewrite card_ord => ->.
  move=> ->; apply: eq_bigr => zs _.
  by rewrite (bigD1 t) //= eqxx big1 ?mulr1 // => i /negbTE ->.
rewrite card_ffun card_ord.
have ck : (#|T| ^ k)%:R = #|T|%:R * (#|T| ^ k.-1)%:R :> F.
  by rewrite -natrM -expnS prednK //; case: k t => // -[].
have c1 : #|T|%:R != 0 :> F by rewrite pnatr_eq0 -lt0n.
have c2 : (#|T| ^ k.-1)%:R != 0 :> F by rewrite pnatr_eq0 -lt0n expn_gt0 c0.
by rewrite ck -mulf_div mulfV // mulr1.
Qed.

Lemma uniform_mean_draws (k : nat) (T : finType) (f : T -> F) :
  (0 < #|T|)%N -> (0 < k)%N ->
  uniform (fun zs : {ffun 'I_k -> T} => mean_draws (fun t => f (zs t))) = uniform f.
Proof.
move=> c0 k0.
have -> : uniform (fun zs : {ffun 'I_k -> T} => mean_draws (fun t => f (zs t)))
  = (\sum_t uniform (fun zs : {ffun 'I_k -> T} => f (zs t))) / k%:R.
  rewrite /uniform /mean_draws -mulr_suml mulrAC; congr (_ / _).
  by rewrite -[RHS]mulr_suml exchange_big.
rewrite (eq_bigr (fun _ => uniform f)); last by move=> t _; rewrite uniform_coord.
by rewrite sumr_const card_ord -[uniform f *+ _]mulr_natr mulfK // pnatr_eq0 -lt0n.
Qed.

End Signs.

Section Traces.
Variable F : realFieldType.
Variable sq : F -> F.
Variables nn nf1 nw : nat.
Variable d : frame F nn nf1 nw.
Add Field Ff : (field_th F).

Local Notation J := (J_mx d).
Local Notation W := (W_mx d).
Local Notation DD := (diag_mx (\row_r wgt d r)).
Local Notation DI := (diag_mx (\row_r (wgt d r)^-1)).
Local Notation A := (design d).
Local Notation G := (invmx (normal_mx d)).
Local Notation L := (Lmx d).

Hypothesis pw : positive_weights d.
Hypothesis ob : workers_observed d.
Hypothesis cn : connected d.
Variable solver : 'M[F]_nf1 -> 'cV[F]_nf1 -> 'cV[F]_nf1.
Hypothesis ex : exact_solver solver (Minv sq d).

Let wne := wsum_neq0 pw ob.
Let uM : Minv sq d \in unitmx := Minv_unit sq pw ob cn.
Let uN : normal_mx d \in unitmx := normal_unit wne uM.

(* The trace that corrects a component when the coefficients have covariance
   matrix V. *)
Definition TT q (hl hr : half F nf1 nw q) wl wr (V : 'M[F]_(nf1 + nw)) : F :=
  \tr ((full hl)^T *m C_mx sq wl wr *m full hr *m V).

(* np.sqrt on the weights of a quadrant. *)
Definition roots_ok q (wl wr : wopt F q) : Prop :=
  forall r, sq (wvec wl r) * sq (wvec wr r) = w3 sq wl wr r.

Lemma Q_cov_mxE q k l (Ml : 'M[F]_(q, k)) (Mr : 'M[F]_(q, l)) wl wr :
  roots_ok wl wr ->
  Q_cov_mx sq Ml Mr (wvec wl) (wvec wr) = Ml^T *m C_mx sq wl wr *m Mr.
Proof.
move=> h; rewrite /Q_cov_mx /C_mx mxdE dxmE.
have -> : \sum_r sq (wvec wl r) * sq (wvec wr r) = \sum_r w3 sq wl wr r.
  by apply: eq_bigr => r _; exact: h.
rewrite div1r -!scalemxAl -!scalemxAr -!scalemxAl; congr (_ *: _).
have e : diag_mx (\row_r w3 sq wl wr r)
  = diag_mx (\row_r sq (wvec wl r)) *m diag_mx (\row_r sq (wvec wr r)).
  rewrite mul_diag_mx; apply/matrixP => i j; rewrite !mxE.
  by case: (i =P j) => [->|_]; rewrite ?mulr0 // !mulr1n h.
by rewrite e !mulmxA.
Qed.

Lemma Q_var_cov q k (Mx : 'M[F]_(q, k)) (w : wopt F q) :
  roots_ok w w -> sq_same sq w ->
  Q_var_mx sq Mx (wvec w) = Q_cov_mx sq Mx Mx (wvec w) (wvec w).
Proof.
move=> h hs; rewrite /Q_var_mx /Q_cov_mx.
have -> : \sum_r sq (wvec w r) * sq (wvec w r) = \sum_r wvec w r.
  by apply: eq_bigr => r _; rewrite h w3_same.
rewrite -!scalemxAl; congr (_ *: _).
by rewrite dxmE mxdE !trmx_mul tr_diag_mx !mulmxA.
Qed.

Lemma Q_var_mxE q k (Mx : 'M[F]_(q, k)) (w : wopt F q) :
  roots_ok w w -> sq_same sq w ->
  Q_var_mx sq Mx (wvec w) = Mx^T *m C_mx sq w w *m Mx.
Proof. by move=> h hs; rewrite Q_var_cov // Q_cov_mxE. Qed.

Lemma quad_row_mx q (Ml Mr : 'M[F]_(q, nf1)) (Nl Nr : 'M[F]_(q, nw)) (C : 'M[F]_q) :
  (row_mx Ml Nl)^T *m C *m row_mx Mr Nr
  = block_mx (Ml^T *m C *m Mr) (Ml^T *m C *m Nr) (Nl^T *m C *m Mr) (Nl^T *m C *m Nr).
Proof. by rewrite tr_row_mx mul_col_mx mul_col_row. Qed.

Lemma TT_pp q (Ml Mr : 'M[F]_(q, nf1)) wl wr a b c e :
  TT (HPsi nw Ml) (HPsi nw Mr) wl wr (block_mx a b c e)
  = \tr (Ml^T *m C_mx sq wl wr *m Mr *m a).
Proof.
rewrite /TT /= quad_row_mx mulmx_block mxtrace_block !trmx0 !mulmx0 !mul0mx.
by rewrite ?mul0mx ?addr0 ?add0r ?mxtrace0 ?addr0 ?add0r.
Qed.

Lemma TT_pa q (Ml : 'M[F]_(q, nf1)) (Mr : 'M[F]_(q, nw)) wl wr a b c e :
  TT (HPsi nw Ml) (HAlpha nf1 Mr) wl wr (block_mx a b c e)
  = \tr (Ml^T *m C_mx sq wl wr *m Mr *m c).
Proof.
rewrite /TT /= quad_row_mx mulmx_block mxtrace_block !trmx0 !mulmx0 !mul0mx.
by rewrite ?mul0mx ?addr0 ?add0r ?mxtrace0 ?addr0 ?add0r.
Qed.

Lemma TT_ap q (Ml : 'M[F]_(q, nw)) (Mr : 'M[F]_(q, nf1)) wl wr a b c e :
  TT (HAlpha nf1 Ml) (HPsi nw Mr) wl wr (block_mx a b c e)
  = \tr (Ml^T *m C_mx sq wl wr *m Mr *m b).
Proof.
rewrite /TT /= quad_row_mx mulmx_block mxtrace_block !trmx0 !mulmx0 !mul0mx.
by rewrite ?mul0mx ?addr0 ?add0r ?mxtrace0 ?addr0 ?add0r.
Qed.

Lemma TT_aa q (Ml Mr : 'M[F]_(q, nw)) wl wr a b c e :
  TT (HAlpha nf1 Ml) (HAlpha nf1 Mr) wl wr (block_mx a b c e)
  = \tr (Ml^T *m C_mx sq wl wr *m Mr *m e).
Proof.
rewrite /TT /= quad_row_mx mulmx_block mxtrace_block !trmx0 !mulmx0 !mul0mx.
by rewrite ?mul0mx ?addr0 ?add0r ?mxtrace0 ?addr0 ?add0r.
Qed.

(* Exact HO traces. *)
Lemma exact_ho_var_psi q (Mx : 'M[F]_(q, nf1)) w :
  roots_ok w w -> sq_same sq w ->
  exact_trace_ho_var sq d (HPsi nw Mx) w = Base.Ok (TT (HPsi nw Mx) (HPsi nw Mx) w w G).
Proof.
by move=> h hs; rewrite /exact_trace_ho_var sum_diag_prodE Q_var_mxE // (normal_inverse wne uM) TT_pp.
Qed.

Lemma exact_ho_cov_pp q (Ml Mr : 'M[F]_(q, nf1)) wl wr : roots_ok wl wr ->
  exact_trace_ho_cov sq d (HPsi nw Ml) (HPsi nw Mr) wl wr
  = Base.Ok (TT (HPsi nw Ml) (HPsi nw Mr) wl wr G).
Proof.
by move=> h; rewrite /exact_trace_ho_cov sum_diag_prodE Q_cov_mxE // (normal_inverse wne uM) TT_pp.
Qed.

Lemma exact_ho_cov_pa q (Ml : 'M[F]_(q, nf1)) (Mr : 'M[F]_(q, nw)) wl wr : roots_ok wl wr ->
  exact_trace_ho_cov sq d (HPsi nw Ml) (HAlpha nf1 Mr) wl wr
  = Base.Ok (TT (HPsi nw Ml) (HAlpha nf1 Mr) wl wr G).
Proof.
by move=> h; rewrite /exact_trace_ho_cov sum_diag_prodE Q_cov_mxE // (normal_inverse wne uM) TT_pa.
Qed.

Lemma exact_ho_cov_ap q (Ml : 'M[F]_(q, nw)) (Mr : 'M[F]_(q, nf1)) wl wr : roots_ok wl wr ->
  exact_trace_ho_cov sq d (HAlpha nf1 Ml) (HPsi nw Mr) wl wr
  = Base.Ok (TT (HAlpha nf1 Ml) (HPsi nw Mr) wl wr G).
Proof.
by move=> h; rewrite /exact_trace_ho_cov sum_diag_prodE Q_cov_mxE // (normal_inverse wne uM) TT_ap.
Qed.

(* The alpha block: what the broadcast of Dwinv does to the trace. *)
Lemma tr_diag n (X : 'M[F]_n) (v : 'I_n -> F) :
  \tr (X *m diag_mx (\row_k v k)) = \sum_k X k k * v k.
Proof. by rewrite mul_mx_diag; apply: eq_bigr => k _; rewrite !mxE. Qed.

Lemma AA_inv_D_split : AA_inv_D sq d
  = D_true sq d + const_mx 1 *m (\row_k (wsum d k)^-1)
    - diag_mx (\row_k (wsum d k)^-1).
Proof.
have -> : AA_inv_D sq d = \matrix_(l, k) Dwinv sq d k + AA_inv_C sq d *m Minv sq d *m AA_inv_B sq d by [].
have -> : \matrix_(l, k) Dwinv sq d k = const_mx 1 *m (\row_k (wsum d k)^-1) :> 'M[F]_nw.
  by apply/matrixP => l k; rewrite [LHS]mxE DwinvE mxE big_ord1 !mxE mul1r.
rewrite /D_true; move: (diag_mx _) (_ *m AA_inv_B sq d) (const_mx 1 *m _) => D X K.
by rewrite addrAC [D + X]addrC addrK addrC.
Qed.

Lemma exact_ho_var_alpha_gen q (Mx : 'M[F]_(q, nw)) w :
  roots_ok w w -> sq_same sq w ->
  Mx^T *m C_mx sq w w *m Mx *m const_mx 1 = 0 :> 'cV[F]_nw ->
  exact_trace_ho_var sq d (HAlpha nf1 Mx) w
  = Base.Ok (TT (HAlpha nf1 Mx) (HAlpha nf1 Mx) w w G
             - \sum_k (Mx^T *m C_mx sq w w *m Mx) k k / wsum d k).
Proof.
move=> h hs h0; rewrite /exact_trace_ho_var sum_diag_prodE Q_var_mxE //.
rewrite (normal_inverse wne uM) TT_aa AA_inv_D_split.
rewrite mulmxBr mulmxDr (mulmxA _ (const_mx 1)) h0 mul0mx addr0 linearB /= tr_diag //.
Qed.

(* Draws. *)
Lemma ho_draw q (hl hr : half F nf1 nw q) wl wr (z : 'cV[F]_nf1 * 'cV[F]_nw) :
  trace_ho_cov_draw sq d solver hl hr wl wr z
  = ((col_mx z.1 z.2)^T *m ((full hl)^T *m C_mx sq wl wr *m full hr *m G)
       *m col_mx z.1 z.2) 0 0.
Proof.
rewrite /trace_ho_cov_draw weighted_covE !half_full (mult_AAinvE wne _ _ uM ex).
by rewrite trmx_mul !mulmxA.
Qed.

Definition zs (t : {ffun 'I_nf1 -> bool} * {ffun 'I_nw -> bool}) : 'cV[F]_nf1 * 'cV[F]_nw :=
  (signs F t.1, signs F t.2).

Lemma ho_draw_uniform q (hl hr : half F nf1 nw q) wl wr :
  uniform (fun t => trace_ho_cov_draw sq d solver hl hr wl wr (zs t))
  = TT hl hr wl wr G.
Proof.
rewrite /TT -uniform_quad /uniform; congr (_ / _); apply: eq_bigr => t _.
by rewrite ho_draw.
Qed.

Lemma ho_var_draw q (h : half F nf1 nw q) w z :
  trace_ho_var_draw sq d solver h w z = trace_ho_cov_draw sq d solver h h w w z.
Proof. by []. Qed.

(* HE draws. *)
Lemma he_rightE S (z : 'cV[F]_nf1 * 'cV[F]_nw) :
  let o := he_right sq d solver S z in
  col_mx o.1 o.2 = L *m diag_mx (\row_r S r) *m L^T *m col_mx z.1 z.2.
Proof.
rewrite /he_right; cbv zeta.
rewrite (mult_AAinvE wne _ _ uM ex).
set m := mult_AAinv _ _ _ z.1 z.2.
have em : col_mx m.1 m.2 = G *m col_mx z.1 z.2 by rewrite (mult_AAinvE wne _ _ uM ex).
clearbody m.
rewrite /mult_Atranspose /= /mult_A wJ_yes wW_yes dxmE -!mulmxA -!mulmxDr.
have -> : J *m m.1 + W *m m.2 = A *m (G *m col_mx z.1 z.2).
  by rewrite -em designE mul_row_col.
rewrite -mul_col_mx -tr_row_mx -mul_mx_row -designE trmx_mul tr_diag_mx.
by rewrite (Ltr d) !mulmxA.
Qed.

Lemma he_draw_uniform q (hl hr : half F nf1 nw q) wl wr S :
  uniform (fun t => trace_he_cov_draw sq d solver hl hr wl wr S (zs t))
  = TT hl hr wl wr (L *m diag_mx (\row_r S r) *m L^T).
Proof.
rewrite /TT -uniform_quad /uniform; congr (_ / _); apply: eq_bigr => t _.
rewrite /trace_he_cov_draw weighted_covE !half_full he_rightE.
by rewrite trmx_mul !mulmxA.
Qed.

(* sigma^2 draws. *)
Lemma sigma_draw (Z : 'cV[F]_nn) :
  trace_sigma_2_draw sq d solver Z = (Z^T *m (A *m G *m A^T) *m Z) 0 0.
Proof.
rewrite /trace_sigma_2_draw.
have := solve_no pw ob cn ex Z; case: (solve _ _ _ _ _) => p a /= e.
by rewrite -(design_mul sq) e dotE !mulmxA.
Qed.

Lemma sigma_draw_uniform :
  uniform (fun b => trace_sigma_2_draw sq d solver (signs F b)) = \tr (A *m G *m A^T).
Proof.
rewrite -uniform_quad1 /uniform; congr (_ / _); apply: eq_bigr => b _.
by rewrite sigma_draw.
Qed.

End Traces.
