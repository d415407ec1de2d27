(* The preconditioners of the two estimators. *)
Set Warnings "-notation-overridden,-ambiguous-paths".
From mathcomp Require Import all_ssreflect all_algebra.
From Verif Require Base.
From Verif Require Import FieldTac FEModel FESpec FESolveLemmas FELsLemmas FECtlModel FERegModel
  PrecModel PrecSpec PrecLemmas PrecFeLemmas.

Set Implicit Arguments.
Unset Strict Implicit.
Unset Printing Implicit Defensive.

Import GRing.Theory Num.Theory Order.POrderTheory Order.TotalTheory.
Local Open Scope ring_scope.

Section General.
Variable F : realFieldType.
Add Field Fh : (field_th F).
Variable spsolve : forall n, 'M[F]_n -> 'cV[F]_n -> Base.res 'cV[F]_n.

Lemma empty_err npre npost (om : F) fuel n (A : 'M[F]_n) e :
  (forall k (A : 'M[F]_k) b, k = 0%N -> spsolve A b = Base.Err e) -> (1 < fuel)%N ->
  forall r, fe_vcycle spsolve npre npost om fuel A r = Base.Err e.
Proof.
move=> se; case: fuel => [|[|fuel]] // _ r; rewrite /fe_vcycle.
case: (posnP n) => [n0|n0]; first by rewrite vcycle_direct ?n0 // se.
rewrite vcycle_coarse; last by rewrite muln1.
by cbv zeta; rewrite vcycle_direct ?muln0 // se ?muln0.
Qed.

Lemma jacobi_spd atol n (A : 'M[F]_n) : (forall i, 0 < A i i) ->
  spd_operator (fun r => Base.Ok (jacobi atol A r)).
Proof.
move=> d0; pose g i := inverse_diagonal atol A i.
have g0 i : 0 < g i by rewrite /g /inverse_diagonal; case: ifP => _; rewrite ?ltr01 // invr_gt0.
pose B := diag_mx (\row_i g i).
have BE (x : 'cV[F]_n) : B *m x = \col_i (g i * x i 0).
  by apply/matrixP => i j; rewrite mul_diag_mx !mxE ord1.
exists B; split; [|split].
- by move=> r; congr Base.Ok; rewrite BE; apply/matrixP => i j; rewrite !mxE mulrC.
- by apply/symE; rewrite tr_diag_mx.
move=> x x0; rewrite BE lt_neqAle; have t i : 0 <= x i 0 * (\col_j (g j * x j 0)) i 0.
  by rewrite mxE mulrCA mulr_ge0 ?(ltW (g0 i)) // -expr2 sqr_ge0.
apply/andP; split; last by apply: sumr_ge0 => i _; exact: t.
apply: contra x0; rewrite eq_sym /dot psumr_eq0 //.
move/allP => e; apply/eqP/matrixP => i j; rewrite ord1 mxE.
have := e i; rewrite mem_index_enum => /(_ isT) /=.
by rewrite !mxE mulrCA mulf_eq0 (gt_eqF (g0 i)) /= mulf_eq0 orbb => /eqP.
Qed.

Section Sym.
Variables (npre npost : nat) (om : F) (fuel n : nat) (A : 'M[F]_n).
Hypothesis se : solves_empty spsolve.
Hypothesis fu : (1 < fuel)%N.
Hypothesis n0 : (0 < n)%N.
Hypothesis sA : symmetric A.
Hypothesis o0 : 0 < om.
Hypothesis d0 : forall i, 0 < A i i.

Lemma vc_spd : (0 < npre + npost)%N -> (forall y, y != 0 -> om * dot y (A *m y) < Dx A y *+ 2) ->
  spd_operator (fe_vcycle spsolve npre npost om fuel A).
Proof.
move=> m0 sm; move/symE: (sA) => sT; exists (Bm om A (npre + npost)); split; [|split].
- by move=> r; rewrite fe_vcycle_E // damped_E.
- by apply/symE; exact: Bm_sym.
by case: (Bm_pd sT o0 d0 sm (npre + npost)) => _; apply.
Qed.
Lemma one_spd : (npre + npost = 1)%N -> spd_operator (fe_vcycle spsolve npre npost om fuel A).
Proof.
move=> m1; move/symE: (sA) => sT; exists (Bm om A (npre + npost)); split; [|split].
- by move=> r; rewrite fe_vcycle_E // damped_E.
- by apply/symE; exact: Bm_sym.
by rewrite m1 /= mulmx0 addr0; exact: G_pd.
Qed.
(* r = G^-1 y. *)
Definition back (y : 'cV[F]_n) : 'cV[F]_n := \col_i (A i i / om * y i 0).
Lemma G_back y : G om A *m back y = y.
Proof.
rewrite GE; apply/matrixP => i j; rewrite !mxE ord1.
have o1 : om <> 0 by apply/eqP; rewrite gt_eqF.
have d1 : A i i <> 0 by apply/eqP; rewrite gt_eqF.
by move: (A i i) (y i 0) d1 => a b d1; ffield F; split.
Qed.
Lemma two_back y : om * dot (back y) (Bm om A 2 *m back y) = Dx A y *+ 2 - om * dot y (A *m y).
Proof.
move/symE: (sA) => sT; rewrite Bm2 // mulmx0 mul0mx addr0 two_form // G_back //.
Qed.
Lemma two_when : (npre + npost = 2)%N ->
  spd_operator (fe_vcycle spsolve npre npost om fuel A) <->
  (forall y, y != 0 -> om * dot y (A *m y) < Dx A y *+ 2).
Proof.
move=> m2; split; last by apply: vc_spd; rewrite m2.
move=> [B [e [_ pd]]] y y0; rewrite -subr_gt0 -two_back pmulr_rgt0 //.
have <- : B *m back y = Bm om A 2 *m back y.
  by have := e (back y); rewrite fe_vcycle_E // damped_E m2 => -[->].
apply: pd; apply/eqP => b0; move: y0; by rewrite -(G_back y) b0 mulmx0 eqxx.
Qed.
Lemma two_neg y : (npre + npost = 2)%N -> Dx A y *+ 2 < om * dot y (A *m y) ->
  exists r x, fe_vcycle spsolve npre npost om fuel A r = Base.Ok x /\ dot r x < 0.
Proof.
move=> m2 h; exists (back y), (Bm om A 2 *m back y); split.
  by rewrite fe_vcycle_E // damped_E m2.
by rewrite -(pmulr_rlt0 _ o0) two_back subr_lt0.
Qed.
End Sym.
End General.

Section Fe.
Variable F : realFieldType.
Variable sq : F -> F.
Variables nn nf1 nw : nat.
Variable d : frame F nn nf1 nw.
Lemma fe_prec : positive_weights d -> workers_observed d -> connected d ->
  (forall atol, spd_operator (fun r => Base.Ok (jacobi atol (Minv sq d) r))) /\
  (forall spsolve npre npost om fuel, solves_empty spsolve -> (1 < fuel)%N -> (0 < nf1)%N ->
     0 < om -> om < 1 -> (0 < npre + npost)%N ->
     spd_operator (fe_vcycle spsolve npre npost om fuel (Minv sq d))).
Proof.
move=> pw ob cn; have pd := Minv_pd sq pw ob cn; split=> [atol|sp a b om fuel se fu n0 o0 o1 ab].
  by apply: jacobi_spd => i; exact: pd_diag.
apply: vc_spd => //; first by apply/symE; exact: Minv_sym.
  by move=> i; exact: pd_diag.
exact: Minv_smooth.
Qed.
End Fe.

Section Ctl.
Variable F : realFieldType.
Add Field Fc : (field_th F).
Variable sq : F -> F.
Variable N : eqType.
Variables npsi nalpha : N.
Variable d : cdata F N.
Local Notation A := (A_mx npsi nalpha d).

Lemma wA_mul r c : wA sq npsi nalpha d Wyes r c = rDp r * A r c.
Proof. by rewrite /wA /rDp; case: (c_w d) => [w|]; rewrite ?mul1r // mxE. Qed.
Lemma ata_sym : symmetric (AtDpA sq npsi nalpha d).
Proof.
move=> i j; rewrite !mxE; apply: eq_bigr => r _; rewrite !wA_mul mxE [A^T _ _]mxE; fring F.
Qed.
Lemma ata_form y : dot y (AtDpA sq npsi nalpha d *m y) = \sum_r rDp r * (\sum_c A r c * y c 0) ^+ 2.
Proof.
rewrite /AtDpA -mulmxA dot_tr trmxK; apply: eq_bigr => r _.
rewrite mxE [X in _ * X]mxE; under [X in _ * X]eq_bigr do rewrite wA_mul -mulrA.
rewrite -big_distrr /=; fring F.
Qed.
Lemma ata_diag c : AtDpA sq npsi nalpha d c c = \sum_r rDp r * A r c ^+ 2.
Proof. by rewrite mxE; apply: eq_bigr => r _; rewrite wA_mul mxE; fring F. Qed.
Lemma ata_Dx y : Dx (AtDpA sq npsi nalpha d) y = \sum_c (\sum_r rDp r * A r c ^+ 2) * y c 0 ^+ 2.
Proof. by apply: eq_bigr => c _; rewrite ata_diag. Qed.
End Ctl.

(* ---- few non-zero columns in a row ---- *)
Section Few.
Variable F : realFieldType.
Add Field Fe : (field_th F).

Lemma cauchy k (f : 'I_k -> F) m : (\sum_c (f c != 0%R) <= m)%N ->
  (\sum_c f c) ^+ 2 <= m%:R * \sum_c f c ^+ 2.
Proof.
move=> le; apply: (@le_trans _ _ ((\sum_c (f c != 0%R))%N%:R * \sum_c f c ^+ 2)); last first.
  by rewrite ler_wpmul2r ?ler_nat //; apply: sumr_ge0 => c _; rewrite sqr_ge0.
pose b c : F := (f c != 0)%:R.
have fb c : f c * b c = f c by rewrite /b; case: eqP => [->|]; rewrite ?mul0r ?mulr1.
have bb c : b c * b c = b c by rewrite /b; case: eqP => _; rewrite ?mulr0 ?mulr1.
have h : 0 <= \sum_c \sum_e (f c * b e - f e * b c) ^+ 2.
  by apply: sumr_ge0 => c _; apply: sumr_ge0 => e _; rewrite sqr_ge0.
have E : \sum_c \sum_e (f c * b e - f e * b c) ^+ 2 =
  ((\sum_c b c) * (\sum_c f c ^+ 2) - (\sum_c f c) ^+ 2) *+ 2.
  transitivity (\sum_c \sum_e (f c ^+ 2 * b e) + \sum_c \sum_e (f e ^+ 2 * b c)
    - (\sum_c \sum_e (f c * f e)) *+ 2).
    rewrite -sumrMnl -big_split -sumrB; apply: eq_bigr => c _.
    rewrite -sumrMnl -big_split -sumrB; apply: eq_bigr => e _ /=.
    rewrite -(fb c) -(fb e) -[in RHS](bb c) -[in RHS](bb e); have := bb c; have := bb e.
    move: (f c) (f e) (b c) (b e) => x y u v hv hu.
    have -> : (x * u * v - y * v * u) ^+ 2 = (x ^+ 2 - x * y *+ 2 + y ^+ 2) * (u * u) * (v * v) by fring F.
    rewrite hu hv.
    have -> : (x * u) ^+ 2 * v = x ^+ 2 * (u * u) * v by fring F.
    have -> : (y * v) ^+ 2 * u = y ^+ 2 * (v * v) * u by fring F.
    by rewrite hu hv; fring F.
  have -> : \sum_c \sum_e f c * f e = (\sum_c f c) ^+ 2.
    by rewrite expr2 big_distrl; apply: eq_bigr => c _; rewrite big_distrr.
  have -> : \sum_c \sum_e f c ^+ 2 * b e = (\sum_c b c) * (\sum_c f c ^+ 2).
    by rewrite mulrC big_distrl; apply: eq_bigr => c _; rewrite big_distrr.
  have -> : \sum_c \sum_e f e ^+ 2 * b c = (\sum_c b c) * (\sum_c f c ^+ 2).
    by rewrite big_distrl; apply: eq_bigr => c _; rewrite big_distrr /=; apply: eq_bigr => e _; rewrite mulrC.
  by fring F.
move: h; rewrite E pmulrn_lge0 // subr_ge0; congr (_ <= _ * _).
by rewrite natr_sum.
Qed.

Definition nz (l : seq F) : nat := count (fun x => x != 0) l.
Lemma nz_ord k (l : seq F) : (\sum_(c < k) (nth 0%R l c != 0%R) <= nz l)%N.
Proof.
elim: l k => [|x l IH] [|k]; rewrite ?big_ord0 //.
  by rewrite big1 // => c _; rewrite nth_nil eqxx.
by rewrite big_ord_recl /= leq_add2l; exact: IH.
Qed.
Lemma nz_cat (a b : seq F) : nz (a ++ b) = (nz a + nz b)%N. Proof. exact: count_cat. Qed.
Lemma nz_behead (a : seq F) : (nz (behead a) <= nz a)%N.
Proof. by case: a => //= x a; exact: leq_addl. Qed.
Lemma nz_onehot n k : (nz (onehot F n k) <= 1)%N.
Proof.
rewrite /nz /onehot count_map.
apply: (@leq_trans (count (pred1 k) (iota 0 n))).
  by apply: sub_count => c /=; case: (eqVneq k c) => // _; rewrite eqxx.
by rewrite count_uniq_mem ?iota_uniq // leq_b1.
Qed.
End Few.

Section FewCtl.
Variable F : realFieldType.
Add Field Fk : (field_th F).
Variable sq : F -> F.
Variable N : eqType.
Variables npsi nalpha : N.
Variable d : cdata F N.
Lemma nz_row r : (nz (A_row npsi nalpha d r) <= 2 + size (c_cats d) + size (flatten (c_cts d)))%N.
Proof.
rewrite /A_row; set a0 := _ ++ _; set a1 := foldl _ a0 _.
have h0 : (nz a0 <= 2)%N.
  rewrite nz_cat -[2%N]/(1 + 1)%N leq_add ?nz_onehot //; apply: leq_trans (nz_behead _) _; exact: nz_onehot.
have h1 : (nz a1 <= 2 + size (c_cats d))%N.
  rewrite /a1; elim: (c_cats d) a0 (2%N) h0 {a1} => [|c l IH] a m h /=; first by rewrite addn0.
  have -> : (m + (size l).+1 = m.+1 + size l)%N by rewrite addnS.
  apply: IH; rewrite nz_cat -[m.+1]addn1 leq_add //.
  by apply: leq_trans (nz_behead _) _; exact: nz_onehot.
elim: (c_cts d) a1 (2 + size (c_cats d))%N h1 => [|col l IH] a m h /=; first by rewrite addn0.
rewrite size_cat addnA; apply: IH.
elim: col a m h => [|s col IHc] a m h /=; first by rewrite addn0.
have -> : (m + (size col).+1 = m.+1 + size col)%N by rewrite addnS.
apply: IHc; rewrite nz_cat -[m.+1]addn1 leq_add //=.
by rewrite addn0 leq_b1.
Qed.
Lemma few_smooth om m : (2 + size (c_cats d) + size (flatten (c_cts d)) <= m)%N ->
  (forall r : 'I_(c_nn d), 0 <= @rDp F N d r) -> 0 < om -> om * m%:R < 2%:R ->
  (forall c, 0 < AtDpA sq npsi nalpha d c c) ->
  forall y, y != 0 -> om * dot y (AtDpA sq npsi nalpha d *m y) < Dx (AtDpA sq npsi nalpha d) y *+ 2.
Proof.
move=> le w0 o0 om2 d0 y y0.
have D0 : 0 < Dx (AtDpA sq npsi nalpha d) y.
  have t i : 0 <= AtDpA sq npsi nalpha d i i * y i 0 ^+ 2 by rewrite mulr_ge0 ?sqr_ge0 // ltW.
  rewrite lt_neqAle; apply/andP; split; last by apply: sumr_ge0 => i _.
  apply: contra y0; rewrite eq_sym /Dx psumr_eq0 // => /allP e.
  apply/eqP/matrixP => i j; rewrite ord1 mxE.
  have := e i; rewrite mem_index_enum => /(_ isT) /=.
  by rewrite mulf_eq0 (gt_eqF (d0 i)) /= expf_eq0 /= => /eqP.
apply: (@le_lt_trans _ _ (om * m%:R * Dx (AtDpA sq npsi nalpha d) y)); last first.
  by rewrite -[X in _ < X]mulr_natl ltr_pmul2r.
rewrite -mulrA ler_pmul2l // ata_form ata_Dx.
have -> : \sum_c (\sum_r rDp r * A_mx npsi nalpha d r c ^+ 2) * y c 0 ^+ 2 =
  \sum_(r < c_nn d) @rDp F N d r * \sum_c (A_mx npsi nalpha d r c * y c 0) ^+ 2.
  under eq_bigr do rewrite big_distrl; rewrite exchange_big; apply: eq_bigr => r _.
  by rewrite big_distrr; apply: eq_bigr => c _ /=; fring F.
rewrite big_distrr; apply: ler_sum => r _ /=.
rewrite [X in _ <= X]mulrCA; apply: ler_wpmul2l => //; apply: cauchy.
apply: leq_trans le; apply: leq_trans (nz_row r).
apply: leq_trans (nz_ord (n_cov npsi nalpha d) _).
apply: leq_sum => c _; rewrite mxE mulf_eq0 negb_or; by case: (nth _ _ _ == _) => //=; exact: leq_b1.
Qed.
End FewCtl.

(* ---- data for which the default V-cycle is not positive definite ---- *)
Section Bad.
Variable F : realFieldType.
Add Field Fb : (field_th F).
Variable sq : F -> F.
(* Names: 0 psi, 1 alpha, 2 the control; six rows. *)
Definition bad_data : cdata F nat_eqType :=
  @CData F nat_eqType 6 2 2 (fun r => if r == 3%N then 0%N else 1%N) (fun r => if r == 4%N then 1%N else 0%N)
    [:: @CatCol nat_eqType 2%N 1 2 (fun r => if (r < 3)%N then 1%N else 0%N)] [::] None.
Local Notation A := (A_mx 0%N 1%N bad_data).
Definition yb : 'cV[F]_(n_cov 0%N 1%N bad_data) := \col_c (if val c == 2%N then 0 else 1).
Lemma bad_sum (f : 'I_(n_cov 0%N 1%N bad_data) -> F) :
  \sum_c f c = f (@Ordinal 4 0 isT) + f (@Ordinal 4 1 isT) + f (@Ordinal 4 2 isT) + f (@Ordinal 4 3 isT).
Proof.
change (\sum_(c < 4) (f : 'I_4 -> F) c = f (@Ordinal 4 0 isT) + f (@Ordinal 4 1 isT) + f (@Ordinal 4 2 isT) + f (@Ordinal 4 3 isT)).
rewrite !big_ord_recl big_ord0 addr0 !addrA.
by congr (f _ + f _ + f _ + f _); apply: val_inj.
Qed.
Lemma bad_rsum (f : 'I_(c_nn bad_data) -> F) :
  \sum_r f r = f (@Ordinal 6 0 isT) + f (@Ordinal 6 1 isT) + f (@Ordinal 6 2 isT)
     + f (@Ordinal 6 3 isT) + f (@Ordinal 6 4 isT) + f (@Ordinal 6 5 isT).
Proof.
change (\sum_(c < 6) (f : 'I_6 -> F) c = f (@Ordinal 6 0 isT) + f (@Ordinal 6 1 isT) + f (@Ordinal 6 2 isT)
     + f (@Ordinal 6 3 isT) + f (@Ordinal 6 4 isT) + f (@Ordinal 6 5 isT)).
rewrite !big_ord_recl big_ord0 addr0 !addrA.
by congr (f _ + f _ + f _ + f _ + f _ + f _); apply: val_inj.
Qed.
Definition arow (r : nat) : seq F :=
  nth [::] [:: [:: 1; 1; 0; 1]; [:: 1; 1; 0; 1]; [:: 1; 1; 0; 1]; [:: 0; 1; 0; 0]; [:: 1; 0; 1; 0]; [:: 1; 1; 0; 0]] r.
Lemma bad_A r c : A r c = nth 0 (arow r) c.
Proof. by rewrite mxE; case: r => [[|[|[|[|[|[|r]]]]]] lt]. Qed.
Lemma bad_form y : dot y (AtDpA sq 0%N 1%N bad_data *m y) =
  let y0 := y (@Ordinal 4 0 isT) 0 in let y1 := y (@Ordinal 4 1 isT) 0 in
  let y2 := y (@Ordinal 4 2 isT) 0 in let y3 := y (@Ordinal 4 3 isT) 0 in
  (y0 + y1 + y3) ^+ 2 *+ 3 + y1 ^+ 2 + (y0 + y2) ^+ 2 + (y0 + y1) ^+ 2.
Proof.
rewrite ata_form bad_rsum !bad_sum /rDp /= !bad_A /=; fring F.
Qed.
Lemma bad_Dx y : Dx (AtDpA sq 0%N 1%N bad_data) y =
  let y0 := y (@Ordinal 4 0 isT) 0 in let y1 := y (@Ordinal 4 1 isT) 0 in
  let y2 := y (@Ordinal 4 2 isT) 0 in let y3 := y (@Ordinal 4 3 isT) 0 in
  (y0 ^+ 2 + y1 ^+ 2) *+ 5 + y2 ^+ 2 + y3 ^+ 2 *+ 3.
Proof. rewrite ata_Dx bad_sum !bad_rsum /rDp /= !bad_A /=; fring F. Qed.
Lemma bad_pd : pos_def (AtDpA sq 0%N 1%N bad_data).
Proof.
move=> y y0; rewrite lt_neqAle; apply/andP; split; last first.
  by rewrite bad_form !addr_ge0 ?mulrn_wge0 ?sqr_ge0.
apply: contra y0; rewrite eq_sym bad_form /=.
set a := y _ 0; set b := y _ 0; set c := y _ 0; set e := y _ 0.
have q3 : 0 <= (a + b + c) ^+ 2 *+ 3 by rewrite mulrn_wge0 ?sqr_ge0.
have q4 := sqr_ge0 b; have q5 := sqr_ge0 (a + e); have q6 := sqr_ge0 (a + b).
rewrite (paddr_eq0 (addr_ge0 (addr_ge0 q3 q4) q5) q6) (paddr_eq0 (addr_ge0 q3 q4) q5) (paddr_eq0 q3 q4).
case/andP => /andP [/andP [h1 h2] h3] h4.
move: h1 h2 h3 h4; rewrite -mulr_natl mulf_eq0 pnatr_eq0 /= !expf_eq0 /= => /eqP h1 /eqP h2 /eqP h3 /eqP h4.
have a0 : a = 0 by rewrite -h4 h2 addr0.
have e0 : e = 0 by rewrite -h3 a0 add0r.
have c0 : c = 0 by rewrite -h1 a0 h2 !add0r.
apply/eqP/matrixP => i j; rewrite ord1 mxE; case: i => [[|[|[|[|i]]]] lt] //.
- by rewrite -[RHS]a0 /a; congr (y _ _); apply: val_inj.
- by rewrite -[RHS]h2 /b; congr (y _ _); apply: val_inj.
- by rewrite -[RHS]e0 /e; congr (y _ _); apply: val_inj.
- by rewrite -[RHS]c0 /c; congr (y _ _); apply: val_inj.
Qed.
Lemma bad_neg : Dx (AtDpA sq 0%N 1%N bad_data) yb *+ 2 < 4%:R / 5%:R * dot yb (AtDpA sq 0%N 1%N bad_data *m yb).
Proof.
rewrite bad_Dx bad_form /= !mxE /= mulrAC ltr_pdivl_mulr ?ltr0n //.
have -> : (((1 : F) ^+ 2 + 1 ^+ 2) *+ 5 + 0 ^+ 2 + 1 ^+ 2 *+ 3) *+ 2 * 5%:R = 130%:R by fring F.
have -> : 4%:R * (((1 : F) + 1 + 1) ^+ 2 *+ 3 + 1 ^+ 2 + (1 + 0) ^+ 2 + (1 + 1) ^+ 2) = 132%:R by fring F.
by rewrite ltr_nat.
Qed.
End Bad.

Section Galerkin.
Variable F : realFieldType.
Variable spsolve : forall n, 'M[F]_n -> 'cV[F]_n -> Base.res 'cV[F]_n.
Lemma galerkin npre (om : F) direct fuel h w n (A : 'M[F]_n) b x :
  (direct < h * w)%N -> (h %/ 2 * (w %/ 2) <= direct)%N ->
  (forall k (M : 'M[F]_k) c y, spsolve M c = Base.Ok y -> M *m y = c) ->
  vcycle_step spsolve npre 0 om direct fuel h w A b = Base.Ok x ->
  downsample F h w n *m (b - A *m x) = 0.
Proof.
move=> lt le ex; case: fuel => [|[|fuel]] //; rewrite vcycle_coarse //.
cbv zeta; rewrite vcycle_direct // start_E; case E: (spsolve _ _) => [y|e] //= -[<-].
rewrite [A *m (_ + _)]mulmxDr opprD addrA mulmxBr -(ex _ _ _ _ E).
by rewrite !mulmxA subrr.
Qed.
End Galerkin.

Section Solvers.
Variable F : realFieldType.
(* The inverse; a singular matrix is refused. *)
Definition inv_solve n (A : 'M[F]_n) (b : 'cV[F]_n) : Base.res 'cV[F]_n :=
  if A \in unitmx then Base.Ok (invmx A *m b) else Base.Err Base.LinAlgError.
Lemma inv_empty : solves_empty inv_solve.
Proof.
move=> n A b n0; exists (invmx A *m b); rewrite /inv_solve.
by have -> : A \in unitmx by subst n; rewrite unitmxE det_mx00 unitr1.
Qed.
Lemma inv_sym : solves_symmetric inv_solve.
Proof.
move=> n A sA; rewrite /inv_solve; case u: (A \in unitmx); [left|right]; last by exists Base.LinAlgError.
by exists (invmx A); split=> //; apply/symE; rewrite trmx_inv (proj1 (symE A) sA).
Qed.
Lemma inv_exact k (M : 'M[F]_k) c y : inv_solve M c = Base.Ok y -> M *m y = c.
Proof. by rewrite /inv_solve; case: ifP => // u [<-]; rewrite mulKVmx. Qed.
End Solvers.

Section Ctl2.
Variable F : realFieldType.
Variable sq : F -> F.
Variable N : eqType.
Variables npsi nalpha : N.
Variable d : cdata F N.
Variable spsolve : forall n, 'M[F]_n -> 'cV[F]_n -> Base.res 'cV[F]_n.
Local Notation A := (A_mx npsi nalpha d).
Hypothesis ne : forall c, 0 < \sum_r rDp r * A r c ^+ 2.

Lemma ctl_diag c : 0 < AtDpA sq npsi nalpha d c c. Proof. by rewrite ata_diag. Qed.
Lemma ctl_jacobi atol : spd_operator (fun r => Base.Ok (jacobi atol (AtDpA sq npsi nalpha d) r)).
Proof. apply: jacobi_spd; exact: ctl_diag. Qed.
Lemma ctl_few npre npost om fuel : solves_empty spsolve -> (1 < fuel)%N ->
  (0 < n_cov npsi nalpha d)%N -> (0 < npre + npost)%N ->
  (forall r : 'I_(c_nn d), 0 <= @rDp F N d r) ->
  0 < om -> om * (2 + size (c_cats d) + size (flatten (c_cts d)))%:R < 2%:R ->
  spd_operator (fe_vcycle spsolve npre npost om fuel (AtDpA sq npsi nalpha d)).
Proof.
move=> se fu k0 m0 w0 o0 o2; apply: vc_spd => //; [exact: ata_sym|exact: ctl_diag|].
exact: few_smooth (leqnn _) w0 o0 o2 ctl_diag.
Qed.
Lemma ctl_when npre npost om fuel : solves_empty spsolve -> (1 < fuel)%N ->
  (0 < n_cov npsi nalpha d)%N -> (npre + npost = 2)%N -> 0 < om ->
  spd_operator (fe_vcycle spsolve npre npost om fuel (AtDpA sq npsi nalpha d)) <->
  (forall y : 'cV[F]_(n_cov npsi nalpha d), y != 0 ->
     om * (\sum_r rDp r * (\sum_c A r c * y c 0) ^+ 2)
     < 2%:R * \sum_c (\sum_r rDp r * A r c ^+ 2) * y c 0 ^+ 2).
Proof.
move=> se fu k0 m2 o0; rewrite two_when //; [|exact: ata_sym|exact: ctl_diag].
by split=> h y y0; have := h y y0; rewrite ata_form ata_Dx mulr_natl.
Qed.
End Ctl2.
Lemma ctl_bad (F : realFieldType) (sq : F -> F) spsolve fuel : solves_empty spsolve -> (1 < fuel)%N ->
  exists d : cdata F nat_eqType,
    c_w d = None /\ size (c_cats d) = 1%N /\ c_cts d = [::] /\
    pos_def (AtDpA sq 0%N 1%N d) /\
    exists r x, fe_vcycle spsolve 1 1 (4%:R / 5%:R) fuel (AtDpA sq 0%N 1%N d) r = Base.Ok x /\ dot r x < 0.
Proof.
move=> se fu; exists (bad_data F); do 3 (split; first by []); split; first exact: bad_pd.
have o0 : 0 < 4%:R / 5%:R :> F by rewrite divr_gt0 ?ltr0n.
have d0 i : 0 < AtDpA sq 0%N 1%N (bad_data F) i i by apply: pd_diag; exact: bad_pd.
have k0 : (0 < n_cov 0%N 1%N (bad_data F))%N by [].
apply: (two_neg se fu k0 (@ata_sym F sq _ 0%N 1%N (bad_data F)) o0 d0 (y := yb F)) => //.
exact: bad_neg.
Qed.
