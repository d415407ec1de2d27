(* The matrix of the fixed-effects regression: signs, row sums, definiteness. *)
Set Warnings "-notation-overridden,-ambiguous-paths".
From mathcomp Require Import all_ssreflect all_algebra.
From Verif Require Base.
From Verif Require Import FieldTac FEModel FESpec FESolveLemmas FELsLemmas PrecModel PrecSpec PrecLemmas.

Set Implicit Arguments.
Unset Strict Implicit.
Unset Printing Implicit Defensive.

Import GRing.Theory Num.Theory Order.POrderTheory Order.TotalTheory.
Local Open Scope ring_scope.

Section Graph.
Variable F : realFieldType.
Add Field Fg : (field_th F).
Variables (n : nat) (M : 'M[F]_n).
Hypothesis sM : symmetric M.
Hypothesis off : forall i j, i != j -> M i j <= 0.
Hypothesis rows : forall i, 0 <= \sum_j M i j.

Lemma quadE (x : 'cV[F]_n) : dot x (M *m x) = \sum_i \sum_j M i j * (x i 0 * x j 0).
Proof.
by apply: eq_bigr => i _; rewrite mxE big_distrr; apply: eq_bigr => j _ /=; fring F.
Qed.
Lemma rowsE (x : 'cV[F]_n) : \sum_i \sum_j M i j * (x i 0 ^+ 2 + x j 0 ^+ 2) = (\sum_i (\sum_j M i j) * x i 0 ^+ 2) *+ 2.
Proof.
have -> : \sum_i \sum_j M i j * (x i 0 ^+ 2 + x j 0 ^+ 2) =
  (\sum_i \sum_j M i j * x i 0 ^+ 2) + (\sum_i \sum_j M i j * x j 0 ^+ 2).
  by rewrite -big_split; apply: eq_bigr => i _; rewrite -big_split; apply: eq_bigr => j _; rewrite mulrDr.
rewrite [X in _ + X]exchange_big mulr2n; congr (_ + _); apply: eq_bigr => i _; rewrite big_distrl //=.
by apply: eq_bigr => j _; rewrite sM.
Qed.
Lemma rows_ge0 (x : 'cV[F]_n) : 0 <= \sum_i (\sum_j M i j) * x i 0 ^+ 2.
Proof. by apply: sumr_ge0 => i _; rewrite mulr_ge0 ?rows // sqr_ge0. Qed.

Lemma graph_psd : psd M.
Proof.
move=> x; rewrite -(pmulrn_lge0 _ (isT : (0 < 2)%N)).
have -> : dot x (M *m x) *+ 2 = (\sum_i (\sum_j M i j) * x i 0 ^+ 2) *+ 2
   + \sum_i \sum_j - M i j * (x i 0 - x j 0) ^+ 2.
  rewrite quadE -rowsE -!sumrMnl -big_split; apply: eq_bigr => i _.
  rewrite -!sumrMnl -big_split; apply: eq_bigr => j _ /=; fring F.
apply: addr_ge0; first by rewrite pmulrn_lge0 // rows_ge0.
apply: sumr_ge0 => i _; apply: sumr_ge0 => j _.
case: (eqVneq i j) => [->|ne]; first by rewrite subrr expr0n /= mulr0.
by rewrite mulr_ge0 ?sqr_ge0 // oppr_ge0 off.
Qed.
Lemma graph_smooth (x : 'cV[F]_n) : dot x (M *m x) <= Dx M x *+ 2.
Proof.
rewrite -(ler_pmuln2r (isT : (0 < 2)%N)).
have -> : dot x (M *m x) *+ 2 = \sum_i \sum_j M i j * (x i 0 + x j 0) ^+ 2
   - (\sum_i (\sum_j M i j) * x i 0 ^+ 2) *+ 2.
  rewrite quadE -rowsE -!sumrMnl -sumrB; apply: eq_bigr => i _.
  rewrite -!sumrMnl -sumrB; apply: eq_bigr => j _ /=; fring F.
rewrite ler_subl_addr; apply: ler_paddr; first by rewrite pmulrn_lge0 // rows_ge0.
rewrite -mulrnA /Dx -sumrMnl; apply: ler_sum => i _.
rewrite (bigD1 i) //= -[X in _ <= X]addr0; apply: ler_add.
  by rewrite le_eqVlt; apply/orP; left; apply/eqP; rewrite -mulrnAr; congr (_ * _); rewrite -mulr2n exprMn_n.
rewrite -oppr_ge0 -sumrN; apply: sumr_ge0 => j ne.
by rewrite -mulNr mulr_ge0 ?sqr_ge0 // oppr_ge0 off // eq_sym.
Qed.
End Graph.

Section Fe.
Variable F : realFieldType.
Add Field Ff : (field_th F).
Variable sq : F -> F.
Variables nn nf1 nw : nat.
Variable d : frame F nn nf1 nw.
Hypothesis pw : positive_weights d.
Hypothesis ob : workers_observed d.
Hypothesis cn : connected d.

Definition at_firm (r : 'I_nn) (k : 'I_nf1) : F := (fj d r == lift ord0 k)%:R.
Definition at_worker (r : 'I_nn) (i : 'I_nw) : F := (fi d r == i)%:R.
Definition NN (k : 'I_nf1) (i : 'I_nw) : F := \sum_r wgt d r * at_firm r k * at_worker r i.
Definition SS (k : 'I_nf1) : F := \sum_r wgt d r * at_firm r k.

Lemma b01 (b : bool) : (0 : F) <= b%:R. Proof. exact: ler0n. Qed.
Lemma NN_ge0 k i : 0 <= NN k i.
Proof. by apply: sumr_ge0 => r _; rewrite !mulr_ge0 ?b01 // ltW. Qed.
Lemma wsumE i : wsum d i = \sum_r wgt d r * at_worker r i.
Proof.
rewrite /wsum big_mkcond; apply: eq_bigr => r _; rewrite /at_worker.
by case: (_ == _); rewrite ?mulr1 ?mulr0.
Qed.
Lemma at_firm_1 r : \sum_k at_firm r k <= 1.
Proof.
rewrite /at_firm; case: (unliftP ord0 (fj d r)) => [k ->|->].
  rewrite (bigD1 k) //= eqxx big1 ?addr0 // => j ne.
  by rewrite (inj_eq lift_inj) eq_sym (negbTE ne).
by rewrite big1 ?ler01 // => j _; rewrite (negbTE (neq_lift _ _)).
Qed.
Lemma at_worker_1 r : \sum_i at_worker r i = 1.
Proof.
rewrite /at_worker (bigD1 (fi d r)) //= eqxx big1 ?addr0 // => j ne.
by rewrite eq_sym (negbTE ne).
Qed.
Lemma at_firm_mul r j k : at_firm r j * at_firm r k = if j == k then at_firm r j else 0.
Proof.
rewrite /at_firm; case: (eqVneq j k) => [->|ne].
  by case: (_ == _); rewrite ?mulr1 ?mulr0.
case: (fj d r =P lift ord0 j) => [->|_]; last by rewrite mul0r.
by rewrite (inj_eq lift_inj) (negbTE ne) mulr0.
Qed.
Lemma mdiag p q (P : 'M[F]_(p, q)) (D : 'rV[F]_q) i j : (P *m diag_mx D) i j = P i j * D 0 j.
Proof. by rewrite mul_mx_diag mxE. Qed.
Lemma entryE j k : Minv sq d j k = (if j == k then SS j else 0) - \sum_i NN j i * (wsum d i)^-1 * NN k i.
Proof.
have nE l i : ((J_mx d)^T *m diag_mx (\row_r wgt d r) *m W_mx d) l i = NN l i.
  by rewrite mul_mx_diag mxE; apply: eq_bigr => r _; rewrite !mxE /at_firm /at_worker [X in X * _]mulrC.
have nT l i : ((W_mx d)^T *m diag_mx (\row_r wgt d r) *m J_mx d) i l = NN l i.
  rewrite -nE -[in RHS](trmxK (_ *m W_mx d)) [RHS]mxE !trmx_mul trmxK tr_diag_mx mulmxA //.
rewrite MinvE mxE [X in _ + X]mxE; congr (_ - _).
  rewrite mul_mx_diag mxE; case: eqP => [<-|ne].
    apply: eq_bigr => r _; rewrite !mxE -/(at_firm r j) mulrAC at_firm_mul eqxx mulrC //.
  rewrite big1 // => r _; rewrite !mxE -/(at_firm r j) -/(at_firm r k) mulrAC at_firm_mul.
  by move/eqP/negbTE: ne => ->; rewrite mul0r.
rewrite mxE; apply: eq_bigr => i _; rewrite nT; congr (_ * _).
by rewrite mdiag nE mxE.
Qed.
Lemma wsum_pos i : 0 < wsum d i.
Proof.
have h : 0 <= wsum d i by apply: sumr_ge0 => r _; rewrite ltW.
by rewrite lt_neqAle h andbT eq_sym wsum_neq0.
Qed.
Lemma Minv_off j k : j != k -> Minv sq d j k <= 0.
Proof.
move=> ne; rewrite entryE (negbTE ne) sub0r oppr_le0; apply: sumr_ge0 => i _.
by rewrite !mulr_ge0 ?NN_ge0 // invr_ge0 ltW // wsum_pos.
Qed.
Lemma Minv_rows j : 0 <= \sum_k Minv sq d j k.
Proof.
have -> : \sum_k Minv sq d j k = SS j - \sum_i NN j i * (wsum d i)^-1 * \sum_k NN k i.
  under eq_bigr do rewrite entryE; rewrite sumrB; congr (_ - _).
    rewrite (bigD1 j) //= eqxx big1 ?addr0 // => k ne; by rewrite eq_sym (negbTE ne).
  by rewrite exchange_big; apply: eq_bigr => i _; rewrite big_distrr.
have sE : SS j = \sum_i NN j i.
  rewrite /NN exchange_big; apply: eq_bigr => r _.
  by rewrite -big_distrr /= at_worker_1 mulr1.
rewrite sE -sumrB; apply: sumr_ge0 => i _.
rewrite -[X in X - _]mulr1 -mulrA -mulrBr mulr_ge0 ?NN_ge0 // subr_ge0.
rewrite mulrC ler_pdivr_mulr ?wsum_pos // mul1r wsumE /NN exchange_big; apply: ler_sum => r _.
rewrite -big_distrl /= ler_wpmul2r ?b01 // -big_distrr /= -[X in _ <= X]mulr1.
by rewrite ler_wpmul2l ?at_firm_1 // ltW.
Qed.
Lemma Minv_pd : pos_def (Minv sq d).
Proof.
have s : symmetric (Minv sq d) by apply/symE; exact: Minv_sym.
apply: psd_unit => //; first by apply: graph_psd => //; [exact: Minv_off|exact: Minv_rows].
exact: Minv_unit.
Qed.
Lemma pd_diag n (A : 'M[F]_n) i : pos_def A -> 0 < A i i.
Proof.
move=> pd; have ne : delta_mx i 0 != 0 :> 'cV[F]_n.
  apply/eqP => /matrixP /(_ i 0); rewrite !mxE !eqxx => /eqP; by rewrite oner_eq0.
have := pd _ ne; rewrite -rowE || idtac.
rewrite /dot (bigD1 i) //= big1 ?addr0; last first.
  by move=> j nj; rewrite mxE (negbTE nj) mul0r.
rewrite !mxE !eqxx mul1r (bigD1 i) //= big1 ?addr0; last first.
  by move=> j nj; rewrite mxE (negbTE nj) mulr0.
by rewrite mxE !eqxx mulr1.
Qed.
Lemma Minv_smooth om : 0 < om -> om < 1 -> forall y, y != 0 ->
  om * dot y (Minv sq d *m y) < Dx (Minv sq d) y *+ 2.
Proof.
move=> o0 o1 y y0; have pd := Minv_pd y0.
apply: lt_le_trans (_ : dot y (Minv sq d *m y) <= _).
  by rewrite -[X in _ < X]mul1r ltr_pmul2r.
apply: graph_smooth; [apply/symE; exact: Minv_sym|exact: Minv_off|exact: Minv_rows].
Qed.
End Fe.
