(* Example data for the fixed-effects properties. *)
Set Warnings "-notation-overridden,-ambiguous-paths".
From Coq Require Import ZArith QArith.
From mathcomp Require Import all_ssreflect all_algebra.
From Verif Require Base.
From Verif Require Import FieldTac FEModel FESpec FEMxLemmas FESolveLemmas FELsLemmas
  FELevLemmas FECovLemmas FEExpLemmas FEBiasLemmas FETraceLemmas FEFinLemmas FEDrawLemmas
  FEPropLemmas FEProp2Lemmas QRat.

Set Implicit Arguments.
Unset Strict Implicit.
Unset Printing Implicit Defensive.

Import GRing.Theory Num.Theory Order.POrderTheory.
Local Open Scope ring_scope.

(* np.sqrt on the weights used below and on their squares. *)
Definition sq4 (x : rat) : rat :=
  if x == 1 then 1 else if x == 4%:R then 2%:R else if x == 16%:R then 4%:R else 0.

(* A direct solver. *)
Definition direct n (M : 'M[rat]_n) (b : 'cV[rat]_n) : 'cV[rat]_n := invmx M *m b.
Lemma direct_exact n (M : 'M[rat]_n) : M \in unitmx -> forall b, M *m direct M b = b.
Proof. by move=> u b; rewrite /direct mulKVmx. Qed.

(* Two workers and two firms.  Worker 0 is at firm 0 and then at firm 1 with
   weight 1, worker 1 likewise with weight 4. *)
Definition o4 (b : bool) : 'I_2 := if b then ord_max else ord0.
Definition d4 : frame rat_realFieldType 4 1 2 :=
  Frame (fun r : 'I_4 => o4 (odd r)) (fun r : 'I_4 => o4 (2 <= r)%N)
        (Some (fun r : 'I_4 => if (2 <= r)%N then 4%:R else 1 : rat_realFieldType)) (fun _ => true).
Definition d4u : frame rat_realFieldType 4 1 2 :=
  Frame (fun r : 'I_4 => o4 (odd r)) (fun r : 'I_4 => o4 (2 <= r)%N) None (fun _ => true).

Lemma d4_pos : positive_weights d4.
Proof. by move=> r; rewrite /wgt /=; case: ifP. Qed.
Lemma d4u_pos : positive_weights d4u.
Proof. by []. Qed.

Lemma I2 (i : 'I_2) : i = ord0 \/ i = ord_max.
Proof. by case: i => [[|[|//]] lt]; [left|right]; apply/val_inj. Qed.

Lemma d4_obs : workers_observed d4.
Proof. by move=> i; case: (I2 i) => ->; [exists (inord 0)|exists (inord 2)]; rewrite /= inordK. Qed.
Lemma d4u_obs : workers_observed d4u.
Proof. exact: d4_obs. Qed.

Lemma d4_con : connected d4.
Proof.
move=> j; case: (I2 j) => ->; first exact: reach_0.
have e : fj d4 (inord 1) = ord_max by rewrite /= inordK.
rewrite -e; apply: (@reach_step _ _ _ _ d4 (inord 0)); first by rewrite /= !inordK.
have -> : fj d4 (inord 0) = ord0 by rewrite /= inordK.
exact: reach_0.
Qed.
Lemma d4u_con : connected d4u.
Proof.
move=> j; case: (I2 j) => ->; first exact: reach_0.
have e : fj d4u (inord 1) = ord_max by rewrite /= inordK.
rewrite -e; apply: (@reach_step _ _ _ _ d4u (inord 0)); first by rewrite /= !inordK.
have -> : fj d4u (inord 0) = ord0 by rewrite /= inordK.
exact: reach_0.
Qed.

Lemma d4_root : root_ok d4 sq4.
Proof. by move=> r; rewrite /wgt /=; case: ifP. Qed.
Lemma d4_root2 : root_sq_ok d4 sq4.
Proof. by move=> r; rewrite /wgt /=; case: ifP. Qed.
Lemma d4u_root : root_ok d4u sq4.
Proof. by []. Qed.
Lemma d4u_root2 : root_sq_ok d4u sq4.
Proof. by []. Qed.

Lemma d4_exact : exact_solver (@direct 1) (Minv sq4 d4).
Proof. exact/direct_exact/(Minv_unit _ d4_pos d4_obs d4_con). Qed.
Lemma d4u_exact : exact_solver (@direct 1) (Minv sq4 d4u).
Proof. exact/direct_exact/(Minv_unit _ d4u_pos d4u_obs d4u_con). Qed.

(* Independent errors: a fair sign for every row, times a scale. *)
Section Errors.
Variable n : nat.
Definition Omn := {ffun 'I_n -> bool}.
Definition pn (_ : Omn) : rat := #|{: Omn}|%:R^-1.
Definition epsn (c : 'I_n -> rat) (o : Omn) (r : 'I_n) : rat := c r * (if o r then 1 else -1).

Lemma pn_dist : is_dist pn.
Proof. exact/uniform_dist/card_ff. Qed.

Lemma epsn_unc c : uncorrelated pn (epsn c) (fun r => c r * c r).
Proof.
split.
- move=> r; rewrite Ex_mull (_ : Ex pn _ = 0) ?mulr0 //.
  apply: Ex_zero; apply: (sum_anti (flipK r)) => b.
  by rewrite !ffunE eqxx; case: (b r); rewrite ?opprK.
- move=> r s; rewrite (eq_Ex _ (g := fun o => c r * c s * (signs rat_realFieldType o *m (signs rat_realFieldType o)^T) r s)).
    rewrite Ex_mull -(EM_entry pn (fun o => signs rat_realFieldType o *m (signs rat_realFieldType o)^T)) EM_signs mxE.
    by case: eqP => [->|_] /=; rewrite ?mulr1 ?mulr0.
  move=> o; rewrite mxE big_ord1 !mxE /epsn.
  by rewrite mulrACA.
Qed.
End Errors.

(* Homoskedastic in the weighted sense: variance 1 / w. *)
Definition c4 (r : 'I_4) : rat := if (2 <= r)%N then 1 / 2%:R else 1.
Lemma d4_unc : uncorrelated (@pn 4) (epsn c4) (fun r => 1 / wgt d4 r).
Proof.
have [h1 h2] := epsn_unc c4; split=> // r s; rewrite h2; case: eqP => // _.
by rewrite /c4 /wgt /=; case: ifP.
Qed.
Lemma d4u_unc : uncorrelated (@pn 4) (epsn (fun _ => 1)) (fun r => 1 / wgt d4u r).
Proof.
by have [h1 h2] := epsn_unc (fun _ : 'I_4 => 1); split=> // r s; rewrite h2.
Qed.

(* No row has leverage 1: a function of the form f(firm) + g(worker) that
   vanishes on three of the four cells vanishes on the fourth. *)
Lemma I4 (r : 'I_4) : r = inord (2 * (2 <= r)%N + odd r).
Proof. by apply/val_inj; rewrite /= inordK; case: r => [[|[|[|[|]]]]]. Qed.

Lemma cell_sum (d : frame rat_realFieldType 4 1 2) (b : 'cV[rat]_(1 + 2)) :
  fj d = fj d4 -> fi d = fi d4 ->
  (design d *m b) (inord 0) 0 + (design d *m b) (inord 3) 0
  = (design d *m b) (inord 1) 0 + (design d *m b) (inord 2) 0.
Proof.
move=> ej ei; rewrite -(vsubmxK b) !(design_mul sq4) !mult_A_no.
rewrite /fitted ej ei /= !inordK //=.
rewrite addrACA [RHS]addrACA; congr (_ + _); exact: addrC.
Qed.

Lemma lev_lt1 (d : frame rat_realFieldType 4 1 2) : fj d = fj d4 -> fi d = fi d4 ->
  positive_weights d -> workers_observed d -> connected d -> root_ok d sq4 ->
  forall r, hat d (row_root d sq4) r r < 1.
Proof.
move=> ej ei pw ob cn rok r.
have wne := wsum_neq0 pw ob; have uM := Minv_unit sq4 pw ob cn.
rewrite lt_neqAle (hat_le1 wne uM rok) andbT; apply/eqP => h1.
have h0 s : s != r -> hat d (row_root d sq4) r s = 0.
  move=> ne; have := hat_diag_sq wne uM rok r; rewrite (bigD1 r) //= h1 expr1n.
  move/eqP; rewrite -subr_eq0 opprD addrA subrr add0r oppr_eq0 psumr_eq0.
    by move/allP/(_ s); rewrite mem_index_enum => /(_ isT); rewrite ne /= sqrf_eq0 => /eqP.
  by move=> t _; exact: sqr_ge0.
have rne s : row_root d sq4 s != 0.
  by apply/eqP => z; have := row_root_sq rok s; rewrite z mul0r; apply/eqP; rewrite lt_eqF.
pose b := invmx (normal_mx d) *m ((design d)^T *m (diag_mx (\row_s row_root d sq4 s) *m delta_mx r 0)) : 'cV_(1 + 2).
have bE s : row_root d sq4 s * (design d *m b) s 0 = hat d (row_root d sq4) r s.
  rewrite -(hat_sym sq4 d) [RHS]mxE.
  transitivity ((hat d (row_root d sq4) *m (delta_mx r 0 : 'cV_4)) s 0); last by rewrite -colE mxE.
  rewrite /hat -!mulmxA -/b mul_diag_mx [RHS]mxE; congr (_ * _); by rewrite mxE.
have b0 s : s != r -> (design d *m b) s 0 = 0.
  by move=> ne; have := bE s; rewrite (h0 s ne) => /eqP; rewrite mulf_eq0 (negbTE (rne s)) => /eqP.
have br : (design d *m b) r 0 != 0.
  by apply/eqP => z; have := bE r; rewrite z mulr0 h1 => /eqP; rewrite eq_sym oner_eq0.
have := cell_sum b ej ei.
have k (m : nat) : (m < 4)%N -> val r != m -> (design d *m b) (inord m) 0 = 0.
  by move=> lt ne; apply: b0; apply: contraNneq ne => <-; rewrite /= inordK.
have kr (m : nat) : val r = m -> (design d *m b) (inord m) 0 = (design d *m b) r 0.
  by move=> <-; rewrite inord_val.
case e : (val r) => [|[|[|[|m]]]]; last by have := ltn_ord r; rewrite e.
- by rewrite (kr 0%N) // !k ?e // !addr0 => /eqP; rewrite (negbTE br).
- by rewrite (kr 1%N) // !k ?e // !addr0 => /eqP; rewrite eq_sym (negbTE br).
- by rewrite (kr 2%N) // !k ?e // !add0r => /eqP; rewrite eq_sym (negbTE br).
- by rewrite (kr 3%N) // !k ?e // !add0r => /eqP; rewrite (negbTE br).
Qed.

Lemma d4_lev r : hat d4 (row_root d4 sq4) r r < 1.
Proof. exact: (@lev_lt1 d4 erefl erefl d4_pos d4_obs d4_con d4_root). Qed.
Lemma d4u_lev r : hat d4u (row_root d4u sq4) r r < 1.
Proof. exact: (@lev_lt1 d4u erefl erefl d4u_pos d4u_obs d4u_con d4u_root). Qed.

(* Unbalanced data: worker 0 has one row at firm 0 and two at firm 1, worker 1
   one row at each. *)
Definition d5 : frame rat_realFieldType 5 1 2 :=
  Frame (fun r : 'I_5 => o4 (nth false [:: false; true; true; false; true] r))
        (fun r : 'I_5 => o4 (3 <= r)%N) None (fun _ => true).

Lemma d5_pos : positive_weights d5.
Proof. by []. Qed.
Lemma d5_obs : workers_observed d5.
Proof. by move=> i; case: (I2 i) => ->; [exists (inord 0)|exists (inord 3)]; rewrite /= inordK. Qed.
Lemma d5_con : connected d5.
Proof.
move=> j; case: (I2 j) => ->; first exact: reach_0.
have e : fj d5 (inord 1) = ord_max by rewrite /= inordK.
rewrite -e; apply: (@reach_step _ _ _ _ d5 (inord 0)); first by rewrite /= !inordK.
have -> : fj d5 (inord 0) = ord0 by rewrite /= inordK.
exact: reach_0.
Qed.
Lemma d5_root : root_ok d5 sq4.
Proof. by []. Qed.
Lemma d5_root2 : root_sq_ok d5 sq4.
Proof. by []. Qed.
Lemma d5_exact : exact_solver (@direct 1) (Minv sq4 d5).
Proof. exact/direct_exact/(Minv_unit _ d5_pos d5_obs d5_con). Qed.

Definition tbl n m (t : seq (seq rat)) : 'M[rat]_(n, m) := \matrix_(i, j) nth 0 (nth [::] t i) j.
Definition D5 : 'M[rat]_(5, 1 + 2) :=
  tbl _ _ [:: [:: 0; 1; 0]; [:: 1; 1; 0]; [:: 1; 1; 0]; [:: 0; 0; 1]; [:: 1; 0; 1]].
Definition q (a : Z) (b : positive) : rat := qr (Qmake a b).
Local Arguments q : simpl never.
Definition L5 : 'M[rat]_(1 + 2, 5) :=
  tbl _ _ [:: [:: q (-4) 7; q 2 7; q 2 7; q (-3) 7; q 3 7];
              [:: q 5 7; q 1 7; q 1 7; q 2 7; q (-2) 7];
              [:: q 2 7; q (-1) 7; q (-1) 7; q 5 7; q 2 7]].

Ltac ords3 i := case: i => [[|[|[|?]]] ?]; [| | |by []].
Ltac ords5 i := case: i => [[|[|[|[|[|?]]]]] ?]; [| | | | |by []].

Lemma d5_design : design d5 = D5.
Proof.
apply/matrixP => r k; rewrite /design /D5.
case: (splitP k) => l el; rewrite !mxE.
- have -> : k = lshift 2 l by apply/val_inj.
  rewrite (unsplitK (inl l)) mxE /= (ord1 l).
  by ords5 r.
- have -> : k = rshift 1 l by apply/val_inj.
  rewrite (unsplitK (inr l)) mxE /=.
  by case: (I2 l) => ->; ords5 r.
Qed.

Lemma D5_normal : D5^T *m D5 *m L5 = D5^T.
Proof.
apply/matrixP => k r.
rewrite mxE !big_ord_recl big_ord0 [RHS]mxE !mxE !big_ord_recl !big_ord0 !mxE.
by ords3 k; ords5 r; rewrite /= /q; qrat.
Qed.

Lemma d5_ls : ls_map d5 = L5.
Proof.
have u : normal_mx d5 \in unitmx := p_normal_unit sq4 d5_pos d5_obs d5_con.
have e : normal_mx d5 = D5^T *m D5.
  rewrite /normal_mx d5_design (_ : diag_mx _ = 1%:M) ?mulmx1 //.
  by apply/matrixP => i j; rewrite !mxE.
rewrite /ls_map d5_design (_ : diag_mx _ = 1%:M) ?mulmx1; last by apply/matrixP => i j; rewrite !mxE.
by rewrite -D5_normal -e mulKmx.
Qed.

Lemma d5_hat r : hat d5 (row_root d5 sq4) r r
  = nth 0 [:: q 5 7; q 3 7; q 3 7; q 5 7; q 5 7] r.
Proof.
rewrite -(AL_hat d5_root) (_ : Lmx d5 = L5) ?d5_design; last exact: d5_ls; rewrite mxE !big_ord_recl big_ord0 !mxE.
by ords5 r; rewrite /= /q; qrat.
Qed.
Lemma d5_lev r : hat d5 (row_root d5 sq4) r r < 1.
Proof. by rewrite d5_hat; ords5 r. Qed.

(* All the noise is in the first row. *)
Definition c5 (r : 'I_5) : rat := (r == ord0)%:R.

Lemma firm_eff_o4 (x : 'cV[rat]_1) b : firm_eff (F := rat_realFieldType) x (o4 b) = if b then x 0 0 else 0.
Proof.
rewrite /firm_eff /o4; case: b; last by rewrite unlift_none.
have -> : ord_max = lift ord0 (ord0 : 'I_1) :> 'I_2 by apply/val_inj.
by rewrite liftK.
Qed.

Add Field Frat : (field_th rat_realFieldType).
Lemma d5_kappa Q r : is_form d5 VarPsi VarPsi Q ->
  ((ls_map d5)^T *m Q *m ls_map d5) r r
  = nth 0 [:: q 96 1225; q 24 1225; q 24 1225; q 54 1225; q 54 1225] r.
Proof.
move=> hQ.
have -> : ((ls_map d5)^T *m Q *m ls_map d5) r r
  = ((col r (ls_map d5))^T *m Q *m col r (ls_map d5)) 0 0.
  move: (ls_map d5) => X; rewrite [LHS]mxE [RHS]mxE; apply: eq_bigr => i _.
  rewrite [col r X i 0]mxE; congr (_ * _).
  by rewrite [LHS]mxE [RHS]mxE; apply: eq_bigr => j _; rewrite !mxE.
rewrite hQ d5_ls.
pose x (t : 'I_5) : rat := if nth false [:: false; true; true; false; true] t then L5 0 r else 0.
have xE t : row_effect d5 VarPsi (firm_eff (usubmx (col r L5))) (fun i => dsubmx (col r L5) i 0) t = x t.
  rewrite /row_effect /= firm_eff_o4 /x; case: ifP => // _; rewrite !mxE; congr (nth _ (nth _ _ _) _).
rewrite (@eq_cov_w _ _ _ (fun _ => 1) _ x _ x (fun _ => erefl) xE xE).
rewrite (_ : cov_w _ _ _ = q 6 25 * (L5 0 r * L5 0 r)); last first.
  rewrite /cov_w /avg_w !big_ord_recl !big_ord0 /x /=; move: (L5 0 r) => a; clear.
  rewrite (_ : q 6 25 = 6%:R / 25%:R); last by rewrite /q; qrat.
  by ffield rat_realFieldType; split=> /eqP.
by clear x xE; rewrite /L5 mxE; ords5 r; rewrite /= /q; qrat.
Qed.

Lemma d5_bias Q : is_form d5 VarPsi VarPsi Q ->
  \sum_r ((ls_map d5)^T *m Q *m ls_map d5) r r
        * ((\sum_s wgt d5 s * (c5 s * c5 s) * ((r == s)%:R - (design d5 *m ls_map d5) r s))
           / ((\sum_s wgt d5 s) * (1 - hat d5 (row_root d5 sq4) r r))) = q 12 875.
Proof.
move=> hQ.
have e r : \sum_s wgt d5 s * (c5 s * c5 s) * ((r == s)%:R - (design d5 *m ls_map d5) r s)
   = nth 0 [:: q 2 7; q (-1) 7; q (-1) 7; q (-2) 7; q 2 7] r.
  rewrite (bigD1 ord0) //= big1 ?addr0; last first.
    by move=> s ne; rewrite (_ : c5 s = 0) ?mulr0 ?mul0r // /c5 (negbTE ne).
  rewrite d5_ls d5_design mxE !big_ord_recl big_ord0 !mxE.
  rewrite (_ : wgt d5 ord0 * (c5 ord0 * c5 ord0) = 1) //.
  by ords5 r; rewrite /= /q; qrat.
rewrite (eq_bigr (fun r : 'I_5 =>
   nth 0 [:: q 96 1225; q 24 1225; q 24 1225; q 54 1225; q 54 1225] r
   * (nth 0 [:: q 2 7; q (-1) 7; q (-1) 7; q (-2) 7; q 2 7] r
      / (5%:R * (1 - nth 0 [:: q 5 7; q 3 7; q 3 7; q 5 7; q 5 7] r))))); last first.
  by move=> r _; rewrite (d5_kappa _ hQ) e d5_hat /wgt /= sumr_const card_ord.
rewrite !big_ord_recl big_ord0 /= /q.
by qrat.
Qed.

Lemma d5_unc : uncorrelated (@pn 5) (epsn c5) (fun r => c5 r * c5 r).
Proof. exact: epsn_unc. Qed.

Lemma d5_sii_biased psi alpha :
  Ex (@pn 5) (fun o => Sii_term sq4 d5 (@direct 1) (fun s => hat d5 (row_root d5 sq4) s s) None
     (outcome d5 psi alpha (epsn c5 o)) ord0) <> c5 ord0 * c5 ord0.
Proof.
rewrite (p_Sii d5_pos d5_obs d5_con d5_root d5_exact psi alpha d5_unc (d5_lev _)).
have -> : \sum_s wgt d5 s * (c5 s * c5 s) * ((ord0 == s)%:R - (design d5 *m ls_map d5) ord0 s)
   = q 2 7.
  rewrite (bigD1 ord0) //= big1 ?addr0; last first.
    by move=> s ne; rewrite (_ : c5 s = 0) ?mulr0 ?mul0r // /c5 (negbTE ne).
  rewrite d5_ls d5_design mxE !big_ord_recl big_ord0 !mxE.
  rewrite (_ : wgt d5 ord0 * (c5 ord0 * c5 ord0) = 1) //= /q; qrat.
rewrite d5_hat /wgt /= sumr_const card_ord.
rewrite (_ : q 2 7 / _ = q 1 5); last by rewrite /q; qrat.
by move/eqP; rewrite subr_eq -{1}[c5 _ * _]addr0 (inj_eq (addrI _)) eq_sym.
Qed.

Lemma d5_corrected_biased psi alpha k :
  (0 < k)%N ->
  Ex (@pn 5) (fun o => uniform (fun z : {ffun 'I_k -> {ffun 'I_1 -> bool} * {ffun 'I_2 -> bool}} => corrected_he
    (cov_fe sq4 (get_Q d5 VarPsi) (get_Q d5 VarPsi) (fw d5) (fw d5)
       (estimate_ols sq4 d5 (@direct 1) (outcome d5 psi alpha (epsn c5 o))))
    (mean_draws (fun t => trace_he_cov_draw sq4 d5 (@direct 1) (get_Q d5 VarPsi)
       (get_Q d5 VarPsi) (fw d5) (fw d5)
       (Sii_term sq4 d5 (@direct 1) (fun r => hat d5 (row_root d5 sq4) r r) None
          (outcome d5 psi alpha (epsn c5 o)))
       (signs rat_realFieldType (z t).1, signs rat_realFieldType (z t).2)))))
  = component d5 VarPsi VarPsi psi alpha + 12%:R / 875%:R.
Proof.
move=> k0; have [Q hQ] := p_form_exists d5_root2 VarPsi VarPsi.
rewrite (p_he_bias d5_pos d5_obs d5_con d5_root d5_root2 d5_exact (@pn_dist 5) psi alpha _ k0 hQ d5_unc d5_lev) //.
by rewrite (d5_bias hQ).
Qed.
