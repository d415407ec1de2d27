(* C98: constraints for the wrong number of periods. *)
From Verif Require Import Base BaseLemmas UtilModel UtilSpec ConsModel ConsSpec ConsLemmas ConsPropLemmas BLMModel BLMEMModel BLMSpec
  BLMSortLemmas BLMFitModel DBLMModel DBLMSpec DBLMEMSpec DBLMSortLemmas DBLMRegLemmas DConsSpec.
From Verif Require BLMCtlRefLemmas.
From Coq Require Import Lia.
Local Open Scope res_scope.
Local Open Scope R_scope.

Definition has_cols (N : nat) (a : arr) : Prop := exists m, a = Arr2 m /\ nc m = N /\ (0 < nr m)%nat.

Lemma add_half_keeps N cur rhs new cur' rhs' : add_half cur rhs new = Ok (cur', rhs') -> has_cols N cur -> has_cols N cur'.
Proof.
  intros E (m & -> & Hn & Hr). destruct new as [[m1 r1]|]; cbn [add_half arr_len bind] in E; [|injection E as <- <-; now exists m].
  destruct (0 <? nr m1)%nat; [|injection E as <- <-; now exists m].
  destruct (0 <? nr m)%nat eqn:E0; [|apply Nat.ltb_ge in E0; lia]. cbn [arr_concat] in E.
  unfold vstack in E. destruct (nc m =? nc m1)%nat; [|discriminate]. cbn [rmap bind] in E. injection E as <- <-.
  eexists. split; [reflexivity|]. cbn. split; [exact Hn|lia].
Qed.
Lemma add_half_new N cur rhs m r cur' rhs' : add_half cur rhs (Some (m, r)) = Ok (cur', rhs') ->
  (0 < nr m)%nat -> nc m = N -> has_cols N cur'.
Proof.
  intros E Hr Hn. cbn [add_half] in E. apply Nat.ltb_lt in Hr. rewrite Hr in E. apply Nat.ltb_lt in Hr.
  destruct (arr_len cur) as [n|]; [|discriminate]. cbn [bind] in E. destruct (0 <? n)%nat.
  2:{ injection E as <- <-. now exists m. }
  destruct cur as [l|m1|m1]; cbn [arr_concat bind] in E; try discriminate. unfold vstack in E.
  destruct (nc m1 =? nc m)%nat eqn:Ec; [|discriminate]. apply Nat.eqb_eq in Ec. cbn [rmap bind] in E. injection E as <- <-.
  eexists. split; [reflexivity|]. cbn. split; lia.
Qed.

Definition stuck (N : nat) (s : qp) : Prop := has_cols N (q_G s) \/ has_cols N (q_A s).
Lemma add_constraint_inv d s s' : add_constraint d s = Ok s' -> exists h b,
  add_half (q_G s) (q_h s) (c_G d) = Ok (q_G s', h) /\ add_half (q_A s) (q_b s) (c_A d) = Ok (q_A s', b) /\
  q_nl s' = q_nl s /\ q_nk s' = q_nk s.
Proof.
  unfold add_constraint. intros E. destruct (add_half (q_G s) (q_h s) (c_G d)) as [[G h]|]; [|discriminate]. cbn [bind] in E.
  destruct (add_half (q_A s) (q_b s) (c_A d)) as [[A b]|]; [|discriminate]. cbn [bind] in E. injection E as <-.
  exists h, b. auto.
Qed.
Lemma add_constraints_inv o cs s s' : add_constraints (o :: cs) s = Ok s' -> exists d s1,
  get_constraints o (q_nl s) (q_nk s) = Ok d /\ add_constraint d s = Ok s1 /\ add_constraints cs s1 = Ok s'.
Proof.
  unfold add_constraints. cbn [for_each]. intros E.
  destruct (get_constraints o (q_nl s) (q_nk s)) as [d|] eqn:Ed; [|discriminate]. cbn [bind] in E.
  destruct (add_constraint d s) as [s1|] eqn:E1; [|discriminate]. cbn [bind] in E. exists d, s1. auto.
Qed.
Lemma add_keeps (P : qp -> Prop) cs s s' :
  (forall d s s', add_constraint d s = Ok s' -> P s -> P s') -> add_constraints cs s = Ok s' -> P s -> P s'.
Proof.
  intros H. revert s. induction cs as [|o cs IH]; intros s E Hs; [injection E as <-; exact Hs|].
  apply add_constraints_inv in E as (d & s1 & _ & E1 & E2). apply (IH s1 E2). now apply (H d s s1).
Qed.
Lemma G_keeps N d s s' : add_constraint d s = Ok s' -> has_cols N (q_G s) -> has_cols N (q_G s').
Proof. intros E H. apply add_constraint_inv in E as (h & b & E1 & _). exact (add_half_keeps N _ _ _ _ _ E1 H). Qed.
Lemma A_keeps N d s s' : add_constraint d s = Ok s' -> has_cols N (q_A s) -> has_cols N (q_A s').
Proof. intros E H. apply add_constraint_inv in E as (h & b & _ & E1 & _). exact (add_half_keeps N _ _ _ _ _ E1 H). Qed.
Lemma stuck_keeps N d s s' : add_constraint d s = Ok s' -> stuck N s -> stuck N s'.
Proof. intros E [H|H]; [left; exact (G_keeps N d s s' E H)|right; exact (A_keeps N d s s' E H)]. Qed.
Lemma dims_keep nl nk d s s' : add_constraint d s = Ok s' -> q_nl s = nl /\ q_nk s = nk -> q_nl s' = nl /\ q_nk s' = nk.
Proof. intros E [<- <-]. apply add_constraint_inv in E as (h & b & _ & _ & E1 & E2). auto. Qed.

(* An object that restricts has rows. *)
Lemma add_restricting nt nl nk o d s s' : valid nt nl nk o -> restricts nl nk o -> get_constraints o nl nk = Ok d ->
  add_constraint d s = Ok s' -> stuck (nt * nl * nk) s'.
Proof.
  intros V (d' & x & E & Hx) E' Ha. rewrite E in E'. injection E' as ->.
  destruct (valid_buildable nt nl nk o V) as (d' & E' & W1 & W2). rewrite E in E'. injection E' as <-.
  apply add_constraint_inv in Ha as (h & b & H1 & H2 & _).
  destruct (c_G d) as [[G hh]|] eqn:EG.
  - destruct (Nat.eq_dec (nr G) 0) as [Z|Z].
    + destruct (c_A d) as [[A bb]|] eqn:EA.
      * destruct (Nat.eq_dec (nr A) 0) as [Z2|Z2].
        -- exfalso. apply Hx. split; rewrite ?EG, ?EA; intros r Hr; lia.
        -- right. apply (add_half_new _ _ _ _ _ _ _ H2); [lia|apply W2].
      * exfalso. apply Hx. split; rewrite ?EG, ?EA; [intros r Hr; lia|exact I].
    + left. apply (add_half_new _ _ _ _ _ _ _ H1); [lia|apply W1].
  - destruct (c_A d) as [[A bb]|] eqn:EA.
    + destruct (Nat.eq_dec (nr A) 0) as [Z2|Z2].
      * exfalso. apply Hx. split; rewrite ?EG, ?EA; [exact I|intros r Hr; lia].
      * right. apply (add_half_new _ _ _ _ _ _ _ H2); [lia|apply W2].
    + exfalso. apply Hx. split; rewrite ?EG, ?EA; exact I.
Qed.
Lemma add_restricting_le nt nl nk o d s s' : valid nt nl nk o -> restricts_le nl nk o -> get_constraints o nl nk = Ok d ->
  add_constraint d s = Ok s' -> has_cols (nt * nl * nk) (q_G s').
Proof.
  intros V (d' & x & E & Hx) E' Ha. rewrite E in E'. injection E' as ->.
  destruct (valid_buildable nt nl nk o V) as (d' & E' & W1 & W2). rewrite E in E'. injection E' as <-.
  apply add_constraint_inv in Ha as (h & b & H1 & H2 & _). unfold sat_G in Hx.
  destruct (c_G d) as [[G hh]|] eqn:EG; [|exfalso; apply Hx; exact I].
  destruct (Nat.eq_dec (nr G) 0) as [Z|Z]; [exfalso; apply Hx; intros r Hr; lia|].
  apply (add_half_new _ _ _ _ _ _ _ H1); [lia|apply W1].
Qed.
Lemma add_one (P : qp -> Prop) nl nk o cs s s' : (forall d s s', add_constraint d s = Ok s' -> P s -> P s') ->
  (forall d s s', get_constraints o nl nk = Ok d -> add_constraint d s = Ok s' -> P s') ->
  In o cs -> q_nl s = nl -> q_nk s = nk -> add_constraints cs s = Ok s' -> P s'.
Proof.
  intros K N. revert s. induction cs as [|c cs IH]; intros s Hin Hl Hk E; [destruct Hin|].
  apply add_constraints_inv in E as (d & s1 & Ed & E1 & E2). destruct Hin as [->|Hin].
  - apply (add_keeps P cs s1 s' K E2). apply (N d s s1); [now rewrite <- Hl, <- Hk|exact E1].
  - destruct (dims_keep nl nk d s s1 E1 (conj Hl Hk)). apply (IH s1); auto.
Qed.
Lemma add_dims nl nk cs s s' : add_constraints cs s = Ok s' -> q_nl s = nl -> q_nk s = nk -> q_nl s' = nl /\ q_nk s' = nk.
Proof.
  intros E Hl Hk. apply (add_keeps (fun s => q_nl s = nl /\ q_nk s = nk) cs s s'); auto.
  intros d s1 s2. apply dims_keep.
Qed.

(* ---- generated constraints ---- *)
Lemma dgen_inv nl nk c fm qa qs : dgen_constraints nl nk c fm = Ok (qa, qs) ->
  exists nt cb q1 q2 q3 q4 q5, nt = (if fm then nt_movers c else 2)%nat /\
    add_constraints [CBoundedBelow (ds_lower_bound c) nt] (qp_init nl nk) = Ok q1 /\
    add_constraints cb (qp_init nl nk) = Ok q2 /\ add_constraints cb q1 = Ok q3 /\
    add_constraints (dcons_a c) q2 = Ok q4 /\ add_constraints (dcons_a_all c) q4 = Ok qa /\
    add_constraints (dcons_s c) q3 = Ok q5 /\ add_constraints (dcons_s_all c) q5 = Ok qs.
Proof.
  unfold dgen_constraints. cbv zeta. intros E.
  set (nt := if fm then _ else _) in E. set (cb := if (0 <? _)%nat then _ else _) in E.
  exists nt, cb.
  destruct (add_constraints [_] (qp_init nl nk)) as [q1|] eqn:E1; [|discriminate]. cbn [bind] in E.
  destruct (add_constraints cb (qp_init nl nk)) as [q2|] eqn:E2; [|discriminate]. cbn [bind] in E.
  destruct (add_constraints cb q1) as [q3|] eqn:E3; [|discriminate]. cbn [bind] in E.
  destruct (add_constraints (dcons_a c) q2) as [q4|] eqn:E4; [|discriminate]. cbn [bind] in E.
  destruct (add_constraints (dcons_a_all c) q4) as [q6|] eqn:E6; [|discriminate]. cbn [bind] in E.
  destruct (add_constraints (dcons_s c) q3) as [q5|] eqn:E5; [|discriminate]. cbn [bind] in E.
  destruct (add_constraints (dcons_s_all c) q5) as [q7|] eqn:E7; [|discriminate]. cbn [bind] in E.
  injection E as <- <-. exists q1, q2, q3, q4, q5. repeat split; auto; destruct fm; reflexivity.
Qed.
Lemma gen_A_stuck nt nl nk c fm qa qs o : In o (dcons_a c ++ dcons_a_all c) -> valid nt nl nk o -> restricts nl nk o ->
  dgen_constraints nl nk c fm = Ok (qa, qs) -> stuck (nt * nl * nk) qa.
Proof.
  intros Hin V Hr E. apply dgen_inv in E as (nt' & cb & q1 & q2 & q3 & q4 & q5 & _ & _ & E2 & _ & E4 & E6 & _).
  destruct (add_dims nl nk _ _ _ E2 eq_refl eq_refl) as [L2 K2]. destruct (add_dims nl nk _ _ _ E4 L2 K2) as [L4 K4].
  assert (N : forall d s s', get_constraints o nl nk = Ok d -> add_constraint d s = Ok s' -> stuck (nt * nl * nk) s').
  { intros d s s' Ed Ea. exact (add_restricting nt nl nk o d s s' V Hr Ed Ea). }
  apply in_app_or in Hin as [Hin|Hin].
  - apply (add_keeps _ _ _ _ (stuck_keeps (nt * nl * nk)) E6).
    exact (add_one _ nl nk o _ _ _ (stuck_keeps (nt * nl * nk)) N Hin L2 K2 E4).
  - exact (add_one _ nl nk o _ _ _ (stuck_keeps (nt * nl * nk)) N Hin L4 K4 E6).
Qed.
Lemma gen_S_any (P : qp -> Prop) nl nk c fm qa qs o : In o (dcons_s c ++ dcons_s_all c) ->
  (forall d s s', add_constraint d s = Ok s' -> P s -> P s') ->
  (forall d s s', get_constraints o nl nk = Ok d -> add_constraint d s = Ok s' -> P s') ->
  dgen_constraints nl nk c fm = Ok (qa, qs) -> P qs.
Proof.
  intros Hin K N E. apply dgen_inv in E as (nt' & cb & q1 & q2 & q3 & q4 & q5 & _ & E1 & E2 & E3 & E4 & E6 & E5 & E7).
  destruct (add_dims nl nk _ _ _ E1 eq_refl eq_refl) as [L1 K1]. destruct (add_dims nl nk _ _ _ E3 L1 K1) as [L3 K3].
  destruct (add_dims nl nk _ _ _ E5 L3 K3) as [L5 K5].
  apply in_app_or in Hin as [Hin|Hin].
  - apply (add_keeps P _ _ _ K E7). exact (add_one P nl nk o _ _ _ K N Hin L3 K3 E5).
  - exact (add_one P nl nk o _ _ _ K N Hin L5 K5 E7).
Qed.
Lemma gen_S_stuck nt nl nk c fm qa qs o : In o (dcons_s c ++ dcons_s_all c) -> valid nt nl nk o -> restricts nl nk o ->
  dgen_constraints nl nk c fm = Ok (qa, qs) -> stuck (nt * nl * nk) qs.
Proof.
  intros Hin V Hr. apply (gen_S_any _ nl nk c fm qa qs o Hin (stuck_keeps (nt * nl * nk))).
  intros d s s' Ed Ea. exact (add_restricting nt nl nk o d s s' V Hr Ed Ea).
Qed.
(* The lower bound of the standard deviations comes first. *)
Lemma has_cols_one N M a : has_cols N a -> has_cols M a -> N = M.
Proof. intros (m & -> & H & _) (m' & E & H' & _). injection E as <-. congruence. Qed.
Lemma gen_S_le nt nl nk c qa qs o fm : (0 < nl)%nat -> (0 < nk)%nat ->
  In o (dcons_s c ++ dcons_s_all c) -> valid nt nl nk o -> restricts_le nl nk o ->
  dgen_constraints nl nk c fm = Ok (qa, qs) -> nt = (if fm then nt_movers c else 2)%nat.
Proof.
  intros Hl Hk Hin V Hr E.
  assert (H1 : has_cols (nt * nl * nk) (q_G qs)).
  { refine (gen_S_any (fun q => has_cols (nt * nl * nk) (q_G q)) nl nk c fm qa qs o Hin _ _ E).
    - intros d s s'. apply G_keeps.
    - intros d s s' Ed Ea. exact (add_restricting_le nt nl nk o d s s' V Hr Ed Ea). }
  apply dgen_inv in E as (nt' & cb & q1 & q2 & q3 & q4 & q5 & -> & E1 & E2 & E3 & E4 & E6 & E5 & E7).
  set (nt' := (if fm then nt_movers c else 2)%nat) in *.
  assert (Hn : (0 < nt')%nat).
  { unfold nt'. destruct fm; [|lia]. unfold nt_movers, periods_movers. destruct (endogeneity c), (state_dependence c); cbn; lia. }
  assert (H0 : has_cols (nt' * nl * nk) (q_G q1)).
  { apply add_constraints_inv in E1 as (d & s1 & Ed & Ea & E1). injection E1 as <-.
    cbn in Ed. injection Ed as <-. apply add_constraint_inv in Ea as (h & b & H2 & _). cbn [c_G] in H2.
    apply (add_half_new _ _ _ _ _ _ _ H2); cbn; nia. }
  assert (H2 : has_cols (nt' * nl * nk) (q_G qs)).
  { apply (add_keeps (fun q => has_cols (nt' * nl * nk) (q_G q)) _ _ _ (G_keeps _) E7).
    apply (add_keeps (fun q => has_cols (nt' * nl * nk) (q_G q)) _ _ _ (G_keeps _) E5).
    apply (add_keeps (fun q => has_cols (nt' * nl * nk) (q_G q)) _ _ _ (G_keeps _) E3). exact H0. }
  pose proof (has_cols_one _ _ _ H1 H2) as E. nia.
Qed.

(* ---- a problem with the wrong number of columns is not solved ---- *)
Section Stuck.
Variable argsort : list R -> list nat.
Variable solver : nat -> mat -> list R -> problem -> qpres.
Variable pp : period.
Variables nl nk : nat.
Hypothesis argsort_ok : forall l, is_argsort l (argsort l).
Hypothesis solver_sizes : checks_sizes solver.
Hypothesis nl_pos : (0 < nl)%nat.
Hypothesis nk_pos : (0 < nk)%nat.

Lemma stuck_unsolved N np M v s x : stuck N s -> dsolve argsort solver nl nk np M v s = QSol x -> N = (np * nl * nk)%nat.
Proof.
  intros Hs E. unfold dsolve in E. apply solver_sizes in E as [H1 H2].
  destruct (X_order_spec np nl nk argsort argsort_ok) as (Lo & _ & _). rewrite Lo in H1, H2.
  cbn [solve snd p_G p_A] in H1, H2. destruct Hs as [(m & Em & Hn & Hr)|(m & Em & Hn & Hr)].
  - rewrite Em in H1. cbn [arr_rows] in H1. apply Nat.ltb_lt in Hr. rewrite Hr in H1. specialize (H1 _ _ eq_refl). cbn in H1. nia.
  - rewrite Em in H2. cbn [arr_rows] in H2. apply Nat.ltb_lt in Hr. rewrite Hr in H2. specialize (H2 _ _ eq_refl). cbn in H2. nia.
Qed.

Lemma cancel a b : (a * nl * nk = b * nl * nk)%nat -> a = b.
Proof. intros E. apply Nat.mul_cancel_r in E; [|lia]. apply Nat.mul_cancel_r in E; [exact E|lia]. Qed.

Variable c : dsettings.
Variable nt : nat.

Section Stayers.
Hypothesis nt_other : nt <> 2%nat.
Lemma stayers_A_step cons data qi p : stuck (nt * nl * nk) (fst cons) ->
  dA (update_AS_stayers argsort solver nl nk c cons data qi p) = dA p.
Proof.
  intros Hs. unfold update_AS_stayers. cbv zeta.
  set (r := dsolve _ _ _ _ _ _ _ (fst cons)). destruct r as [x| |] eqn:E; subst r.
  1:{ apply (stuck_unsolved _ _ _ _ _ _ Hs) in E. exfalso. apply nt_other. exact (cancel _ 2%nat E). }
  all: destruct (up_a_stayers c), (up_s_stayers c); try reflexivity; destruct (dsolve _ _ _ _ _ _ _ (snd cons)); reflexivity.
Qed.
Lemma stayers_S_step cons data qi p : stuck (nt * nl * nk) (snd cons) ->
  dS (update_AS_stayers argsort solver nl nk c cons data qi p) = dS p.
Proof.
  intros Hs. unfold update_AS_stayers. cbv zeta. set (pA := if up_a_stayers c then _ else _).
  assert (HA : dS pA = dS p) by (unfold pA; destruct (up_a_stayers c); [destruct (dsolve _ _ _ _ _ _ _ (fst cons)); reflexivity|reflexivity]).
  destruct (up_s_stayers c); [|exact HA].
  destruct (dsolve _ _ _ _ _ _ _ (snd cons)) as [x| |] eqn:E; [|exact HA..].
  apply (stuck_unsolved _ _ _ _ _ _ Hs) in E. exfalso. apply nt_other. exact (cancel _ 2%nat E).
Qed.
End Stayers.
Section Movers.
Hypothesis nt_other : nt <> nt_movers c.
Lemma movers_A_step cons data qi p : stuck (nt * nl * nk) (fst cons) ->
  dA (update_AS argsort solver nl nk c cons data qi p) = dA p /\ dAb (update_AS argsort solver nl nk c cons data qi p) = dAb p.
Proof.
  intros Hs. unfold update_AS. cbv zeta.
  set (r := dsolve _ _ _ _ _ _ _ (fst cons)). destruct r as [x| |] eqn:E; subst r.
  1:{ apply (stuck_unsolved _ _ _ _ _ _ Hs) in E. exfalso. apply nt_other. unfold nt_movers. exact (cancel _ _ E). }
  all: destruct (up_a c), (up_s c); try (split; reflexivity); destruct (dsolve _ _ _ _ _ _ _ (snd cons)); split; reflexivity.
Qed.
Lemma movers_S_step cons data qi p : stuck (nt * nl * nk) (snd cons) ->
  dS (update_AS argsort solver nl nk c cons data qi p) = dS p /\ dSb (update_AS argsort solver nl nk c cons data qi p) = dSb p.
Proof.
  intros Hs. unfold update_AS. cbv zeta. set (pA := if up_a c then _ else _).
  assert (HA : dS pA = dS p /\ dSb pA = dSb p) by (unfold pA; destruct (up_a c); [destruct (dsolve _ _ _ _ _ _ _ (fst cons)); split; reflexivity|split; reflexivity]).
  destruct (up_s c); [|exact HA].
  destruct (dsolve _ _ _ _ _ _ _ (snd cons)) as [x| |] eqn:E; [|exact HA..].
  apply (stuck_unsolved _ _ _ _ _ _ Hs) in E. exfalso. apply nt_other. unfold nt_movers. exact (cancel _ _ E).
Qed.
End Movers.

(* What an update of A and S keeps, the loops keep. *)
Section Loops.
Variable T : Type.
Variable view : dpar -> T.
Variable bad : qp * qp -> Prop.
Hypothesis view_pk1 : forall x p, view (dset_pk1 x p) = view p.
Hypothesis view_pk0 : forall x p, view (dset_pk0 x p) = view p.
Hypothesis view_rho : forall a b d e p, view (dset_rho a b d e p) = view p.

Lemma stayers_loop_keeps : (forall cons, dgen_constraints nl nk c false = Ok cons -> bad cons) ->
  (forall cons data qi p, bad cons -> view (update_AS_stayers argsort solver nl nk c cons data qi p) = view p) ->
  forall n data stable iter cons p prev lik liks q lik' liks', bad cons ->
  dstayers_loop argsort solver nl nk n c data stable iter cons p prev lik liks = Ok (q, lik', liks') -> view q = view p.
Proof.
  intros Hg Hu. induction n as [|n IH]; intros data stable iter cons p prev lik liks q lik' liks' Hb E; [injection E as <- _ _; reflexivity|].
  cbn [dstayers_loop] in E. destruct (dlp_stayers nl nk p stable data) as [lp|]; [|discriminate]. cbn [bind] in E.
  destruct (mean_lse lp) as [m|]; [|discriminate]. cbn [bind] in E.
  destruct (posteriors lp) as [qi|]; [|discriminate]. cbn [bind] in E.
  destruct (converged _ _ _); [injection E as <- _ _; reflexivity|].
  destruct (dem_update_stayers _ _ _ _ c iter cons data qi p) as [[p1 cons1]|] eqn:E1; [|discriminate]. cbn [bind] in E.
  unfold dem_update_stayers in E1.
  assert (H : view p1 = view p /\ bad cons1).
  { set (r := if up_pk0 c then _ else _) in E1.
    assert (Hr : forall p2, r = Ok p2 -> view p2 = view p).
    { unfold r. intros p2. destruct (up_pk0 c); [|intros [= <-]; reflexivity].
      destruct (dpk_update _ _ _ _ _); [|discriminate]. intros [= <-]. apply view_pk0. }
    destruct r as [p2|]; [|discriminate]. specialize (Hr p2 eq_refl). cbn [bind] in E1.
    destruct (up_rho32s c && _); [injection E1 as <- <-; rewrite view_rho; auto|].
    destruct (up_a_stayers c || up_s_stayers c); [|injection E1 as <- <-; auto].
    destruct (up_a_stayers c && _).
    - destruct (dgen_constraints nl nk c false) as [cons2|] eqn:Eg; [|discriminate]. cbn [bind] in E1. injection E1 as <- <-.
      rewrite Hu by (apply Hg; reflexivity). split; [exact Hr|apply Hg; reflexivity].
    - cbn [bind] in E1. injection E1 as <- <-. rewrite Hu by exact Hb. auto. }
  destruct H as [H1 H2]. rewrite <- H1. exact (IH _ _ _ _ _ _ _ _ _ _ _ H2 E).
Qed.
Lemma movers_loop_keeps : (forall cons, dgen_constraints nl nk c true = Ok cons -> bad cons) ->
  (forall cons data qi p, bad cons -> view (update_AS argsort solver nl nk c cons data qi p) = view p) ->
  forall n data iter cons p prev pm lik liks q lik' liks', bad cons ->
  dmovers_loop argsort solver pp nl nk n c data iter cons p prev pm lik liks = Ok (q, lik', liks') -> view q = view p.
Proof.
  intros Hg Hu. induction n as [|n IH]; intros data iter cons p prev pm lik liks q lik' liks' Hb E; [injection E as <- _ _; reflexivity|].
  cbn [dmovers_loop] in E. destruct (dlp_movers nl nk p data) as [lp|]; [|discriminate]. cbn [bind] in E.
  destruct (mean_lse lp) as [m|]; [|discriminate]. cbn [bind] in E.
  destruct (posteriors lp) as [qi|]; [|discriminate]. cbn [bind] in E.
  destruct (converged _ _ _ && _); [injection E as <- _ _; reflexivity|].
  destruct (dem_update _ _ _ _ c iter cons data qi p) as [[p1 cons1]|] eqn:E1; [|discriminate]. cbn [bind] in E.
  unfold dem_update in E1.
  assert (H : view p1 = view p /\ bad cons1).
  { set (r := if up_pk1 c then _ else _) in E1.
    assert (Hr : forall p2, r = Ok p2 -> view p2 = view p).
    { unfold r. intros p2. destruct (up_pk1 c); [|intros [= <-]; reflexivity].
      destruct (dpk_update _ _ _ _ _); [|discriminate]. intros [= <-]. apply view_pk1. }
    destruct r as [p2|]; [|discriminate]. specialize (Hr p2 eq_refl). cbn [bind] in E1.
    destruct ((up_rho12 c || up_rho43 c || up_rho32m c) && _); [injection E1 as <- <-; unfold update_rho; rewrite view_rho; auto|].
    destruct (up_a c || up_s c); [|injection E1 as <- <-; auto].
    destruct (up_a c && _).
    - destruct (dgen_constraints nl nk c true) as [cons2|] eqn:Eg; [|discriminate]. cbn [bind] in E1. injection E1 as <- <-.
      rewrite Hu by (apply Hg; reflexivity). split; [exact Hr|apply Hg; reflexivity].
    - cbn [bind] in E1. injection E1 as <- <-. rewrite Hu by exact Hb. auto. }
  destruct H as [H1 H2]. rewrite <- H1. exact (IH _ _ _ _ _ _ _ _ _ _ _ H2 E).
Qed.
End Loops.

Lemma nt_movers_ge : (4 <= nt_movers c)%nat.
Proof. unfold nt_movers, periods_movers. destruct (endogeneity c), (state_dependence c); cbn; lia. Qed.

Lemma stayers_fit_keeps T (view : dpar -> T) (bad : qp * qp -> Prop) cN data p q lik liks :
  (forall x p, view (dset_pk0 x p) = view p) -> (forall a b d e p, view (dset_rho a b d e p) = view p) ->
  (forall x p, view (dset_NNs x p) = view p) ->
  (forall cons, dgen_constraints nl nk c false = Ok cons -> bad cons) ->
  (forall cons data qi p, bad cons -> view (update_AS_stayers argsort solver nl nk c cons data qi p) = view p) ->
  dfit_stayers argsort solver nl nk c cN data p = Ok (q, lik, liks) -> view q = view p.
Proof.
  intros H1 H2 H3 Hg Hu E. unfold dfit_stayers in E.
  destruct (dlp_stable nl nk p data) as [st|]; [|discriminate]. cbn [bind] in E.
  destruct (dgen_constraints nl nk c false) as [cons|] eqn:Eg; [|discriminate]. cbn [bind] in E.
  destruct (dstayers_loop _ _ _ _ _ _ _ _ _ _ _ _ _ _) as [[[q1 l1] l2]|] eqn:El; [|discriminate]. cbn [bind] in E.
  injection E as <- _ _. transitivity (view q1); [destruct cN; [apply H3|reflexivity]|].
  refine (stayers_loop_keeps T view bad H1 H2 _ Hu _ _ _ _ _ _ _ _ _ _ _ _ (Hg _ eq_refl) El).
  intros cons' E'. rewrite Eg in E'. apply Hg. exact E'.
Qed.

Lemma stayers_A_stuck o cN data p q lik liks : In o (dcons_a c ++ dcons_a_all c) -> valid nt nl nk o -> nt <> 2%nat ->
  restricts nl nk o -> dfit_stayers argsort solver nl nk c cN data p = Ok (q, lik, liks) -> dA q = dA p.
Proof.
  intros Hin V Hn Hr. apply (stayers_fit_keeps _ dA (fun cons => stuck (nt * nl * nk) (fst cons))); try reflexivity.
  - intros [qa qs] E. exact (gen_A_stuck nt nl nk c false qa qs o Hin V Hr E).
  - intros. now apply stayers_A_step.
Qed.
Lemma stayers_S_stuck o cN data p q lik liks : In o (dcons_s c ++ dcons_s_all c) -> valid nt nl nk o -> nt <> 2%nat ->
  restricts nl nk o -> dfit_stayers argsort solver nl nk c cN data p = Ok (q, lik, liks) -> dS q = dS p.
Proof.
  intros Hin V Hn Hr. apply (stayers_fit_keeps _ dS (fun cons => stuck (nt * nl * nk) (snd cons))); try reflexivity.
  - intros [qa qs] E. exact (gen_S_stuck nt nl nk c false qa qs o Hin V Hr E).
  - intros. now apply stayers_S_step.
Qed.
Lemma stayers_S_refused o cN data p r : In o (dcons_s c ++ dcons_s_all c) -> valid nt nl nk o -> nt <> 2%nat ->
  restricts_le nl nk o -> dfit_stayers argsort solver nl nk c cN data p <> Ok r.
Proof.
  intros Hin V Hn Hr E. unfold dfit_stayers in E.
  destruct (dlp_stable nl nk p data) as [st|]; [|discriminate]. cbn [bind] in E.
  destruct (dgen_constraints nl nk c false) as [[qa qs]|] eqn:Eg; [|discriminate].
  exact (Hn (gen_S_le nt nl nk c qa qs o false nl_pos nk_pos Hin V Hr Eg)).
Qed.

Lemma movers_fit_keeps (bad : qp * qp -> Prop) cN data p q lik liks (T : Type) (view : dpar -> T) :
  (forall x p, view (dset_pk1 x p) = view p) -> (forall a b d e p, view (dset_rho a b d e p) = view p) ->
  (forall cons, dgen_constraints nl nk c true = Ok cons -> bad cons) ->
  (forall cons data qi p, bad cons -> view (update_AS argsort solver nl nk c cons data qi p) = view p) ->
  dfit_movers argsort solver pp nl nk c cN data p = Ok (q, lik, liks) -> exists q1 q2 q3,
  q1 = dsort_parameters argsort pp nl nk false false p /\ view q2 = view q1 /\
  q3 = dsort_parameters argsort pp nl nk false false q2 /\ q = if cN then dset_NNm (dmover_counts data) q3 else q3.
Proof.
  intros H1 H2 Hg Hu E. unfold dfit_movers in E. cbv zeta in E.
  destruct (dgen_constraints nl nk c true) as [cons|] eqn:Eg; [|discriminate]. cbn [bind] in E.
  destruct (dmovers_loop _ _ _ _ _ _ _ _ _ _ _ _ _ _ _) as [[[q1 l1] l2]|] eqn:El; [|discriminate]. cbn [bind] in E.
  injection E as <- _ _. eexists _, q1, _. split; [reflexivity|]. split; [|split; [reflexivity|destruct cN; reflexivity]].
  refine (movers_loop_keeps T view bad H1 H2 _ Hu _ _ _ _ _ _ _ _ _ _ _ _ (Hg _ eq_refl) El).
  intros cons' E'. rewrite Eg in E'. apply Hg. exact E'.
Qed.
Lemma movers_A_stuck o cN data p q lik liks : In o (dcons_a c ++ dcons_a_all c) -> valid nt nl nk o -> nt <> nt_movers c ->
  restricts nl nk o -> dfit_movers argsort solver pp nl nk c cN data p = Ok (q, lik, liks) ->
  exists s, relabelling nl s /\ (forall a l k, (l < nl)%nat -> (k < nk)%nat -> dA q a l k = dA p a (s l) k) /\
    (forall b k, (k < nk)%nat -> dAb q b k = dAb p b k).
Proof.
  intros Hin V Hn Hr E.
  apply (movers_fit_keeps (fun cons => stuck (nt * nl * nk) (fst cons)) cN data p q lik liks _ (fun p => (dA p, dAb p))) in E; try reflexivity.
  2:{ intros [qa qs] E1. exact (gen_A_stuck nt nl nk c true qa qs o Hin V Hr E1). }
  2:{ intros. destruct (movers_A_step Hn cons data0 qi p0 H) as [-> ->]. reflexivity. }
  destruct E as (q1 & q2 & q3 & E1 & E2 & E3 & ->). injection E2 as EA EB.
  destruct (dsort_spec argsort argsort_ok pp nl nk false false p) as (s & t & Hs & Ht & It & D & _). rewrite <- E1 in *.
  destruct (dsort_spec argsort argsort_ok pp nl nk false false q2) as (s2 & t2 & Hs2 & Ht2 & It2 & D2 & _). rewrite <- E3 in *.
  specialize (It eq_refl). specialize (It2 eq_refl).
  exists (fun l => s (s2 l)). split; [exact (BLMCtlRefLemmas.relabelling_comp nl s s2 Hs Hs2)|].
  assert (E4 : forall x : bool, dA (if x then dset_NNm (dmover_counts data) q3 else q3) = dA q3) by (intros []; reflexivity).
  assert (E5 : forall x : bool, dAb (if x then dset_NNm (dmover_counts data) q3 else q3) = dAb q3) by (intros []; reflexivity).
  split.
  - intros a l k Hl Hk. rewrite E4, (dr_A _ _ _ _ _ _ D2) by assumption. rewrite It2, EA.
    rewrite (dr_A _ _ _ _ _ _ D) by first [assumption|eapply relabelling_lt; eassumption]. now rewrite It.
  - intros b k Hk. rewrite E5, (dr_Ab _ _ _ _ _ _ D2) by assumption. rewrite It2, EB.
    rewrite (dr_Ab _ _ _ _ _ _ D) by assumption. now rewrite It.
Qed.
Lemma movers_S_stuck o cN data p q lik liks : In o (dcons_s c ++ dcons_s_all c) -> valid nt nl nk o -> nt <> nt_movers c ->
  restricts nl nk o -> dfit_movers argsort solver pp nl nk c cN data p = Ok (q, lik, liks) ->
  exists s, relabelling nl s /\ (forall a l k, (l < nl)%nat -> (k < nk)%nat -> dS q a l k = dS p a (s l) k) /\
    (forall b k, (k < nk)%nat -> dSb q b k = dSb p b k).
Proof.
  intros Hin V Hn Hr E.
  apply (movers_fit_keeps (fun cons => stuck (nt * nl * nk) (snd cons)) cN data p q lik liks _ (fun p => (dS p, dSb p))) in E; try reflexivity.
  2:{ intros [qa qs] E1. exact (gen_S_stuck nt nl nk c true qa qs o Hin V Hr E1). }
  2:{ intros. destruct (movers_S_step Hn cons data0 qi p0 H) as [-> ->]. reflexivity. }
  destruct E as (q1 & q2 & q3 & E1 & E2 & E3 & ->). injection E2 as EA EB.
  destruct (dsort_spec argsort argsort_ok pp nl nk false false p) as (s & t & Hs & Ht & It & D & _). rewrite <- E1 in *.
  destruct (dsort_spec argsort argsort_ok pp nl nk false false q2) as (s2 & t2 & Hs2 & Ht2 & It2 & D2 & _). rewrite <- E3 in *.
  specialize (It eq_refl). specialize (It2 eq_refl).
  exists (fun l => s (s2 l)). split; [exact (BLMCtlRefLemmas.relabelling_comp nl s s2 Hs Hs2)|].
  assert (E4 : forall x : bool, dS (if x then dset_NNm (dmover_counts data) q3 else q3) = dS q3) by (intros []; reflexivity).
  assert (E5 : forall x : bool, dSb (if x then dset_NNm (dmover_counts data) q3 else q3) = dSb q3) by (intros []; reflexivity).
  split.
  - intros a l k Hl Hk. rewrite E4, (dr_S _ _ _ _ _ _ D2) by assumption. rewrite It2, EA.
    rewrite (dr_S _ _ _ _ _ _ D) by first [assumption|eapply relabelling_lt; eassumption]. now rewrite It.
  - intros b k Hk. rewrite E5, (dr_Sb _ _ _ _ _ _ D2) by assumption. rewrite It2, EB.
    rewrite (dr_Sb _ _ _ _ _ _ D) by assumption. now rewrite It.
Qed.
Lemma movers_S_refused o cN data p r : In o (dcons_s c ++ dcons_s_all c) -> valid nt nl nk o -> nt <> nt_movers c ->
  restricts_le nl nk o -> dfit_movers argsort solver pp nl nk c cN data p <> Ok r.
Proof.
  intros Hin V Hn Hr E. unfold dfit_movers in E. cbv zeta in E.
  destruct (dgen_constraints nl nk c true) as [[qa qs]|] eqn:Eg; [|discriminate].
  exact (Hn (gen_S_le nt nl nk c qa qs o true nl_pos nk_pos Hin V Hr Eg)).
Qed.
End Stuck.
