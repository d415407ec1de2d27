(* The simulated data: proofs of the properties. *)
From Coq Require Import Permutation Sorted ZifyNat.
From Verif Require Import Base BaseLemmas BLMModel SimModel SimSpec SimLemmas.
Local Open Scope nat_scope.

Local Notation d0 := (mksrow 0 0 0 0 0).

Definition out_rows (m off : nat) (rows : list srow) (j1 j2 : list nat) : list orow :=
  map (fun r => mkorow (off + r) m (nth r j1 0) (nth r j2 0) (nth r rows d0)) (range (length rows)).

Lemma out_nth m off rows j1 j2 r d : r < length rows ->
  nth r (out_rows m off rows j1 j2) d = mkorow (off + r) m (nth r j1 0) (nth r j2 0) (nth r rows d0).
Proof.
  intros H. unfold out_rows.
  rewrite (nth_indep _ d (mkorow (off + 0) m (nth 0 j1 0) (nth 0 j2 0) (nth 0 rows d0)))
    by (rewrite map_length, range_length; auto).
  rewrite (map_nth (fun r => mkorow (off + r) m (nth r j1 0) (nth r j2 0) (nth r rows d0))).
  unfold range. now rewrite seq_nth.
Qed.
Lemma out_len m off rows j1 j2 : length (out_rows m off rows j1 j2) = length rows.
Proof. unfold out_rows. now rewrite map_length, range_length. Qed.
Lemma out_row m off rows j1 j2 : map o_row (out_rows m off rows j1 j2) = rows.
Proof.
  unfold out_rows. rewrite map_map. simpl. unfold range. symmetry.
  induction rows as [|x rows IH]; simpl; auto. f_equal. rewrite IH at 1.
  rewrite <- seq_shift, map_map. reflexivity.
Qed.
Lemma out_ids m off rows j1 j2 : map o_i (out_rows m off rows j1 j2) = seq off (length rows).
Proof.
  unfold out_rows. rewrite map_map. simpl. unfold range. generalize (length rows) as n. intros n.
  transitivity (seq (off + 0) n); [|f_equal; lia]. generalize 0 as a.
  induction n as [|n IH]; intros a; simpl; auto. f_equal. rewrite IH. f_equal. lia.
Qed.
Lemma out_in m off rows j1 j2 o : In o (out_rows m off rows j1 j2) <->
  exists r, r < length rows /\ o = mkorow (off + r) m (nth r j1 0) (nth r j2 0) (nth r rows d0).
Proof.
  unfold out_rows. rewrite in_map_iff. unfold range. split.
  - intros (r & <- & H). apply in_seq in H. exists r. split; [lia|auto].
  - intros (r & H & ->). exists r. split; auto. apply in_seq. lia.
Qed.

Section Sim.
Variables nl nk : nat.
Variables cm : nat -> nat -> nat.
Variables cs : nat -> nat.
Variables A1 A2 S1 S2 : mat.
Variable g : draws.
Local Notation movers := (movers nk cm A1 A2 S1 S2 g).
Local Notation stayers := (stayers nk cs A1 A2 S1 S2 g).
Local Notation firms := (stayer_firms nk cs A1 A2 S1 S2 g).
Local Notation simulate := (simulate nk cm cs A1 A2 S1 S2 g).
Local Notation redraw := (redraw nk cm cs A1 A2 S1 S2 g).

Lemma simulate_inv fuel jd sd : simulate fuel = Ok (jd, sd) ->
  exists j2,
    redraw fuel 1 (by_group (map s_g1 movers) (mv_j1 g)) (by_group (map s_g2 movers) (mv_j2 g 0)) = Ok j2 /\
    jd = out_rows 1 0 movers (by_group (map s_g1 movers) (mv_j1 g)) j2 /\
    sd = out_rows 0 (length movers) stayers firms firms.
Proof.
  unfold SimModel.simulate. destruct (_ || _); [discriminate|].
  destruct (check_firms _ _ _ _ _ _ _) as [|]; [simpl|discriminate].
  unfold mover_firms at 1. destruct (for_each (groups (map s_g1 movers)) _ _); [simpl|discriminate].
  unfold mover_firms at 1. destruct (for_each (groups (map s_g2 movers)) _ _); [simpl|discriminate].
  destruct (redraw _ _ _ _) as [j2|] eqn:E; [simpl|discriminate].
  intros H. inversion H. exists j2. auto.
Qed.

(* ---- firms of stayers ------------------------------------------------------ *)

Local Notation raw := (by_group (map s_g1 stayers) (st_firm g)).

Lemma raw_len : (forall k, k < nk -> length (st_firm g k) = cs k) -> length raw = length stayers.
Proof.
  intros H.
  assert (F : Forall2 (fun _ _ => True) (in_order_keys (map s_g1 stayers)) raw).
  { apply by_group_typed. intros k Hk. apply st_lt in Hk. rewrite (H _ Hk), (st_count nk cs A1 A2 S1 S2 g k Hk).
    split; auto. apply Forall_forall. auto. }
  apply Forall2_length in F. rewrite st_ordered, map_length in F. congruence.
Qed.

Lemma firms_len : (forall k, k < nk -> length (st_firm g k) = cs k) -> length firms = length stayers.
Proof.
  intros H. unfold stayer_firms, ngroup. rewrite map_length, combine_length, raw_len, map_length; auto. lia.
Qed.

Lemma firms_nth r : (forall k, k < nk -> length (st_firm g k) = cs k) -> r < length stayers ->
  nth r firms 0 = position (s_g1 (nth r stayers d0), nth r raw 0)
                           (pairs_present (combine (map s_g1 stayers) raw)) /\
  In (s_g1 (nth r stayers d0), nth r raw 0) (combine (map s_g1 stayers) raw).
Proof.
  intros H Hr. unfold stayer_firms, ngroup.
  set (ps := combine _ _). set (q := pairs_present ps).
  assert (L : length ps = length stayers).
  { unfold ps. rewrite combine_length, raw_len, map_length; auto. lia. }
  assert (E : nth r ps (s_g1 d0, 0) = (s_g1 (nth r stayers d0), nth r raw 0)).
  { unfold ps. rewrite combine_nth by (rewrite raw_len, map_length; auto). now rewrite map_nth. }
  split.
  - rewrite (nth_indep _ 0 (position (s_g1 d0, 0) q)) by (rewrite map_length; lia).
    rewrite (map_nth (fun p => position p q)). now rewrite E.
  - rewrite <- E. apply nth_In. lia.
Qed.

Lemma employs_iff off k j :
  employs (out_rows 0 off stayers firms firms) k j <->
  exists r, r < length stayers /\ s_g1 (nth r stayers d0) = k /\ nth r firms 0 = j.
Proof.
  unfold employs. split.
  - intros (o & Ho & E1 & E2). apply out_in in Ho. destruct Ho as (r & Hr & ->). simpl in *. eauto.
  - intros (r & Hr & E1 & E2). exists (mkorow (off + r) 0 (nth r firms 0) (nth r firms 0) (nth r stayers d0)).
    split; auto. apply out_in. eauto.
Qed.

Lemma employs_one off k k' j : (forall k, k < nk -> length (st_firm g k) = cs k) ->
  employs (out_rows 0 off stayers firms firms) k j ->
  employs (out_rows 0 off stayers firms firms) k' j -> k = k'.
Proof.
  intros H. rewrite !employs_iff. intros (r & Hr & <- & E) (r' & Hr' & <- & E').
  destruct (firms_nth r H Hr) as [P I], (firms_nth r' H Hr') as [P' I'].
  rewrite in_pairs in I, I'.
  destruct (position_nth _ _ (0, 0) I) as [Q _], (position_nth _ _ (0, 0) I') as [Q' _].
  rewrite <- P, E in Q. rewrite <- P', E' in Q'. rewrite Q in Q'. now inversion Q'.
Qed.

Lemma employs_contiguous off : (forall k, k < nk -> length (st_firm g k) = cs k) ->
  exists n, forall j, j < n <-> exists k, employs (out_rows 0 off stayers firms firms) k j.
Proof.
  intros H. set (q := pairs_present (combine (map s_g1 stayers) raw)).
  exists (length q). intros j. split.
  - intros Hj. assert (I : In (nth j q (0, 0)) (combine (map s_g1 stayers) raw)).
    { apply in_pairs. now apply nth_In. }
    destruct (In_nth _ _ (s_g1 d0, 0) I) as (r & Hr & E).
    assert (Hr' : r < length stayers) by (rewrite combine_length, map_length in Hr; lia).
    rewrite combine_nth in E by (rewrite raw_len, map_length; auto).
    rewrite map_nth in E.
    exists (s_g1 (nth r stayers d0)). apply employs_iff. exists r. repeat split; auto.
    destruct (firms_nth r H Hr') as [P _]. rewrite P. rewrite E. apply nth_position; auto.
    apply nodup_pairs.
  - intros (k & E). apply employs_iff in E. destruct E as (r & Hr & _ & <-).
    destruct (firms_nth r H Hr) as [P I]. rewrite P. rewrite in_pairs in I.
    now destruct (position_nth _ _ (0, 0) I).
Qed.

(* ---- movers ----------------------------------------------------------------- *)

Section Has.
Variable has : nat -> nat -> Prop.
Hypothesis ok : draws_ok nl nk cm cs has g.

Lemma j1_typed : Forall2 has (map s_g1 movers) (by_group (map s_g1 movers) (mv_j1 g)).
Proof.
  rewrite <- g1_ordered at 1. apply by_group_typed. intros k Hk. apply g1_lt in Hk.
  rewrite g1_count by auto. now apply (ok_mv_j1 _ _ _ _ _ _ ok).
Qed.

Lemma j2_typed t : Forall2 has (in_order_keys (map s_g2 movers)) (by_group (map s_g2 movers) (mv_j2 g t)).
Proof.
  apply by_group_typed. intros k Hk. apply g2_lt in Hk.
  rewrite g2_count by auto. now apply (ok_mv_j2 _ _ _ _ _ _ ok).
Qed.

Lemma redraw_typed fuel : forall t j1 j2 out,
  length j1 = length (in_order_keys (map s_g2 movers)) ->
  Forall2 has (in_order_keys (map s_g2 movers)) j2 ->
  redraw fuel t j1 j2 = Ok out ->
  Forall2 has (in_order_keys (map s_g2 movers)) out /\ Forall2 (fun a b => a <> b) j1 out.
Proof.
  assert (D : forall j1 j2, length j1 = length j2 ->
    existsb (fun p => Nat.eqb (fst p) (snd p)) (combine j1 j2) = false ->
    Forall2 (fun a b : nat => a <> b) j1 j2).
  { induction j1 as [|a j1 IH]; intros [|b j2] L E; simpl in *; try discriminate; constructor.
    - apply orb_false_iff in E. now apply Nat.eqb_neq.
    - apply orb_false_iff in E. apply IH; [lia|tauto]. }
  induction fuel as [|fuel IH]; intros t j1 j2 out L F; simpl;
    destruct (existsb _ _) eqn:E; try discriminate.
  - intros H; inversion H; subst. split; auto. apply D; auto. apply Forall2_length in F. congruence.
  - unfold mover_firms. destruct (for_each _ _ _); simpl; [|discriminate].
    apply IH; auto.
    pose proof (Forall2_length _ _ _ F) as L2. pose proof (j2_typed t) as T.
    pose proof (Forall2_length _ _ _ T) as L3.
    apply (nth_Forall2 _ _ _ 0 0); [rewrite map_length, range_length; auto|].
    intros r Hr.
    rewrite nth_map_range by lia.
    destruct (Nat.eqb _ _).
    + now apply (Forall2_nth has _ _ 0 0 T).
    + now apply (Forall2_nth has _ _ 0 0 F).
  - intros H; inversion H; subst. split; auto. apply D; auto. apply Forall2_length in F. congruence.
Qed.

Lemma sim_j2 fuel jd sd : simulate fuel = Ok (jd, sd) ->
  Forall2 has (map (fun o => s_g1 (o_row o)) jd) (map o_j1 jd) /\
  Forall2 has (in_order_keys (map (fun o => s_g2 (o_row o)) jd)) (map o_j2 jd) /\
  Forall (fun o => o_j1 o <> o_j2 o) jd.
Proof.
  intros H. apply simulate_inv in H. destruct H as (j2 & R & -> & ->).
  pose proof j1_typed as T1. pose proof (Forall2_length _ _ _ T1) as L1. rewrite map_length in L1.
  assert (LK : length (in_order_keys (map s_g2 movers)) = length movers).
  { rewrite (Permutation_length (in_order_perm _)). apply map_length. }
  destruct (redraw_typed fuel 1 _ _ j2 (eq_trans (eq_sym L1) (eq_sym LK)) (j2_typed 0) R) as [T2 N].
  pose proof (Forall2_length _ _ _ T2) as L2. rewrite LK in L2.
  set (rows := movers) in *. set (j1 := by_group _ _) in *.
  assert (E1 : map o_j1 (out_rows 1 0 rows j1 j2) = j1).
  { apply (nth_ext _ _ 0 0); [rewrite map_length, out_len; auto|].
    rewrite map_length, out_len. intros r Hr.
    rewrite (nth_indep _ 0 (o_j1 (mkorow 0 0 0 0 d0))) by (rewrite map_length, out_len; auto).
    rewrite map_nth, out_nth by auto. reflexivity. }
  assert (E2 : map o_j2 (out_rows 1 0 rows j1 j2) = j2).
  { apply (nth_ext _ _ 0 0); [rewrite map_length, out_len; auto|].
    rewrite map_length, out_len. intros r Hr.
    rewrite (nth_indep _ 0 (o_j2 (mkorow 0 0 0 0 d0))) by (rewrite map_length, out_len; auto).
    rewrite map_nth, out_nth by auto. reflexivity. }
  rewrite <- !(map_map o_row), !out_row, E1, E2. repeat split; auto.
  apply Forall_forall. intros o Ho. apply out_in in Ho. destruct Ho as (r & Hr & ->). simpl.
  apply (Forall2_nth (fun a b : nat => a <> b) j1 j2 0 0 N). lia.
Qed.
End Has.

(* ---- the properties ------------------------------------------------------------ *)

Lemma sim_counts fuel jd sd : simulate fuel = Ok (jd, sd) ->
  (forall k1 k2, k1 < nk -> k2 < nk -> count (of_types k1 k2) jd = cm k1 k2) /\
  (forall k, k < nk -> count (of_types k k) sd = cs k) /\
  Forall (fun o => s_g1 (o_row o) < nk /\ s_g2 (o_row o) < nk) jd /\
  Forall (fun o => s_g1 (o_row o) < nk /\ s_g2 (o_row o) = s_g1 (o_row o)) sd.
Proof.
  intros H. apply simulate_inv in H. destruct H as (j2 & _ & -> & ->).
  assert (C : forall (p : srow -> bool) l, length (filter (fun o => p (o_row o)) l) = length (filter p (map o_row l))).
  { intros p l. induction l as [|o l IH]; simpl; auto. destruct (p (o_row o)); simpl; auto. }
  assert (Q : forall (P : srow -> Prop) l, Forall P (map o_row l) -> Forall (fun o => P (o_row o)) l).
  { intros P l F. apply (proj1 (Forall_map o_row P l)). exact F. }
  repeat split.
  - intros k1 k2 H1 H2. unfold count, of_types.
    rewrite (C (fun o => Nat.eqb (s_g1 o) k1 && Nat.eqb (s_g2 o) k2)), out_row. now apply movers_types.
  - intros k Hk. unfold count, of_types.
    rewrite (C (fun o => Nat.eqb (s_g1 o) k && Nat.eqb (s_g2 o) k)), out_row. now apply stayers_types.
  - apply (Q (fun o => s_g1 o < nk /\ s_g2 o < nk)). rewrite out_row. apply Forall_forall. intros o Ho.
    split; [apply (g1_lt nk cm A1 A2 S1 S2 g)|apply (g2_lt nk cm A1 A2 S1 S2 g)]; now apply in_map.
  - apply (Q (fun o => s_g1 o < nk /\ s_g2 o = s_g1 o)). rewrite out_row. apply Forall_forall. intros o Ho.
    split; [apply (st_lt nk cs A1 A2 S1 S2 g); now apply in_map|].
    unfold SimModel.stayers in Ho. apply in_flat_map in Ho. destruct Ho as (k & _ & Ho).
    unfold stayer_block in Ho. apply in_map_iff in Ho. destruct Ho as (q & <- & _). reflexivity.
Qed.

Lemma sim_ids fuel jd sd : simulate fuel = Ok (jd, sd) ->
  map o_i (jd ++ sd) = range (length jd + length sd) /\
  Forall (fun o => o_m o = 1) jd /\ Forall (fun o => o_m o = 0 /\ o_j1 o = o_j2 o) sd.
Proof.
  intros H. apply simulate_inv in H. destruct H as (j2 & _ & -> & ->).
  repeat split.
  - rewrite map_app, !out_ids, !out_len. unfold range. now rewrite seq_app.
  - apply Forall_forall. intros o Ho. apply out_in in Ho. destruct Ho as (r & _ & ->). reflexivity.
  - apply Forall_forall. intros o Ho. apply out_in in Ho. destruct Ho as (r & _ & ->). split; reflexivity.
Qed.

Lemma sim_firms fuel jd sd : simulate fuel = Ok (jd, sd) ->
  (forall k, k < nk -> length (st_firm g k) = cs k) ->
  (exists n, forall j, j < n <-> exists k, employs sd k j) /\
  (forall k k' j, employs sd k j -> employs sd k' j -> k = k').
Proof.
  intros H L. apply simulate_inv in H. destruct H as (j2 & _ & _ & ->). split.
  - now apply employs_contiguous.
  - intros k k' j. now apply employs_one.
Qed.

Lemma for_each_unit {A} (l : list A) (b : A -> res unit) u :
  for_each l (fun x _ => b x) tt = Ok u -> forall x, In x l -> exists v, b x = Ok v.
Proof.
  induction l as [|y l IH]; intros H x; [intros []|]. cbn [for_each] in H.
  destruct (b y) as [v|] eqn:E; [|discriminate]. cbn [bind] in H. destruct v.
  intros [<-|Hx]; [now exists tt|]. now apply IH.
Qed.
Lemma in_unique x l : In x (unique l) -> In x l.
Proof.
  induction l as [|y l IH]; cbn [unique]; [auto|]. intros [<-|H]; [now left|].
  apply filter_In in H. right. now apply IH.
Qed.
Lemma sim_two_firms fuel jd sd : simulate fuel = Ok (jd, sd) ->
  (forall k, k < nk -> length (st_firm g k) = cs k) ->
  forall k j, employs sd k j -> exists j', j' <> j /\ employs sd k j'.
Proof.
  intros H Hl k j He. destruct (simulate_inv fuel jd sd H) as (j2 & _ & _ & ->).
  assert (Hc : exists u, check_firms nk cs A1 A2 S1 S2 g = Ok u).
  { unfold SimModel.simulate in H. destruct (_ || _); [discriminate|].
    destruct (check_firms _ _ _ _ _ _ _) as [u|]; [now exists u|discriminate]. }
  destruct Hc as [u Hc]. unfold check_firms in Hc.
  assert (L : length firms = length stayers) by now apply firms_len.
  assert (In1 : forall j, employs (out_rows 0 (length movers) stayers firms firms) k j <->
                In j (map snd (filter (fun p => Nat.eqb (fst p) k) (combine (map s_g1 stayers) firms)))).
  { intros i. rewrite employs_iff, in_map_iff. split.
    - intros (r & Hr & E1 & E2). exists (k, i). split; [reflexivity|]. apply filter_In.
      split; [|cbn [fst]; apply Nat.eqb_refl].
      assert (E : nth r (combine (map s_g1 stayers) firms) (s_g1 d0, 0) = (k, i)).
      { rewrite combine_nth by (rewrite map_length; congruence). rewrite map_nth. congruence. }
      rewrite <- E. apply nth_In. rewrite combine_length, map_length, L. lia.
    - intros ((k', i') & E & Hi). cbn [snd] in E. subst i'. apply filter_In in Hi as [Hi Ek].
      cbn [fst] in Ek. apply Nat.eqb_eq in Ek. subst k'.
      apply (In_nth _ _ (s_g1 d0, 0)) in Hi as (r & Hr & E).
      rewrite combine_length, map_length, L in Hr.
      rewrite combine_nth, map_nth in E by (rewrite map_length; congruence). inversion E.
      exists r. split; [lia|]. now split. }
  destruct (for_each_unit _ _ _ Hc k) as [v Hk].
  { apply in_groups. apply employs_iff in He as (r & Hr & <- & _). now apply in_map, nth_In. }
  pose proof (proj1 (In1 j) He) as Hj. unfold firms_of in Hk.
  set (F := map snd _) in *.
  destruct F as [|x F0] eqn:EF; [destruct Hj|]. cbn [unique] in Hk.
  destruct (filter (fun y => negb (x =? y)) (unique F0)) as [|y r] eqn:Er; [discriminate|].
  assert (Hy : In y (y :: r)) by now left. rewrite <- Er in Hy. apply filter_In in Hy as [Hy Hn].
  apply in_unique in Hy. apply Bool.negb_true_iff, Nat.eqb_neq in Hn.
  destruct (Nat.eq_dec x j) as [->|Hx].
  - exists y. split; [congruence|]. apply In1. now right.
  - exists x. split; [exact Hx|]. apply In1. now left.
Qed.

Lemma sim_second fuel jd sd : simulate fuel = Ok (jd, sd) ->
  draws_ok nl nk cm cs (employs sd) g ->
  (Forall (fun o => employs sd (s_g2 (o_row o)) (o_j2 o)) jd
   <-> StronglySorted le (map (fun o => s_g2 (o_row o)) jd)).
Proof.
  intros H ok. destruct (sim_j2 _ ok _ _ _ H) as (_ & T & _).
  destruct (sim_firms _ _ _ H (ok_st_firm _ _ _ _ _ _ ok)) as [_ U].
  assert (R : Forall (fun o => employs sd (s_g2 (o_row o)) (o_j2 o)) jd <->
              Forall2 (employs sd) (map (fun o => s_g2 (o_row o)) jd) (map o_j2 jd)).
  { clear. induction jd as [|o jd IH]; simpl; [split; constructor|].
    split; intros F; inversion F; subst; constructor; tauto. }
  rewrite R. split.
  - intros F. replace (map (fun o => s_g2 (o_row o)) jd) with (in_order_keys (map (fun o => s_g2 (o_row o)) jd)).
    { apply in_order_sorted. }
    revert T F. generalize (in_order_keys (map (fun o => s_g2 (o_row o)) jd)) as l.
    generalize (map (fun o => s_g2 (o_row o)) jd) as m. generalize (map o_j2 jd) as j. clear -U.
    induction j as [|x j IH]; intros m l T F; inversion T; inversion F; subst; auto.
    f_equal; eauto.
  - intros Hs. replace (map (fun o => s_g2 (o_row o)) jd) with (in_order_keys (map (fun o => s_g2 (o_row o)) jd)); auto.
    apply sorted_perm_eq; auto using in_order_sorted, in_order_perm.
Qed.

Lemma sim_second_order fuel jd sd : simulate fuel = Ok (jd, sd) ->
  draws_ok nl nk cm cs (employs sd) g ->
  exists ks, Permutation ks (map (fun o => s_g2 (o_row o)) jd) /\ StronglySorted le ks /\
             Forall2 (employs sd) ks (map o_j2 jd).
Proof.
  intros H ok. destruct (sim_j2 _ ok _ _ _ H) as (_ & T & _).
  exists (in_order_keys (map (fun o => s_g2 (o_row o)) jd)).
  split; [apply in_order_perm|split; [apply in_order_sorted|exact T]].
Qed.

Lemma sorted_app_inv (l m : list nat) x y : StronglySorted le (l ++ m) -> In x l -> In y m -> x <= y.
Proof.
  induction l as [|z l IH]; simpl; [tauto|]. intros Hs Hx Hy. inversion Hs as [|? ? Hs' F]; subst.
  destruct Hx as [->|Hx]; auto. rewrite Forall_forall in F. apply F. apply in_or_app. auto.
Qed.

Lemma sim_second_wrong fuel jd sd k1 k2 k1' k2' : simulate fuel = Ok (jd, sd) ->
  draws_ok nl nk cm cs (employs sd) g ->
  k1 < k1' < nk -> k2' < k2 < nk -> 0 < cm k1 k2 -> 0 < cm k1' k2' ->
  exists o, In o jd /\ ~ employs sd (s_g2 (o_row o)) (o_j2 o).
Proof.
  intros H ok H1 H2 C C'.
  destruct (sim_second _ _ _ H ok) as [N _].
  destruct (simulate_inv _ _ _ H) as (j2 & _ & Ejd & _).
  assert (NS : ~ StronglySorted le (map (fun o => s_g2 (o_row o)) jd)).
  { rewrite <- (map_map o_row), Ejd, out_row, movers_g2.
    assert (ER : range nk = seq 0 k1' ++ seq k1' (nk - k1')).
    { unfold range. rewrite <- seq_app. f_equal. lia. }
    set (f := fun k1 : nat => _). rewrite ER, flat_map_app. unfold f. clear f ER.
    intros Hs. assert (k2 <= k2'); [|lia].
    apply (sorted_app_inv _ _ _ _ Hs).
    - apply in_flat_map. exists k1. split; [apply in_seq; lia|].
      apply in_flat_map. exists k2. split; [unfold range; apply in_seq; lia|].
      destruct (cm k1 k2); [lia|now left].
    - apply in_flat_map. exists k1'. split; [apply in_seq; lia|].
      apply in_flat_map. exists k2'. split; [unfold range; apply in_seq; lia|].
      destruct (cm k1' k2'); [lia|now left]. }
  assert (D : forall k j, {employs sd k j} + {~ employs sd k j}).
  { intros k j. destruct (existsb (fun o => Nat.eqb (s_g1 (o_row o)) k && Nat.eqb (o_j1 o) j) sd) eqn:E.
    - left. apply existsb_exists in E. destruct E as (o & Ho & E). apply andb_true_iff in E.
      rewrite !Nat.eqb_eq in E. exists o. tauto.
    - right. intros (o & Ho & E1 & E2).
      assert (existsb (fun o => Nat.eqb (s_g1 (o_row o)) k && Nat.eqb (o_j1 o) j) sd = true); [|congruence].
      apply existsb_exists. exists o. split; auto. now rewrite E1, E2, !Nat.eqb_refl. }
  destruct (Forall_Exists_dec (fun o => employs sd (s_g2 (o_row o)) (o_j2 o)) (fun o => D _ _) jd) as [F|F].
  - now destruct (NS (N F)).
  - apply Exists_exists in F. exact F.
Qed.
End Sim.

(* ---- worker types and wages ---------------------------------------------------- *)

Lemma flat_map_single {A} (f : nat -> list A) a n k :
  (forall i, i <> k -> f i = []) -> a <= k < a + n -> flat_map f (seq a n) = f k.
Proof.
  revert a; induction n as [|n IH]; intros a H L; simpl; [lia|].
  destruct (Nat.eq_dec a k) as [->|N].
  - replace (flat_map f (seq (S k) n)) with (@nil A); [apply app_nil_r|].
    assert (G : forall b, k < b -> flat_map f (seq b n) = []).
    { clear -H. induction n as [|n IH]; intros b Hb; simpl; auto. rewrite H, IH by lia. auto. }
    symmetry. apply G. lia.
  - rewrite (H a N). simpl. apply IH; auto. lia.
Qed.

Lemma filter_all {A B} (p : B -> bool) (f : A -> B) l b : (forall a, p (f a) = b) ->
  filter p (map f l) = if b then map f l else [].
Proof.
  intros H. induction l as [|a l IH]; simpl; [now destruct b|].
  rewrite H, IH. now destruct b.
Qed.

Section Wages.
Variables nl nk : nat.
Variables cm : nat -> nat -> nat.
Variables cs : nat -> nat.
Variables A1 A2 S1 S2 : mat.
Variable g : draws.
Local Notation simulate := (simulate nk cm cs A1 A2 S1 S2 g).

Lemma movers_block k1 k2 : k1 < nk -> k2 < nk ->
  filter (fun o => Nat.eqb (s_g1 o) k1 && Nat.eqb (s_g2 o) k2) (movers nk cm A1 A2 S1 S2 g)
  = mover_block cm A1 A2 S1 S2 g k1 k2.
Proof.
  intros H1 H2. unfold movers. rewrite filter_flat_map. unfold range.
  rewrite (flat_map_single _ 0 nk k1); [| |lia].
  - rewrite filter_flat_map. rewrite (flat_map_single _ 0 nk k2); [| |lia].
    + unfold mover_block. rewrite (filter_all _ _ _ true); auto.
      intros a. simpl. now rewrite !Nat.eqb_refl.
    + intros i Hi. unfold mover_block. rewrite (filter_all _ _ _ false); auto.
      intros a. simpl. destruct (Nat.eqb_spec i k2); [lia|]. apply andb_false_r.
  - intros i Hi. rewrite filter_flat_map. induction (seq 0 nk) as [|x r IH]; simpl; auto.
    rewrite IH, app_nil_r. unfold mover_block. rewrite (filter_all _ _ _ false); auto.
    intros a. simpl. destruct (Nat.eqb_spec i k1); [lia|]. reflexivity.
Qed.

Lemma stayers_block k : k < nk ->
  filter (fun o => Nat.eqb (s_g1 o) k && Nat.eqb (s_g2 o) k) (stayers nk cs A1 A2 S1 S2 g)
  = stayer_block cs A1 A2 S1 S2 g k.
Proof.
  intros H. unfold stayers. rewrite filter_flat_map. unfold range.
  rewrite (flat_map_single _ 0 nk k); [| |lia].
  - unfold stayer_block. rewrite (filter_all _ _ _ true); auto.
    intros a. simpl. now rewrite !Nat.eqb_refl.
  - intros i Hi. unfold stayer_block. rewrite (filter_all _ _ _ false); auto.
    intros a. simpl. destruct (Nat.eqb_spec i k); [lia|]. reflexivity.
Qed.

Lemma map_nth_range {A} (l : list A) d n : length l = n -> map (fun q => nth q l d) (range n) = l.
Proof.
  intros <-. apply (nth_ext _ _ d d); [now rewrite map_length, range_length|].
  rewrite map_length, range_length. intros r Hr. now rewrite nth_map_range.
Qed.

Lemma filter_o_row (p : srow -> bool) l :
  map o_row (filter (fun o => p (o_row o)) l) = filter p (map o_row l).
Proof. induction l as [|o l IH]; simpl; auto. destruct (p (o_row o)); simpl; congruence. Qed.

Lemma sim_worker_types fuel jd sd has : simulate fuel = Ok (jd, sd) ->
  draws_ok nl nk cm cs has g ->
  (forall k1 k2, k1 < nk -> k2 < nk ->
     map (fun o => s_l (o_row o)) (filter (of_types k1 k2) jd) = mv_l g k1 k2) /\
  (forall k, k < nk -> map (fun o => s_l (o_row o)) (filter (of_types k k) sd) = st_l g k).
Proof.
  intros H ok. apply simulate_inv in H. destruct H as (j2 & _ & -> & ->). split.
  - intros k1 k2 H1 H2. rewrite <- (map_map o_row). unfold of_types.
    rewrite (filter_o_row (fun o => Nat.eqb (s_g1 o) k1 && Nat.eqb (s_g2 o) k2)), out_row, movers_block by auto.
    unfold mover_block. rewrite map_map. simpl. apply map_nth_range.
    now apply (ok_mv_l _ _ _ _ _ _ ok).
  - intros k Hk. rewrite <- (map_map o_row). unfold of_types.
    rewrite (filter_o_row (fun o => Nat.eqb (s_g1 o) k && Nat.eqb (s_g2 o) k)), out_row, stayers_block by auto.
    unfold stayer_block. rewrite map_map. simpl. apply map_nth_range.
    now apply (ok_st_l _ _ _ _ _ _ ok).
Qed.

Lemma map2_range {B} (f : nat -> nat -> B) l n : length l = n ->
  map (fun q => f q (nth q l 0)) (range n) = map2 f (range n) l.
Proof.
  intros <-. unfold range.
  assert (H : forall k l, map (fun q => f (k + q) (nth q l 0)) (seq 0 (length l)) = map2 f (seq k (length l)) l).
  { clear. intros k l. revert k. induction l as [|x l IH]; intros k; [reflexivity|]. cbn [length seq map map2].
    rewrite <- (IH (S k)), <- seq_shift, map_map, Nat.add_0_r. cbn. f_equal. apply map_ext. intros q.
    now rewrite Nat.add_succ_r. }
  exact (H 0 l).
Qed.

Lemma sim_wages fuel jd sd has : simulate fuel = Ok (jd, sd) ->
  draws_ok nl nk cm cs has g ->
  (forall k1 k2, k1 < nk -> k2 < nk ->
     map (fun o => (s_y1 (o_row o), s_y2 (o_row o))) (filter (of_types k1 k2) jd)
     = map2 (fun q l => (A1 l k1 + S1 l k1 * mv_z1 g k1 k2 q, A2 l k2 + S2 l k2 * mv_z2 g k1 k2 q)%R)
         (range (cm k1 k2)) (mv_l g k1 k2)) /\
  (forall k, k < nk ->
     map (fun o => (s_y1 (o_row o), s_y2 (o_row o))) (filter (of_types k k) sd)
     = map2 (fun q l => (A1 l k + S1 l k * st_z1 g k q, A2 l k + S2 l k * st_z2 g k q)%R)
         (range (cs k)) (st_l g k)).
Proof.
  intros H ok. apply simulate_inv in H. destruct H as (j2 & _ & -> & ->). split.
  - intros k1 k2 H1 H2. rewrite <- (map_map o_row (fun o => (s_y1 o, s_y2 o))). unfold of_types.
    rewrite (filter_o_row (fun o => Nat.eqb (s_g1 o) k1 && Nat.eqb (s_g2 o) k2)), out_row, movers_block by auto.
    unfold mover_block. rewrite map_map. simpl.
    exact (map2_range (fun q l => (A1 l k1 + S1 l k1 * mv_z1 g k1 k2 q, A2 l k2 + S2 l k2 * mv_z2 g k1 k2 q)%R)
             _ _ (proj1 (ok_mv_l _ _ _ _ _ _ ok k1 k2 H1 H2))).
  - intros k Hk. rewrite <- (map_map o_row (fun o => (s_y1 o, s_y2 o))). unfold of_types.
    rewrite (filter_o_row (fun o => Nat.eqb (s_g1 o) k && Nat.eqb (s_g2 o) k)), out_row, stayers_block by auto.
    unfold stayer_block. rewrite map_map. simpl.
    exact (map2_range (fun q l => (A1 l k + S1 l k * st_z1 g k q, A2 l k + S2 l k * st_z2 g k q)%R)
             _ _ (proj1 (ok_st_l _ _ _ _ _ _ ok k Hk))).
Qed.

End Wages.

(* ---- a case ---------------------------------------------------------------------- *)

Lemma employs_b sd k j :
  existsb (fun o => Nat.eqb (s_g1 (o_row o)) k && Nat.eqb (o_j1 o) j) sd = true -> employs sd k j.
Proof.
  intros E. apply existsb_exists in E. destruct E as (o & Ho & E). apply andb_true_iff in E.
  rewrite !Nat.eqb_eq in E. exists o. tauto.
Qed.

(* Two firm types, one mover between each pair, three stayers at two firms of each
   type; the first second firm of the first mover is their old one. *)
Definition sim_draws : draws :=
  mkdraws (fun k1 k2 => [k1 + k2]) (fun _ _ _ => 0%R) (fun _ _ _ => 0%R)
          (fun k => [k; 2; k]) (fun _ _ => 0%R) (fun _ _ => 0%R)
          (fun k => [5; k; 5])
          (fun k => if k =? 0 then [0; 0] else [2; 3])
          (fun t k => if k =? 0 then (if t =? 0 then [0; 1] else [1; 0])
                    else (if t =? 0 then [2; 2] else [3; 3])).

Lemma sim_case : exists jd sd,
  simulate 2 (fun _ _ => 1) (fun _ => 3) (fun l k => INR (l + k)) (fun l k => INR l) (fun _ _ => 1%R) (fun _ _ => 1%R)
    sim_draws 3 = Ok (jd, sd) /\
  map o_j1 jd = [0; 0; 2; 3] /\ map o_j2 jd = [1; 1; 3; 2] /\ map o_j1 sd = [1; 0; 1; 3; 2; 3] /\
  draws_ok 3 2 (fun _ _ => 1) (fun _ => 3) (employs sd) sim_draws.
Proof.
  eexists. eexists. split; [cbv -[INR Rplus Rmult IZR]; reflexivity|].
  split; [reflexivity|]. split; [reflexivity|]. split; [reflexivity|].
  set (sd := _ :: _). constructor.
  - intros [|[|k1]] [|[|k2]] H1 H2; try lia; split; auto; repeat constructor.
  - intros [|[|k]] H; try lia; split; auto; repeat constructor.
  - intros [|[|k]] H; try lia; reflexivity.
  - intros [|[|k]] H; try lia; (split; [reflexivity|]); repeat constructor; apply employs_b; reflexivity.
  - intros [|t] [|[|k]] H; try lia; (split; [reflexivity|]); repeat constructor; apply employs_b; reflexivity.
Qed.
