(* Proofs about the CRE model: leave-out means, cluster shifts, within parameters. *)
From Coq Require Import Permutation.
From Verif Require Import Base BaseLemmas CreModel CreSpec CreLemmas.
Local Open Scope R_scope.

(* Counts and means *)
Lemma count_sum {A} (sel : A -> bool) f l : count_of sel l <> 0 ->
  count_of sel l * mean_of sel f l = rsum (map f (filter sel l)).
Proof. intros H. unfold mean_of. field. auto. Qed.

Lemma count_pos {A} (sel : A -> bool) l x : In x l -> sel x = true -> 0 < count_of sel l.
Proof.
  intros I S. unfold count_of. apply lt_0_INR.
  assert (J : In x (filter sel l)) by (apply filter_In; auto).
  destruct (filter sel l); [destruct J|cbn; lia].
Qed.

Lemma filter_split_sum {A} (sel c : A -> bool) f l :
  rsum (map f (filter sel l)) =
  rsum (map f (filter (fun x => sel x && c x) l)) + rsum (map f (filter (fun x => sel x && negb (c x)) l)).
Proof.
  induction l as [|x l IH]; cbn [filter map rsum]; [ring|].
  destruct (sel x), (c x); cbn [andb negb map rsum]; rewrite IH; ring.
Qed.

Lemma filter_split_len {A} (sel c : A -> bool) l :
  length (filter sel l) =
  (length (filter (fun x => sel x && c x) l) + length (filter (fun x => sel x && negb (c x)) l))%nat.
Proof.
  induction l as [|x l IH]; cbn [filter length]; auto.
  destruct (sel x), (c x); cbn [andb negb length]; rewrite IH; lia.
Qed.

Lemma picks_filter {A} (P : A -> Prop) (sel : A -> bool) l l' :
  (forall x, In x l -> (sel x = true <-> P x)) -> picks P l l' -> l' = filter sel l.
Proof.
  intros H K. induction K as [|x l l' Px K IH|x l l' Px K IH]; cbn [filter]; auto.
  - rewrite (proj2 (H x (or_introl eq_refl)) Px). f_equal. apply IH. intros y I. apply H. right. auto.
  - destruct (sel x) eqn:E.
    + apply H in E; [tauto|left; auto].
    + apply IH. intros y I. apply H. right. auto.
Qed.

Lemma filter_picks {A} (P : A -> Prop) (sel : A -> bool) l :
  (forall x, In x l -> (sel x = true <-> P x)) -> picks P l (filter sel l).
Proof.
  induction l as [|x l IH]; intros H; cbn [filter]; [constructor|].
  assert (IH' := IH (fun y I => H y (or_intror I))).
  destruct (sel x) eqn:E.
  - constructor; auto. apply H; [left; auto|auto].
  - apply picks_out; auto. intros Px. apply H in Px; [congruence|left; auto].
Qed.

Lemma gtb_INR a b : gtb (INR a) (INR b) = (b <? a)%nat.
Proof.
  unfold gtb. destruct (Rlt_dec (INR b) (INR a)) as [H|H], (Nat.ltb_spec b a) as [K|K]; auto.
  - apply INR_lt in H. lia.
  - apply lt_INR in K. lra.
Qed.

Lemma leave_out_gen {A} (sel c : A -> bool) f l x : In x l -> sel x = true -> c x = true ->
  let selc := fun y => sel y && c y in
  let others := filter (fun y => sel y && negb (c y)) l in
  gtb (count_of sel l) (count_of selc l) = negb (length others =? 0)%nat /\
  (others <> [] ->
    (count_of sel l * mean_of sel f l - count_of selc l * mean_of selc f l) / (count_of sel l - count_of selc l)
    = average f others).
Proof.
  intros I S C selc others.
  assert (L := filter_split_len sel c l). fold others in L.
  split.
  - unfold count_of. rewrite gtb_INR, L. fold selc.
    destruct (Nat.eqb_spec (length others) 0), (Nat.ltb_spec (length (filter selc l)) (length (filter selc l) + length others)); cbn [negb]; auto; lia.
  - intros N.
    assert (P1 : 0 < count_of sel l) by (apply (count_pos sel l x); auto).
    assert (P2 : 0 < count_of selc l) by (apply (count_pos selc l x); auto; unfold selc; rewrite S, C; auto).
    rewrite !count_sum by lra.
    rewrite (filter_split_sum sel c f l). fold selc. fold others. unfold count_of. rewrite L, plus_INR. fold selc.
    unfold average.
    assert (INR (length others) <> 0).
    { apply not_0_INR. destruct others; [congruence|cbn; lia]. }
    f_equal; [|f_equal]; ring.
Qed.

Definition comp1 (r r' : mover) : bool := (m_j1 r' =? m_j1 r)%nat && negb (m_g2 r' =? m_g2 r)%nat.
Definition comp2 (r r' : mover) : bool := (m_j2 r' =? m_j2 r)%nat && negb (m_g1 r' =? m_g1 r)%nat.
Lemma comp1_iff r r' : comp1 r r' = true <-> comparable1 r r'.
Proof.
  unfold comp1, comparable1. rewrite andb_true_iff, negb_true_iff, Nat.eqb_eq, Nat.eqb_neq. tauto.
Qed.
Lemma comp2_iff r r' : comp2 r r' = true <-> comparable2 r r'.
Proof.
  unfold comp2, comparable2. rewrite andb_true_iff, negb_true_iff, Nat.eqb_eq, Nat.eqb_neq. tauto.
Qed.

Lemma m1j_lo_spec f dm r others : In r dm -> picks (comparable1 r) dm others -> others <> [] ->
  m1j_lo f dm r = average f others.
Proof.
  intros I K N. rewrite (picks_filter _ (comp1 r) _ _ (fun x _ => comp1_iff r x) K) in *.
  exact (proj2 (leave_out_gen (leaves_same r) (fun r' => m_g2 r' =? m_g2 r)%nat f dm r I
     (Nat.eqb_refl _) (Nat.eqb_refl _)) N).
Qed.
Lemma m2j_lo_spec f dm r others : In r dm -> picks (comparable2 r) dm others -> others <> [] ->
  m2j_lo f dm r = average f others.
Proof.
  intros I K N. rewrite (picks_filter _ (comp2 r) _ _ (fun x _ => comp2_iff r x) K) in *.
  exact (proj2 (leave_out_gen (joins_same r) (fun r' => m_g1 r' =? m_g1 r)%nat f dm r I
     (Nat.eqb_refl _) (Nat.eqb_refl _)) N).
Qed.

Lemma filter_nonempty {A} (sel : A -> bool) l : negb (length (filter sel l) =? 0)%nat = true <-> exists x, In x l /\ sel x = true.
Proof.
  rewrite negb_true_iff, Nat.eqb_neq. split.
  - intros N. destruct (filter sel l) as [|x k] eqn:E; [cbn in N; congruence|].
    exists x. apply filter_In. rewrite E. left. auto.
  - intros (x & I). apply filter_In in I. destruct (filter sel l); [destruct I|cbn; lia].
Qed.

Lemma has_comp1 dm r : In r dm ->
  (gtb (nm1j dm r) (nm1c dm r) = true <-> exists r', In r' dm /\ comparable1 r r').
Proof.
  intros I.
  assert (G := proj1 (leave_out_gen (leaves_same r) (fun r' => m_g2 r' =? m_g2 r)%nat m_y1 dm r I
     (Nat.eqb_refl _) (Nat.eqb_refl _))).
  change (gtb (nm1j dm r) (nm1c dm r) = negb (length (filter (comp1 r) dm) =? 0)%nat) in G.
  rewrite G, filter_nonempty. split; intros (x & J & K); exists x; split; auto; apply comp1_iff; auto.
Qed.
Lemma has_comp2 dm r : In r dm ->
  (gtb (nm2j dm r) (nm2c dm r) = true <-> exists r', In r' dm /\ comparable2 r r').
Proof.
  intros I.
  assert (G := proj1 (leave_out_gen (joins_same r) (fun r' => m_g1 r' =? m_g1 r)%nat m_y1 dm r I
     (Nat.eqb_refl _) (Nat.eqb_refl _))).
  change (gtb (nm2j dm r) (nm2c dm r) = negb (length (filter (comp2 r) dm) =? 0)%nat) in G.
  rewrite G, filter_nonempty. split; intros (x & J & K); exists x; split; auto; apply comp2_iff; auto.
Qed.

Lemma picks_nonempty {A} (P : A -> Prop) l l' : picks P l l' -> (exists x, In x l /\ P x) -> l' <> [].
Proof.
  induction 1 as [|x l l' Px K IH|x l l' Px K IH]; intros (y & I & Py); [destruct I|discriminate|].
  destruct I as [<-|I]; [tauto|]. apply IH. eauto.
Qed.
Lemma picks_in_l {A} (P : A -> Prop) l l' : picks P l l' -> forall x, In x l' -> In x l /\ P x.
Proof.
  induction 1 as [|x l l' Px K IH|x l l' Px K IH]; intros y I; [destruct I| |].
  - destruct I as [<-|I]; [split; [left|]; auto|]. destruct (IH y I). split; [right|]; auto.
  - destruct (IH y I). split; [right|]; auto.
Qed.

(* cov1 and the sample covariance *)
Lemma map2_map {A} (f : R -> R -> R) (g h : A -> R) l : map2 f (map g l) (map h l) = map (fun x => f (g x) (h x)) l.
Proof. induction l as [|x l IH]; cbn [map map2]; auto. rewrite IH. auto. Qed.

Lemma qcov_sample {A} (f g : A -> R) l : qcov f g l = sample_cov f g l.
Proof.
  unfold qcov, cov1, sample_cov. rewrite map2_map, map_length. unfold mean, average. rewrite !map_length. auto.
Qed.
Lemma sample_cov_ext {A} (f g f' g' : A -> R) l : (forall x, In x l -> f x = f' x) -> (forall x, In x l -> g x = g' x) ->
  sample_cov f g l = sample_cov f' g' l.
Proof.
  intros E E'. unfold sample_cov, average. rewrite (rsum_map_ext f f' l E), (rsum_map_ext g g' l E'). f_equal.
  apply rsum_map_ext. intros x I. rewrite E, E' by auto. auto.
Qed.

Lemma moment1 (f g lo : mover -> R) dm rows :
  picks (fun r => exists r', In r' dm /\ comparable1 r r') dm rows ->
  (forall r l, In r dm -> picks (comparable1 r) dm l -> lo r = average g l) ->
  qcov f (m1j_lo g dm) (filter (fun r => gtb (nm1j dm r) (nm1c dm r)) dm) = sample_cov f lo rows.
Proof.
  intros K L. rewrite <- (picks_filter _ _ _ _ (has_comp1 dm) K), qcov_sample.
  apply sample_cov_ext; auto. intros r I. destruct (picks_in_l _ _ _ K r I) as [J E].
  assert (F := filter_picks (comparable1 r) (comp1 r) dm (fun x _ => comp1_iff r x)).
  rewrite (L r _ J F). apply m1j_lo_spec; auto. apply (picks_nonempty _ _ _ F). auto.
Qed.
Lemma moment2 (f g lo : mover -> R) dm rows :
  picks (fun r => exists r', In r' dm /\ comparable2 r r') dm rows ->
  (forall r l, In r dm -> picks (comparable2 r) dm l -> lo r = average g l) ->
  qcov f (m2j_lo g dm) (filter (fun r => gtb (nm2j dm r) (nm2c dm r)) dm) = sample_cov f lo rows.
Proof.
  intros K L. rewrite <- (picks_filter _ _ _ _ (has_comp2 dm) K), qcov_sample.
  apply sample_cov_ext; auto. intros r I. destruct (picks_in_l _ _ _ K r I) as [J E].
  assert (F := filter_picks (comparable2 r) (comp2 r) dm (fun x _ => comp2_iff r x)).
  rewrite (L r _ J F). apply m2j_lo_spec; auto. apply (picks_nonempty _ _ _ F). auto.
Qed.

(* Stayers *)
Definition same_firm (r r' : stayer) : bool := (s_j1 r' =? s_j1 r)%nat.

Lemma remove_at_filter i (ds : list stayer) r (sel : stayer -> bool) : nth_error ds i = Some r -> sel r = true ->
  rsum (map s_y1 (filter sel ds)) = s_y1 r + rsum (map s_y1 (filter sel (remove_at i ds))) /\
  length (filter sel ds) = S (length (filter sel (remove_at i ds))).
Proof.
  unfold remove_at. revert i. induction ds as [|x ds IH]; intros [|i] E S; cbn [nth_error] in E; try discriminate.
  - injection E as ->. cbn [firstn skipn app filter]. rewrite S. cbn [map rsum length]. auto.
  - destruct (IH i E S) as [H1 H2]. cbn [firstn skipn app filter].
    cbn [skipn] in H1, H2. destruct (sel x); cbn [map rsum length]; rewrite H1, H2; split; auto; ring.
Qed.

Lemma y1s_lo_spec ds i r others : nth_error ds i = Some r ->
  picks (fun r' => s_j1 r' = s_j1 r) (remove_at i ds) others -> others <> [] ->
  y1s_lo ds r = average s_y1 others.
Proof.
  intros E K N.
  rewrite (picks_filter _ (same_firm r) _ _ (fun x _ => Nat.eqb_eq _ _) K) in *.
  destruct (remove_at_filter i ds r (same_firm r) E (Nat.eqb_refl _)) as [H1 H2].
  unfold y1s_lo, nsj, y1sj. fold (same_firm r).
  assert (I := nth_error_In _ _ E).
  assert (0 < count_of (same_firm r) ds) by (apply (count_pos _ _ r); auto; apply Nat.eqb_refl).
  rewrite count_sum by lra. rewrite H1. unfold count_of. rewrite H2, S_INR. unfold average.
  set (o := filter (same_firm r) (remove_at i ds)) in *.
  assert (INR (length o) <> 0).
  { apply not_0_INR. destruct o; [congruence|cbn; lia]. }
  f_equal; [|f_equal]; ring.
Qed.

Lemma coworker_iff ds i r : nth_error ds i = Some r ->
  (gtb (nsj ds r) 1 = true <-> exists r', In r' (remove_at i ds) /\ s_j1 r' = s_j1 r).
Proof.
  intros E. destruct (remove_at_filter i ds r (same_firm r) E (Nat.eqb_refl _)) as [_ H].
  unfold nsj, count_of. fold (same_firm r). change 1 with (INR 1) at 1. rewrite gtb_INR, H.
  rewrite Nat.ltb_lt. split.
  - intros L. destruct (filter (same_firm r) (remove_at i ds)) as [|x k] eqn:F; [cbn in L; lia|].
    exists x. assert (J : In x (x :: k)) by (left; auto). rewrite <- F in J. apply filter_In in J.
    destruct J as [J K]. split; auto. apply Nat.eqb_eq. auto.
  - intros (x & J & K).
    assert (In x (filter (same_firm r) (remove_at i ds))) by (apply filter_In; split; auto; apply Nat.eqb_eq; auto).
    destruct (filter (same_firm r) (remove_at i ds)); [destruct H0|cbn; lia].
Qed.
