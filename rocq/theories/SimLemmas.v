(* Lemmas about the simulated data. *)
From Coq Require Import Permutation Sorted ZifyNat.
From Verif Require Import Base BaseLemmas BLMModel SimModel SimSpec.
Local Open Scope nat_scope.

(* ---- sorted lists of numbers ---------------------------------------------- *)

Lemma sorted_perm_eq (l m : list nat) :
  StronglySorted le l -> StronglySorted le m -> Permutation l m -> l = m.
Proof.
  revert m; induction l as [|x l IH]; intros m Hl Hm P.
  - apply Permutation_nil in P. now subst.
  - destruct m as [|y m]; [apply Permutation_sym, Permutation_nil in P; discriminate|].
    inversion Hl as [|? ? Hl' Fx]; inversion Hm as [|? ? Hm' Fy]; subst.
    rewrite Forall_forall in Fx, Fy.
    assert (x = y).
    { assert (Hx : In x (y :: m)) by (eapply Permutation_in; [exact P|now left]).
      assert (Hy : In y (x :: l)) by (eapply Permutation_in; [apply Permutation_sym, P|now left]).
      destruct Hx as [|Hx]; [congruence|]. destruct Hy as [|Hy]; [congruence|].
      specialize (Fx _ Hy); specialize (Fy _ Hx). lia. }
    subst y. f_equal. apply IH; auto. now apply Permutation_cons_inv in P.
Qed.

Lemma sorted_app_le (l m : list nat) : StronglySorted le l -> StronglySorted le m ->
  (forall x y, In x l -> In y m -> x <= y) -> StronglySorted le (l ++ m).
Proof.
  induction l as [|x l IH]; simpl; intros Hl Hm H; auto.
  inversion Hl as [|? ? Hl' F]; subst. constructor.
  - apply IH; auto.
  - apply Forall_app; split; auto. rewrite Forall_forall. intros y Hy. apply H; auto.
Qed.

Lemma sorted_repeat (k n : nat) : StronglySorted le (repeat k n).
Proof.
  induction n; simpl; constructor; auto. rewrite Forall_forall. intros y Hy.
  apply repeat_spec in Hy. lia.
Qed.

Lemma sorted_blocks (f : nat -> nat) a n :
  StronglySorted le (flat_map (fun k => repeat k (f k)) (seq a n)).
Proof.
  revert a; induction n as [|n IH]; intros a; simpl; [constructor|].
  apply sorted_app_le; auto using sorted_repeat.
  intros x y Hx Hy. apply repeat_spec in Hx. apply in_flat_map in Hy. destruct Hy as (k & Hk & Hy).
  apply in_seq in Hk. apply repeat_spec in Hy. lia.
Qed.

Lemma flat_map_filter {A} (p : nat -> bool) (f : nat -> list A) l :
  (forall k, In k l -> p k = false -> f k = []) ->
  flat_map f (filter p l) = flat_map f l.
Proof.
  induction l as [|x l IH]; simpl; intros H; auto.
  destruct (p x) eqn:E; simpl.
  - rewrite IH; auto.
  - rewrite IH; auto. rewrite (H x); auto.
Qed.

Lemma count_occ_filter (l : list nat) k :
  count_occ Nat.eq_dec l k = length (filter (Nat.eqb k) l).
Proof.
  induction l as [|x l IH]; simpl; auto.
  destruct (Nat.eq_dec x k) as [->|N]; [rewrite Nat.eqb_refl; simpl; auto|].
  destruct (Nat.eqb_spec k x); [congruence|auto].
Qed.

Lemma le_maxn x l : In x l -> x <= maxn l.
Proof. induction l as [|y l IH]; simpl; [tauto|]. intros [->|H]; [lia|]. specialize (IH H). lia. Qed.

Lemma in_groups k keys : In k (groups keys) <-> In k keys.
Proof.
  unfold groups. rewrite filter_In. split.
  - intros [_ H]. apply existsb_exists in H. destruct H as (y & Hy & E). apply Nat.eqb_eq in E. now subst.
  - intros H. split.
    + unfold range. apply in_seq. pose proof (le_maxn _ _ H). lia.
    + apply existsb_exists. exists k. rewrite Nat.eqb_refl. auto.
Qed.

(* The keys in increasing order. *)
Definition in_order_keys (keys : list nat) : list nat :=
  flat_map (fun k => repeat k (count_occ Nat.eq_dec keys k)) (groups keys).

Lemma in_order_range keys : in_order_keys keys =
  flat_map (fun k => repeat k (count_occ Nat.eq_dec keys k)) (range (S (maxn keys))).
Proof.
  unfold in_order_keys, groups. apply flat_map_filter. intros k _ E.
  replace (count_occ Nat.eq_dec keys k) with 0; auto.
  symmetry. apply count_occ_not_In. intros Hk.
  assert (existsb (Nat.eqb k) keys = true); [|congruence].
  apply existsb_exists. exists k. rewrite Nat.eqb_refl. auto.
Qed.

Lemma count_blocks (f : nat -> nat) a n x :
  count_occ Nat.eq_dec (flat_map (fun k => repeat k (f k)) (seq a n)) x
  = if (a <=? x) && (x <? a + n) then f x else 0.
Proof.
  revert a; induction n as [|n IH]; intros a; simpl.
  - destruct (Nat.leb_spec a x), (Nat.ltb_spec x (a + 0)); simpl; lia.
  - rewrite count_occ_app, IH.
    destruct (Nat.eq_dec a x) as [->|N].
    + rewrite count_occ_repeat_eq by auto.
      destruct (Nat.leb_spec (S x) x), (Nat.leb_spec x x), (Nat.ltb_spec x (x + S n)); simpl; lia.
    + rewrite count_occ_repeat_neq by auto.
      destruct (Nat.leb_spec (S a) x), (Nat.leb_spec a x), (Nat.ltb_spec x (S a + n)),
        (Nat.ltb_spec x (a + S n)); simpl; lia.
Qed.

Lemma in_order_sorted keys : StronglySorted le (in_order_keys keys).
Proof. rewrite in_order_range. apply sorted_blocks. Qed.

Lemma in_order_perm keys : Permutation (in_order_keys keys) keys.
Proof.
  apply (Permutation_count_occ Nat.eq_dec). intros x.
  rewrite in_order_range. unfold range. rewrite count_blocks. simpl.
  destruct (Nat.ltb_spec x (S (maxn keys))); auto.
  symmetry. apply count_occ_not_In. intros Hi. pose proof (le_maxn _ _ Hi). lia.
Qed.

(* The values drawn group by group, against the keys in order. *)
Lemma Forall2_repeat {A} (P : nat -> A -> Prop) k l :
  Forall (P k) l -> Forall2 P (repeat k (length l)) l.
Proof. induction 1; simpl; constructor; auto. Qed.

Lemma by_group_typed {A} (P : nat -> A -> Prop) keys (draw : nat -> list A) :
  (forall k, In k keys -> length (draw k) = count_occ Nat.eq_dec keys k /\ Forall (P k) (draw k)) ->
  Forall2 P (in_order_keys keys) (by_group keys draw).
Proof.
  intros H. unfold in_order_keys, by_group.
  assert (G : forall k, In k (groups keys) -> In k keys) by (intros k; apply in_groups).
  induction (groups keys) as [|k ks IH]; simpl; [constructor|].
  apply Forall2_app.
  - destruct (H k) as [L F]; [apply G; now left|]. rewrite <- L. now apply Forall2_repeat.
  - apply IH. intros k' Hk'. apply G. now right.
Qed.

Lemma count_occ_flat_map {A} (f : A -> list nat) l x :
  count_occ Nat.eq_dec (flat_map f l) x = list_sum (map (fun a => count_occ Nat.eq_dec (f a) x) l).
Proof. induction l as [|a l IH]; simpl; auto. now rewrite count_occ_app, IH. Qed.

Lemma list_sum_ext {A} (f h : A -> nat) l : (forall a, In a l -> f a = h a) ->
  list_sum (map f l) = list_sum (map h l).
Proof. intros H. f_equal. now apply map_ext_in. Qed.

Lemma list_sum_single (f : nat -> nat) a n k :
  (forall i, i <> k -> f i = 0) -> a <= k < a + n -> list_sum (map f (seq a n)) = f k.
Proof.
  revert a; induction n as [|n IH]; intros a H L; simpl; [lia|].
  destruct (Nat.eq_dec a k) as [->|N].
  - replace (list_sum (map f (seq (S k) n))) with 0; [lia|].
    symmetry. clear -H. assert (G : forall b, k < b -> list_sum (map f (seq b n)) = 0).
    { induction n as [|n IH]; intros b Hb; simpl; auto. rewrite H, IH by lia. auto. }
    apply G. lia.
  - rewrite (H a N). simpl. apply IH; auto. lia.
Qed.

Lemma count_occ_repeat (k n x : nat) :
  count_occ Nat.eq_dec (repeat k n) x = if Nat.eq_dec k x then n else 0.
Proof.
  destruct (Nat.eq_dec k x); [apply count_occ_repeat_eq; auto|apply count_occ_repeat_neq; auto].
Qed.

Lemma map_flat_map {A B C} (h : B -> C) (f : A -> list B) l :
  map h (flat_map f l) = flat_map (fun a => map h (f a)) l.
Proof. induction l as [|a l IH]; simpl; auto. now rewrite map_app, IH. Qed.

Lemma filter_flat_map {A B} (p : B -> bool) (f : A -> list B) l :
  filter p (flat_map f l) = flat_map (fun a => filter p (f a)) l.
Proof. induction l as [|a l IH]; simpl; auto. now rewrite filter_app, IH. Qed.

Lemma flat_map_len {A B} (f : A -> list B) l :
  length (flat_map f l) = list_sum (map (fun a => length (f a)) l).
Proof. induction l as [|a l IH]; simpl; auto. now rewrite app_length, IH. Qed.

Lemma map_const {A B} (c : B) (l : list A) : map (fun _ => c) l = repeat c (length l).
Proof. induction l; simpl; congruence. Qed.

Lemma repeat_blocks {A} (c : A) (f : nat -> nat) l :
  flat_map (fun k => repeat c (f k)) l = repeat c (list_sum (map f l)).
Proof. induction l as [|a l IH]; simpl; auto. now rewrite repeat_app, IH. Qed.

Lemma Forall2_length {A B} (P : A -> B -> Prop) l m : Forall2 P l m -> length l = length m.
Proof. induction 1; simpl; congruence. Qed.

Lemma Forall2_nth {A B} (P : A -> B -> Prop) l m a b : Forall2 P l m ->
  forall r, r < length l -> P (nth r l a) (nth r m b).
Proof. induction 1; simpl; intros [|r] Hr; auto; try lia. apply IHForall2. lia. Qed.

Lemma nth_Forall2 {A B} (P : A -> B -> Prop) l m a b : length l = length m ->
  (forall r, r < length l -> P (nth r l a) (nth r m b)) -> Forall2 P l m.
Proof.
  revert m; induction l as [|x l IH]; intros [|y m] L H; simpl in *; try discriminate; constructor.
  - apply (H 0). lia.
  - apply IH; [lia|]. intros r Hr. apply (H (S r)). lia.
Qed.

Lemma range_length n : length (range n) = n.
Proof. apply seq_length. Qed.

Lemma nth_map_range {A} (f : nat -> A) n r d : r < n -> nth r (map f (range n)) d = f r.
Proof.
  intros H. rewrite (nth_indep _ d (f 0)) by (rewrite map_length, range_length; auto).
  rewrite map_nth. unfold range. now rewrite seq_nth.
Qed.

Lemma NoDup_app_intro {A} (l m : list A) : NoDup l -> NoDup m ->
  (forall x, In x l -> ~ In x m) -> NoDup (l ++ m).
Proof.
  induction 1 as [|x l Hx Hl IH]; simpl; intros Hm H; auto.
  constructor; auto. rewrite in_app_iff. intros [|Hi]; [auto|]. apply (H x); auto.
Qed.

Lemma in_blocks (f : nat -> nat) n k : In k (flat_map (fun k => repeat k (f k)) (range n)) -> k < n.
Proof.
  intros H. apply in_flat_map in H. destruct H as (j & Hj & H). apply repeat_spec in H. subst.
  unfold range in Hj. apply in_seq in Hj. lia.
Qed.

Lemma pair_eqb_eq p q : pair_eqb p q = true <-> p = q.
Proof.
  destruct p as [a b], q as [c d]; unfold pair_eqb; simpl.
  rewrite andb_true_iff, !Nat.eqb_eq. split; [intros [-> ->]|intros E; inversion E]; auto.
Qed.

Lemma position_nth p l d : In p l -> nth (position p l) l d = p /\ position p l < length l.
Proof.
  induction l as [|q l IH]; simpl; [tauto|]. intros H.
  destruct (pair_eqb p q) eqn:E.
  - apply pair_eqb_eq in E. subst. split; auto. lia.
  - destruct H as [->|H]; [rewrite (proj2 (pair_eqb_eq p p) eq_refl) in E; discriminate|].
    destruct (IH H). split; auto. lia.
Qed.

Lemma nth_position l r d : NoDup l -> r < length l -> position (nth r l d) l = r.
Proof.
  revert r; induction l as [|q l IH]; simpl; intros r ND Hr; [lia|].
  inversion ND; subst. destruct r as [|r].
  - now rewrite (proj2 (pair_eqb_eq q q) eq_refl).
  - destruct (pair_eqb (nth r l d) q) eqn:E.
    + apply pair_eqb_eq in E. exfalso. apply H1. rewrite <- E. apply nth_In. lia.
    + f_equal. apply IH; auto. lia.
Qed.

Lemma in_pairs p ps : In p ps <-> In p (pairs_present ps).
Proof.
  unfold pairs_present. rewrite filter_In. split.
  - intros H. split.
    + destruct p as [a b]. apply in_prod.
      * unfold range. apply in_seq. pose proof (le_maxn a (map fst ps) (in_map fst _ _ H)). lia.
      * unfold range. apply in_seq. pose proof (le_maxn b (map snd ps) (in_map snd _ _ H)). lia.
    + apply existsb_exists. exists p. split; auto. now apply pair_eqb_eq.
  - intros [_ H]. apply existsb_exists in H. destruct H as (q & Hq & E).
    apply pair_eqb_eq in E. now subst.
Qed.

Lemma nodup_pairs ps : NoDup (pairs_present ps).
Proof.
  unfold pairs_present. apply NoDup_filter.
  generalize (seq_NoDup (S (maxn (map fst ps))) 0) (seq_NoDup (S (maxn (map snd ps))) 0).
  fold (range (S (maxn (map fst ps)))) (range (S (maxn (map snd ps)))).
  generalize (range (S (maxn (map fst ps)))) (range (S (maxn (map snd ps)))).
  intros l m Hl Hm. induction Hl as [|x l Hx Hl IH]; simpl; [constructor|].
  apply NoDup_app_intro; auto.
  - clear -Hm. induction Hm as [|y m Hy Hm IH]; simpl; constructor; auto.
    intros H. apply in_map_iff in H. destruct H as (z & E & Hz). inversion E; subst. auto.
  - intros [a b] H1 H2. apply in_map_iff in H1. destruct H1 as (z & E & _). inversion E; subst.
    apply in_prod_iff in H2. tauto.
Qed.
Section Movers.
Variable nk : nat.
Variable cm : nat -> nat -> nat.
Variables A1 A2 S1 S2 : mat.
Variable g : draws.
Local Notation movers := (movers nk cm A1 A2 S1 S2 g).

Lemma movers_g1 : map s_g1 movers
  = flat_map (fun k1 => repeat k1 (list_sum (map (fun k2 => cm k1 k2) (range nk)))) (range nk).
Proof.
  unfold SimModel.movers. rewrite map_flat_map. apply flat_map_ext. intros k1.
  rewrite map_flat_map, <- repeat_blocks. apply flat_map_ext. intros k2.
  unfold mover_block. rewrite map_map. simpl. rewrite map_const. now rewrite range_length.
Qed.

Lemma movers_g2 : map s_g2 movers
  = flat_map (fun k1 => flat_map (fun k2 => repeat k2 (cm k1 k2)) (range nk)) (range nk).
Proof.
  unfold SimModel.movers. rewrite map_flat_map. apply flat_map_ext. intros k1.
  rewrite map_flat_map. apply flat_map_ext. intros k2.
  unfold mover_block. rewrite map_map. simpl. rewrite map_const. now rewrite range_length.
Qed.

Lemma g1_count k : k < nk -> count_occ Nat.eq_dec (map s_g1 movers) k
  = list_sum (map (fun k2 => cm k k2) (range nk)).
Proof.
  intros H. rewrite movers_g1. change (flat_map ?f (range nk)) with (flat_map f (seq 0 nk)); rewrite count_blocks. simpl.
  now rewrite (proj2 (Nat.ltb_lt _ _) H).
Qed.

Lemma g2_count k : k < nk -> count_occ Nat.eq_dec (map s_g2 movers) k
  = list_sum (map (fun k1 => cm k1 k) (range nk)).
Proof.
  intros H. rewrite movers_g2. rewrite count_occ_flat_map. apply list_sum_ext. intros k1 _.
  unfold range. rewrite count_blocks. simpl. now rewrite (proj2 (Nat.ltb_lt _ _) H).
Qed.

Lemma g1_lt k : In k (map s_g1 movers) -> k < nk.
Proof. rewrite movers_g1. apply in_blocks. Qed.
Lemma g2_lt k : In k (map s_g2 movers) -> k < nk.
Proof.
  rewrite movers_g2. intros H. apply in_flat_map in H. destruct H as (j & Hj & H).
  now apply in_blocks in H.
Qed.
Lemma g1_ordered : in_order_keys (map s_g1 movers) = map s_g1 movers.
Proof.
  apply sorted_perm_eq; [apply in_order_sorted| |apply in_order_perm].
  rewrite movers_g1. apply sorted_blocks.
Qed.
Lemma movers_types k1 k2 : k1 < nk -> k2 < nk ->
  length (filter (fun o => Nat.eqb (s_g1 o) k1 && Nat.eqb (s_g2 o) k2) movers) = cm k1 k2.
Proof.
  intros H1 H2. unfold SimModel.movers. rewrite filter_flat_map, flat_map_len.
  cbv beta; change (range nk) with (seq 0 nk). rewrite (list_sum_single _ 0 nk k1); [| |lia].
  - rewrite filter_flat_map, flat_map_len. cbv beta; change (range nk) with (seq 0 nk). rewrite (list_sum_single _ 0 nk k2); [| |lia].
    + unfold mover_block. set (l := map _ _). replace (filter _ l) with l.
      * unfold l. now rewrite map_length, range_length.
      * symmetry. unfold l. clear. induction (range (cm k1 k2)); simpl; auto.
        rewrite !Nat.eqb_refl. simpl. congruence.
    + intros i Hi. unfold mover_block. induction (range (cm k1 i)); simpl; auto.
      rewrite Nat.eqb_refl. destruct (Nat.eqb_spec i k2); [lia|]. simpl. auto.
  - intros i Hi. rewrite filter_flat_map, flat_map_len.
    generalize (seq 0 nk). intros r0. induction r0 as [|k2' r IH]; simpl; auto. rewrite IH.
    unfold mover_block. rewrite Nat.add_0_r. induction (range (cm i k2')); simpl; auto.
    destruct (Nat.eqb_spec i k1); [lia|]. simpl. auto.
Qed.

End Movers.

Section Stayers.
Variable nk : nat.
Variable cs : nat -> nat.
Variables A1 A2 S1 S2 : mat.
Variable g : draws.
Local Notation stayers := (stayers nk cs A1 A2 S1 S2 g).

Lemma stayers_g1 : map s_g1 stayers = flat_map (fun k => repeat k (cs k)) (range nk).
Proof.
  unfold SimModel.stayers. rewrite map_flat_map. apply flat_map_ext. intros k.
  unfold stayer_block. rewrite map_map. simpl. rewrite map_const. now rewrite range_length.
Qed.

Lemma st_count k : k < nk -> count_occ Nat.eq_dec (map s_g1 stayers) k = cs k.
Proof.
  intros H. rewrite stayers_g1. unfold range. rewrite count_blocks. simpl.
  now rewrite (proj2 (Nat.ltb_lt _ _) H).
Qed.

Lemma st_lt k : In k (map s_g1 stayers) -> k < nk.
Proof. rewrite stayers_g1. apply in_blocks. Qed.

Lemma st_ordered : in_order_keys (map s_g1 stayers) = map s_g1 stayers.
Proof.
  apply sorted_perm_eq; [apply in_order_sorted| |apply in_order_perm].
  rewrite stayers_g1. apply sorted_blocks.
Qed.

Lemma stayers_types k : k < nk ->
  length (filter (fun o => Nat.eqb (s_g1 o) k && Nat.eqb (s_g2 o) k) stayers) = cs k.
Proof.
  intros H. unfold SimModel.stayers. rewrite filter_flat_map, flat_map_len.
  cbv beta; change (range nk) with (seq 0 nk). rewrite (list_sum_single _ 0 nk k); [| |lia].
  - unfold stayer_block. set (l := map _ _). replace (filter _ l) with l.
    + unfold l. now rewrite map_length, range_length.
    + symmetry. unfold l. clear. induction (range (cs k)); simpl; auto.
      rewrite !Nat.eqb_refl. simpl. congruence.
  - intros i Hi. unfold stayer_block. induction (range (cs i)); simpl; auto.
    destruct (Nat.eqb_spec i k); [lia|]. simpl. auto.
Qed.

End Stayers.
