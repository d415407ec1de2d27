(* Lemmas about counts of workers by firm type. *)
From Verif Require Import Base CntModel CntSpec.
Local Open Scope nat_scope.

Lemma present k l : existsb (Nat.eqb k) l = true <-> In k l.
Proof.
  rewrite existsb_exists. split.
  - intros (x & H & E). apply Nat.eqb_eq in E. now subst.
  - intros H. exists k. now rewrite Nat.eqb_refl.
Qed.
Lemma count1 g k : length (filter (Nat.eqb k) g) = stayers_at g k.
Proof.
  unfold stayers_at. induction g as [|x g IH]; [reflexivity|]. cbn [filter count_occ].
  destruct (Nat.eq_dec x k) as [->|N].
  - rewrite Nat.eqb_refl. cbn [length]. now rewrite IH.
  - rewrite (proj2 (Nat.eqb_neq k x)) by congruence. exact IH.
Qed.
Lemma count2 m a b : length (filter (fun m => (a =? fst m) && (b =? snd m)) m) = moves m a b.
Proof.
  unfold moves. induction m as [|[x y] m IH]; [reflexivity|]. cbn [filter count_occ fst snd].
  destruct (pair_dec (x, y) (a, b)) as [E|N].
  - injection E as -> ->. rewrite !Nat.eqb_refl. cbn [length andb]. now rewrite IH.
  - destruct ((a =? x) && (b =? y)) eqn:E; [|exact IH].
    apply andb_prop in E as [E1 E2]. apply Nat.eqb_eq in E1, E2. subst. now contradiction N.
Qed.
Lemma filter_all {X} (f : X -> bool) l : (forall x, In x l -> f x = true) -> filter f l = l.
Proof.
  induction l as [|x l IH]; intros H; [reflexivity|]. cbn. rewrite (H x) by now left.
  f_equal. apply IH. intros y Hy. apply H. now right.
Qed.
Lemma le_max k l : In k l -> k <= list_max l.
Proof.
  intros H. pose proof (proj1 (list_max_le l (list_max l)) (Nat.le_refl _)) as F.
  rewrite Forall_forall in F. now apply F.
Qed.
Lemma index_all nk l : 0 < nk -> all_types nk l -> index_of l = range nk.
Proof.
  intros Hn H. unfold index_of.
  assert (list_max l = nk - 1) as ->.
  { apply Nat.le_antisymm.
    - apply list_max_le, Forall_forall. intros x Hx. apply H in Hx. lia.
    - apply le_max, H. lia. }
  replace (S (nk - 1)) with nk by lia. apply filter_all. intros k Hk. apply present, H.
  unfold range in Hk. apply in_seq in Hk. lia.
Qed.
Lemma nth_range n i : i < n -> nth_error (range n) i = Some i.
Proof.
  intros H. unfold range. rewrite (nth_error_nth' _ 0) by now rewrite seq_length. now rewrite seq_nth.
Qed.

Lemma stayers_lemma nk g : 0 < nk -> all_types nk g ->
  length (NNs_of g) = nk /\ forall k, k < nk -> nth_error (NNs_of g) k = Some (stayers_at g k).
Proof.
  intros Hn H. unfold NNs_of. rewrite (index_all nk) by assumption. split.
  - rewrite map_length. unfold range. apply seq_length.
  - intros k Hk. rewrite (map_nth_error _ k (range nk) (nth_range nk k Hk)). now rewrite count1.
Qed.
Lemma movers_lemma nk m : 0 < nk -> all_types nk (map fst m) -> all_types nk (map snd m) ->
  length (NNm_of m) = nk /\ Forall (fun r => length r = nk) (NNm_of m) /\
  forall a b, a < nk -> b < nk ->
    exists r, nth_error (NNm_of m) a = Some r /\ nth_error r b = Some (moves m a b).
Proof.
  intros Hn H1 H2. unfold NNm_of. rewrite (index_all nk) by assumption. rewrite (index_all nk) by assumption.
  split; [|split].
  - rewrite map_length. unfold range. apply seq_length.
  - apply Forall_forall. intros r Hr. apply in_map_iff in Hr as (a & <- & _). rewrite map_length. unfold range. apply seq_length.
  - intros a b Ha Hb. eexists. split.
    + exact (map_nth_error _ a (range nk) (nth_range nk a Ha)).
    + rewrite (map_nth_error _ b (range nk) (nth_range nk b Hb)). now rewrite count2.
Qed.

(* Where a type is found if a smaller one is missing. *)
Lemma filter_short {X} (f : X -> bool) l x : In x l -> f x = false -> length (filter f l) < length l.
Proof.
  induction l as [|y l IH]; [intros []|]. intros [->|H] E; cbn.
  - rewrite E. clear IH. induction l as [|z l IH]; cbn; [lia|]. destruct (f z); cbn in *; lia.
  - specialize (IH H E). destruct (f y); cbn; lia.
Qed.
Lemma filter_length_le' {X} (f : X -> bool) l : (List.length (filter f l) <= List.length l)%nat.
Proof. induction l as [|x l IH]; cbn; [lia|]. destruct (f x); cbn; lia. Qed.
Lemma absent_false k l : ~ In k l -> existsb (Nat.eqb k) l = false.
Proof. intros H. destruct (existsb _ l) eqn:E; [|reflexivity]. now apply present in E. Qed.
Lemma index_shift l k k' : k < k' -> ~ In k l -> In k' l ->
  exists i, i < k' /\ nth_error (index_of l) i = Some k'.
Proof.
  intros Hk N I. exists (length (filter (fun k => existsb (Nat.eqb k) l) (range k'))). split.
  - eapply Nat.lt_le_trans; [apply filter_short with (x := k)|unfold range; now rewrite seq_length].
    + unfold range. apply in_seq. lia.
    + now apply absent_false.
  - pose proof (le_max k' l I) as Hm. unfold index_of, range.
    replace (S (list_max l)) with (k' + (1 + (list_max l - k'))) by lia.
    rewrite seq_app, filter_app, nth_error_app2 by apply Nat.le_refl.
    rewrite Nat.sub_diag. cbn [plus seq]. cbn [filter]. rewrite (proj2 (present k' l) I). reflexivity.
Qed.
Lemma index_length nk l k : (forall x, In x l -> x < nk) -> k < nk -> ~ In k l ->
  length (index_of l) < nk.
Proof.
  intros B Hk N. unfold index_of.
  assert (Hm : list_max l < nk).
  { assert (H : list_max l <= nk - 1); [|lia].
    apply list_max_le, Forall_forall. intros x Hx. specialize (B x Hx). lia. }
  destruct (Nat.le_gt_cases (S (list_max l)) k) as [L|G].
  - eapply Nat.le_lt_trans; [|exact Hk]. eapply Nat.le_trans; [|exact L].
    rewrite <- (seq_length (S (list_max l)) 0) at 2. apply filter_length_le'.
  - eapply Nat.lt_le_trans; [apply filter_short with (x := k)|].
    + unfold range. apply in_seq. lia.
    + now apply absent_false.
    + unfold range. rewrite seq_length. lia.
Qed.

Lemma stayers_shift g nk k : (forall x, In x g -> x < nk) -> k < nk -> ~ In k g ->
  length (NNs_of g) < nk /\
  forall k', k < k' -> In k' g -> exists i, i < k' /\ nth_error (NNs_of g) i = Some (stayers_at g k').
Proof.
  intros B Hk N. split.
  - unfold NNs_of. rewrite map_length. now apply index_length with k.
  - intros k' Hk' I. destruct (index_shift g k k' Hk' N I) as (i & Hi & E). exists i. split; [exact Hi|].
    unfold NNs_of. rewrite (map_nth_error _ i _ E). now rewrite count1.
Qed.
Lemma movers_shift m nk k : (forall x, In x m -> fst x < nk /\ snd x < nk) -> k < nk ->
  ~ In k (map fst m) ->
  length (NNm_of m) < nk /\
  forall a b, k < a -> In (a, b) m ->
    exists i j r, i < a /\ nth_error (NNm_of m) i = Some r /\ nth_error r j = Some (moves m a b).
Proof.
  intros B Hk N. split.
  - unfold NNm_of. rewrite map_length. apply index_length with k; try assumption.
    intros x Hx. apply in_map_iff in Hx as (y & <- & Hy). now apply B.
  - intros a b Ha I. destruct (index_shift (map fst m) k a Ha N (in_map fst _ _ I)) as (i & Hi & E).
    assert (Ib : In b (index_of (map snd m))).
    { unfold index_of. apply filter_In. pose proof (in_map snd _ _ I) as Ib. split; [|now apply present].
      unfold range. apply in_seq. pose proof (le_max _ _ Ib). cbn in *. lia. }
    apply In_nth_error in Ib as (j & Ej).
    exists i, j. eexists. split; [exact Hi|]. split.
    + exact (map_nth_error _ i _ E).
    + rewrite (map_nth_error _ j _ Ej). now rewrite count2.
Qed.

Lemma columns_shift m nk k : (forall x, In x m -> fst x < nk /\ snd x < nk) -> k < nk ->
  ~ In k (map snd m) ->
  Forall (fun r => length r < nk) (NNm_of m) /\
  forall a b, k < b -> In (a, b) m ->
    exists i j r, j < b /\ nth_error (NNm_of m) i = Some r /\ nth_error r j = Some (moves m a b).
Proof.
  intros B Hk N. split.
  - unfold NNm_of. apply Forall_forall. intros r Hr. apply in_map_iff in Hr as (a & <- & _).
    rewrite map_length. apply index_length with k; try assumption.
    intros x Hx. apply in_map_iff in Hx as (y & <- & Hy). now apply B.
  - intros a b Hb I. destruct (index_shift (map snd m) k b Hb N (in_map snd _ _ I)) as (j & Hj & E).
    assert (Ia : In a (index_of (map fst m))).
    { unfold index_of. apply filter_In. pose proof (in_map fst _ _ I) as Ia. split; [|now apply present].
      unfold range. apply in_seq. pose proof (le_max _ _ Ia). cbn in *. lia. }
    apply In_nth_error in Ia as (i & Ei).
    exists i, j. eexists. split; [exact Hj|]. split.
    + exact (map_nth_error _ i _ Ei).
    + rewrite (map_nth_error _ j _ E). now rewrite count2.
Qed.
Lemma index_in x l : In x l -> In x (index_of l).
Proof.
  intros I. unfold index_of. apply filter_In. split; [|now apply present].
  unfold range. apply in_seq. pose proof (le_max _ _ I). lia.
Qed.
Lemma index_nodup l : NoDup (index_of l).
Proof. apply NoDup_filter. apply seq_NoDup. Qed.
Lemma sum_eqb k idx : list_sum (map (fun i => if i =? k then 1 else 0) idx) = count_occ Nat.eq_dec idx k.
Proof.
  induction idx as [|i idx IH]; [reflexivity|]. cbn [map list_sum fold_right count_occ].
  change (fold_right Nat.add 0) with list_sum. rewrite IH.
  destruct (Nat.eq_dec i k) as [->|E]; [now rewrite Nat.eqb_refl|]. now apply Nat.eqb_neq in E as ->.
Qed.
Lemma sum_plus (f g : nat -> nat) idx :
  list_sum (map (fun k => f k + g k) idx) = list_sum (map f idx) + list_sum (map g idx).
Proof.
  induction idx as [|i idx IH]; [reflexivity|]. cbn [map list_sum fold_right].
  change (fold_right Nat.add 0) with list_sum. rewrite IH. lia.
Qed.
Lemma sum_zero {X} (idx : list X) : list_sum (map (fun _ => 0) idx) = 0.
Proof. induction idx; [reflexivity|]. assumption. Qed.
Lemma sum_filters {X} (p : X -> bool) (f : X -> nat) idx l : NoDup idx -> (forall x, In x l -> In (f x) idx) ->
  list_sum (map (fun k => length (filter (fun x => p x && (k =? f x)) l)) idx) = length (filter p l).
Proof.
  intros Nd. induction l as [|x l IH]; intros H; [apply sum_zero|].
  rewrite (map_ext _ (fun k => (if p x && (k =? f x) then 1 else 0) + length (filter (fun x => p x && (k =? f x)) l)))
    by (intros k; cbn [filter]; destruct (p x && (k =? f x)); reflexivity).
  rewrite sum_plus, IH by (intros y Hy; apply H; now right). cbn [filter]. destruct (p x); cbn [andb length].
  - rewrite sum_eqb. rewrite (proj1 (NoDup_count_occ' Nat.eq_dec idx) Nd) by (apply H; now left). reflexivity.
  - now rewrite sum_zero.
Qed.
Lemma totals g m : list_sum (NNs_of g) = length g /\ list_sum (map list_sum (NNm_of m)) = length m.
Proof.
  split.
  - unfold NNs_of. pose proof (sum_filters (fun _ => true) (fun x => x) (index_of g) g (index_nodup g) (fun x => index_in x g)) as E.
    rewrite (filter_all (fun _ => true)) in E by reflexivity. exact E.
  - unfold NNm_of. rewrite map_map.
    rewrite (map_ext _ (fun a => length (filter (fun x => true && (a =? fst x)) m))).
    2:{ intros a. apply (sum_filters (fun x => a =? fst x) snd); [apply index_nodup|].
        intros x Hx. now apply index_in, in_map. }
    rewrite (sum_filters (fun _ => true) fst); [|apply index_nodup|intros x Hx; now apply index_in, in_map].
    now rewrite (filter_all (fun _ => true)).
Qed.

From Verif Require Import BaseLemmas.
From Coq Require Import Permutation.
Lemma traverse_take a l : (forall i, In i l -> i < length a) -> traverse (take a) l = Ok (map (fun i => nth i a 0) l).
Proof.
  induction l as [|i l IH]; intros H; [reflexivity|]. cbn [traverse]. unfold take at 1.
  rewrite (nth_error_nth' a 0) by (apply H; now left). cbn [bind]. rewrite IH by (intros j Hj; apply H; now right).
  reflexivity.
Qed.
Lemma traverse_short a l i : In i l -> length a <= i -> traverse (take a) l = Err IndexError.
Proof.
  induction l as [|j l IH]; [intros []|]. intros H L. cbn [traverse]. unfold take at 1.
  destruct (nth_error a j) as [x|] eqn:E; [|reflexivity]. cbn [bind]. destruct H as [->|H].
  - apply nth_error_None in L. congruence.
  - now rewrite IH.
Qed.
Lemma used_lemma nk order g in_order : 0 < nk -> all_types nk g -> Permutation order (range nk) ->
  (in_order = true -> order = range nk) ->
  stayers_used nk order in_order (NNs_of g) = Ok (map (stayers_at g) order).
Proof.
  intros Hn H P E. destruct (stayers_lemma nk g Hn H) as [L N].
  assert (M : forall l, (forall i, In i l -> i < nk) -> map (fun i => nth i (NNs_of g) 0) l = map (stayers_at g) l).
  { intros l Hl. apply map_ext_in. intros i Hi. now apply nth_error_nth, N, Hl. }
  assert (B : forall i, In i order -> i < nk).
  { intros i Hi. apply (Permutation_in _ P) in Hi. unfold range in Hi. apply in_seq in Hi. lia. }
  unfold stayers_used. destruct in_order.
  - cbn [bind]. unfold broadcast_to. rewrite L, Nat.eqb_refl, (E eq_refl). f_equal.
    unfold NNs_of. rewrite (index_all nk) by assumption. apply map_ext. intros k. apply count1.
  - rewrite traverse_take by now rewrite L. cbn [bind]. rewrite M by exact B. unfold broadcast_to.
    rewrite map_length, (Permutation_length P). unfold range. now rewrite seq_length, Nat.eqb_refl.
Qed.
Lemma used_fails nk order g in_order k : (forall x, In x g -> x < nk) -> k < nk -> ~ In k g ->
  Permutation order (range nk) -> (in_order = true -> exists a b, In a g /\ In b g /\ a < b) ->
  exists e, stayers_used nk order in_order (NNs_of g) = Err e.
Proof.
  intros B Hk N P H. pose proof (proj1 (stayers_shift g nk k B Hk N)) as L. unfold stayers_used. destruct in_order.
  - destruct (H eq_refl) as (a & b & Ia & Ib & Hab). cbn [bind]. unfold broadcast_to.
    rewrite (proj2 (Nat.eqb_neq _ _)) by lia.
    assert (2 <= length (NNs_of g)).
    { unfold NNs_of. rewrite map_length. unfold index_of, range.
      pose proof (le_max b g Ib) as Hb.
      replace (S (list_max g)) with (a + (1 + (list_max g - a))) by lia.
      rewrite seq_app, filter_app, app_length. cbn [plus seq filter]. rewrite (proj2 (present a g) Ia). cbn [length].
      assert (Ib' : In b (filter (fun k => existsb (Nat.eqb k) g) (seq (S a) (list_max g - a)))).
      { apply filter_In. split; [apply in_seq; lia|now apply present]. }
      destruct (filter _ (seq (S a) (list_max g - a))); [destruct Ib'|cbn [length]; lia]. }
    destruct (NNs_of g) as [|x [|y l]]; cbn in *; try lia. now exists ValueError.
  - exists IndexError. rewrite (traverse_short _ _ (nk - 1)); [reflexivity| |lia].
    apply (Permutation_in _ (Permutation_sym P)). unfold range. apply in_seq. lia.
Qed.
Lemma used_one nk g a : 1 < nk -> g <> [] -> (forall x, In x g -> x = a) ->
  stayers_used nk (range nk) true (NNs_of g) = Ok (repeat (length g) nk).
Proof.
  intros Hn Hg H.
  assert (I : In a g) by (destruct g as [|x g]; [now contradiction Hg|left; apply H; now left]).
  assert (E : NNs_of g = [length g]).
  { unfold NNs_of. assert (list_max g = a) as M.
    { apply Nat.le_antisymm; [|now apply le_max]. apply list_max_le, Forall_forall. intros x Hx. now rewrite (H x Hx). }
    unfold index_of, range. rewrite M. replace (S a) with (a + 1) by lia. rewrite seq_app, filter_app. cbn [plus seq filter].
    rewrite (proj2 (present a g) I).
    assert (filter (fun k => existsb (Nat.eqb k) g) (seq 0 a) = []) as ->.
    { destruct (filter _ _) as [|x l] eqn:F; [reflexivity|].
      assert (Hx : In x (x :: l)) by now left. rewrite <- F in Hx. apply filter_In in Hx as [Hx Px].
      apply in_seq in Hx. apply present, H in Px. lia. }
    cbn [app map]. f_equal. f_equal. apply filter_all. intros x Hx. rewrite (H x Hx). apply Nat.eqb_refl. }
  rewrite E. unfold stayers_used. cbn [bind]. unfold broadcast_to. cbn [length].
  rewrite (proj2 (Nat.eqb_neq _ _)) by lia. reflexivity.
Qed.

Lemma index_two l a b : In a l -> In b l -> a < b -> 2 <= length (index_of l).
Proof.
  intros Ha Hb L. change 2 with (length [a; b]). apply NoDup_incl_length.
  - repeat constructor; cbn; intuition lia.
  - intros x [<-|[<-|[]]]; now apply index_in.
Qed.
Lemma broadcast_full nk r : length r = nk -> broadcast_to nk r = Ok r.
Proof. intros E. unfold broadcast_to. now rewrite (proj2 (Nat.eqb_eq _ _) E). Qed.
Lemma broadcast_bad nk r : length r < nk -> 2 <= length r -> broadcast_to nk r = Err ValueError.
Proof.
  intros L T. unfold broadcast_to. rewrite (proj2 (Nat.eqb_neq _ _)) by lia.
  destruct r as [|x [|y r]]; cbn in T; [lia|lia|reflexivity].
Qed.
Lemma traverse_broadcast nk rows : (exists rows', traverse (broadcast_to nk) rows = Ok rows' /\ length rows' = length rows) \/
  traverse (broadcast_to nk) rows = Err ValueError.
Proof.
  induction rows as [|r rows IH]; [left; exists []; split; reflexivity|]. cbn [traverse].
  destruct (broadcast_to nk r) as [r'|e] eqn:E; cbn [bind].
  - destruct IH as [(rows' & -> & L)| ->]; [left; exists (r' :: rows'); cbn; split; congruence|right; reflexivity].
  - right. unfold broadcast_to in E. destruct (length r =? nk); [discriminate|].
    destruct r as [|x [|y r]]; congruence.
Qed.
Lemma movers_used_all nk m : 0 < nk -> all_types nk (map fst m) -> all_types nk (map snd m) ->
  movers_used nk m = Ok (map (fun a => map (moves m a) (range nk)) (range nk)).
Proof.
  intros Hn F S. unfold movers_used.
  assert (E : NNm_of m = map (fun a => map (moves m a) (range nk)) (range nk)).
  { unfold NNm_of. rewrite (index_all nk _ Hn F), (index_all nk _ Hn S). apply map_ext. intros a. apply map_ext.
    intros b. apply count2. }
  rewrite E. set (t := map _ (range nk)). assert (T : traverse (broadcast_to nk) t = Ok t).
  { assert (A : Forall (fun r => length r = nk) t).
    { unfold t. apply Forall_forall. intros r Hr. apply in_map_iff in Hr as (a & <- & _).
      rewrite map_length. unfold range. now rewrite seq_length. }
    induction A as [|r t' Hr _ IH]; [reflexivity|]. cbn [traverse]. rewrite (broadcast_full _ _ Hr). cbn [bind].
    now rewrite IH. }
  rewrite T. cbn [bind]. unfold t at 1. rewrite map_length. unfold range at 1. rewrite seq_length, Nat.eqb_refl. reflexivity.
Qed.
Lemma rows_missing nk m k a b : (forall x, In x m -> fst x < nk /\ snd x < nk) -> k < nk ->
  ~ In k (map fst m) -> In a (map fst m) -> In b (map fst m) -> a < b -> movers_used nk m = Err ValueError.
Proof.
  intros B Hk N Ha Hb L. destruct (movers_shift m nk k B Hk N) as [S _].
  pose proof (index_two _ _ _ Ha Hb L) as T.
  assert (Ln : length (NNm_of m) = length (index_of (map fst m))) by (unfold NNm_of; apply map_length).
  unfold movers_used. destruct (traverse_broadcast nk (NNm_of m)) as [(rows & -> & E)| ->]; [|reflexivity]. cbn [bind].
  rewrite (proj2 (Nat.eqb_neq _ _)) by lia. destruct rows as [|x [|y r]]; cbn [length] in E; [lia|lia|reflexivity].
Qed.
Lemma columns_missing nk m k a b : (forall x, In x m -> fst x < nk /\ snd x < nk) -> k < nk ->
  ~ In k (map snd m) -> In a (map snd m) -> In b (map snd m) -> a < b -> movers_used nk m = Err ValueError.
Proof.
  intros B Hk N Ha Hb L. destruct (columns_shift m nk k B Hk N) as [S _].
  pose proof (index_two _ _ _ Ha Hb L) as T.
  assert (Hr : Forall (fun r => 2 <= length r) (NNm_of m)).
  { apply Forall_forall. intros r Hr. unfold NNm_of in Hr. apply in_map_iff in Hr as (x & <- & _). now rewrite map_length. }
  assert (Ne : NNm_of m <> []).
  { apply in_map_iff in Ha as (x & _ & Hx). apply (in_map fst), index_in in Hx. unfold NNm_of.
    destruct (index_of (map fst m)); [destruct Hx|discriminate]. }
  unfold movers_used. destruct (NNm_of m) as [|r t]; [contradiction|]. inversion S; inversion Hr; subst.
  cbn [traverse]. now rewrite broadcast_bad.
Qed.
