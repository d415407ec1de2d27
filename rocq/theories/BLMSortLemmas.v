(* Sorting of types: every array is relabelled the same way. *)
From Verif Require Import Base BaseLemmas UtilModel UtilSpec BLMModel BLMEMModel BLMSpec.
From Coq Require Import Permutation Sorted.
Local Open Scope R_scope.

(* ---- orders as relabellings ---- *)
Lemma length_range n : length (range n) = n.
Proof. unfold range. apply seq_length. Qed.

Lemma nth_range n i d : (i < n)%nat -> nth i (range n) d = i.
Proof. intros H. unfold range. rewrite seq_nth by exact H. reflexivity. Qed.

Lemma map_nth_range {A} (o : list A) d :
  map (fun i => nth i o d) (range (length o)) = o.
Proof.
  apply nth_error_ext'. intros i. rewrite nth_error_map.
  destruct (Nat.lt_ge_cases i (length o)) as [H|H].
  - rewrite nth_error_range by exact H. cbn [option_map].
    symmetry. apply nth_error_nth'. exact H.
  - rewrite (proj2 (nth_error_None o i)) by exact H.
    rewrite (proj2 (nth_error_None _ i)); [reflexivity|]. rewrite length_range. exact H.
Qed.

Lemma perm_length o n : Permutation o (range n) -> length o = n.
Proof. intros H. apply Permutation_length in H. now rewrite length_range in H. Qed.

Lemma perm_relabelling o n :
  Permutation o (range n) -> relabelling n (fun i => nth i o 0%nat).
Proof.
  intros H. unfold relabelling. rewrite <- (perm_length o n H) at 1.
  now rewrite map_nth_range.
Qed.

Lemma id_relabelling n : relabelling n (fun i => i).
Proof. unfold relabelling. rewrite map_id. apply Permutation_refl. Qed.

Lemma relabelling_lt n s i : relabelling n s -> (i < n)%nat -> (s i < n)%nat.
Proof.
  intros H Hi. assert (Hin : In (s i) (range n)).
  { eapply Permutation_in; [exact H|]. apply in_map. apply in_seq. lia. }
  apply in_seq in Hin. lia.
Qed.

Lemma relabelling_sumn n s f : relabelling n s -> sumn n (fun i => f (s i)) = sumn n f.
Proof.
  intros H. unfold sumn. rewrite <- (map_map s f). apply rsum_perm.
  now apply Permutation_map.
Qed.

Lemma relabelling_rev o n :
  Permutation o (range n) -> Permutation (rev o) (range n).
Proof. intros H. eapply Permutation_trans; [|exact H]. symmetry. apply Permutation_rev. Qed.

Lemma Forall2_imp {A B} (P Q : A -> B -> Prop) l l' :
  (forall a b, P a b -> Q a b) -> Forall2 P l l' -> Forall2 Q l l'.
Proof. intros H F. induction F; constructor; auto. Qed.

Lemma relabelled_ext nl nk s t s' t' p p' :
  (forall l, (l < nl)%nat -> s' l = s l) -> (forall k, (k < nk)%nat -> t' k = t k) ->
  relabelled nl nk s t p p' -> relabelled nl nk s' t' p p'.
Proof.
  intros Hs Ht H.
  assert (C : forall a b, Forall2 (cat_relabelled nl s) a b -> Forall2 (cat_relabelled nl s') a b).
  { intros a b F. eapply Forall2_imp; [|exact F]. intros [m|v] [m'|v']; simpl; auto.
    intros E l n Hl. rewrite Hs by exact Hl. now apply E. }
  assert (X : forall a b, Forall2 (cts_relabelled nl s) a b -> Forall2 (cts_relabelled nl s') a b).
  { intros a b F. eapply Forall2_imp; [|exact F]. intros [m|v] [m'|v']; simpl; auto.
    intros E l Hl. rewrite Hs by exact Hl. now apply E. }
  destruct H; constructor; auto; intros; rewrite ?Hs, ?Ht by assumption; auto.
Qed.

Lemma cat_refl nl l : Forall2 (cat_relabelled nl (fun i => i)) l l.
Proof. induction l as [|[m|v] l IH]; constructor; simpl; auto. Qed.
Lemma cts_refl nl l : Forall2 (cts_relabelled nl (fun i => i)) l l.
Proof. induction l as [|[m|v] l IH]; constructor; simpl; auto. Qed.

Lemma relabelled_refl nl nk p : relabelled nl nk (fun i => i) (fun i => i) p p.
Proof. constructor; auto using cat_refl, cts_refl. Qed.

Lemma cat_taken nl o l :
  Forall2 (cat_relabelled nl (fun i => nth i o 0%nat)) l (map (cat_take o) l).
Proof. induction l as [|[m|v] l IH]; constructor; simpl; auto. Qed.
Lemma cts_taken nl o l :
  Forall2 (cts_relabelled nl (fun i => nth i o 0%nat)) l (map (cts_take o) l).
Proof. induction l as [|[m|v] l IH]; constructor; simpl; auto. Qed.

Lemma sort_workers_relabelled nl nk o p :
  relabelled nl nk (fun i => nth i o 0%nat) (fun k => k) p (sort_workers o p).
Proof. constructor; simpl; auto using cat_taken, cts_taken. Qed.

(* ---- the order of pairs ---- *)
Lemma nth_flat_const {A B} (l : list A) (f : A -> list B) n a b (da : A) (d : B) :
  (forall x, length (f x) = n) -> (a < length l)%nat -> (b < n)%nat ->
  nth (a * n + b) (flat_map f l) d = nth b (f (nth a l da)) d.
Proof.
  intros Hn. revert a. induction l as [|x l IH]; intros a Ha Hb; simpl in *; [lia|].
  destruct a as [|a].
  - simpl. rewrite app_nth1 by (rewrite Hn; exact Hb). reflexivity.
  - rewrite app_nth2 by (rewrite Hn; lia). rewrite Hn.
    replace (S a * n + b - n)%nat with (a * n + b)%nat by lia.
    apply IH; lia.
Qed.

Lemma length_flat_const {A B} (l : list A) (f : A -> list B) n :
  (forall x, length (f x) = n) -> length (flat_map f l) = (length l * n)%nat.
Proof.
  intros Hn. induction l as [|x l IH]; simpl; [reflexivity|].
  rewrite app_length, Hn, IH. reflexivity.
Qed.

Lemma length_tile o n : length (np_tile o n) = (n * length o)%nat.
Proof.
  unfold np_tile. rewrite (length_flat_const _ _ (length o)) by reflexivity.
  now rewrite length_range.
Qed.
Lemma length_repeat o n : length (np_repeat o n) = (length o * n)%nat.
Proof.
  unfold np_repeat. apply length_flat_const. intros x. now rewrite map_length, length_range.
Qed.
Lemma nth_tile o n a b :
  (a < n)%nat -> (b < length o)%nat ->
  nth (a * length o + b) (np_tile o n) 0%nat = nth b o 0%nat.
Proof.
  intros Ha Hb. unfold np_tile.
  rewrite (nth_flat_const _ _ (length o) a b 0%nat); auto. now rewrite length_range.
Qed.
Lemma nth_repeat o n a b :
  (a < length o)%nat -> (b < n)%nat ->
  nth (a * n + b) (np_repeat o n) 0%nat = nth a o 0%nat.
Proof.
  intros Ha Hb. unfold np_repeat.
  rewrite (nth_flat_const _ _ n a b 0%nat); auto.
  - rewrite (nth_map_in _ _ _ 0%nat); [reflexivity|]. now rewrite length_range.
  - intros x. now rewrite map_length, length_range.
Qed.

Lemma nth_order_1 o nk a b :
  length o = nk -> (a < nk)%nat -> (b < nk)%nat ->
  nth (a * nk + b) (pk1_order_1 o nk) 0%nat = (nth b o 0 + nk * a)%nat.
Proof.
  intros Ho Ha Hb. unfold pk1_order_1.
  rewrite (nth_map2 _ _ _ _ 0%nat 0%nat).
  - f_equal.
    + rewrite <- Ho at 1. apply nth_tile; lia.
    + rewrite nth_repeat; [|rewrite length_range; exact Ha|exact Hb].
      now rewrite nth_range.
  - rewrite length_tile. nia.
  - rewrite length_repeat, length_range. nia.
Qed.

Lemma nth_order_2 o nk a b :
  length o = nk -> (a < nk)%nat -> (b < nk)%nat ->
  nth (a * nk + b) (pk1_order_2 o nk) 0%nat = (nk * nth a o 0 + b)%nat.
Proof.
  intros Ho Ha Hb. unfold pk1_order_2.
  rewrite (nth_map2 _ _ _ _ 0%nat 0%nat).
  - f_equal.
    + rewrite nth_repeat; [reflexivity|lia|exact Hb].
    + pose proof (nth_tile (range nk) nk a b) as E. rewrite length_range in E.
      rewrite E by assumption. now rewrite nth_range.
  - rewrite length_repeat. nia.
  - rewrite length_tile, length_range. nia.
Qed.

Lemma sort_firms_relabelled nl nk o p :
  Permutation o (range nk) ->
  relabelled nl nk (fun l => l) (fun k => nth k o 0%nat) p (sort_firms nk o p).
Proof.
  intros Ho. pose proof (perm_length _ _ Ho) as Hlen.
  constructor; simpl; auto using cat_refl, cts_refl.
  intros k1 k2 l H1 H2 Hl. unfold take_rows.
  pose proof (relabelling_lt _ _ k2 (perm_relabelling _ _ Ho) H2) as H3. cbv beta in H3.
  replace (k1 + nk * k2)%nat with (k2 * nk + k1)%nat by lia.
  rewrite nth_order_2 by assumption.
  replace (nk * nth k2 o 0 + k1)%nat with (nth k2 o 0 * nk + k1)%nat by lia.
  rewrite nth_order_1 by assumption. reflexivity.
Qed.

Lemma cat_relabelled_trans nl s s' a b c :
  (forall l, (l < nl)%nat -> (s' l < nl)%nat) ->
  cat_relabelled nl s a b -> cat_relabelled nl s' b c ->
  cat_relabelled nl (fun l => s (s' l)) a c.
Proof.
  intros Hs. destruct a, b, c; simpl; try tauto.
  - intros E1 E2 l n Hl. rewrite E2 by exact Hl. apply E1. auto.
  - intros E1 E2 n. now rewrite E2.
Qed.
Lemma cts_relabelled_trans nl s s' a b c :
  (forall l, (l < nl)%nat -> (s' l < nl)%nat) ->
  cts_relabelled nl s a b -> cts_relabelled nl s' b c ->
  cts_relabelled nl (fun l => s (s' l)) a c.
Proof.
  intros Hs. destruct a, b, c; simpl; try tauto; try congruence.
  intros E1 E2 l Hl. rewrite E2 by exact Hl. apply E1. auto.
Qed.

Lemma Forall2_trans {A} (P Q T : A -> A -> Prop) :
  (forall a b c, P a b -> Q b c -> T a c) ->
  forall x y z, Forall2 P x y -> Forall2 Q y z -> Forall2 T x z.
Proof.
  intros H x y z F. revert z. induction F; intros z G; inversion G; subst; constructor; eauto.
Qed.

Lemma relabelled_trans nl nk s t s' t' p q r :
  relabelling nl s' -> relabelling nk t' ->
  relabelled nl nk s t p q -> relabelled nl nk s' t' q r ->
  relabelled nl nk (fun l => s (s' l)) (fun k => t (t' k)) p r.
Proof.
  intros Hs Ht H G.
  assert (L : forall l, (l < nl)%nat -> (s' l < nl)%nat) by (intros; now apply relabelling_lt).
  assert (K : forall k, (k < nk)%nat -> (t' k < nk)%nat) by (intros; now apply relabelling_lt).
  pose proof (cat_relabelled_trans nl s s') as TC.
  pose proof (cts_relabelled_trans nl s s') as TX.
  destruct H as [HA HS HP1 HP0 HM HN H1 H2 H3 H4 H5 H6 H7 H8].
  destruct G as [GA GS GP1 GP0 GM GN G1 G2 G3 G4 G5 G6 G7 G8].
  constructor;
    try (eapply Forall2_trans; [|eassumption|eassumption]; intros; eauto).
  - intros l k Hl Hk. destruct (GA l k Hl Hk) as [-> ->]. auto.
  - intros l k Hl Hk. destruct (GS l k Hl Hk) as [-> ->]. auto.
  - intros. rewrite GP1 by auto. apply HP1; auto.
  - intros. rewrite GP0 by auto. auto.
  - intros. rewrite GM by auto. auto.
  - intros. rewrite GN by auto. auto.
Qed.

(* ---- ordered means ---- *)
Lemma sorted_nth l o i j :
  StronglySorted Rle (map (fun i => nth i l 0) o) -> (i < j < length o)%nat ->
  nth (nth i o 0%nat) l 0 <= nth (nth j o 0%nat) l 0.
Proof.
  revert i j. induction o as [|x o IH]; intros i j H Hij; simpl in *; [lia|].
  inversion H as [|? ? H1 H2]; subst. destruct j as [|j]; [lia|]. destruct i as [|i].
  - rewrite Forall_forall in H2. apply H2. apply in_map_iff.
    exists (nth j o 0%nat). split; [reflexivity|]. apply nth_In. lia.
  - apply IH; [assumption|lia].
Qed.

Lemma sorted_order (reverse : bool) l o i j :
  is_argsort l o -> (i < j < length l)%nat ->
  let o' := if reverse then rev o else o in
  if reverse then nth (nth j o' 0%nat) l 0 <= nth (nth i o' 0%nat) l 0
  else nth (nth i o' 0%nat) l 0 <= nth (nth j o' 0%nat) l 0.
Proof.
  intros [Hp Hs] Hij. pose proof (perm_length _ _ Hp) as Hlen. cbv zeta.
  destruct reverse.
  - rewrite !rev_nth by lia. apply sorted_nth; [exact Hs|lia].
  - apply sorted_nth; [exact Hs|lia].
Qed.

Lemma nth_row_means nl nk A l :
  (l < nl)%nat -> nth l (row_means nl nk A) 0 = sumn nk (fun k => A l k) / INR nk.
Proof.
  intros H. unfold row_means. rewrite (nth_map_in _ _ _ 0%nat) by (rewrite length_range; exact H).
  now rewrite nth_range.
Qed.
Lemma nth_col_means nl nk A k :
  (k < nk)%nat -> nth k (col_means nl nk A) 0 = sumn nl (fun l => A l k) / INR nl.
Proof.
  intros H. unfold col_means. rewrite (nth_map_in _ _ _ 0%nat) by (rewrite length_range; exact H).
  now rewrite nth_range.
Qed.
Lemma length_row_means nl nk A : length (row_means nl nk A) = nl.
Proof. unfold row_means. now rewrite map_length, length_range. Qed.
Lemma length_col_means nl nk A : length (col_means nl nk A) = nk.
Proof. unfold col_means. now rewrite map_length, length_range. Qed.

Lemma worker_mean_relabelled pp nl nk s t p p' l :
  relabelling nk t -> relabelled nl nk s t p p' -> (l < nl)%nat ->
  worker_mean pp nk (A1 p') (A2 p') l = worker_mean pp nk (A1 p) (A2 p) (s l).
Proof.
  intros Ht H Hl. unfold worker_mean. f_equal.
  rewrite <- (relabelling_sumn nk t (fun k => primary pp (A1 p) (A2 p) (s l) k) Ht).
  apply sumn_ext. intros k Hk.
  destruct (r_A _ _ _ _ _ _ H l k Hl Hk) as [E1 E2].
  destruct pp; simpl; rewrite ?E1, ?E2; reflexivity.
Qed.
Lemma firm_mean_relabelled pp nl nk s t p p' k :
  relabelling nl s -> relabelled nl nk s t p p' -> (k < nk)%nat ->
  firm_mean pp nl (A1 p') (A2 p') k = firm_mean pp nl (A1 p) (A2 p) (t k).
Proof.
  intros Hs H Hk. unfold firm_mean. f_equal.
  rewrite <- (relabelling_sumn nl s (fun l => primary pp (A1 p) (A2 p) l (t k)) Hs).
  apply sumn_ext. intros l Hl.
  destruct (r_A _ _ _ _ _ _ H l k Hl Hk) as [E1 E2].
  destruct pp; simpl; rewrite ?E1, ?E2; reflexivity.
Qed.

Lemma A_mean_primary pp a b : A_mean pp a b = primary pp a b.
Proof. destruct pp; reflexivity. Qed.

Section Sort.
Variable argsort : list R -> list nat.
Hypothesis argsort_ok : forall l, is_argsort l (argsort l).

Lemma order_perm l (reverse : bool) :
  Permutation (if reverse then rev (argsort l) else argsort l) (range (length l)).
Proof.
  destruct (argsort_ok l) as [H _]. destruct reverse; [now apply relabelling_rev|exact H].
Qed.

Lemma in_order_id o n : out_of_order o n = false -> o = range n.
Proof. unfold out_of_order. destruct list_eq_dec; congruence. Qed.

Lemma sort_spec pp nl nk (sf reverse : bool) p :
  let p' := sort_parameters argsort pp nl nk sf reverse p in
  exists s t, relabelling nl s /\ relabelling nk t
    /\ (sf = false -> forall k, t k = k)
    /\ relabelled nl nk s t p p'
    /\ ordered reverse nl (worker_mean pp nk (A1 p') (A2 p'))
    /\ (sf = true -> ordered reverse nk (firm_mean pp nl (A1 p') (A2 p'))).
Proof.
  intros p'. set (Am := A_mean pp (A1 p) (A2 p)).
  set (wo := if reverse then rev (argsort (row_means nl nk Am)) else argsort (row_means nl nk Am)).
  set (fo := if reverse then rev (argsort (col_means nl nk Am)) else argsort (col_means nl nk Am)).
  assert (Pw : Permutation wo (range nl)).
  { pose proof (order_perm (row_means nl nk Am) reverse) as P.
    rewrite length_row_means in P. exact P. }
  assert (Pf : Permutation fo (range nk)).
  { pose proof (order_perm (col_means nl nk Am) reverse) as P.
    rewrite length_col_means in P. exact P. }
  set (sw := fun i => nth i wo 0%nat). set (tf := fun i => nth i fo 0%nat).
  set (t := if sf then tf else fun k => k).
  assert (Rw : relabelling nl sw) by now apply perm_relabelling.
  assert (Rf : relabelling nk tf) by now apply perm_relabelling.
  assert (Rt : relabelling nk t) by (unfold t; destruct sf; [exact Rf|apply id_relabelling]).
  set (q := if out_of_order wo nl then sort_workers wo p else p).
  assert (Hq : relabelled nl nk sw (fun k => k) p q).
  { unfold q. destruct (out_of_order wo nl) eqn:E; [apply sort_workers_relabelled|].
    apply in_order_id in E. eapply relabelled_ext; [|reflexivity|apply relabelled_refl].
    intros l Hl. unfold sw. rewrite E. now apply nth_range. }
  assert (Hp' : relabelled nl nk sw t p p').
  { assert (E : p' = if sf then if out_of_order fo nk then sort_firms nk fo q else q else q)
      by reflexivity.
    rewrite E. unfold t. clear E. destruct sf; [|exact Hq].
    assert (Hr : relabelled nl nk (fun l => l) tf q
                   (if out_of_order fo nk then sort_firms nk fo q else q)).
    { destruct (out_of_order fo nk) eqn:E; [now apply sort_firms_relabelled|].
      apply in_order_id in E. eapply relabelled_ext; [reflexivity| |apply relabelled_refl].
      intros k Hk. unfold tf. rewrite E. now apply nth_range. }
    exact (relabelled_trans nl nk _ _ _ _ _ _ _ (id_relabelling nl) Rf Hq Hr). }
  exists sw, t. split; [exact Rw|]. split; [exact Rt|].
  split; [unfold t; now intros ->|]. split; [exact Hp'|]. split.
  - intros i j Hij.
    rewrite (worker_mean_relabelled pp nl nk sw t p p' i Rt Hp') by lia.
    rewrite (worker_mean_relabelled pp nl nk sw t p p' j Rt Hp') by lia.
    pose proof (sorted_order reverse (row_means nl nk Am) _ i j (argsort_ok _)) as S.
    rewrite length_row_means in S. specialize (S Hij). cbv zeta in S. fold wo in S.
    pose proof (relabelling_lt _ _ i Rw) as Li. pose proof (relabelling_lt _ _ j Rw) as Lj.
    unfold sw in Li, Lj. rewrite !nth_row_means in S by (try apply Li; try apply Lj; lia).
    unfold worker_mean, sw. unfold Am in S. rewrite A_mean_primary in S. exact S.
  - intros Hsf i j Hij. assert (Et : t = tf) by (unfold t; now rewrite Hsf).
    rewrite Et in Hp'.
    rewrite (firm_mean_relabelled pp nl nk sw tf p p' i Rw Hp') by lia.
    rewrite (firm_mean_relabelled pp nl nk sw tf p p' j Rw Hp') by lia.
    pose proof (sorted_order reverse (col_means nl nk Am) _ i j (argsort_ok _)) as S.
    rewrite length_col_means in S. specialize (S Hij). cbv zeta in S. fold fo in S.
    pose proof (relabelling_lt _ _ i Rf) as Li. pose proof (relabelling_lt _ _ j Rf) as Lj.
    unfold tf in Li, Lj. rewrite !nth_col_means in S by (try apply Li; try apply Lj; lia).
    unfold firm_mean, tf. unfold Am in S. rewrite A_mean_primary in S. exact S.
Qed.
End Sort.
