(* The simulated parameters: proofs of the properties. *)
From Coq Require Import Permutation Sorted Lra ZifyNat.
From Verif Require Import Base BaseLemmas UtilModel UtilSpec BLMModel BLMSpec BLMSortLemmas SimModel SimSpec.
Local Open Scope R_scope.

Lemma sorted_R_eq (l m : list R) :
  StronglySorted Rle l -> StronglySorted Rle m -> Permutation l m -> l = m.
Proof.
  revert m; induction l as [|x l IH]; intros m Hl Hm P.
  - apply Permutation_nil in P. now subst.
  - destruct m as [|y m]; [apply Permutation_sym, Permutation_nil in P; discriminate|].
    inversion Hl as [|? ? Hl' Fx]; inversion Hm as [|? ? Hm' Fy]; subst.
    rewrite Forall_forall in Fx, Fy.
    assert (x = y).
    { assert (Hx : In x (y :: m)) by (eapply Permutation_in; [exact P|now left]).
      assert (Hy : In y (x :: l)) by (eapply Permutation_in; [apply Permutation_sym, P|now left]).
      destruct Hx as [|Hx]; [congruence|]. destruct Hy as [|Hy]; [congruence|].
      specialize (Fx _ Hy); specialize (Fy _ Hx). lra. }
    subst y. f_equal. apply IH; auto. now apply Permutation_cons_inv in P.
Qed.

Lemma sorted_nth_R (l : list R) i j :
  StronglySorted Rle l -> (i < j < length l)%nat -> nth i l 0 <= nth j l 0.
Proof.
  revert i j; induction l as [|x l IH]; intros i j H L; simpl in *; [lia|].
  inversion H as [|? ? H1 H2]; subst. rewrite Forall_forall in H2.
  destruct j as [|j]; [lia|]. destruct i as [|i].
  - apply H2. apply nth_In. lia.
  - apply IH; [assumption|lia].
Qed.

Lemma map_sorted_shift a (l : list R) : StronglySorted Rle l -> StronglySorted Rle (map (fun x => a + x) l).
Proof.
  induction 1 as [|x l Hl IH F]; simpl; constructor; auto.
  rewrite Forall_forall in *. intros y Hy. apply in_map_iff in Hy. destruct Hy as (z & <- & Hz).
  specialize (F _ Hz). lra.
Qed.

Section Params.
Variable argsort : list R -> list nat.
Variable sort : list R -> list R.
Hypothesis argsort_ok : forall l, is_argsort l (argsort l).
Hypothesis sort_ok : sorts_ok sort.

Lemma sort_shift a (p : nat -> R) n k : (k < n)%nat ->
  nth k (sort (map (fun k => a + p k) (range n))) 0 = a + nth k (sort (map p (range n))) 0.
Proof.
  intros H. destruct (sort_ok (map p (range n))) as [P S].
  destruct (sort_ok (map (fun k => a + p k) (range n))) as [P' S'].
  assert (E : sort (map (fun k => a + p k) (range n)) = map (fun x => a + x) (sort (map p (range n)))).
  { apply sorted_R_eq; auto.
    - now apply map_sorted_shift.
    - rewrite P', P, map_map. apply Permutation_refl. }
  rewrite E. rewrite (nth_map_in _ _ _ 0); auto.
  rewrite (Permutation_length P), map_length, length_range. auto.
Qed.

Lemma sort_rows_increasing nk A l : increasing nk (sort_rows sort nk A l).
Proof.
  intros i j H. unfold sort_rows. destruct (sort_ok (map (A l) (range nk))) as [P S].
  apply sorted_nth_R; auto. rewrite (Permutation_length P), map_length, length_range. auto.
Qed.

Lemma sort_rows_additive nl nk A : additive nl nk A -> additive nl nk (sort_rows sort nk A).
Proof.
  intros (a & p & H). exists a, (fun k => nth k (sort (map p (range nk))) 0).
  intros l k Hl Hk. unfold sort_rows.
  rewrite (map_ext_in (A l) (fun k => a l + p k)).
  - now apply sort_shift.
  - intros k' Hk'. unfold range in Hk'. apply in_seq in Hk'. apply H; [exact Hl|lia].
Qed.

Lemma take_additive nl nk s t A : relabelling nl s -> relabelling nk t ->
  additive nl nk A -> additive nl nk (fun l k => A (s l) (t k)).
Proof.
  intros Hs Ht (a & p & H). exists (fun l => a (s l)), (fun k => p (t k)).
  intros l k Hl Hk. apply H; now apply relabelling_lt.
Qed.

Lemma argsort_relabelling l n : length l = n -> relabelling n (fun i => nth i (argsort l) 0%nat).
Proof. intros <-. apply perm_relabelling. apply argsort_ok. Qed.

Lemma length_row_means' nl nk A : length (row_means nl nk A) = nl.
Proof. unfold row_means. now rewrite map_length, length_range. Qed.
Lemma length_col_means' nl nk A : length (col_means nl nk A) = nk.
Proof. unfold col_means. now rewrite map_length, length_range. Qed.

Lemma rows_sorted nl nk A :
  increasing nl (row_mean nk (take_rows (argsort (row_means nl nk A)) A)).
Proof.
  intros i j H. unfold row_mean, take_rows.
  pose proof (argsort_relabelling (row_means nl nk A) nl (length_row_means' _ _ _)) as Hs.
  destruct (argsort_ok (row_means nl nk A)) as [P S].
  pose proof (sorted_nth (row_means nl nk A) (argsort (row_means nl nk A)) i j S) as Q.
  rewrite (Permutation_length P), length_range, length_row_means' in Q. specialize (Q H).
  rewrite !nth_row_means in Q; auto; apply (relabelling_lt nl (fun i => nth i (argsort (row_means nl nk A)) 0%nat)); auto; lia.
Qed.
Lemma cols_sorted nl nk A :
  increasing nk (col_mean nl (take_cols (argsort (col_means nl nk A)) A)).
Proof.
  intros i j H. unfold col_mean, take_cols.
  pose proof (argsort_relabelling (col_means nl nk A) nk (length_col_means' _ _ _)) as Hs.
  destruct (argsort_ok (col_means nl nk A)) as [P S].
  pose proof (sorted_nth (col_means nl nk A) (argsort (col_means nl nk A)) i j S) as Q.
  rewrite (Permutation_length P), length_range, length_col_means' in Q. specialize (Q H).
  rewrite !nth_col_means in Q; auto; apply (relabelling_lt nk (fun i => nth i (argsort (col_means nl nk A)) 0%nat)); auto; lia.
Qed.

Lemma sort_A_plain nl nk A1 A2 :
  let A1' := fst (sort_A argsort sort nl nk false A1 A2) in
  let A2' := snd (sort_A argsort sort nl nk false A1 A2) in
  increasing nl (row_mean nk A1') /\ increasing nk (col_mean nl A1') /\
  exists s t, relabelling nl s /\ relabelling nk t /\
    forall l k, A1' l k = A1 (s l) (t k) /\ A2' l k = A2 (s l) (t k).
Proof.
  unfold sort_A. cbv zeta. cbn [fst snd].
  set (o := argsort (row_means nl nk A1)). set (B := take_rows o A1).
  set (q := argsort (col_means nl nk B)).
  assert (Hs : relabelling nl (fun i => nth i o 0%nat)) by (apply argsort_relabelling, length_row_means').
  assert (Ht : relabelling nk (fun i => nth i q 0%nat)) by (apply argsort_relabelling, length_col_means').
  split; [|split].
  - intros i j H. pose proof (rows_sorted nl nk A1 i j H) as Q. fold o B in Q.
    unfold row_mean in *. unfold take_cols.
    rewrite (relabelling_sumn nk _ (fun k => B i k) Ht), (relabelling_sumn nk _ (fun k => B j k) Ht). exact Q.
  - apply cols_sorted.
  - exists (fun i => nth i o 0%nat), (fun i => nth i q 0%nat). repeat split; auto.
Qed.

Lemma sort_A_strict nl nk A1 A2 :
  let A1' := fst (sort_A argsort sort nl nk true A1 A2) in
  let A2' := snd (sort_A argsort sort nl nk true A1 A2) in
  increasing nl (row_mean nk A1') /\
  (forall l, increasing nk (A1' l) /\ increasing nk (A2' l)) /\
  exists s, relabelling nl s /\
    forall l, Permutation (map (A1' l) (range nk)) (map (A1 (s l)) (range nk)) /\
              Permutation (map (A2' l) (range nk)) (map (A2 (s l)) (range nk)).
Proof.
  unfold sort_A. cbv zeta. cbn [fst snd].
  set (o := argsort (row_means nl nk (sort_rows sort nk A1))).
  assert (Hs : relabelling nl (fun i => nth i o 0%nat)) by (apply argsort_relabelling, length_row_means').
  assert (G : forall A l, Permutation (map (sort_rows sort nk A l) (range nk)) (map (A l) (range nk))).
  { intros A l. unfold sort_rows. destruct (sort_ok (map (A l) (range nk))) as [P _].
    etransitivity; [|exact P]. replace nk with (length (sort (map (A l) (range nk)))) at 1
      by (rewrite (Permutation_length P), map_length, length_range; auto).
    generalize (sort (map (A l) (range nk))) as v. intros v.
    replace (map (fun k => nth k v 0) (range (length v))) with v; [reflexivity|].
    apply (nth_ext _ _ 0 0); [rewrite map_length, length_range; auto|].
    intros n Hn. rewrite (nth_map_in _ _ _ 0%nat) by (rewrite length_range; auto). now rewrite nth_range. }
  split; [|split].
  - apply rows_sorted.
  - intros l. split; unfold take_rows; apply sort_rows_increasing.
  - exists (fun i => nth i o 0%nat). split; auto. intros l. split; unfold take_rows; apply G.
Qed.

Lemma sort_A_additive nl nk b A1 A2 :
  (additive nl nk A1 -> additive nl nk (fst (sort_A argsort sort nl nk b A1 A2))) /\
  (additive nl nk A2 -> additive nl nk (snd (sort_A argsort sort nl nk b A1 A2))).
Proof.
  assert (Id : relabelling nk (fun i => i)) by apply id_relabelling.
  assert (Idl : relabelling nl (fun i => i)) by apply id_relabelling.
  unfold sort_A. destruct b; cbn [fst snd].
  - set (o := argsort _).
    assert (Hs : relabelling nl (fun i => nth i o 0%nat)) by (apply argsort_relabelling, length_row_means').
    split; intros H; exact (take_additive nl nk _ _ _ Hs Id (sort_rows_additive _ _ _ H)).
  - set (o := argsort (row_means _ _ _)). set (q := argsort _).
    assert (Hs : relabelling nl (fun i => nth i o 0%nat)) by (apply argsort_relabelling, length_row_means').
    assert (Ht : relabelling nk (fun i => nth i q 0%nat)) by (apply argsort_relabelling, length_col_means').
    split; intros H;
      exact (take_additive nl nk _ _ _ Idl Ht (take_additive nl nk _ _ _ Hs Id H)).
Qed.

(* ---- the options of _gen_params ------------------------------------------- *)

Lemma finish_inv nl nk b sA sS sv A1 A2 S1 S2 a1 a2 s1 s2 :
  finish argsort sort nl nk b sA sS sv A1 A2 S1 S2 = Ok (a1, a2, s1, s2) ->
  a1 = fst (sort_A argsort sort nl nk b A1 A2) /\ s1 = S1 /\ s2 = (if sS then S1 else S2) /\
  (if sv then firm_type_variation nl nk a1 (if sA then a1 else snd (sort_A argsort sort nl nk b A1 A2)) = Ok a2
   else a2 = if sA then a1 else snd (sort_A argsort sort nl nk b A1 A2)).
Proof.
  unfold finish. destruct (sort_A _ _ _ _ _ _ _) as [B1 B2]. cbn [fst snd].
  destruct sv.
  - destruct (firm_type_variation _ _ _ _) as [B|] eqn:E; simpl; [|discriminate].
    intros H; inversion H; subst. auto.
  - intros H; inversion H; subst. auto.
Qed.

Lemma variation_error nl nk A1 A2 : (nl <> nk)%nat -> (2 <= nl)%nat -> (2 <= nk)%nat ->
  firm_type_variation nl nk A1 A2 = Err ValueError.
Proof.
  intros H Hl Hk. unfold firm_type_variation.
  destruct (Nat.eqb_spec nl nk); [lia|]. destruct (Nat.eqb_spec nl 1); [lia|].
  destruct (Nat.eqb_spec nk 1); [lia|]. reflexivity.
Qed.

Lemma finish_error nl nk b sA sS A1 A2 S1 S2 : (nl <> nk)%nat -> (2 <= nl)%nat -> (2 <= nk)%nat ->
  finish argsort sort nl nk b sA sS true A1 A2 S1 S2 = Err ValueError.
Proof.
  intros H Hl Hk. unfold finish. destruct (sort_A _ _ _ _ _ _ _) as [B1 B2].
  now rewrite variation_error.
Qed.

Lemma variation_eq nk A1 A2 A : firm_type_variation 1 nk A1 A2 = Ok A ->
  forall l k, (l < 1)%nat -> (k < nk)%nat ->
  A l k = nth 0 (row_means 1 nk A2) 0 + A1 l k - nth 0 (row_means 1 nk A1) 0.
Proof.
  intros H l k Hl Hk. unfold firm_type_variation in H.
  destruct (Nat.eqb_spec 1 nk) as [E|E].
  - replace k with 0%nat by lia. now inversion H.
  - rewrite Nat.eqb_refl in H. now inversion H.
Qed.

Lemma variation_one nk A1 A2 A : firm_type_variation 1 nk A1 A2 = Ok A ->
  forall l k, (l < 1)%nat -> (k < nk)%nat -> A l k = row_mean nk A2 l + (A1 l k - row_mean nk A1 l).
Proof.
  intros H l k Hl Hk. rewrite (variation_eq _ _ _ _ H l k Hl Hk).
  replace l with 0%nat by lia. rewrite !nth_row_means by lia. unfold row_mean. lra.
Qed.

Lemma variation_square n A1 A2 A : firm_type_variation n n A1 A2 = Ok A ->
  (same_variation n n A1 A <->
   forall k k', (k < n)%nat -> (k' < n)%nat ->
     row_mean n A2 k - row_mean n A1 k = row_mean n A2 k' - row_mean n A1 k').
Proof.
  unfold firm_type_variation. rewrite Nat.eqb_refl. intros H. inversion H; subst A. clear H.
  assert (E : forall B k, (k < n)%nat -> nth k (row_means n n B) 0 = row_mean n B k).
  { intros B k Hk. rewrite nth_row_means by auto. reflexivity. }
  unfold same_variation. split.
  - intros S k k' Hk Hk'. specialize (S k k k' Hk Hk Hk'). rewrite !E in S by auto. lra.
  - intros S l k k' Hl Hk Hk'. rewrite !E by auto. specialize (S k k' Hk Hk'). lra.
Qed.

Lemma finish_one nk b sA sS A1 A2 S1 S2 a1 a2 s1 s2 :
  finish argsort sort 1 nk b sA sS true A1 A2 S1 S2 = Ok (a1, a2, s1, s2) -> same_variation 1 nk a1 a2.
Proof.
  intros H. apply finish_inv in H. destruct H as (_ & _ & _ & H).
  pose proof (variation_one _ _ _ _ H) as V. intros l k k' Hl Hk Hk'.
  rewrite !V by auto. lra.
Qed.

Lemma finish_square n b sA sS A1 A2 S1 S2 a1 a2 s1 s2 :
  finish argsort sort n n b sA sS true A1 A2 S1 S2 = Ok (a1, a2, s1, s2) ->
  sA = true -> forall l k, (l < n)%nat -> (k < n)%nat -> a2 l k = a1 l k.
Proof.
  intros H ->. apply finish_inv in H. destruct H as (_ & _ & _ & H).
  unfold firm_type_variation in H. rewrite Nat.eqb_refl in H. inversion H. intros. lra.
Qed.
End Params.

(* ---- cases --------------------------------------------------------------------- *)
From Verif Require Import BLMPropLemmas.

Definition vsort (l : list R) : list R := map (fun i => nth i l 0) (isort l).

Lemma vsort_ok : sorts_ok vsort.
Proof.
  intros l. destruct (isort_ok l) as [P S]. split; auto. unfold vsort.
  etransitivity; [apply Permutation_map, P|].
  replace (map (fun i => nth i l 0) (range (length l))) with l; [reflexivity|].
  apply (nth_ext _ _ 0 0); [now rewrite map_length, length_range|].
  intros n Hn. rewrite (nth_map_in _ _ _ 0%nat) by (rewrite length_range; auto). now rewrite nth_range.
Qed.

(* One worker type, two firm types, wages of the second period decreasing. *)
Lemma A2_not_increasing argsort sort : (forall l, is_argsort l (argsort l)) ->
  let A1 := fun _ k => if (k =? 0)%nat then 0 else 1 in
  let A2 := fun _ k => if (k =? 0)%nat then 1 else 0 in
  ~ increasing 2 (col_mean 1 (snd (sort_A argsort sort 1 2 false A1 A2))).
Proof.
  intros Ha A1 A2 H. specialize (H 0%nat 1%nat ltac:(lia)).
  pose proof (cols_sorted argsort Ha 1 2 (take_rows (argsort (row_means 1 2 A1)) A1) 0%nat 1%nat ltac:(lia)) as Q.
  unfold sort_A in H. cbn [snd] in H. cbv zeta in H.
  set (q := argsort (col_means 1 2 _)) in *.
  assert (Hq : relabelling 2 (fun i => nth i q 0%nat)) by (apply argsort_relabelling; auto).
  unfold col_mean, take_cols, take_rows, A1, A2 in Q, H. cbn in Q, H.
  assert (N : nth 0 q 0%nat <> nth 1 q 0%nat).
  { unfold relabelling in Hq. cbn in Hq.
    assert (ND : NoDup [nth 0 q 0%nat; nth 1 q 0%nat]).
    { eapply Permutation_NoDup; [apply Permutation_sym, Hq|]. repeat constructor; simpl; intuition. }
    inversion ND as [|? ? Hn _]; subst. intros e. apply Hn. left. now symmetry. }
  destruct (nth 0 q 0%nat) as [|[|a]] eqn:E0, (nth 1 q 0%nat) as [|[|b]] eqn:E1; cbn in Q, H; try lra; try congruence.
  all: pose proof (relabelling_lt 2 _ 0 Hq ltac:(lia)) as L0; pose proof (relabelling_lt 2 _ 1 Hq ltac:(lia)) as L1;
    cbv beta in L0, L1; rewrite ?E0, ?E1 in *; try lia; lra.
Qed.

(* Two worker types and two firm types whose means move apart. *)
Lemma square_wrong argsort sort : (forall l, is_argsort l (argsort l)) ->
  let A1 := fun l k => INR (l + l + k) in
  let A2 := fun l (_ : nat) => INR (5 * l) in
  exists a1 a2 s1 s2,
    finish argsort sort 2 2 false false false true A1 A2 (fun _ _ => 1) (fun _ _ => 1) = Ok (a1, a2, s1, s2) /\
    ~ same_variation 2 2 a1 a2.
Proof.
  intros Ha A1 A2. unfold finish.
  pose proof (sort_A_plain argsort sort Ha 2 2 A1 A2) as (I1 & I2 & s & t & Hs & Ht & E).
  destruct (sort_A argsort sort 2 2 false A1 A2) as [B1 B2]. cbn [fst snd] in *.
  destruct (firm_type_variation 2 2 B1 B2) as [A|] eqn:EV; [|discriminate].
  cbn [bind]. exists B1, A, (fun _ _ => 1), (fun _ _ => 1). split; auto.
  rewrite (variation_square _ _ _ _ EV). intros V. specialize (V 0%nat 1%nat ltac:(lia) ltac:(lia)).
  assert (R : forall B C l, (forall l k, B l k = C (s l) (t k)) -> row_mean 2 B l = row_mean 2 C (s l)).
  { intros B C l HB. unfold row_mean. f_equal.
    rewrite <- (relabelling_sumn 2 t (fun k => C (s l) k) Ht). apply sumn_ext. intros k _. apply HB. }
  rewrite !(R B1 A1), !(R B2 A2) in V by (intros; apply E).
  assert (N : s 0%nat <> s 1%nat).
  { unfold relabelling in Hs. cbn in Hs.
    assert (ND : NoDup [s 0%nat; s 1%nat]).
    { eapply Permutation_NoDup; [apply Permutation_sym, Hs|]. repeat constructor; simpl; intuition. }
    inversion ND as [|? ? Hn _]; subst. intros e. apply Hn. left. now symmetry. }
  pose proof (relabelling_lt 2 _ 0 Hs ltac:(lia)) as L0. pose proof (relabelling_lt 2 _ 1 Hs ltac:(lia)) as L1.
  destruct (s 0%nat) as [|[|a]], (s 1%nat) as [|[|b]]; try lia; unfold row_mean, A1, A2 in V; cbn in V; lra.
Qed.

Lemma A2_not_increasing_ex argsort sort : (forall l, is_argsort l (argsort l)) ->
  exists A1 A2, ~ increasing 2 (col_mean 1 (snd (sort_A argsort sort 1 2 false A1 A2))).
Proof.
  intros Ha. exists (fun _ k => if (k =? 0)%nat then 0 else 1), (fun _ k => if (k =? 0)%nat then 1 else 0).
  exact (A2_not_increasing argsort sort Ha).
Qed.
