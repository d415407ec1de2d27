(* Lemmas: without thresholds the decomposition of a positive definite matrix succeeds
   and is exact. *)
From Verif Require Import Base BaseLemmas IcholModel IcholSpec IcholLemmas IcholColLemmas
  IcholMainLemmas IcholApplyLemmas IcholPropLemmas.
Local Open Scope R_scope.
Local Open Scope nat_scope.

Lemma column_size_nonneg n A j : (0 <= column_size n A j)%R.
Proof. apply sumn_nonneg. intros i _. destruct (j <=? i); [apply Rabs_pos|lra]. Qed.

(* a vector orthogonal to the first j columns *)
Lemma kernel n j (M : nat -> nat -> R) : j < n -> (forall i k, k < j -> i < k -> M i k = 0%R) ->
  (forall k, k < j -> M k k <> 0%R) ->
  exists x, x j = 1%R /\ (forall i, j < i -> x i = 0%R) /\
    forall k, k < j -> sumn n (fun i => M i k * x i)%R = 0%R.
Proof.
  intros Hj Hlow Hd.
  assert (G : forall d, d <= j -> exists x, x j = 1%R /\ (forall i, j < i -> x i = 0%R) /\
    (forall i, i < j - d -> x i = 0%R) /\
    forall k, j - d <= k -> k < j -> sumn n (fun i => M i k * x i)%R = 0%R).
  { induction d as [|d IH]; intros Hdj.
    - exists (fun i => if i =? j then 1%R else 0%R). rewrite Nat.eqb_refl.
      repeat split; intros; try lia; destruct (Nat.eqb_spec i j); lia || reflexivity.
    - destruct IH as [x [X1 [X2 [X3 X4]]]]; [lia|]. set (q := j - S d).
      set (z := (- sumn n (fun i => M i q * x i) / M q q)%R).
      exists (fun i => if i =? q then z else x i).
      assert (Hq : q < j) by (unfold q; lia).
      split; [destruct (Nat.eqb_spec j q); [lia|assumption]|].
      split; [intros i Hi; destruct (Nat.eqb_spec i q); [lia|auto]|].
      split; [intros i Hi; destruct (Nat.eqb_spec i q); [lia|apply X3; unfold q in Hi; lia]|].
      assert (Split : forall k, sumn n (fun i => M i k * (if i =? q then z else x i))%R =
                (sumn n (fun i => M i k * x i) + M q k * (z - x q))%R).
      { intros k. transitivity (sumn n (fun i => M i k * x i + (if i =? q then M q k * (z - x q) else 0))%R).
        - apply sumn_ext. intros i _. destruct (Nat.eqb_spec i q) as [->|]; ring.
        - rewrite sumn_plus. f_equal. rewrite (sumn_single n q); [now rewrite Nat.eqb_refl|lia|].
          intros i _ Hne. now destruct (Nat.eqb_spec i q). }
      intros k K1 K2. rewrite Split. destruct (Nat.eq_dec k q) as [->|].
      + rewrite (X3 q) by (unfold q; lia). unfold z. field. now apply Hd.
      + rewrite X4, Hlow by (unfold q in *; lia). ring. }
  destruct (G j (Nat.le_refl j)) as [x [X1 [X2 [_ X4]]]]. exists x. split; [assumption|]. split; [assumption|].
  intros k Hk. apply X4; lia.
Qed.

Section Exact.
Variables (n : nat) (A : csc) (thr rel : R) (keep : bool).
Hypothesis Ht : (thr <= 0)%R.
Hypothesis Hr : (rel <= 0)%R.
Hypothesis Apd : positive_definite n (entry A).

Lemma pd_diag j : j < n -> (0 < entry A j j)%R.
Proof.
  intros Hj. destruct Apd as [_ P]. specialize (P (fun i => if i =? j then 1%R else 0%R)).
  replace (entry A j j) with (dot n (fun i => if i =? j then 1%R else 0%R)
     (mulv n (entry A) (fun i => if i =? j then 1%R else 0%R))).
  - apply P. exists j. rewrite Nat.eqb_refl. split; [assumption|lra].
  - unfold dot, mulv. rewrite (sumn_single n j); [|assumption|].
    + rewrite Nat.eqb_refl, (sumn_single n j); [rewrite Nat.eqb_refl; ring|assumption|].
      intros i _ Hne. destruct (Nat.eqb_spec i j); [contradiction|ring].
    + intros i _ Hne. destruct (Nat.eqb_spec i j); [contradiction|ring].
Qed.
Lemma pd_stored : diagonal_stored n A.
Proof. apply diagonal_of_nonzero. intros j Hj. pose proof (pd_diag j Hj). lra. Qed.

Lemma pd_not_stuck : ~ stuck n A thr rel keep 0.
Proof.
  intros [M [j [Hj [Sh [Dj Pv]]]]]. destruct Apd as [Sym P].
  assert (Lo : forall i k, k < j -> k < i -> i < n -> lost (seen A) M i k = 0%R).
  { intros i k H1 H2 H3.
    apply (lost_none n (diag A 0) thr rel keep (seen A) (column_size n (entry A)) j); auto; try lia.
    intros; apply column_size_nonneg. }
  assert (Sn : forall i k, k < n -> seen A i k = entry A i k).
  { intros i k Hk. apply (seen_entry n); [apply pd_stored|assumption]. }
  assert (Low : forall i k, k < j -> i < k -> M i k = 0%R) by (intros; apply Sh; auto).
  assert (Pos : forall k, k < j -> (0 < M k k)%R).
  { intros k Hk. apply (dense_pos n (diag A 0) thr rel keep (seen A) (column_size n (entry A)) j); assumption. }
  assert (Tk : forall k i, k < j -> k < i -> i < n -> taken (seen A) keep M k i = (M i k * M i k)%R).
  { intros k i H1 H2 H3.
    rewrite (lost_square n (diag A 0) thr rel keep (seen A) (column_size n (entry A)) j M k i Dj) by assumption.
    rewrite Lo by assumption. destruct keep; unfold Rdiv; ring. }
  assert (Pk : forall k, k <= j -> pivot (seen A) (diag A 0) keep M k =
             (entry A k k - sumn k (fun m => M k m * M k m))%R).
  { intros k Hk. unfold pivot, diag. f_equal; [ring|]. apply sumn_ext. intros m Hm. apply Tk; lia. }
  set (pv := pivot (seen A) (diag A 0) keep M j) in *.
  (* the leading block *)
  assert (Below : forall i l, l < i -> i <= j -> entry A i l = sumn j (fun k => M i k * M l k)%R).
  { intros i l Hl Hi. pose proof (Lo i l ltac:(lia) Hl ltac:(lia)) as Q. unfold lost, elim in Q.
    rewrite (sumn_cut j (S l)) by (try lia; intros; rewrite (Low l) by lia; ring).
    rewrite sumn_S. rewrite <- Sn by lia. lra. }
  assert (Blk : forall i l, i <= j -> l <= j ->
    entry A i l = (sumn j (fun k => M i k * M l k) + (if (i =? j) && (l =? j) then pv else 0))%R).
  { intros i l Hi Hl. destruct (Nat.lt_trichotomy l i) as [H|[->|H]].
    - rewrite Below by lia. destruct (Nat.eqb_spec l j); [lia|]. rewrite Bool.andb_false_r. ring.
    - destruct (Nat.eqb_spec i j) as [->|Hne]; cbn [andb].
      + unfold pv. rewrite Pk by lia. ring.
      + rewrite (sumn_cut j (S i)) by (try lia; intros; rewrite (Low i) by lia; ring).
        rewrite sumn_S.
        rewrite (dense_diag n (diag A 0) thr rel keep (seen A) (column_size n (entry A)) j M i Dj) by lia.
        rewrite Pk by lia. ring.
    - rewrite Sym by lia. rewrite Below by lia. destruct (Nat.eqb_spec i j); [lia|]. cbn [andb].
      rewrite Rplus_0_r. apply sumn_ext. intros; ring. }
  destruct (kernel n j M Hj Low) as [x [X1 [X2 X3]]].
  { intros k Hk. pose proof (Pos k Hk). lra. }
  assert (Q : dot n x (mulv n (entry A) x) = pv).
  { unfold dot, mulv.
    assert (E1 : forall i, i < n -> (x i * sumn n (fun l => entry A i l * x l))%R =
              (if i =? j then pv else 0)%R).
    { intros i Hi. destruct (Nat.lt_ge_cases j i) as [Hji|Hij].
      - rewrite X2 by assumption. destruct (Nat.eqb_spec i j); [lia|]. ring.
      - transitivity (x i * sumn n (fun l => (sumn j (fun k => M i k * M l k) * x l +
                               (if l =? j then (if i =? j then pv * x l else 0) else 0))))%R.
        + f_equal. apply sumn_ext. intros l Hl. destruct (Nat.lt_ge_cases j l) as [Hjl|Hlj].
          * rewrite X2 by assumption. destruct (Nat.eqb_spec l j); [lia|]. ring.
          * rewrite Blk by assumption. destruct (i =? j), (l =? j); cbn [andb]; ring.
        + rewrite sumn_plus.
          assert (Z : sumn n (fun l => sumn j (fun k => M i k * M l k) * x l)%R = 0%R).
          { transitivity (sumn n (fun l => sumn j (fun k => M i k * (M l k * x l)))%R).
            - apply sumn_ext. intros l _. rewrite <- sumn_scal_r. apply sumn_ext. intros; ring.
            - rewrite sumn_swap. apply sumn_zero. intros k Hk. rewrite sumn_scal, X3 by assumption. ring. }
          rewrite Z, (sumn_single n j); [|assumption|].
          * rewrite Nat.eqb_refl. destruct (Nat.eqb_spec i j) as [->|]; [rewrite X1|]; ring.
          * intros l _ Hne. now destruct (Nat.eqb_spec l j). }
    rewrite (sumn_ext n _ (fun i => if i =? j then pv else 0%R) E1).
    rewrite (sumn_single n j); [now rewrite Nat.eqb_refl|assumption|].
    intros i _ Hne. now destruct (Nat.eqb_spec i j). }
  assert (0 < pv)%R; [|lra].
  rewrite <- Q. apply P. exists j. rewrite X1. split; [assumption|lra].
Qed.

Lemma exact_square L : factored n A thr rel keep 0 L ->
  forall i j, i < n -> j < n -> square n (entry L) i j = entry A i j.
Proof.
  intros F.
  assert (Lo : forall i k, k < n -> k < i -> i < n -> lost (seen A) (entry L) i k = 0%R).
  { intros i k H1 H2 H3.
    apply (lost_none n (diag A 0) thr rel keep (seen A) (column_size n (entry A)) n); auto; try lia.
    - intros; apply column_size_nonneg.
    - apply (f_dense n A thr rel keep 0 L F). }
  pose proof (f_shape n A thr rel keep 0 L F) as Sh.
  pose proof (f_dense n A thr rel keep 0 L F) as Dn.
  assert (Below : forall i j, j < i -> i < n -> square n (entry L) i j = entry A i j).
  { intros i j Hi Hn.
    rewrite (square_below n (seen A) (entry L) Sh) by assumption.
    rewrite Lo by lia. rewrite (seen_entry n) by (try apply pd_stored; lia). ring. }
  intros i j Hi Hj. destruct (Nat.lt_trichotomy j i) as [H|[->|H]].
  - now apply Below.
  - rewrite (square_diag n (diag A 0) thr rel keep (seen A) (column_size n (entry A)) (entry L) Sh Dn i Hi).
    unfold diag. replace (if keep then _ else _) with 0%R; [ring|].
    destruct keep; [|reflexivity]. symmetry. apply sumn_zero. intros k Hk. rewrite Lo by lia. unfold Rdiv; ring.
  - rewrite square_sym. rewrite Below by assumption. now apply Apd.
Qed.
End Exact.
