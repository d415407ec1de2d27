(* Concrete matrices for the theorems on the incomplete Cholesky decomposition, and the
   lemmas behind the theorems. *)
From Verif Require Import Base BaseLemmas IcholModel IcholSpec IcholLemmas IcholColLemmas
  IcholMainLemmas IcholApplyLemmas IcholPropLemmas IcholExactLemmas.
Local Open Scope R_scope.
Local Open Scope nat_scope.

(* ---- behind the theorems ---- *)
Lemma safe n A thr rel max keep c0 v0 r0 shifts :
  canonical n A -> alen c0 = n -> shifts <> [] ->
  (exists L, ichol n A thr rel max keep c0 v0 r0 shifts = Ok L /\ canonical n L /\ lower n (entry L)) \/
  ichol n A thr rel max keep c0 v0 r0 shifts = Err ValueError.
Proof.
  intros can Hc Hs. destruct (ichol_run n A thr rel max keep can c0 v0 r0 shifts Hc Hs)
    as [[pre [s [post [L [_ [E [_ F]]]]]]]|[E _]]; [left; exists L|now right].
  split; [exact E|]. split; [exact (f_canonical n A thr rel keep s L F)|exact (f_lower n A thr rel keep s L F)].
Qed.

Lemma factor n A thr rel max keep c0 v0 r0 shifts L :
  canonical n A -> diagonal_stored n A -> alen c0 = n ->
  ichol n A thr rel max keep c0 v0 r0 shifts = Ok L ->
  lower n (entry L) /\
  exists shift E, In shift shifts /\
    (forall i j, j < i -> i < n ->
       square n (entry L) i j = (entry A i j - E i j)%R /\
       (E i j <> 0%R -> entry L i j = 0%R /\
          ((Rabs (E i j) <= thr * entry L j j)%R \/ (Rabs (E i j) <= rel * column_size n (entry A) j)%R))) /\
    (forall j, j < n ->
       square n (entry L) j j =
       (entry A j j + shift - (if keep then sumn j (fun k => (E j k / entry L k k) ^ 2) else 0))%R).
Proof.
  intros can Hd Hc E. destruct (ichol_ok n A thr rel max keep can c0 v0 r0 shifts L Hc E) as [pre [s [post [-> [_ F]]]]].
  split; [exact (f_lower n A thr rel keep s L F)|].
  pose proof (f_shape n A thr rel keep s L F) as Sh. pose proof (f_dense n A thr rel keep s L F) as Dn.
  exists s, (lost (seen A) (entry L)). split; [apply in_or_app; right; now left|]. split.
  - intros i j Hi Hn. split.
    + rewrite (square_below n (seen A) (entry L) Sh) by assumption.
      now rewrite (seen_entry n) by (assumption || lia).
    + intros Hne. destruct (lost_cases n (diag A s) thr rel keep (seen A) (column_size n (entry A)) n (entry L) j i Dn)
        as [Q|[Q1 [_ Q2]]]; auto; [lia|contradiction].
  - intros j Hj.
    rewrite (square_diag n (diag A s) thr rel keep (seen A) (column_size n (entry A)) (entry L) Sh Dn j Hj).
    unfold diag. rewrite (Rplus_comm s). f_equal. destruct keep; [|reflexivity].
    apply sumn_ext. intros; ring.
Qed.

Lemma first n A thr rel max keep c0 v0 r0 shifts L :
  canonical n A -> alen c0 = n -> n * (n + 1) <= 2 * max ->
  ichol n A thr rel max keep c0 v0 r0 shifts = Ok L ->
  forall c0' v0' r0', alen c0' = n ->
  exists pre shift post L', shifts = pre ++ shift :: post /\
    (forall s, In s pre -> ichol n A thr rel max keep c0' v0' r0' [s] = Err ValueError) /\
    ichol n A thr rel max keep c0' v0' r0' [shift] = Ok L' /\
    forall i j, i < n -> j < n -> entry L' i j = entry L i j.
Proof.
  intros can Hc Hm E c0' v0' r0' Hc'.
  destruct (ichol_ok n A thr rel max keep can c0 v0 r0 shifts L Hc E) as [pre [s [post [-> [St F]]]]].
  exists pre, s, post.
  destruct (ichol_run n A thr rel max keep can c0' v0' r0' [s] Hc') as
    [[pre' [s' [post' [L' [E1 [E2 [_ F']]]]]]]|[_ [E2|E2]]]; [discriminate| |lia|].
  - destruct pre' as [|? [|]]; try discriminate. injection E1 as <- _.
    exists L'. split; [reflexivity|]. split; [intros s' Hs; now apply (stuck_alone n A thr rel max keep can); auto|].
    split; [exact E2|]. intros i j _ Hj.
    apply (dense_unique n (diag A s) thr rel keep (seen A) (column_size n (entry A)) n); auto.
    + exact (f_shape n A thr rel keep s L' F').
    + exact (f_shape n A thr rel keep s L F).
    + exact (f_dense n A thr rel keep s L' F').
    + exact (f_dense n A thr rel keep s L F).
  - destruct (factored_not_stuck n A thr rel keep s L F). apply E2. now left.
Qed.

Lemma refused n A thr rel max keep c0 v0 r0 shifts :
  canonical n A -> alen c0 = n -> n * (n + 1) <= 2 * max -> shifts <> [] ->
  (forall shift, In shift shifts -> ichol n A thr rel max keep c0 v0 r0 [shift] = Err ValueError) <->
  ichol n A thr rel max keep c0 v0 r0 shifts = Err ValueError.
Proof.
  intros can Hc Hm Hs.
  destruct (ichol_run n A thr rel max keep can c0 v0 r0 shifts Hc Hs) as
    [[pre [s [post [L [E1 [E2 [_ F]]]]]]]|[E1 [E2|E2]]]; [|lia|].
  - split; [|congruence]. intros H. exfalso.
    destruct (ichol_run n A thr rel max keep can c0 v0 r0 [s] Hc) as
      [[pre' [s' [post' [L' [_ [Q _]]]]]]|[_ [Q|Q]]]; [discriminate| |lia|].
    + rewrite H in Q; [discriminate|]. rewrite E1. apply in_or_app; right; now left.
    + apply (factored_not_stuck n A thr rel keep s L F), Q. now left.
  - split; [auto|]. intros _ s Hsh. apply (stuck_alone n A thr rel max keep can); auto.
Qed.

Lemma applies n A thr rel max keep c0 v0 r0 shifts L b :
  canonical n A -> alen c0 = n -> ichol n A thr rel max keep c0 v0 r0 shifts = Ok L -> alen b = n ->
  exists x, apply L b = Ok x /\ alen x = n /\
    forall i, i < n -> mulv n (square n (entry L)) (aval x) i = aval b i.
Proof.
  intros can Hc E Hb. destruct (ichol_ok n A thr rel max keep can c0 v0 r0 shifts L Hc E) as [pre [s [post [_ [_ F]]]]].
  now apply (f_apply n A thr rel keep s L F).
Qed.

Lemma preconditioner n A thr rel max keep c0 v0 r0 shifts L b c x y :
  canonical n A -> alen c0 = n -> ichol n A thr rel max keep c0 v0 r0 shifts = Ok L ->
  alen b = n -> alen c = n -> apply L b = Ok x -> apply L c = Ok y ->
  dot n (aval c) (aval x) = dot n (aval y) (aval b) /\
  (nonzero n (aval b) -> (0 < dot n (aval b) (aval x))%R).
Proof.
  intros can Hc E Hb Hcc Ex Ey.
  destruct (applies n A thr rel max keep c0 v0 r0 shifts L b can Hc E Hb) as [x' [Q1 [_ Hx]]].
  destruct (applies n A thr rel max keep c0 v0 r0 shifts L c can Hc E Hcc) as [y' [Q2 [_ Hy]]].
  rewrite Ex in Q1. rewrite Ey in Q2. injection Q1 as <-. injection Q2 as <-.
  split.
  - rewrite (dot_ext n (aval c) (aval x) (mulv n (square n (entry L)) (aval y)) (aval x))
      by (auto; intros; symmetry; auto).
    rewrite (dot_ext n (aval y) (aval b) (aval y) (mulv n (square n (entry L)) (aval x)))
      by (auto; intros; symmetry; auto).
    rewrite dot_comm, !dot_square. apply sumn_ext. intros; ring.
  - intros [i [Hi Hne]].
    rewrite (dot_ext n (aval b) (aval x) (mulv n (square n (entry L)) (aval x)) (aval x))
      by (auto; intros; symmetry; auto).
    rewrite dot_comm, dot_square.
    assert (P : (0 <= sumn n (fun k => sumn n (fun m => entry L m k * aval x m) *
                                 sumn n (fun m => entry L m k * aval x m)))%R).
    { apply sumn_nonneg. intros; apply Rle_0_sqr. }
    destruct P as [P|P]; [assumption|]. exfalso. symmetry in P.
    pose proof (sumn_sq_zero n (fun k => sumn n (fun m => entry L m k * aval x m)%R) P) as Z.
    apply Hne. rewrite <- Hx by assumption. rewrite square_mulv. apply sumn_zero.
    intros k Hk. rewrite Z by assumption. ring.
Qed.

Lemma exact_solve n A thr rel max keep c0 v0 r0 shifts b :
  canonical n A -> positive_definite n (entry A) -> (thr <= 0)%R -> (rel <= 0)%R ->
  n * (n + 1) <= 2 * max -> alen c0 = n -> alen b = n ->
  exists L x, ichol n A thr rel max keep c0 v0 r0 (0%R :: shifts) = Ok L /\
    (forall i j, i < n -> j < n -> square n (entry L) i j = entry A i j) /\
    apply L b = Ok x /\ forall i, i < n -> mulv n (entry A) (aval x) i = aval b i.
Proof.
  intros can Pd Ht Hr Hm Hc Hb.
  destruct (ichol_run n A thr rel max keep can c0 v0 r0 (0%R :: shifts) Hc) as
    [[pre [s [post [L [E1 [E2 [St F]]]]]]]|[_ [Q|Q]]]; [discriminate| |lia|].
  - assert (Es : s = 0%R).
    { destruct pre as [|s' pre]; [now injection E1|]. injection E1 as <- _.
      destruct (pd_not_stuck n A thr rel keep Ht Hr Pd). apply St. now left. }
    subst s. pose proof (exact_square n A thr rel keep Ht Hr Pd L F) as Sq.
    destruct (f_apply n A thr rel keep 0 L F b Hb) as [x [Ex [_ Hx]]].
    exists L, x. split; [exact E2|]. split; [exact Sq|]. split; [exact Ex|].
    intros i Hi. rewrite <- Hx by assumption. apply sumn_ext. intros j Hj. now rewrite Sq.
  - destruct (pd_not_stuck n A thr rel keep Ht Hr Pd). apply Q. now left.
Qed.

(* ---- matrices given by lists ---- *)
Definition of_lists (v : list R) (r p : list nat) : csc :=
  Csc (Arr (length v) (fun i => nth i v 0%R)) (Arr (length r) (fun i => nth i r 0)) (Arr (length p) (fun i => nth i p 0)).

Definition check (n : nat) (M : csc) : bool :=
  (alen (cp M) =? n + 1) && (aval (cp M) 0 =? 0) &&
  forallb (fun j => aval (cp M) j <=? aval (cp M) (j + 1)) (range n) &&
  (aval (cp M) n <=? alen (cr M)) && (aval (cp M) n <=? alen (cv M)) &&
  forallb (fun j => forallb (fun idx => (aval (cr M) idx <? n) &&
     forallb (fun idx' => aval (cr M) idx <? aval (cr M) idx') (range2 (idx + 1) (aval (cp M) (j + 1))))
     (range2 (aval (cp M) j) (aval (cp M) (j + 1)))) (range n).
Lemma check_ok n M : check n M = true -> canonical n M.
Proof.
  unfold check. rewrite !Bool.andb_true_iff, !forallb_forall, !Nat.eqb_eq, !Nat.leb_le.
  intros [[[[[H1 H2] H3] H4] H5] H6].
  assert (In_r : forall j, j < n -> In j (range n)) by (intros; unfold range; apply in_seq; lia).
  constructor; auto.
  - intros j Hj. apply Nat.leb_le. now apply H3, In_r.
  - intros j idx Hj Hx. specialize (H6 j (In_r j Hj)). rewrite forallb_forall in H6.
    specialize (H6 idx (proj2 (in_range2 _ _ _) Hx)). rewrite Bool.andb_true_iff, Nat.ltb_lt in H6. apply H6.
  - intros j a b Hj Ha Hab Hb. specialize (H6 j (In_r j Hj)). rewrite forallb_forall in H6.
    specialize (H6 a (proj2 (in_range2 _ _ _) (conj Ha (Nat.lt_trans _ _ _ Hab Hb)))).
    rewrite Bool.andb_true_iff, forallb_forall in H6. apply Nat.ltb_lt, H6, in_range2. lia.
Qed.

(* the matrix of the docstring, 237 *)
Definition doc : csc := of_lists [2; 3; 3; 5]%R [0; 1; 0; 1] [0; 2; 4].
Lemma doc_can : canonical 2 doc.
Proof. now apply check_ok. Qed.
Ltac entries := unfold entry; cbn; try lra.
Lemma doc_pd : positive_definite 2 (entry doc).
Proof.
  split.
  - intros [|[|i]] [|[|j]] Hi Hj; try lia; entries.
  - intros x [i [Hi Hx]]. unfold dot, mulv, sumn. cbn.
    destruct i as [|[|i]]; [| |lia].
    + assert (0 < x 0%nat * x 0%nat)%R by (apply Rsqr_pos_lt; assumption).
      pose proof (Rle_0_sqr (3 * x 0%nat + 5 * x 1%nat)) as Q. unfold Rsqr in Q. nra.
    + assert (0 < x 1%nat * x 1%nat)%R by (apply Rsqr_pos_lt; assumption).
      pose proof (Rle_0_sqr (2 * x 0%nat + 3 * x 1%nat)) as Q. unfold Rsqr in Q. nra.
Qed.

(* a column without a stored diagonal *)
Definition gap : csc := of_lists [2; 1; 1; 2]%R [0; 2; 0; 2] [0; 2; 2; 4].
Lemma gap_can : canonical 3 gap.
Proof. now apply check_ok. Qed.
Lemma gap_seen : seen gap 1 0 = 0%R /\ seen gap 2 0 = 1%R /\ seen gap 2 1 = 1%R /\
  entry gap 0 0 = 2%R /\ entry gap 1 1 = 0%R /\ entry gap 2 2 = 2%R /\ entry gap 2 1 = 0%R.
Proof. unfold seen, sumn; cbn. unfold entry; cbn. repeat split; lra. Qed.

Lemma kept_always thr rel dj size u : (thr <= 0)%R -> (rel <= 0)%R -> (0 <= size)%R -> (0 < dj)%R ->
  kept thr rel dj size u = (u / dj)%R.
Proof.
  intros Ht Hr Hs Hd. unfold kept. destruct (Req_EM_T u 0) as [->|Hu].
  - destruct (Rlt_dec thr _); [destruct (Rlt_dec _ _)|]; unfold Rdiv; ring.
  - assert ((u / dj)%R <> 0%R).
    { unfold Rdiv. apply Rmult_integral_contrapositive_currified; [assumption|]. apply Rinv_neq_0_compat. lra. }
    pose proof (Rabs_pos_lt _ H). pose proof (Rabs_pos_lt _ Hu).
    destruct (Rlt_dec _ _) as [|Q]; [|lra]. destruct (Rlt_dec _ _) as [|Q]; [reflexivity|nra].
Qed.

Lemma gap_not_stuck : ~ stuck 3 gap 0 0 true 1.
Proof.
  intros [M [j [Hj [Sh [Dj Pv]]]]].
  destruct gap_seen as [G1 [G2 [G3 [G4 [G5 [G6 G7]]]]]].
  assert (K : forall k i, k < j -> k < i -> i < 3 -> M i k = (elim (seen gap) M k i / M k k)%R).
  { intros k i H1 H2 H3. destruct (Dj k H1) as [_ [_ Q]]. rewrite Q by assumption.
    apply kept_always; try lra; [apply column_size_nonneg|].
    apply (dense_pos _ _ _ _ _ _ _ j _ _ Dj H1). }
  assert (Sq : forall k, k < j -> (M k k * M k k)%R = pivot (seen gap) (diag gap 1) true M k).
  { intros k Hk. apply (dense_diag _ _ _ _ _ _ _ j _ _ Dj Hk). }
  assert (P0 : pivot (seen gap) (diag gap 1) true M 0 = 3%R).
  { unfold pivot, diag. rewrite sumn_0, G4. ring. }
  destruct j as [|[|[|j]]]; [lra| | |lia].
  - assert (pivot (seen gap) (diag gap 1) true M 1 = 1%R); [|lra].
    unfold pivot, diag. rewrite sumn_S, sumn_0, G5. unfold taken, elim. rewrite sumn_0, G1. unfold Rdiv; ring.
  - pose proof (Sq 0 ltac:(lia)) as S0. pose proof (Sq 1 ltac:(lia)) as S1.
    assert (M00 : (0 < M 0%nat 0%nat)%R) by (apply (dense_pos _ _ _ _ _ _ _ 2 _ _ Dj); lia).
    assert (M11 : (0 < M 1%nat 1%nat)%R) by (apply (dense_pos _ _ _ _ _ _ _ 2 _ _ Dj); lia).
    assert (E10 : elim (seen gap) M 0%nat 1%nat = 0%R) by (unfold elim; rewrite sumn_0, G1; ring).
    assert (E20 : elim (seen gap) M 0%nat 2%nat = 1%R) by (unfold elim; rewrite sumn_0, G2; ring).
    assert (M10 : M 1%nat 0%nat = 0%R) by (rewrite K, E10 by lia; unfold Rdiv; ring).
    assert (P1 : pivot (seen gap) (diag gap 1) true M 1 = 1%R).
    { unfold pivot, diag. rewrite sumn_S, sumn_0, G5. unfold taken. rewrite E10. unfold Rdiv; ring. }
    assert (E21 : elim (seen gap) M 1%nat 2%nat = 1%R).
    { unfold elim. rewrite sumn_S, sumn_0, G3, M10. ring. }
    assert (pivot (seen gap) (diag gap 1) true M 2 = (3 - / 3 - 1)%R); [|lra].
    rewrite P0 in S0. rewrite P1 in S1.
    unfold pivot, diag. rewrite !sumn_S, sumn_0, G6. unfold taken. rewrite E20, E21.
    assert (I0 : (1 / M 0%nat 0%nat * (1 / M 0%nat 0%nat) = / 3)%R).
    { rewrite <- S0. field. lra. }
    assert (I1 : (1 / M 1%nat 1%nat * (1 / M 1%nat 1%nat) = 1)%R).
    { transitivity (/ (M 1%nat 1%nat * M 1%nat 1%nat))%R; [field; lra|]. rewrite S1. lra. }
    rewrite I0, I1. lra.
Qed.

Lemma gap_result c0 v0 r0 : alen c0 = 3 ->
  exists L, ichol 3 gap 0 0 6 true c0 v0 r0 [1%R] = Ok L /\
    square 3 (entry L) 2 1 = 1%R /\ entry gap 2 1 = 0%R.
Proof.
  intros Hc. destruct gap_seen as [G1 [G2 [G3 [G4 [G5 [G6 G7]]]]]].
  destruct (ichol_run 3 gap 0 0 6 true gap_can c0 v0 r0 [1%R] Hc) as
    [[pre [s [post [L [E1 [E2 [_ F]]]]]]]|[_ [Q|Q]]]; [discriminate| |lia|].
  - destruct pre as [|? [|]]; try discriminate. injection E1 as <- _.
    exists L. split; [exact E2|]. split; [|exact G7].
    rewrite (square_below 3 (seen gap) (entry L) (f_shape 3 gap 0 0 true 1 L F)) by lia.
    rewrite (lost_none 3 (diag gap 1) 0 0 true (seen gap) (column_size 3 (entry gap)) 3).
    + rewrite G3. ring.
    + lra.
    + lra.
    + intros; apply column_size_nonneg.
    + lia.
    + exact (f_dense 3 gap 0 0 true 1 L F).
    + lia.
    + lia.
    + lia.
  - destruct gap_not_stuck. apply Q. now left.
Qed.

(* a small element is thrown away *)
Definition small : csc := of_lists [1; / 4; / 4; 1]%R [0; 1; 0; 1] [0; 2; 4].
Lemma small_can : canonical 2 small.
Proof. now apply check_ok. Qed.
Lemma small_diag : diagonal_stored 2 small.
Proof. intros [|[|j]] H; [exists 0|exists 3|lia]; cbn; lia. Qed.
Lemma small_result c0 v0 r0 : alen c0 = 2 ->
  exists L, ichol 2 small (/ 2) 0 3 true c0 v0 r0 [0%R] = Ok L /\
    entry L 1 0 = 0%R /\ entry L 0 0 = 1%R /\ (entry L 1 1 * entry L 1 1 = 15 / 16)%R.
Proof.
  intros Hc.
  assert (G : seen small 1 0 = (/ 4)%R /\ entry small 0 0 = 1%R /\ entry small 1 1 = 1%R).
  { unfold seen; cbn. unfold entry; cbn. repeat split; lra. }
  destruct G as [G1 [G2 G3]].
  assert (Res : forall M j, dense 2 (seen small) (diag small 0) (column_size 2 (entry small)) (/ 2) 0 true j M ->
    0 < j -> M 0 0 = 1%R /\ M 1 0 = 0%R /\ pivot (seen small) (diag small 0) true M 1 = (15 / 16)%R).
  { intros M j Dj Hj.
    assert (P0 : pivot (seen small) (diag small 0) true M 0 = 1%R).
    { unfold pivot, diag. rewrite sumn_0, G2. ring. }
    destruct (Dj 0 Hj) as [_ [Q1 Q2]]. rewrite P0, sqrt_1 in Q1.
    assert (E : elim (seen small) M 0 1 = (/ 4)%R) by (unfold elim; rewrite sumn_0, G1; ring).
    split; [assumption|]. split.
    - rewrite Q2 by lia. rewrite E, Q1. unfold kept.
      destruct (Rlt_dec _ _) as [H|H]; [|reflexivity].
      exfalso. rewrite Rabs_pos_eq in H by lra. lra.
    - unfold pivot, diag. rewrite sumn_S, sumn_0, G3. unfold taken. rewrite E, Q1. lra. }
  assert (P0 : forall M, pivot (seen small) (diag small 0) true M 0 = 1%R).
  { intros M. unfold pivot, diag. rewrite sumn_0, G2. ring. }
  destruct (ichol_run 2 small (/ 2) 0 3 true small_can c0 v0 r0 [0%R] Hc) as
    [[pre [s [post [L [E1 [E2 [_ F]]]]]]]|[_ [Q|Q]]]; [discriminate| |lia|].
  - destruct pre as [|? [|]]; try discriminate. injection E1 as <- _.
    exists L. split; [exact E2|]. pose proof (f_dense _ _ _ _ _ _ _ F) as Dn.
    destruct (Res _ 2 Dn) as [Q1 [Q2 Q3]]; [lia|]. split; [assumption|]. split; [assumption|].
    rewrite <- Q3. apply (dense_diag _ _ _ _ _ _ _ 2 _ _ Dn). lia.
  - exfalso. destruct (Q 0%R (or_introl eq_refl)) as [M [j [Hj [_ [Dj Pv]]]]].
    destruct j as [|[|j]]; [rewrite P0 in Pv; lra| |lia].
    destruct (Res M 1 Dj) as [_ [_ Q3]]; [lia|]. lra.
Qed.
