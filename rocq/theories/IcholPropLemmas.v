(* Lemmas behind the theorems on the incomplete Cholesky decomposition. *)
From Verif Require Import Base BaseLemmas IcholModel IcholSpec IcholLemmas IcholColLemmas
  IcholMainLemmas IcholApplyLemmas.
Local Open Scope R_scope.
Local Open Scope nat_scope.

(* ---- what the code reads of A ---- *)
Definition stored (A : csc) (j : nat) : bool :=
  existsb (fun idx => aval (cr A) idx =? j) (range2 (aval (cp A) j) (aval (cp A) (j + 1))).
Definition seen (A : csc) (i j : nat) : R :=
  if stored A j then entry A i j else sumn (j + 1) (fun k => entry A i k).

Section Seen.
Variables (n : nat) (A : csc).
Hypothesis can : canonical n A.
Notation av := (aval (cv A)).
Notation ar := (aval (cr A)).
Notation ap := (aval (cp A)).

Lemma stored_true j : stored A j = true <-> exists idx, ap j <= idx < ap (j + 1) /\ ar idx = j.
Proof.
  unfold stored. rewrite existsb_exists. split.
  - intros [idx [H1 H2]]. apply in_range2 in H1. apply Nat.eqb_eq in H2. eauto.
  - intros [idx [H1 H2]]. exists idx. split; [now apply in_range2|now apply Nat.eqb_eq].
Qed.

Lemma from_start j i : j < n -> colsum av ar 0 (ap (j + 1)) i = sumn (j + 1) (fun k => entry A i k).
Proof.
  induction j as [|j IH]; intros Hj.
  - change (0 + 1) with 1. rewrite sumn_S, sumn_0, entry_colsum, (can_0 _ _ can). rewrite Rplus_0_l. reflexivity.
  - pose proof (can_mono _ _ can (S j) Hj) as Q.
    replace (S j) with (j + 1) in * by lia.
    rewrite (colsum_split _ _ 0 (ap (j + 1))) by lia. rewrite IH by lia.
    replace (j + 1 + 1) with (S (j + 1)) at 2 by lia. rewrite sumn_S. f_equal.
Qed.

Lemma read_seen t i j : j < n -> j < i -> tspec ar (ap j) (ap (j + 1)) j (aval t j) ->
  read A t i j = seen A i j.
Proof.
  intros Hj Hi T. unfold read, seen. destruct T as [[idx [Hx [Er ->]]]|[Hno ->]].
  - assert (stored A j = true) as -> by (apply stored_true; eauto).
    rewrite entry_colsum, (colsum_split _ _ (ap j) (idx + 1)) by lia.
    rewrite (colsum_zero _ _ (ap j)); [ring|]. intros m Hm.
    destruct (Nat.eq_dec m idx) as [->|]; [lia|].
    pose proof (can_inc _ _ can j m idx Hj ltac:(lia) ltac:(lia) ltac:(lia)). lia.
  - assert (stored A j = false) as ->.
    { apply Bool.not_true_is_false. rewrite stored_true. intros [idx [H1 H2]]. now apply (Hno idx). }
    now apply from_start.
Qed.

Lemma colsum_abs j i : j < n ->
  colsum (fun idx => Rabs (av idx)) ar (ap j) (ap (j + 1)) i = Rabs (entry A i j).
Proof.
  intros Hj. rewrite entry_colsum.
  destruct (in_dec Nat.eq_dec i (map ar (range2 (ap j) (ap (j + 1))))) as [Hi|Hi].
  - apply in_map_iff in Hi. destruct Hi as [idx [<- Hx]]. apply in_range2 in Hx.
    assert (inc : forall a b, ap j <= a -> a < b -> b < ap (j + 1) -> ar a < ar b)
      by (intros; now apply (can_inc _ _ can j)).
    now rewrite !colsum_at.
  - assert (Z : forall idx, ap j <= idx < ap (j + 1) -> ar idx <> i).
    { intros idx Hx E. apply Hi, in_map_iff. exists idx. split; [assumption|now apply in_range2]. }
    rewrite !colsum_zero by assumption. now rewrite Rabs_R0.
Qed.

Lemma abssum_size j : j < n -> abssum av ar (ap j) (ap (j + 1)) j = column_size n (entry A) j.
Proof.
  intros Hj. unfold abssum, column_size.
  transitivity (rsum (map (fun idx => Rabs (av idx) * (if j <=? ar idx then 1 else 0))%R
                          (range2 (ap j) (ap (j + 1))))).
  - apply rsum_map_ext. intros idx _. destruct (j <=? ar idx); ring.
  - rewrite <- (colsum_rows n (fun idx => Rabs (av idx)) ar (ap j) (ap (j + 1))
                 (fun i => if j <=? i then 1%R else 0%R)).
    + apply sumn_ext. intros i Hi. rewrite colsum_abs by assumption. destruct (j <=? i); ring.
    + now apply (can_mono _ _ can).
    + intros idx Hx. now apply (can_row _ _ can j).
Qed.

Lemma seen_entry i j : diagonal_stored n A -> j < n -> seen A i j = entry A i j.
Proof. intros H Hj. unfold seen. now rewrite (proj2 (stored_true j) (H j Hj)). Qed.
Lemma diagonal_of_nonzero : (forall j, j < n -> entry A j j <> 0%R) -> diagonal_stored n A.
Proof.
  intros H j Hj. apply stored_true. destruct (stored A j) eqn:E; [reflexivity|].
  exfalso. apply (H j Hj). rewrite entry_colsum. apply colsum_zero. intros idx Hx Ex.
  assert (stored A j = true) by (apply stored_true; eauto). congruence.
Qed.
End Seen.

(* ---- the dense computation ---- *)
Section DenseFacts.
Variables (n : nat) (D : nat -> R) (thr rel : R) (keep : bool).

Lemma dense_data B B' size size' j M : j <= n ->
  (forall k i, k < i -> i < n -> B i k = B' i k) -> (forall k, k < n -> size k = size' k) ->
  (forall k, k < n -> pivot B D keep M k = pivot B' D keep M k) /\
  (dense n B D size thr rel keep j M -> dense n B' D size' thr rel keep j M).
Proof.
  intros Hj HB Hs.
  assert (HE : forall k i, k < i -> i < n -> elim B M k i = elim B' M k i).
  { intros k i H1 H2. unfold elim. now rewrite HB. }
  assert (HP : forall k, k < n -> pivot B D keep M k = pivot B' D keep M k).
  { intros k Hk. unfold pivot. f_equal. apply sumn_ext. intros m Hm. unfold taken.
    now rewrite HE by lia. }
  split; [exact HP|]. intros H k Hk. destruct (H k Hk) as [H1 [H2 H3]].
  rewrite <- HP by lia. split; [assumption|]. split; [assumption|].
  intros i Hi Hn. rewrite <- HE, <- Hs by lia. now apply H3.
Qed.

Variables (B : nat -> nat -> R) (size : nat -> R).
Notation dense := (dense n B D size thr rel keep).

Definition shape (j : nat) (M : nat -> nat -> R) : Prop :=
  forall i k, k < j -> i < k \/ n <= i -> M i k = 0%R.

Lemma dense_unique j M M' : j <= n -> shape j M -> shape j M' -> dense j M -> dense j M' ->
  forall i k, k < j -> M i k = M' i k.
Proof.
  induction j as [|j IH]; intros Hj S1 S2 D1 D2 i k Hk; [lia|].
  assert (Q : forall i k, k < j -> M i k = M' i k).
  { apply IH; try lia.
    - intros i' k' H1; apply S1; lia.
    - intros i' k' H1; apply S2; lia.
    - intros k' H1; apply D1; lia.
    - intros k' H1; apply D2; lia. }
  destruct (Nat.eq_dec k j) as [->|]; [|apply Q; lia].
  destruct (D1 j ltac:(lia)) as [_ [E1 F1]]. destruct (D2 j ltac:(lia)) as [_ [E2 F2]].
  assert (Ejj : M j j = M' j j).
  { rewrite E1, E2. f_equal. apply (pivot_ext B D keep j); auto. }
  destruct (Nat.lt_trichotomy i j) as [H|[->|H]]; [rewrite S1, S2 by lia; reflexivity|assumption|].
  destruct (Nat.lt_ge_cases i n); [|rewrite S1, S2 by lia; reflexivity].
  rewrite F1, F2, Ejj by assumption. f_equal. apply (elim_ext B j); auto.
Qed.

Lemma dense_pos j M k : dense j M -> k < j -> (0 < M k k)%R.
Proof. intros H Hk. destruct (H k Hk) as [H1 [-> _]]. now apply sqrt_lt_R0. Qed.
Lemma dense_diag j M k : dense j M -> k < j -> (M k k * M k k)%R = pivot B D keep M k.
Proof. intros H Hk. destruct (H k Hk) as [H1 [-> _]]. apply sqrt_sqrt. lra. Qed.

(* what is thrown away *)
Definition lost (M : nat -> nat -> R) (i j : nat) : R := (elim B M j i - M i j * M j j)%R.

Lemma lost_cases j M k i : dense j M -> k < j -> k < i -> i < n ->
  lost M i k = 0%R \/ M i k = 0%R /\ lost M i k = elim B M k i /\
    ((Rabs (lost M i k) <= thr * M k k)%R \/ (Rabs (lost M i k) <= rel * size k)%R).
Proof.
  intros H Hk Hi Hn. pose proof (dense_pos j M k H Hk) as Hp.
  destruct (H k Hk) as [_ [_ H3]]. specialize (H3 i Hi Hn). unfold kept in H3.
  assert (Q : M i k = 0%R -> lost M i k = elim B M k i) by (intros E; unfold lost; rewrite E; ring).
  destruct (Rlt_dec thr (Rabs (elim B M k i / M k k))) as [H1|H1].
  - destruct (Rlt_dec (rel * size k) (Rabs (elim B M k i))) as [H2|H2].
    + left. unfold lost. rewrite H3. field. lra.
    + right. rewrite Q by assumption. split; [assumption|]. split; [reflexivity|]. right. lra.
  - right. rewrite Q by assumption. split; [assumption|]. split; [reflexivity|]. left.
    apply Rnot_lt_le in H1. unfold Rdiv in H1. rewrite Rabs_mult, Rabs_inv, (Rabs_pos_eq (M k k)) in H1 by lra.
    apply (Rmult_le_compat_r (M k k)) in H1; [|lra].
    rewrite Rmult_assoc, Rinv_l in H1 by lra. lra.
Qed.

Lemma lost_square j M k i : dense j M -> k < j -> k < i -> i < n ->
  taken B keep M k i = (M i k * M i k + (if keep then (lost M i k / M k k) * (lost M i k / M k k) else 0))%R.
Proof.
  intros H Hk Hi Hn. pose proof (dense_pos j M k H Hk) as Hp. unfold taken.
  pose proof (lost_cases j M k i H Hk Hi Hn) as Q. clear H.
  destruct keep; [|ring]. destruct Q as [E|[E1 [E2 _]]].
  - rewrite E. unfold lost in E. replace (elim B M k i) with (M i k * M k k)%R by lra. field. lra.
  - rewrite E1, E2. field. lra.
Qed.

(* no threshold *)
Lemma lost_none j M k i : (thr <= 0)%R -> (rel <= 0)%R -> (forall k, k < n -> (0 <= size k)%R) -> j <= n ->
  dense j M -> k < j -> k < i -> i < n -> lost M i k = 0%R.
Proof.
  intros Ht Hr Hs Hj H Hk Hi Hn. pose proof (dense_pos j M k H Hk) as Hp.
  destruct (lost_cases j M k i H Hk Hi Hn) as [E|[_ [_ E]]]; [assumption|].
  pose proof (Rabs_pos (lost M i k)). pose proof (Hs k ltac:(lia)).
  assert (Rabs (lost M i k) = 0%R) as Z by (destruct E; nra).
  destruct (Req_EM_T (lost M i k) 0) as [|Q]; [assumption|]. apply Rabs_no_R0 in Q. contradiction.
Qed.

Section Square.
Variable M : nat -> nat -> R.
Hypothesis S1 : shape n M.
Hypothesis D1 : dense n M.

Lemma square_below i j : j < i -> i < n -> square n M i j = (B i j - lost M i j)%R.
Proof.
  intros Hi Hn. unfold square. rewrite (sumn_cut n (S j)) by (try lia; intros; rewrite (S1 j) by lia; ring).
  rewrite sumn_S. unfold lost, elim. ring.
Qed.
Lemma square_diag j : j < n -> square n M j j =
  (D j - (if keep then sumn j (fun k => (lost M j k / M k k) * (lost M j k / M k k)) else 0))%R.
Proof.
  intros Hn. unfold square. rewrite (sumn_cut n (S j)) by (try lia; intros; rewrite (S1 j) by lia; ring).
  rewrite sumn_S, (dense_diag n M j D1 Hn). unfold pivot.
  rewrite (sumn_ext j (fun m => taken B keep M m j)
    (fun m => M j m * M j m + (if keep then (lost M j m / M m m) * (lost M j m / M m m) else 0))%R)
    by (intros m Hm; apply (lost_square n); auto; lia).
  rewrite sumn_plus. destruct keep; [ring|]. rewrite (sumn_zero j (fun _ => 0%R)) by reflexivity. ring.
Qed.
End Square.
End DenseFacts.

Lemma square_sym n M i j : square n M i j = square n M j i.
Proof. apply sumn_ext. intros; ring. Qed.

(* ---- one run ---- *)
Definition factored (n : nat) (A : csc) (thr rel : R) (keep : bool) (shift : R) (L : csc) : Prop :=
  cols n n (aval (cr L)) (aval (cp L)) /\ alen (cp L) = n + 1 /\
  alen (cv L) = aval (cp L) n /\ alen (cr L) = aval (cp L) n /\
  dense n (seen A) (diag A shift) (column_size n (entry A)) thr rel keep n (entry L).
Definition stuck (n : nat) (A : csc) (thr rel : R) (keep : bool) (shift : R) : Prop :=
  exists M j, j < n /\ shape n j M /\
    dense n (seen A) (diag A shift) (column_size n (entry A)) thr rel keep j M /\
    (pivot (seen A) (diag A shift) keep M j <= 0)%R.

Lemma cols_shape n j v r p : j <= n -> cols n j r p -> shape n j (mcol v r p).
Proof.
  intros Hj C i k Hk [H|H]; [now apply (mcol_lower n j)|].
  apply colsum_zero. intros idx Hx. destruct (Nat.eq_dec idx (p k)) as [->|].
  - rewrite (c_diag _ _ _ _ C) by assumption. lia.
  - destruct (c_row _ _ _ _ C k idx Hk) as [_ Q]; lia.
Qed.

Lemma core_run n A thr rel max keep c0 shift L :
  canonical n A -> alen c0 = n ->
  alen (cv L) = max -> alen (cr L) = max -> alen (cp L) = n + 1 -> aval (cp L) 0 = 0 ->
  exists o L', ichol_core n A thr rel max keep c0 shift L = Ok (o, L') /\
    alen (cv L') = max /\ alen (cr L') = max /\ alen (cp L') = n + 1 /\ aval (cp L') 0 = 0 /\
    match o with
    | Done nnz => factored n A thr rel keep shift
                    (Csc (Arr nnz (aval (cv L'))) (Arr nnz (aval (cr L'))) (cp L'))
    | NotPositive => stuck n A thr rel keep shift
    | TooMany => 2 * max < n * (n + 1)
    end.
Proof.
  intros can Hc Hv Hr Hp Hz.
  destruct (core_ok n A thr rel max keep c0 shift L can Hc Hv Hr Hp Hz)
    as [o [L' [t [r [E [V1 [V2 [V3 [V4 [T [Rr H]]]]]]]]]]].
  exists o, L'. split; [exact E|]. repeat (split; [assumption|]).
  assert (HB : forall k i, k < i -> i < n -> read A t i k = seen A i k).
  { intros k i Hi Hn. apply (read_seen n); auto; [lia|apply T; lia]. }
  assert (HS : forall k, k < n -> aval r k = column_size n (entry A) k).
  { intros k Hk. rewrite Rr by assumption. now apply abssum_size. }
  destruct o as [nnz| |]; [| |exact H].
  - destruct H as [-> [_ [C Dn]]]. unfold factored; cbn.
    split; [exact C|]. split; [assumption|]. split; [reflexivity|]. split; [reflexivity|].
    exact (proj2 (dense_data n (diag A shift) thr rel keep (read A t) (seen A) (aval r)
                 (column_size n (entry A)) n _ (Nat.le_refl n) HB HS) Dn).
  - destruct H as [j [Hj [C [Dn Pv]]]].
    exists (mcol (aval (cv L')) (aval (cr L')) (aval (cp L'))), j.
    destruct (dense_data n (diag A shift) thr rel keep (read A t) (seen A) (aval r)
                 (column_size n (entry A)) j (mcol (aval (cv L')) (aval (cr L')) (aval (cp L'))))
      as [Q1 Q2]; [lia|assumption|assumption|].
    split; [assumption|]. split; [apply cols_shape; [lia|assumption]|]. split; [now apply Q2|].
    now rewrite <- Q1.
Qed.

Lemma factored_not_stuck n A thr rel keep shift L :
  factored n A thr rel keep shift L -> ~ stuck n A thr rel keep shift.
Proof.
  intros [C [_ [_ [_ Dn]]]] [M [j [Hj [Sh [Dj Pv]]]]].
  assert (SL : shape n n (entry L)) by (apply cols_shape; [lia|assumption]).
  assert (Q : forall i k, k < j -> entry L i k = M i k).
  { apply (dense_unique n (diag A shift) thr rel keep (seen A) (column_size n (entry A))); auto; try lia.
    - intros i k Hk; apply SL; lia.
    - intros k Hk; apply Dn; lia. }
  destruct (Dn j Hj) as [Hp _].
  rewrite (pivot_ext (seen A) (diag A shift) keep j (entry L) M) in Hp by auto. lra.
Qed.

(* ---- 262-304 ---- *)
Lemma try_run n A thr rel max keep c0 : canonical n A -> alen c0 = n ->
  forall shifts L, alen (cv L) = max -> alen (cr L) = max -> alen (cp L) = n + 1 -> aval (cp L) 0 = 0 ->
  (exists pre s post L', shifts = pre ++ s :: post /\ try_shifts n A thr rel max keep c0 shifts L = Ok L' /\
     (forall s', In s' pre -> stuck n A thr rel keep s') /\ factored n A thr rel keep s L') \/
  (try_shifts n A thr rel max keep c0 shifts L = Err ValueError /\
   (2 * max < n * (n + 1) \/ forall s, In s shifts -> stuck n A thr rel keep s)).
Proof.
  intros can Hc. induction shifts as [|s shifts IH]; intros L Hv Hr Hp Hz.
  - right. split; [reflexivity|]. right. intros s [].
  - destruct (core_run n A thr rel max keep c0 s L can Hc Hv Hr Hp Hz) as [o [L' [E [V1 [V2 [V3 [V4 H]]]]]]].
    cbn [try_shifts]. rewrite E. cbn [bind]. destruct o as [nnz| |].
    + left. exists [], s, shifts. eexists. split; [reflexivity|]. split; [reflexivity|].
      split; [intros s' []|exact H].
    + destruct (IH L' V1 V2 V3 V4) as [[pre [s1 [post [L1 [E1 [E2 [F1 F2]]]]]]]|[E1 F]].
      * left. exists (s :: pre), s1, post, L1. split; [now rewrite E1|]. split; [exact E2|].
        split; [|exact F2]. intros s' [<-|Hs]; auto.
      * right. split; [exact E1|]. destruct F as [F|F]; [now left|right].
        intros s' [<-|Hs]; auto.
    + right. split; [reflexivity|now left].
Qed.

Section Run.
Variables (n : nat) (A : csc) (thr rel : R) (max : nat) (keep : bool).
Hypothesis can : canonical n A.

Definition fresh v0 r0 := Csc (Arr max v0) (Arr max r0) (full (n + 1) 0).
Lemma ichol_run c0 v0 r0 shifts : alen c0 = n -> shifts <> [] ->
  (exists pre s post L, shifts = pre ++ s :: post /\ ichol n A thr rel max keep c0 v0 r0 shifts = Ok L /\
     (forall s', In s' pre -> stuck n A thr rel keep s') /\ factored n A thr rel keep s L) \/
  (ichol n A thr rel max keep c0 v0 r0 shifts = Err ValueError /\
   (2 * max < n * (n + 1) \/ forall s, In s shifts -> stuck n A thr rel keep s)).
Proof.
  intros Hc Hs.
  assert (ichol n A thr rel max keep c0 v0 r0 shifts =
          try_shifts n A thr rel max keep c0 shifts (fresh v0 r0)) as -> by (destruct shifts; [congruence|reflexivity]).
  now apply try_run.
Qed.

Lemma ichol_ok c0 v0 r0 shifts L : alen c0 = n -> ichol n A thr rel max keep c0 v0 r0 shifts = Ok L ->
  exists pre s post, shifts = pre ++ s :: post /\
    (forall s', In s' pre -> stuck n A thr rel keep s') /\ factored n A thr rel keep s L.
Proof.
  intros Hc E. assert (Hs : shifts <> []) by (intros ->; discriminate).
  destruct (ichol_run c0 v0 r0 shifts Hc Hs) as [[pre [s [post [L' [E1 [E2 H]]]]]]|[E2 _]]; [|congruence].
  rewrite E in E2. injection E2 as <-. eauto.
Qed.

Lemma stuck_alone c0 v0 r0 s : alen c0 = n -> stuck n A thr rel keep s ->
  ichol n A thr rel max keep c0 v0 r0 [s] = Err ValueError.
Proof.
  intros Hc H. destruct (ichol_run c0 v0 r0 [s] Hc) as [[pre [s' [post [L' [E1 [_ [_ F]]]]]]]|[E2 _]];
    [discriminate| |assumption].
  destruct pre as [|? [|]]; try discriminate. injection E1 as <- _.
  now apply factored_not_stuck in F.
Qed.
End Run.

(* ---- the properties of a factor ---- *)
Section Factor.
Variables (n : nat) (A : csc) (thr rel : R) (keep : bool) (shift : R) (L : csc).
Hypothesis can : canonical n A.
Hypothesis F : factored n A thr rel keep shift L.

Lemma f_shape : shape n n (entry L).
Proof. destruct F as [C _]. now apply cols_shape. Qed.
Lemma f_dense : dense n (seen A) (diag A shift) (column_size n (entry A)) thr rel keep n (entry L).
Proof. apply F. Qed.
Lemma f_lower : lower n (entry L).
Proof.
  split.
  - intros i j Hi Hj. apply f_shape; [assumption|now left].
  - intros j Hj. now apply (dense_pos _ _ _ _ _ _ _ n _ _ f_dense).
Qed.
Lemma f_canonical : canonical n L.
Proof.
  destruct F as [C [Lp [Lv [Lr _]]]]. constructor; auto; try lia.
  - apply C.
  - intros j Hj. pose proof (c_lt _ _ _ _ C j Hj). lia.
  - intros j idx Hj Hx. destruct (Nat.eq_dec idx (aval (cp L) j)) as [->|].
    + rewrite (c_diag _ _ _ _ C) by assumption. assumption.
    + destruct (c_row _ _ _ _ C j idx Hj); lia.
  - intros j a b Hj. now apply (c_inc _ _ _ _ C).
Qed.
Lemma f_apply b : alen b = n -> exists x, apply L b = Ok x /\ alen x = n /\
  forall i, i < n -> mulv n (square n (entry L)) (aval x) i = aval b i.
Proof.
  intros Hb. destruct F as [C [Lp [Lv [Lr _]]]].
  destruct (apply_ok n L C Lp ltac:(lia) ltac:(lia)) with (b := b) as [x [E [Lx H]]]; auto.
  - intros j Hj. pose proof (proj2 f_lower j Hj) as Q. change (entry L j j <> 0%R). lra.
  - exists x. split; [exact E|]. split; [exact Lx|]. intros i Hi. rewrite square_mulv. now apply H.
Qed.
End Factor.
