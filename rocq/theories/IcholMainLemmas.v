(* Lemmas about the loop over the columns of the incomplete Cholesky decomposition. *)
From Coq Require Import Permutation Sorted.
From Verif Require Import Base BaseLemmas IcholModel IcholSpec IcholLemmas IcholColLemmas.
Local Open Scope R_scope.
Local Open Scope nat_scope.

(* ---- the dense computation ---- *)
Section Dense.
Variables (n : nat) (B : nat -> nat -> R) (D : nat -> R) (size : nat -> R).
Variables (thr rel : R) (keep : bool).

(* column k before division *)
Definition elim (M : nat -> nat -> R) (k i : nat) : R := (B i k - sumn k (fun m => M i m * M k m))%R.
Definition taken (M : nat -> nat -> R) (k i : nat) : R :=
  if keep then (elim M k i / M k k * (elim M k i / M k k))%R else (M i k * M i k)%R.
Definition pivot (M : nat -> nat -> R) (k : nat) : R := (D k - sumn k (fun m => taken M m k))%R.
Definition dense (j : nat) (M : nat -> nat -> R) : Prop :=
  forall k, k < j -> (0 < pivot M k)%R /\ M k k = sqrt (pivot M k) /\
    forall i, k < i -> i < n -> M i k = kept thr rel (M k k) (size k) (elim M k i).

Lemma elim_ext j M M' k i : (forall i k, k < j -> M i k = M' i k) -> k <= j -> elim M k i = elim M' k i.
Proof. intros E Hk. unfold elim. f_equal. apply sumn_ext. intros m Hm. now rewrite !E by lia. Qed.
Lemma taken_ext j M M' k i : (forall i k, k < j -> M i k = M' i k) -> k < j -> taken M k i = taken M' k i.
Proof. intros E Hk. unfold taken. now rewrite (elim_ext j M M'), !E by (auto; lia). Qed.
Lemma pivot_ext j M M' k : (forall i k, k < j -> M i k = M' i k) -> k <= j -> pivot M k = pivot M' k.
Proof. intros E Hk. unfold pivot. f_equal. apply sumn_ext. intros m Hm. apply (taken_ext j); [assumption|lia]. Qed.
Lemma dense_ext j M M' : (forall i k, k < j -> M i k = M' i k) -> dense j M -> dense j M'.
Proof.
  intros E H k Hk. destruct (H k Hk) as [H1 [H2 H3]].
  rewrite <- (pivot_ext j M M'), <- !(E _ k) by (auto; lia). split; [assumption|]. split; [assumption|].
  intros i Hi Hn. rewrite <- (elim_ext j M M'), <- !(E _ k) by (auto; lia). now apply H3.
Qed.
End Dense.

Lemma kept_zero thr rel dj size : kept thr rel dj size 0 = 0%R.
Proof. unfold kept. destruct (Rlt_dec _ _); [|reflexivity]. destruct (Rlt_dec _ _); [|reflexivity]. unfold Rdiv; ring. Qed.

Section Main.
Variables (n : nat) (A : csc) (thr rel : R) (max : nat) (keep : bool) (shift : R).
Hypothesis can : canonical n A.
Variables (t : arr nat) (r : arr R).
Hypothesis lent : alen t = n.
Hypothesis lenr : alen r = n.
Hypothesis t_le : forall j, j < n -> aval t j <= aval (cp A) (j + 1).

(* what column j of A contributes to row i *)
Definition read (i j : nat) : R :=
  colsum (aval (cv A)) (aval (cr A)) (aval t j) (aval (cp A) (j + 1)) i.
Definition diag (j : nat) : R := (shift + entry A j j)%R.
Definition mof (x : state) : nat -> nat -> R := mcol (aval (sv x)) (aval (sr x)) (aval (sp x)).
Notation dense := (dense n read diag (aval r) thr rel keep).
Notation taken_ := (taken read keep).
Notation pivot := (pivot read diag keep).

Definition lens (x : state) : Prop :=
  alen (ss x) = n /\ alen (sl x) = n /\ alen (sa x) = n /\ alen (sb x) = n /\ alen (sc x) = n /\
  alen (sd x) = n /\ alen (sv x) = max /\ alen (sr x) = max /\ alen (sp x) = n + 1.

Record inv (j : nat) (x : state) : Prop := {
  i_lens : lens x;
  i_nnz : sn x = aval (sp x) j;
  i_max : sn x <= max;
  i_count : 2 * sn x + (n - j) * (n - j + 1) <= n * (n + 1);
  i_cols : cols n j (aval (sr x)) (aval (sp x));
  i_used : used j j (aval (sr x)) (aval (sp x)) (aval (ss x));
  i_lists : lists n j j (aval (sr x)) (aval (sp x)) (aval (ss x)) (aval (sl x));
  i_a : forall i, i < n -> aval (sa x) i = 0%R;
  i_b : forall i, i < n -> aval (sb x) i = false;
  i_dense : dense j (mof x);
  i_d : forall i, j <= i -> i < n -> aval (sd x) i = (diag i - sumn j (fun m => taken_ (mof x) m i))%R }.

Lemma column_ok j x : j < n -> inv j x ->
  exists o x', column n A thr rel max keep t r j x = Ok (o, x') /\ lens x' /\ aval (sp x') 0 = 0 /\
    match o with
    | Done nnz => nnz = sn x' /\ inv (j + 1) x'
    | NotPositive => cols n j (aval (sr x')) (aval (sp x')) /\ dense j (mof x') /\ (pivot (mof x') j <= 0)%R
    | TooMany => 2 * max < n * (n + 1)
    end.
Proof.
  intros Hj I.
  destruct (i_lens _ _ I) as [Ls [Ll [La [Lb [Lc [Ld [Lv [Lr Lp]]]]]]]].
  pose proof (i_cols _ _ I) as C. pose proof (i_nnz _ _ I) as En. pose proof (i_max _ _ I) as Hmax.
  pose proof (t_le j Hj) as Htj. pose proof (can_p _ _ can) as Lap.
  unfold column. run.
  destruct (load_ok n A j (aval t j) (Work (sa x) (sb x) (sc x) 0)) as [w1 [E1 [W1 [U1 I1]]]]; auto.
  { constructor; cbn [wa wb wc]; auto; unfold marked; cbn [wn]; simpl; try contradiction.
    - constructor.
    - intros i Hi. rewrite (i_b _ _ I) by assumption. intuition discriminate. }
  { intros i Hi. cbn [wa]. now apply (i_a _ _ I). }
  rewrite E1. cbn [bind]. run.
  destruct (walk_all n j (sv x) (sr x) (sp x) (fun i => if j <? i then read i j else 0%R)
              (ss x) (sl x) w1) as [s2 [l2 [w2 [E2 [Ls2 [Ll2 [W2 [U2 [Us2 [Li2 I2]]]]]]]]]]; auto.
  { lia. } { lia. } { apply I. } { apply I. }
  rewrite E2. cbn [bind]. run.
  fold (mof x) in I2.
  assert (Ew : forall i, i < n -> aval (wa w2) i = if j <? i then elim read (mof x) j i else 0%R).
  { intros i Hi. rewrite I2 by assumption. unfold elim. destruct (j <? i); ring. }
  assert (Ed : aval (sd x) j = pivot (mof x) j) by (apply (i_d _ _ I); auto).
  assert (Wlen : wn w2 <= n - 1 - j).
  { rewrite <- marked_length. apply nodup_bound; apply W2. }
  assert (Hz : aval (sp x) 0 = 0) by apply (c_zero _ _ _ _ C).
  rewrite Ed.
  destruct (Rle_dec (pivot (mof x) j) 0) as [Hneg|Hpos].
  { eexists NotPositive, _. split; [reflexivity|]. split; [|split; [assumption|]].
    - unfold lens; cbn. destruct W2. auto 10.
    - split; [exact C|]. split; [|assumption]. apply (i_dense _ _ I). }
  apply Rnot_le_lt in Hpos.
  pose proof (i_count _ _ I) as Hcount.
  assert (Q : (n - j) * (n - j + 1) = (n - 1 - j) * (n - 1 - j + 1) + 2 * (n - 1 - j) + 2) by nia.
  destruct (Nat.ltb_spec max (sn x + 1 + wn w2)) as [Hm|Hm].
  { eexists TooMany, _. split; [reflexivity|]. split; [|split; [assumption|nia]].
    unfold lens; cbn. destruct W2. auto 10. }
  run.
  set (pv := sqrt (pivot (mof x) j)).
  assert (Hpv : (0 < pv)%R) by (apply sqrt_lt_R0; assumption).
  set (v1 := upd (sv x) (sn x) pv). set (r1 := upd (sr x) (sn x) j). set (d1 := upd (sd x) j pv).
  set (rows := sort (marked w2)).
  assert (Pr : Permutation rows (marked w2)) by apply sort_perm.
  assert (Inr : forall i, In i rows <-> In i (marked w2)).
  { intros i; split; [apply (Permutation_in i Pr)|apply (Permutation_in i (Permutation_sym Pr))]. }
  assert (Lrows : length rows = wn w2) by (rewrite (Permutation_length Pr); apply marked_length).
  destruct (emission n j thr rel keep r pv rows (wa w2) (wb w2) d1 v1 r1 (sn x + 1)) as [e [Ee He]].
  { assumption. }
  { destruct W2; repeat split; auto. }
  { rewrite Lrows. unfold v1, r1. rewrite !upd_len. lia. }
  { split; [apply upd_eq|lra]. }
  { intros i Hi. apply Inr in Hi. now apply (w_in _ _ _ W2). }
  { intros pre y post Epre. apply (sort_before (marked w2) pre y post); [apply W2|exact Epre]. }
  rewrite Ee. cbn [bind].
  destruct He as [[Ma [Mb [Md [Mv Mr]]]] [[N1 N2] [Ja [Jb [Jd [Jold [Jrow [Jinc Jsum]]]]]]]].
  rewrite Lrows in N2. unfold v1 in Mv. unfold r1 in Mr. rewrite upd_len in Mv. rewrite upd_len in Mr.
  run.
  set (p' := upd (sp x) (j + 1) (en e)).
  assert (P0 : forall k, k <= j -> aval p' k = aval (sp x) k) by (intros; apply upd_neq; lia).
  assert (P1 : aval p' (j + 1) = en e) by apply upd_eq.
  rewrite (P0 j), P1, <- En by lia.
  (* old positions *)
  assert (Ov : forall idx, idx < sn x -> aval (ev e) idx = aval (sv x) idx /\ aval (er e) idx = aval (sr x) idx).
  { intros idx Hx. destruct (Jold idx ltac:(lia)) as [-> ->]. unfold v1, r1. now rewrite !upd_neq by lia. }
  assert (Nv : aval (ev e) (sn x) = pv /\ aval (er e) (sn x) = j).
  { destruct (Jold (sn x) ltac:(lia)) as [-> ->]. unfold v1, r1. now rewrite !upd_eq. }
  destruct Nv as [Nv Nr].
  assert (Rowj : forall idx, sn x + 1 <= idx -> idx < en e -> j < aval (er e) idx /\ aval (er e) idx < n).
  { intros idx M1 M2. apply (w_in _ _ _ W2), Inr. now apply Jrow. }
  (* the new matrix *)
  set (M' := mcol (aval (ev e)) (aval (er e)) (aval p')).
  assert (Mold : forall i k, k < j -> mof x i k = M' i k).
  { intros i k Hk. unfold mof, M', mcol. rewrite !P0 by lia. apply colsum_ext.
    intros idx Hx. pose proof (cols_le _ _ _ _ (k + 1) j C ltac:(lia) ltac:(lia)).
    destruct (Ov idx ltac:(lia)) as [-> ->]. auto. }
  assert (Mnew : forall i, i < n -> M' i j = if i =? j then pv else
             if j <? i then kept thr rel pv (aval r j) (elim read M' j i) else 0%R).
  { intros i Hi. unfold M' at 1, mcol. rewrite (P0 j), P1, <- En by lia.
    rewrite (colsum_split _ _ (sn x) (sn x + 1)) by lia. rewrite (colsum_S _ _ (sn x) (sn x)) by lia.
    rewrite colsum_nil, Nv, Nr, Jsum, (Nat.eqb_sym j i).
    destruct (Nat.eqb_spec i j) as [->|Hne].
    - destruct (in_dec Nat.eq_dec j rows) as [Q1|Q1]; [|ring].
      apply Inr, (w_in _ _ _ W2) in Q1. lia.
    - rewrite <- (elim_ext read j (mof x) M') by (auto; lia).
      destruct (Nat.ltb_spec j i) as [Hji|Hji].
      + specialize (Ew i Hi). destruct (Nat.ltb_spec j i); [|lia].
        destruct (in_dec Nat.eq_dec i rows) as [Q1|Q1]; [rewrite Ew; ring|].
        rewrite <- Ew, U2, kept_zero; [ring|assumption|]. now rewrite <- Inr.
      + destruct (in_dec Nat.eq_dec i rows) as [Q1|Q1]; [|ring].
        apply Inr, (w_in _ _ _ W2) in Q1. lia. }
  assert (Mjj : M' j j = pv) by (rewrite Mnew by assumption; now rewrite Nat.eqb_refl).
  assert (Cols' : cols n (j + 1) (aval (er e)) (aval p')).
  { constructor.
    - rewrite P0 by lia. assumption.
    - intros k Hk. destruct (Nat.eq_dec k j) as [->|]; [rewrite P0, P1 by lia; lia|].
      rewrite !P0 by lia. apply (c_lt _ _ _ _ C); lia.
    - intros k Hk. rewrite P0 by lia. destruct (Nat.eq_dec k j) as [->|]; [now rewrite <- En|].
      pose proof (cols_le _ _ _ _ (k + 1) j C ltac:(lia) ltac:(lia)).
      pose proof (c_lt _ _ _ _ C k ltac:(lia)).
      destruct (Ov (aval (sp x) k) ltac:(lia)) as [_ ->]. apply (c_diag _ _ _ _ C); lia.
    - intros k idx Hk. rewrite P0 by lia. destruct (Nat.eq_dec k j) as [->|].
      + rewrite P1, <- En. intros Q1 Q2. apply Rowj; lia.
      + rewrite P0 by lia. intros Q1 Q2.
        pose proof (cols_le _ _ _ _ (k + 1) j C ltac:(lia) ltac:(lia)).
        destruct (Ov idx ltac:(lia)) as [_ ->]. apply (c_row _ _ _ _ C k); lia.
    - intros k a b Hk. rewrite P0 by lia. destruct (Nat.eq_dec k j) as [->|].
      + rewrite P1, <- En. intros Q1 Q2 Q3. destruct (Nat.eq_dec a (sn x)) as [->|].
        * rewrite Nr. apply Rowj; lia.
        * apply Jinc; lia.
      + rewrite P0 by lia. intros Q1 Q2 Q3.
        pose proof (cols_le _ _ _ _ (k + 1) j C ltac:(lia) ltac:(lia)).
        destruct (Ov a ltac:(lia)) as [_ ->]. destruct (Ov b ltac:(lia)) as [_ ->].
        apply (c_inc _ _ _ _ C k); lia. }
  set (s3 := upd s2 j (sn x + 1)).
  assert (S3 : forall k, k < j -> aval s3 k = aval s2 k) by (intros; apply upd_neq; lia).
  assert (S3j : aval s3 j = sn x + 1) by apply upd_eq.
  assert (Rs : forall k, k < j -> aval s2 k < aval (sp x) (k + 1) -> aval (er e) (aval s2 k) = aval (sr x) (aval s2 k)).
  { intros k Hk Hx. pose proof (cols_le _ _ _ _ (k + 1) j C ltac:(lia) ltac:(lia)).
    now destruct (Ov (aval s2 k) ltac:(lia)). }
  assert (Used' : used (j + 1) (j + 1) (aval (er e)) (aval p') (aval s3)).
  { constructor.
    - intros k Hk. rewrite P0 by lia. destruct (Nat.eq_dec k j) as [->|]; [rewrite S3j; lia|].
      rewrite S3 by lia. apply (u_lo _ _ _ _ _ Us2); lia.
    - intros k Hk. destruct (Nat.eq_dec k j) as [->|]; [rewrite S3j, P1; lia|].
      rewrite S3, P0 by lia. apply (u_hi _ _ _ _ _ Us2); lia.
    - intros k idx Hk. rewrite P0 by lia. destruct (Nat.eq_dec k j) as [->|]; [rewrite S3j; lia|].
      rewrite S3 by lia. intros Q1 Q2. pose proof (u_hi _ _ _ _ _ Us2 k ltac:(lia)).
      pose proof (cols_le _ _ _ _ (k + 1) j C ltac:(lia) ltac:(lia)).
      destruct (Ov idx ltac:(lia)) as [_ ->]. apply (u_before _ _ _ _ _ Us2 k); lia.
    - intros k Hk. destruct (Nat.eq_dec k j) as [->|].
      + rewrite S3j, P1. intros Q1. left. destruct (Rowj (sn x + 1)); lia.
      + rewrite S3, P0 by lia. intros Q1. rewrite Rs by (assumption || lia).
        apply (u_next _ _ _ _ _ Us2); lia. }
  assert (At : forall i k, k < j -> at_row (j + 1) (aval (er e)) (aval p') (aval s3) i k <->
                              at_row j (aval (sr x)) (aval (sp x)) (aval s2) i k).
  { intros i k Hk. unfold at_row. rewrite P0, S3 by lia. split; intros [Q1 [Q2 Q3]]; repeat split; try lia.
    - now rewrite <- Rs.
    - now rewrite Rs. }
  assert (Small : forall i k, at_row j (aval (sr x)) (aval (sp x)) (aval s2) i k -> k < j) by (intros i k H; apply H).
  assert (Hlink : exists l3,
    (if sn x + 1 <? en e
     then bind (get (er e) (sn x + 1)) (fun i => bind (get l2 i) (fun li => bind (set l2 j li) (fun l => set l i (Some j))))
     else Ok l2) = Ok l3 /\ alen l3 = n /\
    lists n (j + 1) (j + 1) (aval (er e)) (aval p') (aval s3) (aval l3)).
  { destruct (Nat.ltb_spec (sn x + 1) (en e)) as [Hb|Hb].
    - run. set (i0 := aval (er e) (sn x + 1)).
      destruct (Rowj (sn x + 1) ltac:(lia) Hb) as [Q1 Q2]. fold i0 in Q1, Q2.
      run. eexists; split; [reflexivity|]. split; [assumption|].
      set (l3 := upd (upd l2 j (aval l2 i0)) i0 (Some j)).
      assert (Lj : aval l3 j = aval l2 i0) by (unfold l3; rewrite upd_neq by lia; apply upd_eq).
      assert (Li : aval l3 i0 = Some j) by apply upd_eq.
      assert (Lo : forall k, k <> j -> k <> i0 -> aval l3 k = aval l2 k).
      { intros k K1 K2. unfold l3. now rewrite !upd_neq by assumption. }
      intros i H1 H2. destruct (Li2 i H1 H2) as [ch [Cc [Nc Mc]]].
      assert (Cc' : chain (aval l3) (aval l2 i) ch).
      { apply chain_ext with (l := aval l2); [|assumption]. intros k Hk. symmetry.
        apply Mc, Small in Hk. apply Lo; lia. }
      assert (Jch : ~ In j ch) by (intros K1; apply Mc, Small in K1; lia).
      destruct (Nat.eq_dec i i0) as [->|Hne].
      + exists (j :: ch). split; [split; [assumption|now rewrite Lj]|]. split; [now constructor|].
        intros k. cbn [In]. destruct (Nat.eq_dec k j) as [->|].
        * split; [|auto]. intros _. unfold at_row. rewrite S3j, P1. split; [lia|]. split; [lia|reflexivity].
        * split; intros K1.
          -- destruct K1 as [K1|K1]; [congruence|]. apply At; [|now apply Mc]. apply Mc, Small in K1; lia.
          -- right. apply Mc, At; [|assumption]. destruct K1; lia.
      + exists ch. split; [rewrite Lo by lia; assumption|]. split; [assumption|].
        intros k. destruct (Nat.eq_dec k j) as [->|].
        * split; [contradiction|]. unfold at_row. rewrite S3j. intros [_ [_ K1]]. unfold i0 in Hne. congruence.
        * split; intros K1.
          -- apply At; [|now apply Mc]. apply Mc, Small in K1; lia.
          -- apply Mc, At; [|assumption]. destruct K1; lia.
    - exists l2. split; [reflexivity|]. split; [assumption|].
      intros i H1 H2. destruct (Li2 i H1 H2) as [ch [Cc [Nc Mc]]].
      exists ch. split; [assumption|]. split; [assumption|].
      intros k. destruct (Nat.eq_dec k j) as [->|].
      * split; [intros K1; apply Mc, Small in K1; lia|]. unfold at_row. rewrite S3j, P1. lia.
      * split; intros K1.
        -- apply At; [|now apply Mc]. apply Mc, Small in K1; lia.
        -- apply Mc, At; [|assumption]. destruct K1; lia. }
  destruct Hlink as [l3 [El [Ll3 Hlists]]]. rewrite El. cbn [bind].
  eexists (Done (en e)), _. split; [reflexivity|].
  assert (Hlens : lens (State (en e) s3 l3 (ea e) (eb e) (wc w2) (ed e) (ev e) (er e) p')).
  { unfold lens; cbn. destruct W2. repeat split; auto; lia. }
  split; [assumption|]. split; [cbn; rewrite P0 by lia; assumption|]. split; [reflexivity|].
  constructor; cbn [ss sl sa sb sc sd sv sr sp sn]; auto.
  - lia.
  - replace (n - (j + 1)) with (n - 1 - j) by lia. nia.
  - intros i Hi. rewrite Ja. destruct (in_dec Nat.eq_dec i rows) as [K1|K1]; [reflexivity|].
    apply U2; [assumption|]. now rewrite <- Inr.
  - intros i Hi. rewrite Jb. destruct (in_dec Nat.eq_dec i rows) as [K1|K1]; [reflexivity|].
    destruct (aval (wb w2) i) eqn:Eb; [|reflexivity]. apply (w_bit _ _ _ W2) in Eb; [|assumption].
    now apply Inr in Eb.
  - (* dense *)
    change (dense (j + 1) M'). intros k Hk. destruct (Nat.eq_dec k j) as [->|Hkj].
    + rewrite <- (pivot_ext read diag keep j (mof x) M') by (auto; lia). split; [assumption|].
      split; [assumption|]. intros i H1 H2. rewrite Mnew, Mjj by assumption.
      destruct (Nat.eqb_spec i j); [lia|]. destruct (Nat.ltb_spec j i); [reflexivity|lia].
    + apply (dense_ext n read diag (aval r) thr rel keep j (mof x) M' Mold (i_dense _ _ I)). lia.
  - intros i H1 H2. change (mof _) with M'. replace (j + 1) with (S j) by lia. rewrite sumn_S.
    rewrite Jd. unfold d1. rewrite upd_neq by lia. rewrite (i_d _ _ I) by lia.
    assert (Es : sumn j (fun m => taken_ (mof x) m i) = sumn j (fun m => taken_ M' m i)).
    { apply sumn_ext. intros m Hmj. apply (taken_ext read keep j); auto. }
    assert (Ei : aval (wa w2) i = elim read M' j i).
    { rewrite Ew by assumption. destruct (Nat.ltb_spec j i); [|lia]. apply (elim_ext read j); auto. }
    assert (Et : taken_ M' j i = loss j thr rel keep r pv (aval (wa w2) i)).
    { unfold taken, loss. rewrite Mjj, Ei. destruct keep; [reflexivity|].
      rewrite Mnew by assumption. destruct (Nat.eqb_spec i j); [lia|]. destruct (Nat.ltb_spec j i); [reflexivity|lia]. }
    rewrite Es, Et. destruct (in_dec Nat.eq_dec i rows) as [K1|K1]; [ring|].
    rewrite U2; [|assumption|now rewrite <- Inr].
    unfold loss. rewrite kept_zero. unfold Rdiv. destruct keep; ring.
Qed.

Lemma columns_ok m : forall j x, j + m = n -> inv j x ->
  exists o x', columns n A thr rel max keep t r (seq j m) x = Ok (o, x') /\ lens x' /\ aval (sp x') 0 = 0 /\
    match o with
    | Done nnz => nnz = sn x' /\ inv n x'
    | NotPositive => exists j, j < n /\ cols n j (aval (sr x')) (aval (sp x')) /\ dense j (mof x') /\
                     (pivot (mof x') j <= 0)%R
    | TooMany => 2 * max < n * (n + 1)
    end.
Proof.
  induction m as [|m IH]; intros j x Hjm I.
  - replace j with n in I by lia. exists (Done (sn x)), x. split; [reflexivity|].
    split; [apply I|]. split; [apply (i_cols _ _ I)|]. auto.
  - destruct (column_ok j x ltac:(lia) I) as [o [x' [E [L [Z H]]]]].
    cbn [seq columns]. rewrite E. cbn [bind]. destruct o as [nnz| |].
    + destruct H as [_ H]. apply (IH (S j) x'); [lia|]. now replace (S j) with (j + 1) by lia.
    + eexists NotPositive, x'. split; [reflexivity|]. split; [assumption|]. split; [assumption|].
      exists j. split; [lia|exact H].
    + eexists TooMany, x'. auto.
Qed.
End Main.

(* 11-115 from the first line to the last *)
Lemma core_ok n A thr rel max keep c0 shift L :
  canonical n A -> alen c0 = n ->
  alen (cv L) = max -> alen (cr L) = max -> alen (cp L) = n + 1 -> aval (cp L) 0 = 0 ->
  exists o L' t r, ichol_core n A thr rel max keep c0 shift L = Ok (o, L') /\
    alen (cv L') = max /\ alen (cr L') = max /\ alen (cp L') = n + 1 /\ aval (cp L') 0 = 0 /\
    (forall j, j < n -> tspec (aval (cr A)) (aval (cp A) j) (aval (cp A) (j + 1)) j (aval t j)) /\
    (forall j, j < n -> aval r j = abssum (aval (cv A)) (aval (cr A)) (aval (cp A) j) (aval (cp A) (j + 1)) j) /\
    let M := mcol (aval (cv L')) (aval (cr L')) (aval (cp L')) in
    match o with
    | Done nnz => nnz = aval (cp L') n /\ nnz <= max /\ cols n n (aval (cr L')) (aval (cp L')) /\
                  dense n (read A t) (diag A shift) (aval r) thr rel keep n M
    | NotPositive => exists j, j < n /\ cols n j (aval (cr L')) (aval (cp L')) /\
                  dense n (read A t) (diag A shift) (aval r) thr rel keep j M /\
                  (pivot (read A t) (diag A shift) keep M j <= 0)%R
    | TooMany => 2 * max < n * (n + 1)
    end.
Proof.
  intros can Hc Hv Hr Hp Hz.
  destruct (scan_ok n A can shift) as [d [t [r [E [Ld [Lt [Lr [Id [It Ir]]]]]]]]].
  assert (t_le : forall j, j < n -> aval t j <= aval (cp A) (j + 1)).
  { intros j Hj. destruct (It j Hj) as [[idx [Hx [_ ->]]]|[_ ->]]; lia. }
  destruct (columns_ok n A thr rel max keep shift can t r Lt Lr t_le n 0
    (State 0 (full n 0) (full n None) (full n 0%R) (full n false) c0 d (cv L) (cr L) (cp L)))
    as [o [x' [Ec [Lx [Zx H]]]]].
  - lia.
  - constructor; cbn [ss sl sa sb sc sd sv sr sp sn]; auto; try (intros; lia).
    + unfold lens; cbn; auto 10.
    + constructor; try (intros; lia).
    + constructor; intros; lia.
    + intros i _ Hi. exists []. split; [reflexivity|]. split; [constructor|].
      intros k. unfold at_row; simpl; lia.
    + intros k Hk; lia.
    + intros i _ Hi. rewrite Id by assumption. unfold diag. rewrite sumn_0. ring.
  - exists o, (Csc (sv x') (sr x') (sp x')), t, r.
    unfold ichol_core. rewrite E. cbn [bind]. unfold range. rewrite Ec. cbn [bind cv cr cp].
    destruct Lx as [_ [_ [_ [_ [_ [_ [L1 [L2 L3]]]]]]]].
    split; [reflexivity|]. repeat (split; [assumption|]).
    destruct o as [nnz| |]; [|exact H|exact H].
    destruct H as [-> I]. destruct I. auto.
Qed.
