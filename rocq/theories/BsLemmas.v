(* Lemmas for the Borovickova-Shimer estimator. *)
From Coq Require Import Sorted Permutation.
From Verif Require Import Base BaseLemmas UtilModel BsModel BsSpec.
Local Open Scope R_scope.

(* ---- pairs ---- *)
Lemma remove_at_split {A} (l1 l2 : list A) x : remove_at (length l1) (l1 ++ x :: l2) = l1 ++ l2.
Proof.
  unfold remove_at. rewrite firstn_app, Nat.sub_diag, firstn_all. cbn [firstn]. rewrite app_nil_r.
  f_equal. replace (S (length l1)) with (length (l1 ++ [x])) by (rewrite app_length; cbn; lia).
  replace (l1 ++ x :: l2) with ((l1 ++ [x]) ++ l2) by (rewrite <- app_assoc; reflexivity).
  rewrite skipn_app, skipn_all, Nat.sub_diag. reflexivity.
Qed.

Lemma rsum_flat_map {A B} (f : B -> R) (g : A -> list B) l :
  rsum (map f (flat_map g l)) = rsum (map (fun x => rsum (map f (g x))) l).
Proof. induction l; cbn; [reflexivity|]. rewrite map_app, rsum_app, IHl. reflexivity. Qed.

Lemma pairs_sum {A} (g : A * A -> R) (l : list A) :
  rsum (map g (distinct_pairs l)) =
  rsum (map (fun x => rsum (map (fun y => g (x, y)) l)) l) - rsum (map (fun x => g (x, x)) l).
Proof.
  unfold distinct_pairs. rewrite rsum_flat_map.
  assert (K : forall pre post, l = pre ++ post ->
    rsum (map (fun i => rsum (map g (match nth_error l i with Some x => map (fun y => (x, y)) (remove_at i l) | None => [] end)))
       (seq (length pre) (length post)))
    = rsum (map (fun x => rsum (map (fun y => g (x, y)) l)) post) - rsum (map (fun x => g (x, x)) post)).
  { intros pre post. revert pre. induction post as [|x post IH]; intros pre E.
    - cbn. ring.
    - cbn [length seq map rsum]. specialize (IH (pre ++ [x])). rewrite app_length, Nat.add_1_r in IH. cbn [length] in IH.
      rewrite IH by (rewrite <- app_assoc; exact E).
      assert (N : nth_error l (length pre) = Some x).
      { rewrite E, nth_error_app2, Nat.sub_diag by lia. reflexivity. }
      rewrite N. assert (P : remove_at (length pre) l = pre ++ post) by (rewrite E; apply remove_at_split). rewrite P.
      rewrite map_map.
      assert (Q : rsum (map (fun y => g (x, y)) l) = rsum (map (fun y => g (x, y)) (pre ++ post)) + g (x, x)).
      { rewrite E, !map_app, !rsum_app. cbn [map rsum]. ring. }
      rewrite Q. ring. }
  exact (K [] l eq_refl).
Qed.

Lemma pairs_length {A} (l : list A) : INR (length (distinct_pairs l)) = INR (length l) * (INR (length l) - 1).
Proof.
  pose proof (pairs_sum (fun _ => 1) l) as H. rewrite !rsum_map_const in H. lra.
Qed.

Lemma half_products {A} (f : A -> R) l :
  half_off_diagonal (map f l) = rsum (map (fun p => f (fst p) * f (snd p)) (distinct_pairs l)) / 2.
Proof.
  unfold half_off_diagonal. rewrite pairs_sum. cbn [fst snd]. f_equal. rewrite !map_map. f_equal. f_equal.
  apply map_ext. intros a. rewrite map_map. reflexivity.
Qed.

Lemma square_sum {A} (f : A -> R) l :
  rsum (map (fun p => f (fst p) * f (snd p)) (distinct_pairs l)) = rsum (map f l) ^ 2 - rsum (map (fun x => f x * f x) l).
Proof.
  rewrite pairs_sum. cbn [fst snd]. f_equal.
  rewrite (rsum_map_ext _ (fun x => f x * rsum (map f l))) by (intros; apply rsum_map_scal).
  rewrite rsum_map_scal_r. ring.
Qed.

(* ---- groups ---- *)
Definition units (key : brow -> nat) (l : list brow) := np_unique (map key l).

Lemma in_unique l v : In v (np_unique l) <-> In v l.
Proof.
  unfold np_unique. rewrite filter_In, existsb_exists. split.
  - intros (_ & x & I & E). apply Nat.eqb_eq in E. subst. exact I.
  - intros I. split; [|exists v; split; auto; apply Nat.eqb_refl].
    apply in_seq. split; [lia|]. pose proof (list_max_le l (list_max l)) as [M _].
    specialize (M (Nat.le_refl _)). rewrite Forall_forall in M. specialize (M v I). lia.
Qed.

Lemma unique_sorted l : StronglySorted lt (np_unique l).
Proof.
  unfold np_unique. generalize (S (list_max l)) as n. intros n.
  assert (K : forall a, StronglySorted lt (seq a n)).
  { induction n as [|n IH]; intros a; cbn; constructor; auto. apply Forall_forall. intros x I. apply in_seq in I. lia. }
  specialize (K 0%nat). change (range n) with (seq 0 n). induction K as [|x m K IH F]; cbn; [constructor|].
  destruct (existsb (Nat.eqb x) l); auto. constructor; auto. apply Forall_forall. intros y I. apply filter_In in I.
  rewrite Forall_forall in F. apply F. tauto.
Qed.

Lemma lt_sorted_nodup l : StronglySorted lt l -> NoDup l.
Proof.
  induction 1 as [|x l H IH F]; constructor; auto. intros I. rewrite Forall_forall in F. specialize (F x I). lia.
Qed.

(* In a sorted frame the rows below v come first, then the rows of v. *)
Lemma sorted_parts key l v : sorted_by key l ->
  l = filter (fun r => key r <? v)%nat l ++ filter (fun r => key r =? v)%nat l ++ filter (fun r => v <? key r)%nat l.
Proof.
  induction 1 as [|r l H IH F]; cbn [filter app]; [reflexivity|].
  destruct (Nat.ltb_spec (key r) v) as [L|L].
  - destruct (Nat.eqb_spec (key r) v); [lia|]. destruct (Nat.ltb_spec v (key r)); [lia|]. cbn [app]. f_equal. exact IH.
  - assert (Z : filter (fun r => key r <? v)%nat l = []).
    { rewrite Forall_forall in F. destruct (filter _ l) as [|x m] eqn:E; auto. exfalso.
      assert (I : In x (x :: m)) by (left; auto). rewrite <- E in I. apply filter_In in I. destruct I as [I J].
      apply Nat.ltb_lt in J. specialize (F x I). lia. }
    rewrite Z in *. cbn [app] in *.
    destruct (Nat.eqb_spec (key r) v) as [E|E].
    + destruct (Nat.ltb_spec v (key r)); [lia|]. cbn [app]. f_equal. exact IH.
    + destruct (Nat.ltb_spec v (key r)); [|lia].
      assert (Z2 : filter (fun r => key r =? v)%nat l = []).
      { rewrite Forall_forall in F. destruct (filter (fun r => key r =? v)%nat l) as [|x m] eqn:E2; auto. exfalso.
        assert (I : In x (x :: m)) by (left; auto). rewrite <- E2 in I. apply filter_In in I. destruct I as [I J].
        apply Nat.eqb_eq in J. specialize (F x I). lia. }
      rewrite Z2 in *. cbn [app] in *. f_equal. exact IH.
Qed.

Lemma first_index_count key l v : sorted_by key l -> In v (map key l) ->
  first_index v (map key l) = length (filter (fun r => key r <? v)%nat l).
Proof.
  induction 1 as [|r l H IH F]; cbn [map first_index filter In]; [tauto|]. intros I.
  destruct (Nat.eqb_spec (key r) v) as [E|E].
  - destruct (Nat.ltb_spec (key r) v); [lia|].
    assert (Z : filter (fun r => key r <? v)%nat l = []).
    { rewrite Forall_forall in F. destruct (filter _ l) as [|x m] eqn:E2; auto. exfalso.
      assert (J : In x (x :: m)) by (left; auto). rewrite <- E2 in J. apply filter_In in J. destruct J as [J K].
      apply Nat.ltb_lt in K. specialize (F x J). lia. }
    rewrite Z. reflexivity.
  - destruct I as [I|I]; [congruence|]. rewrite IH by auto.
    assert (K : (key r <= v)%nat). { apply in_map_iff in I. destruct I as (x & <- & I). rewrite Forall_forall in F. apply F. exact I. }
    destruct (Nat.ltb_spec (key r) v); [reflexivity|lia].
Qed.

Lemma slice_parts {A} (a b c : list A) : slice (length a) (length a + length b) (a ++ b ++ c) = b.
Proof.
  unfold slice. rewrite skipn_app, skipn_all, Nat.sub_diag. cbn [skipn app].
  replace (length a + length b - length a)%nat with (length b) by lia.
  rewrite firstn_app, Nat.sub_diag, firstn_all. cbn [firstn]. apply app_nil_r.
Qed.

Lemma sorted_around pre v post : StronglySorted lt (pre ++ v :: post) ->
  (forall x, In x pre -> (x < v)%nat) /\ (forall x, In x post -> (v < x)%nat) /\ StronglySorted lt post.
Proof.
  induction pre as [|a pre IH]; cbn [app]; intros H; inversion H as [|? ? U F]; subst.
  - rewrite Forall_forall in F. split; [intros x []|]. split; auto.
  - destruct (IH U) as (A & B & C). split; auto. intros x [<-|I]; auto. rewrite Forall_forall in F. apply F.
    apply in_or_app. right. left. auto.
Qed.

Lemma split_pieces key l : sorted_by key l ->
  tl (np_split l (map (fun v => first_index v (map key l)) (np_unique (map key l))))
  = map (rows_of key l) (np_unique (map key l)).
Proof.
  intros So. unfold np_split.
  set (us := np_unique (map key l)).
  assert (US : StronglySorted lt us) by apply unique_sorted.
  assert (IN : forall v, In v us <-> In v (map key l)) by (intros; apply in_unique).
  set (F := fun v => first_index v (map key l)).
  assert (T : tl (map (fun ab => slice (fst ab) (snd ab) l) (combine (0%nat :: map F us) (map F us ++ [length l])))
            = map (fun ab => slice (fst ab) (snd ab) l) (combine (map F us) (tl (map F us ++ [length l])))).
  { destruct us as [|u us']; reflexivity. }
  rewrite T.
  (* walk over a suffix of the distinct values *)
  assert (K : forall pre post, us = pre ++ post ->
     map (fun ab => slice (fst ab) (snd ab) l) (combine (map F post) (tl (map F post ++ [length l]))) = map (rows_of key l) post).
  { intros pre post. revert pre. induction post as [|v post IH]; intros pre E; [reflexivity|].
    specialize (IH (pre ++ [v])). rewrite <- app_assoc in IH. specialize (IH E).
    assert (V : In v (map key l)) by (apply IN; rewrite E; apply in_or_app; right; left; auto).
    cbn [map app tl]. 
    assert (H1 : F v = length (filter (fun r => key r <? v)%nat l)) by (apply first_index_count; auto).
    assert (NX : forall w ws, post = w :: ws -> F w = (length (filter (fun r => key r <? v)%nat l) + length (rows_of key l v))%nat).
    { intros w ws ->. unfold F. rewrite first_index_count; auto.
      2: { apply IN. rewrite E. apply in_or_app. right. right. left. auto. }
      unfold rows_of. rewrite <- app_length.
      assert (PW : forall r, In r l -> (key r < w)%nat <-> (key r <= v)%nat).
      { intros r I. assert (KR : In (key r) us) by (apply IN; apply in_map; exact I).
        rewrite E in US, KR. destruct (sorted_around _ _ _ US) as (A & B & C).
        assert (VW : (v < w)%nat) by (apply B; left; auto).
        assert (D : forall x, In x ws -> (w < x)%nat) by (apply (sorted_around [] w ws C)).
        split; [|lia]. intros L. apply in_app_or in KR. destruct KR as [KR|[KR|[KR|KR]]]; try lia.
        - specialize (A _ KR). lia.
        - specialize (D _ KR). lia. }
      clear -PW. induction l as [|r l IHl]; [reflexivity|]. cbn [filter].
      assert (IHl' : length (filter (fun r => key r <? w)%nat l) = length (filter (fun r => key r <? v)%nat l ++ filter (fun r => key r =? v)%nat l))
        by (apply IHl; intros; apply PW; right; auto).
      rewrite app_length in *. specialize (PW r (or_introl eq_refl)).
      destruct (Nat.ltb_spec (key r) w); destruct (Nat.ltb_spec (key r) v); destruct (Nat.eqb_spec (key r) v); cbn [length]; lia. }
    assert (PC : forall b, b = (length (filter (fun r => key r <? v)%nat l) + length (rows_of key l v))%nat ->
              slice (F v) b l = rows_of key l v).
    { intros b ->. rewrite H1. unfold rows_of.
      pose proof (slice_parts (filter (fun r => key r <? v)%nat l) (filter (fun r => key r =? v)%nat l) (filter (fun r => v <? key r)%nat l)) as Q.
      rewrite <- (sorted_parts key l v So) in Q. exact Q. }
    destruct post as [|w post].
    - cbn. f_equal. apply PC.
      assert (Z : filter (fun r => v <? key r)%nat l = []).
      { destruct (filter (fun r => v <? key r)%nat l) as [|x m] eqn:E2; auto. exfalso.
        assert (J : In x (x :: m)) by (left; auto). rewrite <- E2 in J. apply filter_In in J. destruct J as [J L].
        apply Nat.ltb_lt in L. assert (KR : In (key x) us) by (apply IN; apply in_map; exact J).
        rewrite E in US, KR. destruct (sorted_around _ _ _ US) as (A & _ & _).
        apply in_app_or in KR. destruct KR as [KR|[KR|[]]]; [|lia]. specialize (A _ KR). lia. }
      rewrite (sorted_parts key l v So) at 1. rewrite Z, app_nil_r, app_length. reflexivity.
    - cbn [map app combine]. f_equal.
      + cbn [fst snd]. apply PC. eapply NX. reflexivity.
      + exact IH. }
  exact (K [] us eq_refl).
Qed.
