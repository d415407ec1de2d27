(* Lemmas about the loops of the incomplete Cholesky decomposition. *)
From Verif Require Import Base BaseLemmas IcholModel IcholSpec.
Local Open Scope R_scope.
Local Open Scope nat_scope.

(* ---- arrays ---- *)
Definition upd {T} (a : arr T) (i : nat) (v : T) : arr T :=
  Arr (alen a) (fun k => if k =? i then v else aval a k).

Lemma get_ok {T} (a : arr T) i : i < alen a -> get a i = Ok (aval a i).
Proof. intros H; unfold get. destruct (Nat.ltb_spec i (alen a)); [reflexivity|lia]. Qed.
Lemma set_ok {T} (a : arr T) i v : i < alen a -> set a i v = Ok (upd a i v).
Proof. intros H; unfold set. destruct (Nat.ltb_spec i (alen a)); [reflexivity|lia]. Qed.
Lemma upd_eq {T} (a : arr T) i v : aval (upd a i v) i = v.
Proof. simpl. now rewrite Nat.eqb_refl. Qed.
Lemma upd_neq {T} (a : arr T) i v k : k <> i -> aval (upd a i v) k = aval a k.
Proof. intros H; simpl. destruct (Nat.eqb_spec k i); [contradiction|reflexivity]. Qed.
Lemma upd_len {T} (a : arr T) i v : alen (upd a i v) = alen a.
Proof. reflexivity. Qed.
Lemma fdiv_ok x y : y <> 0%R -> fdiv x y = Ok (x / y)%R.
Proof. intros H; unfold fdiv. destruct (Req_EM_T y 0); [contradiction|reflexivity]. Qed.
Arguments upd : simpl never.
Ltac run := repeat ((first [rewrite get_ok by (rewrite ?upd_len; lia)
                          | rewrite set_ok by (rewrite ?upd_len; lia)]); cbn [bind]).

(* ---- loops ---- *)
Lemma for_each_inv {A St} (l : list A) (body : A -> St -> res St) (Inv : list A -> St -> Prop) s0 :
  Inv [] s0 ->
  (forall pre x post s, l = pre ++ x :: post -> Inv pre s ->
     exists s', body x s = Ok s' /\ Inv (pre ++ [x]) s') ->
  exists s', for_each l body s0 = Ok s' /\ Inv l s'.
Proof.
  intros H0 Hstep.
  assert (G : forall post pre s, l = pre ++ post -> Inv pre s ->
            exists s', for_each post body s = Ok s' /\ Inv l s').
  { induction post as [|x post IH]; intros pre s E I; simpl.
    - exists s; split; [reflexivity|]. now rewrite app_nil_r in E; subst.
    - destruct (Hstep pre x post s E I) as [s1 [E1 I1]]. rewrite E1; simpl.
      apply (IH (pre ++ [x])); [|assumption]. now rewrite <- app_assoc. }
  now apply (G l [] s0).
Qed.

Lemma for_range2_inv {St} (p q : nat) (body : nat -> St -> res St) (Inv : nat -> St -> Prop) s0 :
  p <= q ->
  Inv p s0 ->
  (forall idx s, p <= idx -> idx < q -> Inv idx s ->
     exists s', body idx s = Ok s' /\ Inv (idx + 1) s') ->
  exists s', for_each (range2 p q) body s0 = Ok s' /\ Inv q s'.
Proof.
  intros Hpq H0 Hstep. unfold range2.
  assert (G : forall m, m <= q - p ->
    exists s', for_each (seq p m) body s0 = Ok s' /\ Inv (p + m) s').
  { induction m as [|m IH]; intros Hm.
    - exists s0; split; [reflexivity|]. now rewrite Nat.add_0_r.
    - destruct IH as [s1 [E1 I1]]; [lia|].
      rewrite seq_S, for_each_app, E1; simpl.
      destruct (Hstep (p + m) s1) as [s2 [E2 I2]]; [lia|lia|assumption|].
      exists s2; rewrite E2; split; [reflexivity|]. now replace (p + S m) with (p + m + 1) by lia. }
  destruct (G (q - p)) as [s' [E I]]; [lia|]. exists s'; split; [assumption|].
  now replace (p + (q - p)) with q in I by lia.
Qed.

Lemma range2_S p q : p <= q -> range2 p (q + 1) = range2 p q ++ [q].
Proof.
  intros H; unfold range2. replace (q + 1 - p) with (S (q - p)) by lia.
  rewrite seq_S. now replace (p + (q - p)) with q by lia.
Qed.
Lemma range2_nil p : range2 p p = [].
Proof. unfold range2. now rewrite Nat.sub_diag. Qed.
Lemma range2_split p m q : p <= m -> m <= q -> range2 p q = range2 p m ++ range2 m q.
Proof.
  intros H1 H2; unfold range2. replace (q - p) with ((m - p) + (q - m)) by lia.
  rewrite seq_app. now replace (p + (m - p)) with m by lia.
Qed.
Lemma in_range2 p q i : In i (range2 p q) <-> p <= i < q.
Proof. unfold range2; rewrite in_seq; lia. Qed.

(* ---- what is stored for a row between two positions ---- *)
Definition colsum (v : nat -> R) (r : nat -> nat) (p q i : nat) : R :=
  rsum (map (fun idx => if r idx =? i then v idx else 0%R) (range2 p q)).

Lemma entry_colsum M i j :
  entry M i j = colsum (aval (cv M)) (aval (cr M)) (aval (cp M) j) (aval (cp M) (j + 1)) i.
Proof. reflexivity. Qed.

Lemma colsum_nil v r p i : colsum v r p p i = 0%R.
Proof. unfold colsum; now rewrite range2_nil. Qed.
Lemma colsum_S v r p q i : p <= q ->
  colsum v r p (q + 1) i = (colsum v r p q i + (if r q =? i then v q else 0))%R.
Proof. intros H; unfold colsum. rewrite range2_S, map_app, rsum_app by assumption. simpl; ring. Qed.
Lemma colsum_split v r p m q i : p <= m -> m <= q ->
  colsum v r p q i = (colsum v r p m i + colsum v r m q i)%R.
Proof. intros H1 H2; unfold colsum. now rewrite (range2_split p m q), map_app, rsum_app. Qed.
Lemma colsum_zero v r p q i : (forall idx, p <= idx < q -> r idx <> i) -> colsum v r p q i = 0%R.
Proof.
  intros H; unfold colsum. apply rsum_zero. intros idx Hi. apply in_range2 in Hi.
  destruct (Nat.eqb_spec (r idx) i); [now destruct (H idx)|reflexivity].
Qed.
Lemma colsum_ext v r v' r' p q i :
  (forall idx, p <= idx < q -> v idx = v' idx /\ r idx = r' idx) -> colsum v r p q i = colsum v' r' p q i.
Proof.
  intros H; unfold colsum. apply rsum_map_ext. intros idx Hi. apply in_range2 in Hi.
  destruct (H idx Hi) as [-> ->]. reflexivity.
Qed.
(* a single position *)
Lemma colsum_at v r p q idx :
  p <= idx < q -> (forall a b, p <= a -> a < b -> b < q -> r a < r b) ->
  colsum v r p q (r idx) = v idx.
Proof.
  intros H inc. rewrite (colsum_split _ _ p idx q) by lia.
  rewrite (colsum_split _ _ idx (idx + 1) q) by lia.
  rewrite (colsum_zero _ _ p idx), (colsum_zero _ _ (idx + 1) q).
  - rewrite colsum_S by lia. rewrite colsum_nil, Nat.eqb_refl. ring.
  - intros a Ha. pose proof (inc idx a ltac:(lia) ltac:(lia) ltac:(lia)); lia.
  - intros a Ha. pose proof (inc a idx ltac:(lia) ltac:(lia) ltac:(lia)); lia.
Qed.

(* ---- 42-49 ---- *)
Definition abssum (v : nat -> R) (r : nat -> nat) (p q j : nat) : R :=
  rsum (map (fun idx => if j <=? r idx then Rabs (v idx) else 0%R) (range2 p q)).
Lemma abssum_nil v r p i : abssum v r p p i = 0%R.
Proof. unfold abssum; now rewrite range2_nil. Qed.
Lemma abssum_S v r p q i : p <= q ->
  abssum v r p (q + 1) i = (abssum v r p q i + (if i <=? r q then Rabs (v q) else 0))%R.
Proof. intros H; unfold abssum. rewrite range2_S, map_app, rsum_app by assumption. simpl; ring. Qed.

(* what t says about the positions p to q of column j *)
Definition tspec (r : nat -> nat) (p q j tj : nat) : Prop :=
  (exists idx, p <= idx < q /\ r idx = j /\ tj = idx + 1) \/
  ((forall idx, p <= idx < q -> r idx <> j) /\ tj = 0).

Section Scan.
Variables (n : nat) (A : csc).
Hypothesis can : canonical n A.
Notation av := (aval (cv A)).
Notation ar := (aval (cr A)).
Notation ap := (aval (cp A)).

Lemma ap_mono i j : i <= j -> j <= n -> ap i <= ap j.
Proof.
  intros H; induction H as [|j H IH]; intros Hj; [lia|].
  pose proof (can_mono _ _ can j ltac:(lia)) as M. replace (j + 1) with (S j) in M by lia.
  specialize (IH ltac:(lia)); lia.
Qed.
Lemma ap_len j : j < n -> ap (j + 1) <= alen (cr A) /\ ap (j + 1) <= alen (cv A).
Proof.
  intros H. pose proof (ap_mono (j + 1) n ltac:(lia) ltac:(lia)).
  pose proof (can_r _ _ can); pose proof (can_v _ _ can). lia.
Qed.
(* every position before the end of column j has a row in bounds *)
Lemma ar_lt j idx : j < n -> idx < ap (j + 1) -> ar idx < n.
Proof.
  intros Hj. induction j as [|j IH]; intros H.
  - apply (can_row _ _ can 0); [lia|]. rewrite (can_0 _ _ can). lia.
  - destruct (Nat.lt_ge_cases idx (ap (j + 1))) as [H1|H1]; [apply IH; lia|].
    apply (can_row _ _ can (S j)); [lia|]. replace (S j) with (j + 1) at 1 by lia. lia.
Qed.

Lemma scan_entry_ok j idx d t r :
  j < n -> idx < ap (j + 1) -> alen d = n -> alen t = n -> alen r = n ->
  scan_entry A j idx (d, t, r) =
  Ok (if ar idx =? j then upd d j (aval d j + av idx)%R else d,
      if ar idx =? j then upd t j (idx + 1) else t,
      if j <=? ar idx then upd r j (aval r j + Rabs (av idx))%R else r).
Proof.
  intros Hj Hi Hd Ht Hr. destruct (ap_len j Hj) as [H1 H2]. unfold scan_entry.
  rewrite (get_ok (cr A)), (get_ok (cv A)) by lia. cbn [bind].
  destruct (ar idx =? j) eqn:E.
  - run. destruct (j <=? ar idx) eqn:E2; cbn [bind]; [|reflexivity]. now run.
  - cbn [bind]. destruct (j <=? ar idx) eqn:E2; cbn [bind]; [|reflexivity]. now run.
Qed.

Lemma scan_ok shift :
  exists d t r, scan n A shift = Ok (d, t, r) /\
    alen d = n /\ alen t = n /\ alen r = n /\
    (forall j, j < n -> aval d j = (shift + entry A j j)%R) /\
    (forall j, j < n -> tspec ar (ap j) (ap (j + 1)) j (aval t j)) /\
    (forall j, j < n -> aval r j = abssum av ar (ap j) (ap (j + 1)) j).
Proof.
  unfold scan.
  set (Inv := fun j (x : arr R * arr nat * arr R) => let '(d, t, r) := x in
    (alen d = n /\ alen t = n /\ alen r = n) /\
    (forall k, k < n -> aval d k = (shift + (if k <? j then entry A k k else 0))%R) /\
    (forall k, k < n -> if k <? j then tspec ar (ap k) (ap (k + 1)) k (aval t k) else aval t k = 0) /\
    (forall k, k < n -> aval r k = if k <? j then abssum av ar (ap k) (ap (k + 1)) k else 0%R)).
  match goal with |- context [for_each (range n) ?b ?s] =>
    destruct (for_range_inv n b Inv s) as [[[d t] r] [E I]]; [| |exists d, t, r; split; [exact E|]] end.
  - unfold Inv; cbn. repeat split; try (intros; destruct (_ <? 0) eqn:E; [discriminate|]); auto.
    intros; ring.
  - intros j [[d0 t0] r0] Hj [[Hd [Ht Hr]] [Id [It Ir]]].
    rewrite (get_ok (cp A)) by (rewrite (can_p _ _ can); lia). cbn [bind].
    rewrite (get_ok (cp A)) by (rewrite (can_p _ _ can); lia). cbn [bind].
    set (Inv2 := fun idx (x : arr R * arr nat * arr R) => let '(d, t, r) := x in
      (alen d = n /\ alen t = n /\ alen r = n) /\
      (forall k, k < n -> k <> j -> aval d k = aval d0 k /\ aval t k = aval t0 k /\ aval r k = aval r0 k) /\
      aval d j = (shift + colsum av ar (ap j) idx j)%R /\
      tspec ar (ap j) idx j (aval t j) /\ aval r j = abssum av ar (ap j) idx j).
    destruct (for_range2_inv (ap j) (ap (j + 1)) (scan_entry A j) Inv2 (d0, t0, r0))
      as [[[d t] r] [E [[Hd' [Ht' Hr']] [Io [Jd [Jt Jr]]]]]].
    + now apply (can_mono _ _ can).
    + unfold Inv2. repeat split; auto.
      * rewrite Id, colsum_nil by lia. destruct (Nat.ltb_spec j j); [lia|ring].
      * right; split; [intros; lia|]. specialize (It j Hj). destruct (Nat.ltb_spec j j); [lia|exact It].
      * rewrite Ir, abssum_nil by lia. destruct (Nat.ltb_spec j j); [lia|ring].
    + intros idx [[d t] r] Hp Hq [[Hd' [Ht' Hr']] [Io [Jd [Jt Jr]]]].
      eexists; split; [apply scan_entry_ok; lia|].
      assert (B1 : forall k, k < n -> k <> j ->
                aval (if ar idx =? j then upd d j (aval d j + av idx)%R else d) k = aval d k /\
                aval (if ar idx =? j then upd t j (idx + 1) else t) k = aval t k /\
                aval (if j <=? ar idx then upd r j (aval r j + Rabs (av idx))%R else r) k = aval r k).
      { intros k Hk Hkj. destruct (ar idx =? j), (j <=? ar idx); repeat rewrite upd_neq by assumption; auto. }
      unfold Inv2. split; [|split; [|split; [|split]]].
      * destruct (ar idx =? j), (j <=? ar idx); rewrite ?upd_len; auto.
      * intros k Hk Hkj. destruct (B1 k Hk Hkj) as [-> [-> ->]]. now apply Io.
      * rewrite colsum_S by lia. destruct (ar idx =? j); rewrite ?upd_eq, Jd; ring.
      * destruct (Nat.eqb_spec (ar idx) j) as [Ea|Ea].
        -- left; exists idx. rewrite upd_eq. repeat split; [lia|lia|assumption].
        -- destruct Jt as [[m [Hm [Em Et]]]|[Hno Et]]; [left; exists m; repeat split; auto; lia|right].
           split; [|assumption]. intros m Hm. destruct (Nat.eq_dec m idx) as [->|]; [assumption|apply Hno; lia].
      * rewrite abssum_S by lia. destruct (j <=? ar idx); rewrite ?upd_eq, Jr; ring.
    + exists (d, t, r). split; [exact E|]. unfold Inv. split; [auto|].
      assert (Q : forall k, k < n -> k <> j -> (k <? j + 1) = (k <? j)).
      { intros k _ Hk. destruct (Nat.ltb_spec k (j + 1)), (Nat.ltb_spec k j); lia || reflexivity. }
      assert (Q1 : (j <? j + 1) = true) by (apply Nat.ltb_lt; lia).
      repeat split; intros k Hk; (destruct (Nat.eq_dec k j) as [->|Hkj];
        [rewrite Q1; assumption| rewrite Q by assumption; destruct (Io k Hk Hkj) as [Q2 [Q3 Q4]]]).
      * rewrite Q2; auto.
      * rewrite Q3; now apply It.
      * rewrite Q4; auto.
  - destruct I as [[Hd [Ht Hr]] [Id [It Ir]]].
    assert (Q : forall k, k < n -> (k <? n) = true) by (intros; now apply Nat.ltb_lt).
    repeat split; auto; intros j Hj.
    + rewrite Id, Q by assumption; reflexivity.
    + specialize (It j Hj). now rewrite Q in It.
    + rewrite Ir, Q by assumption; reflexivity.
Qed.
End Scan.

(* ---- the sparse column ---- *)
Record wok (n j : nat) (w : work) : Prop := {
  w_a : alen (wa w) = n; w_b : alen (wb w) = n; w_c : alen (wc w) = n;
  w_nodup : NoDup (marked w);
  w_in : forall i, In i (marked w) -> j < i /\ i < n;
  w_bit : forall i, i < n -> (aval (wb w) i = true <-> In i (marked w)) }.
Definition supp (n : nat) (w : work) : Prop :=
  forall i, i < n -> ~ In i (marked w) -> aval (wa w) i = 0%R.

Lemma nodup_bound n j (l : list nat) : NoDup l -> (forall i, In i l -> j < i /\ i < n) ->
  length l <= n - 1 - j.
Proof.
  intros N H. replace (n - 1 - j) with (length (seq (j + 1) (n - 1 - j))) by apply seq_length.
  apply NoDup_incl_length; [assumption|]. intros i Hi. apply H in Hi. apply in_seq. lia.
Qed.
Lemma marked_length w : length (marked w) = wn w.
Proof. unfold marked, range. now rewrite map_length, seq_length. Qed.

Lemma mark_ok n j i w : wok n j w -> j < i -> i < n ->
  exists w', mark i w = Ok w' /\ wok n j w' /\ wa w' = wa w /\
    (forall m, In m (marked w') <-> In m (marked w) \/ m = i).
Proof.
  intros W Hj Hi. unfold mark. rewrite get_ok by (rewrite (w_b _ _ _ W); lia). cbn [bind].
  destruct (aval (wb w) i) eqn:E.
  - exists w. split; [reflexivity|]. split; [assumption|]. split; [reflexivity|].
    intros m; split; [auto|]. intros [H| ->]; [assumption|]. now apply (w_bit _ _ _ W).
  - assert (Hno : ~ In i (marked w)).
    { intros H. apply (w_bit _ _ _ W) in H; [congruence|assumption]. }
    assert (Hn : wn w < n).
    { assert (N : NoDup (i :: marked w)) by (constructor; [assumption|apply (w_nodup _ _ _ W)]).
      pose proof (nodup_bound n j (i :: marked w) N) as B. simpl in B. rewrite marked_length in B.
      enough (S (wn w) <= n - 1 - j) by lia. apply B.
      intros m [->|Hm]; [auto|now apply (w_in _ _ _ W)]. }
    rewrite set_ok by (rewrite (w_b _ _ _ W); lia). cbn [bind].
    rewrite set_ok by (rewrite (w_c _ _ _ W); lia). cbn [bind].
    eexists; split; [reflexivity|].
    assert (M : marked (Work (wa w) (upd (wb w) i true) (upd (wc w) (wn w) i) (wn w + 1)) = marked w ++ [i]).
    { unfold marked; cbn [wc wn]. unfold range. replace (wn w + 1) with (S (wn w)) by lia.
      rewrite seq_S, map_app. cbn [map plus]. rewrite upd_eq. f_equal.
      apply map_ext_in. intros k Hk. apply in_seq in Hk. apply upd_neq. lia. }
    split; [|split; [reflexivity|]].
    + constructor; cbn [wa wb wc wn]; rewrite ?upd_len; try apply W.
      * rewrite M. apply NoDup_Add with (a := i) (l := marked w).
        -- rewrite <- (app_nil_r (marked w)) at 1. apply Add_app.
        -- split; [apply (w_nodup _ _ _ W)|assumption].
      * intros m Hm. rewrite M in Hm. apply in_app_or in Hm. destruct Hm as [Hm|[->|[]]]; [|auto].
        now apply (w_in _ _ _ W).
      * intros m Hm. rewrite M, in_app_iff. cbn [In].
        destruct (Nat.eq_dec m i) as [->|Hne].
        -- rewrite upd_eq. tauto.
        -- rewrite upd_neq by assumption. rewrite (w_bit _ _ _ W) by assumption. intuition congruence.
    + intros m. rewrite M, in_app_iff. cbn [In]. intuition congruence.
Qed.

(* adding to an element and marking it *)
Lemma bump_ok n j i x w : wok n j w -> supp n w -> j < i -> i < n ->
  exists w', mark i (Work (upd (wa w) i x) (wb w) (wc w) (wn w)) = Ok w' /\
    wok n j w' /\ supp n w' /\ wa w' = upd (wa w) i x.
Proof.
  intros W U Hj Hi.
  destruct (mark_ok n j i (Work (upd (wa w) i x) (wb w) (wc w) (wn w))) as [w' [E [W' [Ea M]]]]; auto.
  - destruct W; constructor; assumption.
  - exists w'. split; [exact E|]. split; [exact W'|]. split; [|exact Ea].
    intros m Hm Hno. rewrite Ea. cbn [wa].
    assert (m <> i) by (intros ->; apply Hno, M; auto).
    rewrite upd_neq by assumption. apply U; [assumption|]. intros H1. apply Hno, M. left; exact H1.
Qed.

(* 51-59 *)
Lemma load_ok n A j t0 w0 : canonical n A -> j < n -> t0 <= aval (cp A) (j + 1) ->
  wok n j w0 -> marked w0 = [] -> (forall i, i < n -> aval (wa w0) i = 0%R) ->
  exists w, for_each (range2 t0 (aval (cp A) (j + 1))) (load_entry A j) w0 = Ok w /\
    wok n j w /\ supp n w /\
    forall i, i < n -> aval (wa w) i =
      if j <? i then colsum (aval (cv A)) (aval (cr A)) t0 (aval (cp A) (j + 1)) i else 0%R.
Proof.
  intros can Hj Ht W0 M0 Z0.
  apply (for_range2_inv t0 (aval (cp A) (j + 1)) (load_entry A j) (fun idx w =>
    wok n j w /\ supp n w /\
    forall i, i < n -> aval (wa w) i =
      if j <? i then colsum (aval (cv A)) (aval (cr A)) t0 idx i else 0%R)); [assumption| |].
  - split; [assumption|]. split; [intros i Hi _; now apply Z0|].
    intros i Hi. rewrite colsum_nil, Z0 by assumption. now destruct (j <? i).
  - intros idx w Hp Hq [W [U I]]. destruct (ap_len n A can j Hj) as [L1 L2].
    pose proof (ar_lt n A can j idx Hj Hq) as Hr.
    unfold load_entry. rewrite (get_ok (cr A)), (get_ok (cv A)) by lia. cbn [bind].
    destruct (Req_EM_T (aval (cv A) idx) 0) as [Ez|Ez].
    { exists w. split; [reflexivity|]. split; [assumption|]. split; [assumption|].
      intros i Hi. rewrite I by assumption. rewrite colsum_S by lia.
      destruct (j <? i); [|reflexivity]. destruct (_ =? _); [rewrite Ez|]; ring. }
    destruct (Nat.ltb_spec j (aval (cr A) idx)) as [Hji|Hji].
    + rewrite get_ok by (rewrite (w_a _ _ _ W); lia). cbn [bind].
      rewrite set_ok by (rewrite (w_a _ _ _ W); lia). cbn [bind].
      destruct (bump_ok n j (aval (cr A) idx) (aval (wa w) (aval (cr A) idx) + aval (cv A) idx)%R w)
        as [w' [E [W' [U' Ea]]]]; auto.
      exists w'. split; [exact E|]. split; [exact W'|]. split; [exact U'|].
      intros i Hi. rewrite Ea, colsum_S by lia.
      destruct (Nat.eq_dec i (aval (cr A) idx)) as [->|Hne].
      * rewrite upd_eq, I, Nat.eqb_refl by assumption. destruct (Nat.ltb_spec j (aval (cr A) idx)); [ring|lia].
      * rewrite upd_neq, I by assumption. destruct (Nat.eqb_spec (aval (cr A) idx) i); [congruence|].
        destruct (j <? i); ring.
    + exists w. split; [reflexivity|]. split; [assumption|]. split; [assumption|].
      intros i Hi. rewrite I by assumption. rewrite colsum_S by lia.
      destruct (Nat.ltb_spec j i); [|reflexivity].
      destruct (Nat.eqb_spec (aval (cr A) idx) i); [lia|ring].
Qed.

(* 72-79 *)
Lemma update_ok n j Lv Lr p q x w0 : p <= q -> q <= alen Lv -> q <= alen Lr ->
  (forall idx, p <= idx < q -> j < aval Lr idx /\ aval Lr idx < n) ->
  wok n j w0 -> supp n w0 ->
  exists w, for_each (range2 p q) (update_entry Lv Lr x) w0 = Ok w /\ wok n j w /\ supp n w /\
    forall i, i < n -> aval (wa w) i = (aval (wa w0) i - colsum (aval Lv) (aval Lr) p q i * x)%R.
Proof.
  intros Hpq Hv Hr Hrow W0 U0.
  apply (for_range2_inv p q (update_entry Lv Lr x) (fun idx w => wok n j w /\ supp n w /\
    forall i, i < n -> aval (wa w) i = (aval (wa w0) i - colsum (aval Lv) (aval Lr) p idx i * x)%R));
    [assumption| |].
  - split; [assumption|]. split; [assumption|]. intros i Hi. rewrite colsum_nil; ring.
  - intros idx w Hp Hq [W [U I]]. destruct (Hrow idx) as [R1 R2]; [lia|].
    unfold update_entry. rewrite (get_ok Lr), (get_ok Lv) by lia. cbn [bind].
    rewrite get_ok by (rewrite (w_a _ _ _ W); lia). cbn [bind].
    rewrite set_ok by (rewrite (w_a _ _ _ W); lia). cbn [bind].
    destruct (bump_ok n j (aval Lr idx) (aval (wa w) (aval Lr idx) - aval Lv idx * x)%R w)
      as [w' [E [W' [U' Ea]]]]; auto.
    exists w'. split; [exact E|]. split; [exact W'|]. split; [exact U'|].
    intros i Hi. rewrite Ea, colsum_S by lia.
    destruct (Nat.eq_dec i (aval Lr idx)) as [->|Hne].
    + rewrite upd_eq, I, Nat.eqb_refl by assumption. ring.
    + rewrite upd_neq, I by assumption. destruct (Nat.eqb_spec (aval Lr idx) i); [congruence|ring].
Qed.
