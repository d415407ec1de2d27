(* Lemmas about the vocabulary of Base.v. *)
From Verif Require Import Base.
From Coq Require Import Permutation FunctionalExtensionality.

(* ---- loops ---- *)
Lemma for_each_app {A St} (l m : list A) (body : A -> St -> res St) s :
  for_each (l ++ m) body s = bind (for_each l body s) (for_each m body).
Proof.
  revert s; induction l as [|x l IH]; intros s; simpl; [reflexivity|].
  destruct (body x s) as [s'|e]; simpl; [apply IH|reflexivity].
Qed.

(* Loop rule for range(n): an invariant that holds at 0 and is kept by each
   iteration holds at n, and no iteration raises. *)
Lemma for_range_inv {St} (n : nat) (body : nat -> St -> res St)
      (Inv : nat -> St -> Prop) s0 :
  Inv 0 s0 ->
  (forall i s, i < n -> Inv i s ->
     exists s', body i s = Ok s' /\ Inv (i + 1) s') ->
  exists s', for_each (range n) body s0 = Ok s' /\ Inv n s'.
Proof.
  intros H0 Hstep. unfold range.
  assert (G : forall k, k <= n ->
    exists s', for_each (seq 0 k) body s0 = Ok s' /\ Inv k s').
  { induction k as [|k IH]; intros Hk.
    - exists s0; split; [reflexivity|exact H0].
    - destruct IH as [s1 [E1 I1]]; [lia|].
      destruct (Hstep k s1) as [s2 [E2 I2]]; [lia|exact I1|].
      exists s2. rewrite seq_S, for_each_app, E1; simpl. rewrite E2; simpl.
      split; [reflexivity|]. now replace (S k) with (k + 1) by lia. }
  apply G; lia.
Qed.

Lemma length_enumerate {A} (l : list A) : length (enumerate l) = length l.
Proof. unfold enumerate. rewrite combine_length, seq_length. lia. Qed.

Lemma nth_error_enumerate {A} (l : list A) i :
  nth_error (enumerate l) i = option_map (fun x => (i, x)) (nth_error l i).
Proof.
  unfold enumerate.
  assert (G : forall (l : list A) k i,
    nth_error (combine (seq k (length l)) l) i
    = option_map (fun x => (k + i, x)) (nth_error l i)).
  { clear. induction l as [|x l IH]; intros k i; simpl.
    - destruct i; reflexivity.
    - destruct i as [|i]; simpl.
      + now rewrite Nat.add_0_r.
      + rewrite IH. destruct (nth_error l i); simpl; [|reflexivity].
        do 2 f_equal; lia. }
  apply G.
Qed.

(* Loop rule for [for i, x in enumerate(l)]. *)
Lemma for_enumerate_inv {A St} (l : list A) (body : nat * A -> St -> res St)
      (Inv : nat -> St -> Prop) s0 :
  Inv 0 s0 ->
  (forall i x s, nth_error l i = Some x -> Inv i s ->
     exists s', body (i, x) s = Ok s' /\ Inv (i + 1) s') ->
  exists s', for_each (enumerate l) body s0 = Ok s' /\ Inv (length l) s'.
Proof.
  intros H0 Hstep.
  assert (G : forall k, k <= length l ->
    exists s', for_each (firstn k (enumerate l)) body s0 = Ok s' /\ Inv k s').
  { induction k as [|k IH]; intros Hk.
    - exists s0; split; [reflexivity|exact H0].
    - destruct IH as [s1 [E1 I1]]; [lia|].
      destruct (nth_error l k) as [x|] eqn:Ex.
      2:{ apply nth_error_None in Ex; lia. }
      destruct (Hstep k x s1 Ex I1) as [s2 [E2 I2]].
      exists s2.
      assert (Ee : nth_error (enumerate l) k = Some (k, x))
        by (rewrite nth_error_enumerate, Ex; reflexivity).
      assert (Ef : firstn (S k) (enumerate l)
                   = firstn k (enumerate l) ++ [(k, x)]).
      { clear -Ee. generalize dependent (k, x). revert k.
        induction (enumerate l) as [|y m IHm];
          intros k p Ee; destruct k; simpl in *; try discriminate.
        - now inversion Ee.
        - f_equal; now apply IHm. }
      rewrite Ef, for_each_app, E1; simpl. rewrite E2; simpl.
      split; [reflexivity|]. now replace (S k) with (k + 1) by lia. }
  destruct (G (length l)) as [s' [E I]]; [lia|].
  exists s'; split; [|exact I].
  rewrite <- E. f_equal. symmetry; apply firstn_all2.
  rewrite length_enumerate; lia.
Qed.

Lemma traverse_ok {A B} (f : A -> res B) (g : A -> B) l :
  (forall x, In x l -> f x = Ok (g x)) -> traverse f l = Ok (map g l).
Proof.
  induction l as [|x l IH]; intros H; simpl; [reflexivity|].
  rewrite H by (left; reflexivity); simpl.
  rewrite IH; [reflexivity|]. intros y Hy; apply H; now right.
Qed.

(* ---- indexing ---- *)
Lemma getitem_nat {A} (l : list A) (z : Z) (i : nat) x :
  z = Z.of_nat i -> nth_error l i = Some x -> getitem l z = Ok x.
Proof.
  intros -> Hx.
  assert (Hi : i < length l) by (apply nth_error_Some; congruence).
  unfold getitem.
  destruct (Z.ltb_spec (Z.of_nat i) 0); [lia|].
  destruct (Z.ltb_spec (Z.of_nat i) 0); [lia|].
  destruct (Z.leb_spec (Z.of_nat (length l)) (Z.of_nat i)); [lia|].
  simpl. rewrite Nat2Z.id, Hx. reflexivity.
Qed.

Lemma nth_error_ext' {A} (l m : list A) :
  (forall i, nth_error l i = nth_error m i) -> l = m.
Proof.
  revert m; induction l as [|x l IH]; intros [|y m] H.
  - reflexivity.
  - specialize (H 0); discriminate.
  - specialize (H 0); discriminate.
  - f_equal.
    + specialize (H 0); simpl in H; congruence.
    + apply IH; intros i; apply (H (S i)).
Qed.

Lemma nth_error_range n i : i < n -> nth_error (range n) i = Some i.
Proof.
  intros Hi; unfold range.
  rewrite nth_error_nth' with (d := 0) by (rewrite seq_length; lia).
  now rewrite seq_nth.
Qed.

(* ---- sums ---- *)
Local Open Scope R_scope.

Lemma rsum_app l m : rsum (l ++ m) = rsum l + rsum m.
Proof. induction l; simpl; lra. Qed.

Lemma rsum_map_plus {A} (f g : A -> R) l :
  rsum (map (fun x => f x + g x) l) = rsum (map f l) + rsum (map g l).
Proof. induction l; simpl; lra. Qed.

Lemma rsum_map_minus {A} (f g : A -> R) l :
  rsum (map (fun x => f x - g x) l) = rsum (map f l) - rsum (map g l).
Proof. induction l; simpl; lra. Qed.

Lemma rsum_map_scal {A} (c : R) (f : A -> R) l :
  rsum (map (fun x => c * f x) l) = c * rsum (map f l).
Proof. induction l; simpl; lra. Qed.

Lemma rsum_map_scal_r {A} (c : R) (f : A -> R) l :
  rsum (map (fun x => f x * c) l) = rsum (map f l) * c.
Proof. induction l; simpl; lra. Qed.

Lemma rsum_map_const {A} (c : R) (l : list A) :
  rsum (map (fun _ => c) l) = INR (length l) * c.
Proof.
  induction l as [|x l IH]; [simpl; lra|].
  cbn [map rsum length]. rewrite S_INR, IH. lra.
Qed.

Lemma rsum_map_ext {A} (f g : A -> R) l :
  (forall x, In x l -> f x = g x) -> rsum (map f l) = rsum (map g l).
Proof.
  intros H. f_equal. now apply map_ext_in.
Qed.

Lemma rsum_perm l m : Permutation l m -> rsum l = rsum m.
Proof. induction 1; simpl; lra. Qed.

Lemma rsum_nonneg l : (forall x, In x l -> 0 <= x) -> 0 <= rsum l.
Proof.
  induction l as [|x l IH]; intros H; simpl; [lra|].
  assert (0 <= x) by (apply H; now left).
  assert (0 <= rsum l) by (apply IH; intros; apply H; now right). lra.
Qed.

Lemma rsum_pos l : l <> [] -> (forall x, In x l -> 0 < x) -> 0 < rsum l.
Proof.
  destruct l as [|x l]; intros Hn H; [congruence|]. simpl.
  assert (0 < x) by (apply H; now left).
  assert (0 <= rsum l)
    by (apply rsum_nonneg; intros; apply Rlt_le, H; now right). lra.
Qed.

Lemma rsum_le {A} (f g : A -> R) l :
  (forall x, In x l -> f x <= g x) -> rsum (map f l) <= rsum (map g l).
Proof.
  induction l as [|x l IH]; intros H; simpl; [lra|].
  assert (f x <= g x) by (apply H; now left).
  assert (rsum (map f l) <= rsum (map g l))
    by (apply IH; intros; apply H; now right). lra.
Qed.

Lemma rsum_zero {A} (f : A -> R) l :
  (forall x, In x l -> f x = 0) -> rsum (map f l) = 0.
Proof.
  induction l as [|x l IH]; intros H; simpl; [lra|].
  rewrite H by (now left). rewrite IH; [lra|]. intros; apply H; now right.
Qed.

Lemma sumn_S n f : sumn (S n) f = sumn n f + f n.
Proof.
  unfold sumn, range. rewrite seq_S, map_app, rsum_app. simpl. lra.
Qed.

Lemma sumn_0 f : sumn 0 f = 0.
Proof. reflexivity. Qed.

Lemma sumn_ext n f g : (forall i, (i < n)%nat -> f i = g i) -> sumn n f = sumn n g.
Proof.
  intros H. unfold sumn. apply rsum_map_ext. intros i Hi. apply H.
  apply in_seq in Hi. lia.
Qed.

Lemma sumn_plus n f g : sumn n (fun i => f i + g i) = sumn n f + sumn n g.
Proof. apply rsum_map_plus. Qed.

Lemma sumn_minus n f g : sumn n (fun i => f i - g i) = sumn n f - sumn n g.
Proof. apply rsum_map_minus. Qed.

Lemma sumn_scal c n f : sumn n (fun i => c * f i) = c * sumn n f.
Proof. apply rsum_map_scal. Qed.

Lemma sumn_scal_r c n f : sumn n (fun i => f i * c) = sumn n f * c.
Proof. apply rsum_map_scal_r. Qed.

Lemma sumn_const n c : sumn n (fun _ => c) = INR n * c.
Proof. unfold sumn. rewrite rsum_map_const. unfold range. now rewrite seq_length. Qed.

Lemma sumn_zero n f : (forall i, (i < n)%nat -> f i = 0) -> sumn n f = 0.
Proof.
  intros H. unfold sumn. apply rsum_zero. intros i Hi. apply H.
  apply in_seq in Hi; lia.
Qed.

Lemma sumn_nonneg n f : (forall i, (i < n)%nat -> 0 <= f i) -> 0 <= sumn n f.
Proof.
  intros H. unfold sumn. apply rsum_nonneg. intros x Hx.
  apply in_map_iff in Hx as [i [<- Hi]]. apply H. apply in_seq in Hi; lia.
Qed.

Lemma sumn_le n f g :
  (forall i, (i < n)%nat -> f i <= g i) -> sumn n f <= sumn n g.
Proof.
  intros H. unfold sumn. apply rsum_le. intros i Hi. apply H.
  apply in_seq in Hi; lia.
Qed.

(* A sum with a single non-zero term. *)
Lemma sumn_single n j f :
  (j < n)%nat -> (forall i, (i < n)%nat -> i <> j -> f i = 0) -> sumn n f = f j.
Proof.
  induction n as [|n IH]; intros Hj H; [lia|].
  rewrite sumn_S. destruct (Nat.eq_dec j n) as [->|Hne].
  - rewrite sumn_zero; [lra|]. intros i Hi. apply H; lia.
  - rewrite IH; [|lia|]. 2:{ intros i Hi Hij; apply H; lia. }
    rewrite (H n) by lia. lra.
Qed.

Lemma sumn_swap n m (f : nat -> nat -> R) :
  sumn n (fun i => sumn m (fun j => f i j))
  = sumn m (fun j => sumn n (fun i => f i j)).
Proof.
  induction n as [|n IH].
  - rewrite sumn_0. symmetry. apply sumn_zero. intros; apply sumn_0.
  - rewrite sumn_S, IH, <- sumn_plus. apply sumn_ext. intros j Hj.
    now rewrite sumn_S.
Qed.

Lemma sumn_add n m f :
  sumn (n + m) f = sumn n f + sumn m (fun i => f (n + i)%nat).
Proof.
  induction m as [|m IH].
  - rewrite Nat.add_0_r, sumn_0. lra.
  - rewrite Nat.add_succ_r, !sumn_S, IH. lra.
Qed.

(* Sum over a flattened (row-major) index. *)
Lemma sumn_mul n m f :
  sumn (n * m) f = sumn n (fun i => sumn m (fun j => f (i * m + j)%nat)).
Proof.
  induction n as [|n IH]; [reflexivity|].
  rewrite sumn_S. replace (S n * m)%nat with (n * m + m)%nat by lia.
  rewrite sumn_add, IH. reflexivity.
Qed.

Lemma length_map2 {A B C} (f : A -> B -> C) l m :
  length l = length m -> length (map2 f l m) = length l.
Proof.
  revert m; induction l as [|x l IH]; intros [|y m] H; simpl in *; try lia.
  f_equal; apply IH; lia.
Qed.

Lemma nth_error_map2 {A B C} (f : A -> B -> C) l m i :
  nth_error (map2 f l m) i =
  match nth_error l i, nth_error m i with
  | Some x, Some y => Some (f x y)
  | _, _ => None
  end.
Proof.
  revert m i; induction l as [|x l IH]; intros [|y m] [|i]; simpl; try reflexivity.
  - now destruct (nth_error l i).
  - apply IH.
Qed.

Lemma map2_combine {A B C} (f : A -> B -> C) l m :
  map2 f l m = map (fun p => f (fst p) (snd p)) (combine l m).
Proof.
  revert m; induction l as [|x l IH]; intros [|y m]; simpl; try reflexivity.
  now rewrite IH.
Qed.

(* ---- lists of reals as indexed families ---- *)
Lemma rsum_nth l : rsum l = sumn (length l) (fun i => nth i l 0).
Proof.
  induction l as [|x l IH] using rev_ind; [reflexivity|].
  rewrite rsum_app, app_length; simpl. rewrite Nat.add_1_r, sumn_S.
  rewrite app_nth2 by lia. rewrite Nat.sub_diag; simpl. rewrite IH.
  rewrite Rplus_0_r. f_equal. apply sumn_ext. intros i Hi.
  now rewrite app_nth1 by lia.
Qed.

Lemma rsum_map_nth (f : R -> R) l :
  rsum (map f l) = sumn (length l) (fun i => f (nth i l 0)).
Proof.
  rewrite rsum_nth, map_length. apply sumn_ext. intros i Hi.
  rewrite nth_indep with (d' := f 0) by (rewrite map_length; exact Hi).
  apply map_nth.
Qed.

Lemma nth_map2 {A B C} (f : A -> B -> C) l m i da db dc :
  (i < length l)%nat -> (i < length m)%nat ->
  nth i (map2 f l m) dc = f (nth i l da) (nth i m db).
Proof.
  revert m i; induction l as [|x l IH]; intros [|y m] [|i]; simpl; intros; try lia;
    [reflexivity|]. apply IH; lia.
Qed.

Lemma nth_map_in {A B} (f : A -> B) l i da db :
  (i < length l)%nat -> nth i (map f l) db = f (nth i l da).
Proof.
  intros Hi. rewrite nth_indep with (d' := f da) by (rewrite map_length; exact Hi).
  apply map_nth.
Qed.

Lemma rsum_map2_nth (f : R -> R -> R) l m :
  length l = length m ->
  rsum (map2 f l m) = sumn (length l) (fun i => f (nth i l 0) (nth i m 0)).
Proof.
  intros H. rewrite rsum_nth, length_map2 by exact H. apply sumn_ext.
  intros i Hi. apply nth_map2; lia.
Qed.
