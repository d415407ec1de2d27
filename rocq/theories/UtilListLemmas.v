(* Proofs about scramble / unscramble / melt. *)
From Verif Require Import Base BaseLemmas UtilModel.
From Coq Require Import Permutation ZifyNat.
Ltac Zify.zify_post_hook ::= Z.div_mod_to_equations.

(* Source position of output position i of scramble, for length n. *)
Definition src (n i : nat) : nat := if i mod 2 =? 0 then i / 2 else n - i / 2 - 1.

Lemma src_lt n i : i < n -> src n i < n.
Proof. unfold src; destruct (Nat.eqb_spec (i mod 2) 0); lia. Qed.

Lemma scramble_spec {A} (xs : list A) :
  exists ys, scramble xs = Ok ys /\ length ys = length xs /\
    forall i, i < length xs -> nth_error ys i = nth_error xs (src (length xs) i).
Proof.
  unfold scramble. set (n := length xs).
  edestruct (for_range_inv n
    (fun i new_lst =>
       if i mod 2 =? 0
       then bind (getitem xs (Z.of_nat (i / 2))) (fun x => Ok (new_lst ++ [x]))
       else bind (getitem xs (Z.of_nat n - Z.of_nat (i / 2) - 1))
              (fun x => Ok (new_lst ++ [x])))
    (fun k ys => length ys = k /\
       forall i, i < k -> nth_error ys i = nth_error xs (src n i)) [])
    as [ys [E [Hl Hn]]].
  - split; [reflexivity|]. intros; lia.
  - intros i ys Hi [Hl Hn].
    assert (Hs := src_lt n i Hi).
    destruct (nth_error xs (src n i)) as [x|] eqn:Ex.
    2:{ apply nth_error_None in Ex. fold n in Ex. lia. }
    exists (ys ++ [x]). split.
    + unfold src in Ex. destruct (Nat.eqb_spec (i mod 2) 0) as [He|Ho].
      * erewrite getitem_nat; [reflexivity| |exact Ex]. lia.
      * erewrite getitem_nat; [reflexivity| |exact Ex]. lia.
    + split; [rewrite app_length; simpl; lia|].
      intros j Hj. destruct (Nat.eq_dec j i) as [->|Hne].
      * rewrite nth_error_app2 by lia. rewrite Hl, Nat.sub_diag. simpl. now rewrite Ex.
      * rewrite nth_error_app1 by lia. apply Hn. lia.
  - exists ys. split; [exact E|]. split; [exact Hl|exact Hn].
Qed.

Fixpoint evens {A} (l : list A) : list A :=
  match l with
  | [] => []
  | x :: l' => x :: match l' with [] => [] | _ :: l'' => evens l'' end
  end.
Definition odds {A} (l : list A) : list A := evens (tl l).

Lemma list_ind2 {A} (P : list A -> Prop) :
  P [] -> (forall x, P [x]) -> (forall x y l, P l -> P (x :: y :: l)) ->
  forall l, P l.
Proof.
  intros H0 H1 H2.
  assert (G : forall l, P l /\ forall x, P (x :: l)).
  { induction l as [|a l [IH1 IH2]]; split; auto. }
  intros l; apply G.
Qed.

Lemma nth_error_evens {A} (l : list A) i :
  nth_error (evens l) i = nth_error l (2 * i).
Proof.
  revert i. induction l as [|x|x y l IH] using list_ind2; intros i.
  - destruct i; reflexivity.
  - destruct i; [reflexivity|]. simpl.
    replace (i + S (i + 0)) with (S (2 * i)) by lia. now destruct i.
  - destruct i; [reflexivity|]. cbn [evens nth_error]. rewrite IH.
    replace (2 * S i) with (S (S (2 * i))) by lia. reflexivity.
Qed.

Lemma nth_error_odds {A} (l : list A) i :
  nth_error (odds l) i = nth_error l (2 * i + 1).
Proof.
  unfold odds. rewrite nth_error_evens.
  destruct l as [|x l]; simpl tl.
  - destruct (2 * i), (2 * i + 1); reflexivity.
  - replace (2 * i + 1) with (S (2 * i)) by lia. reflexivity.
Qed.

Lemma length_evens {A} (l : list A) : length (evens l) = (length l + 1) / 2.
Proof.
  induction l as [|x|x y l IH] using list_ind2; [reflexivity|reflexivity|].
  cbn [evens length]. rewrite IH. lia.
Qed.

Lemma length_odds {A} (l : list A) : length (odds l) = length l / 2.
Proof.
  unfold odds. rewrite length_evens. destruct l; simpl length; [reflexivity|]. lia.
Qed.

Lemma unscramble_split {A} (l : list A) : unscramble l = evens l ++ rev (odds l).
Proof.
  unfold unscramble, enumerate.
  assert (G : forall (l : list A) k f b, Nat.even k = true ->
    fold_left
      (fun (st : list A * list A) (p : nat * A) =>
         let '(front, back) := st in
         let '(i, element) := p in
         if i mod 2 =? 0 then (front ++ [element], back)
         else (front, back ++ [element]))
      (combine (seq k (length l)) l) (f, b) = (f ++ evens l, b ++ odds l)).
  { clear. induction l as [|x|x y l IH] using list_ind2; intros k f b Hk.
    - simpl. unfold odds; simpl. now rewrite !app_nil_r.
    - cbn [length seq combine fold_left].
      apply Nat.even_spec in Hk as [m ->].
      destruct (Nat.eqb_spec ((2 * m) mod 2) 0); [|lia].
      unfold odds; simpl. now rewrite app_nil_r.
    - cbn [length seq combine fold_left].
      apply Nat.even_spec in Hk as [m ->].
      destruct (Nat.eqb_spec ((2 * m) mod 2) 0); [|lia].
      destruct (Nat.eqb_spec ((S (2 * m)) mod 2) 0); [lia|].
      rewrite IH by (apply Nat.even_spec; exists (m + 1); lia).
      unfold odds; cbn [evens tl]. rewrite <- !app_assoc. simpl.
      f_equal. destruct l; reflexivity. }
  rewrite G by reflexivity. reflexivity.
Qed.

Lemma nth_error_rev {A} (l : list A) i :
  i < length l -> nth_error (rev l) i = nth_error l (length l - i - 1).
Proof.
  intros Hi. destruct l as [|d l'] eqn:E; [simpl in Hi; lia|]. rewrite <- E in *.
  rewrite nth_error_nth' with (d := d) by (rewrite rev_length; lia).
  rewrite nth_error_nth' with (d := d) by lia.
  f_equal. rewrite rev_nth by lia. f_equal. lia.
Qed.

Lemma unscramble_nth {A} (l : list A) i :
  i < length l -> nth_error (unscramble l) (src (length l) i) = nth_error l i.
Proof.
  intros Hi. rewrite unscramble_split. unfold src.
  assert (He := length_evens l). assert (Ho := length_odds l).
  destruct (Nat.eqb_spec (i mod 2) 0) as [H|H].
  - rewrite nth_error_app1 by (rewrite He; lia).
    rewrite nth_error_evens. f_equal. lia.
  - rewrite nth_error_app2 by (rewrite He; lia).
    rewrite nth_error_rev by (rewrite He, Ho; lia).
    rewrite nth_error_odds. f_equal. rewrite He, Ho. lia.
Qed.

Lemma length_unscramble {A} (l : list A) : length (unscramble l) = length l.
Proof.
  rewrite unscramble_split, app_length, rev_length, length_evens, length_odds. lia.
Qed.

(* src is onto below n. *)
Lemma src_onto n j : j < n -> exists i, i < n /\ src n i = j.
Proof.
  intros Hj. destruct (le_lt_dec ((n + 1) / 2) j) as [H|H].
  - exists (2 * (n - 1 - j) + 1). split; [lia|]. unfold src.
    destruct (Nat.eqb_spec ((2 * (n - 1 - j) + 1) mod 2) 0); lia.
  - exists (2 * j). split; [lia|]. unfold src.
    destruct (Nat.eqb_spec ((2 * j) mod 2) 0); lia.
Qed.

Lemma unscramble_scramble {A} (xs ys : list A) :
  scramble xs = Ok ys -> unscramble ys = xs.
Proof.
  intros E. destruct (scramble_spec xs) as [ys' [E' [Hl Hn]]].
  rewrite E in E'. inversion E'; subst ys'. clear E'.
  apply nth_error_ext'. intros j.
  destruct (le_lt_dec (length xs) j) as [H|H].
  - rewrite (proj2 (nth_error_None xs j)) by lia.
    apply nth_error_None. rewrite length_unscramble. lia.
  - destruct (src_onto _ _ H) as [i [Hi <-]].
    rewrite <- Hn by exact Hi. rewrite <- Hl. apply unscramble_nth. lia.
Qed.

Lemma scramble_unscramble {A} (ys : list A) : scramble (unscramble ys) = Ok ys.
Proof.
  destruct (scramble_spec (unscramble ys)) as [zs [E [Hl Hn]]].
  rewrite E. f_equal. rewrite length_unscramble in *.
  apply nth_error_ext'. intros i.
  destruct (le_lt_dec (length ys) i) as [H|H].
  - rewrite !(proj2 (nth_error_None _ i)) by lia. reflexivity.
  - rewrite Hn by exact H. now apply unscramble_nth.
Qed.

Lemma perm_evens_odds {A} (l : list A) : Permutation (evens l ++ odds l) l.
Proof.
  induction l as [|x|x y l IH] using list_ind2; unfold odds in *; simpl;
    [constructor|repeat constructor|].
  apply perm_skip. apply Permutation_sym. apply Permutation_cons_app.
  apply Permutation_sym. destruct l; exact IH.
Qed.

Lemma unscramble_perm {A} (l : list A) : Permutation (unscramble l) l.
Proof.
  rewrite unscramble_split. etransitivity; [|apply perm_evens_odds].
  apply Permutation_app_head. apply Permutation_sym, Permutation_rev.
Qed.

Lemma unscramble_map {A B} (f : A -> B) l : unscramble (map f l) = map f (unscramble l).
Proof.
  rewrite !unscramble_split, map_app, map_rev.
  assert (G : forall l : list A, evens (map f l) = map f (evens l)).
  { intros m. induction m as [|x|x y m IH] using list_ind2; simpl; congruence. }
  unfold odds. rewrite G. f_equal. f_equal. destruct l; [reflexivity|]. simpl. apply G.
Qed.

(* ---- melt ---- *)
Lemma length_cart shape : length (cart shape) = fold_right Nat.mul 1 shape.
Proof.
  induction shape as [|n s IH]; [reflexivity|]. simpl.
  rewrite <- IH. clear IH. unfold range.
  generalize 0. induction n as [|n IHn]; intros k; [reflexivity|].
  simpl. rewrite app_length, map_length, IHn. reflexivity.
Qed.

Lemma cart_one n s : cart (1 :: n :: s) = map (cons 0) (cart (n :: s)).
Proof. unfold cart at 1; fold cart. simpl. now rewrite app_nil_r. Qed.

Lemma combine_map_r {A B} (f : A -> B) l : combine l (map f l) = map (fun x => (x, f x)) l.
Proof. induction l; simpl; congruence. Qed.

Lemma map_swap_cart_1l n s :
  map swap01 (cart (n :: 1 :: s)) = cart (1 :: n :: s).
Proof.
  rewrite cart_one. unfold cart; fold cart. simpl.
  induction (range n) as [|i l IH]; [reflexivity|].
  simpl. rewrite !map_app, app_nil_r, IH. f_equal.
  rewrite !map_map. reflexivity.
Qed.

Lemma swap01_invol {A} (l : list A) : swap01 (swap01 l) = l.
Proof. destruct l as [|a [|b l]]; reflexivity. Qed.

Lemma melt_flat_ok {V} shape (a : list nat -> V) :
  (length shape <= 1 \/ nth 0 shape 0 = 1 \/ nth 1 shape 0 = 1) ->
  melt shape a = map (fun idx => (idx, a idx)) (cart shape).
Proof.
  intros H. unfold melt. rewrite <- combine_map_r. f_equal.
  destruct shape as [|n0 [|n1 s]].
  - reflexivity.
  - simpl. rewrite <- (map_id (flat_map _ _)) at 2. apply map_ext_in.
    intros l Hl. apply in_flat_map in Hl as [i [_ Hl]].
    destruct Hl as [<-|[]]. reflexivity.
  - cbn [length nth] in H. change (swap01 (n0 :: n1 :: s)) with (n1 :: n0 :: s).
    destruct H as [H|[->| ->]]; [lia| |].
    + apply map_swap_cart_1l.
    + transitivity (map swap01 (map swap01 (cart (n0 :: 1 :: s)))).
      * f_equal. symmetry. apply map_swap_cart_1l.
      * rewrite map_map. rewrite <- (map_id (cart _)) at 2.
        apply map_ext. intros; apply swap01_invol.
Qed.
