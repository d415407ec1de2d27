(* Matching of workers and firms in SimBS. *)
From Verif Require Import Base BaseLemmas UtilModel UtilSpec SBsModel SBsSpec.
From Coq Require Import Permutation Sorted.
Local Open Scope res_scope.
Local Open Scope R_scope.

(* ---- the while loop ---- *)
Lemma equalize_spec fuel g : forall t ws fs ws' fs', equalize fuel g t ws fs = Ok (ws', fs') ->
  nsum ws' = nsum fs' /\ (exists x, ws' = ws ++ x /\ Forall (fun n => (2 <= n)%nat) x) /\
  (exists x, fs' = fs ++ x /\ Forall (fun n => (2 <= n)%nat) x).
Proof.
  induction fuel as [|n IH]; intros t ws fs ws' fs' E; [discriminate|]. cbn [equalize] in E.
  destruct (nsum ws =? nsum fs)%nat eqn:E1.
  { injection E as <- <-. apply Nat.eqb_eq in E1. split; [exact E1|]. split; exists []; split; rewrite ?app_nil_r; auto. }
  destruct (nsum fs <? nsum ws)%nat; apply IH in E as (H & (x & -> & Hx) & (y & -> & Hy)); split; try exact H.
  - split; [now exists x|]. eexists. split; [rewrite <- app_assoc; reflexivity|]. constructor; [lia|exact Hy].
  - split; [|now exists y]. eexists. split; [rewrite <- app_assoc; reflexivity|]. constructor; [lia|exact Hx].
Qed.

(* ---- repeats ---- *)
Definition rep_from (k : nat) (ns : list nat) : list nat :=
  flat_map (fun kn => repeat (fst kn) (snd kn)) (combine (seq k (length ns)) ns).
Lemma rep_from_cons k n ns : rep_from k (n :: ns) = repeat k n ++ rep_from (S k) ns.
Proof. reflexivity. Qed.
Lemma rep_length k ns : length (rep_from k ns) = nsum ns.
Proof.
  revert k. induction ns as [|n ns IH]; intros k; [reflexivity|]. rewrite rep_from_cons, app_length, repeat_length, IH. reflexivity.
Qed.
Lemma rep_ge k ns x : In x (rep_from k ns) -> (k <= x < k + length ns)%nat.
Proof.
  revert k. induction ns as [|n ns IH]; intros k; [intros []|]. rewrite rep_from_cons, in_app_iff. cbn [length].
  intros [H|H]; [apply repeat_spec in H; lia|]. apply IH in H. lia.
Qed.
Lemma count_repeat a b n : count (Nat.eqb a) (repeat b n) = if (a =? b)%nat then n else 0%nat.
Proof.
  unfold count. induction n as [|n IH]; cbn; [now destruct (a =? b)%nat|]. destruct (a =? b)%nat; cbn; now rewrite ?IH.
Qed.
Lemma count_app {A} (f : A -> bool) x y : count f (x ++ y) = (count f x + count f y)%nat.
Proof. unfold count. now rewrite filter_app, app_length. Qed.
Lemma count_none a l : ~ In a l -> count (Nat.eqb a) l = 0%nat.
Proof.
  intros H. unfold count. induction l as [|b l IH]; [reflexivity|]. cbn. destruct (a =? b)%nat eqn:E.
  - apply Nat.eqb_eq in E. subst. exfalso. apply H. now left.
  - apply IH. intros Hl. apply H. now right.
Qed.
Lemma rep_count k ns a : (a < length ns)%nat -> count (Nat.eqb (k + a)) (rep_from k ns) = nth a ns 0%nat.
Proof.
  revert k a. induction ns as [|n ns IH]; intros k a Ha; [cbn in Ha; lia|]. rewrite rep_from_cons, count_app, count_repeat.
  destruct a as [|a].
  - rewrite Nat.add_0_r, Nat.eqb_refl, count_none; [cbn; lia|]. intros H. apply rep_ge in H. lia.
  - destruct (k + S a =? k)%nat eqn:E; [apply Nat.eqb_eq in E; lia|]. cbn [nth]. rewrite <- (IH (S k) a); [|cbn in Ha; lia].
    now rewrite Nat.add_succ_comm.
Qed.
Lemma rep_sorted k ns : StronglySorted le (rep_from k ns).
Proof.
  revert k. induction ns as [|n ns IH]; intros k; [constructor|]. rewrite rep_from_cons. induction n as [|n IHn]; [apply IH|].
  cbn. constructor; [exact IHn|]. apply Forall_forall. intros x Hx. apply in_app_or in Hx as [Hx|Hx].
  - apply repeat_spec in Hx. lia.
  - apply rep_ge in Hx. lia.
Qed.

(* ---- assigning firms ---- *)
Lemma length_range n : length (range n) = n.
Proof. apply seq_length. Qed.
Lemma nth_map_range {A} (d : A) f n i : (i < n)%nat -> nth i (map f (range n)) d = f i.
Proof.
  intros H. apply nth_error_nth. now rewrite nth_error_map, nth_error_range.
Qed.
Lemma nth_slice {A} (d : A) l : forall f a q, (q < f)%nat -> nth q (firstn f (skipn a l)) d = nth (a + q) l d.
Proof.
  induction l as [|x l IH]; intros f a q H.
  - rewrite skipn_nil, firstn_nil. now destruct q, (a + 0)%nat; cbn; try destruct (a + S q)%nat.
  - destruct a as [|a]; [|cbn [skipn]; now rewrite IH]. cbn [skipn]. destruct f as [|f]; [lia|]. destruct q as [|q]; [reflexivity|].
    cbn [firstn nth Nat.add]. exact (IH f 0%nat q ltac:(lia)).
Qed.
Lemma assign_length ix v j : length (assign ix v j) = length j.
Proof. unfold assign. now rewrite map_length, length_range. Qed.
Lemma assign_nth ix v j r : (r < length j)%nat ->
  nth r (assign ix v j) 0%nat = if existsb (Nat.eqb r) ix then v else nth r j 0%nat.
Proof.
  intros H. unfold assign. now rewrite nth_map_range.
Qed.
Lemma existsb_in r ix : existsb (Nat.eqb r) ix = true <-> In r ix.
Proof.
  rewrite existsb_exists. split.
  - intros (x & H & E). apply Nat.eqb_eq in E. now subst.
  - intros H. exists r. split; [exact H|apply Nat.eqb_refl].
Qed.

Section Match.
Variables (idx : list nat) (n : nat).
Hypothesis idx_perm : Permutation idx (range n).
Lemma idx_len : length idx = n.
Proof. now rewrite (Permutation_length idx_perm), length_range. Qed.
Lemma idx_lt p : (p < n)%nat -> (nth p idx 0 < n)%nat.
Proof.
  intros H. assert (I : In (nth p idx 0%nat) (range n)) by (eapply Permutation_in; [exact idx_perm|]; apply nth_In; now rewrite idx_len).
  now apply in_seq in I.
Qed.
Lemma idx_inj p q : (p < n)%nat -> (q < n)%nat -> nth p idx 0%nat = nth q idx 0%nat -> p = q.
Proof.
  intros Hp Hq. assert (N : NoDup idx) by (eapply Permutation_NoDup; [symmetry; exact idx_perm|apply seq_NoDup]).
  apply (proj1 (NoDup_nth idx 0%nat) N); now rewrite idx_len.
Qed.

Lemma loop_spec fs : forall k j a, length j = n -> (a + nsum fs <= n)%nat ->
  let r := fold_left (fun st fn =>
         let '(j, at_) := st in
         (assign (firstn (snd fn) (skipn at_ idx)) (fst fn) j, (at_ + snd fn)%nat))
       (combine (seq k (length fs)) fs) (j, a) in
  length (fst r) = n /\
  (forall p, (p < a)%nat -> nth (nth p idx 0%nat) (fst r) 0%nat = nth (nth p idx 0%nat) j 0%nat) /\
  (forall p, (p < nsum fs)%nat -> nth (nth (a + p) idx 0%nat) (fst r) 0%nat = nth p (rep_from k fs) 0%nat).
Proof.
  induction fs as [|f fs IH]; intros k j a Hj Ha r; [cbn in *; repeat split; auto; lia|].
  cbn [nsum fold_right] in Ha. fold (nsum fs) in Ha.
  set (j1 := assign (firstn f (skipn a idx)) k j).
  assert (L1 : length j1 = n) by (unfold j1; now rewrite assign_length).
  assert (A1 : forall p, (p < n)%nat -> nth (nth p idx 0%nat) j1 0%nat =
    if ((a <=? p) && (p <? a + f))%nat then k else nth (nth p idx 0%nat) j 0%nat).
  { intros p Hp. unfold j1. rewrite assign_nth by (rewrite Hj; now apply idx_lt).
    destruct ((a <=? p) && (p <? a + f))%nat eqn:E.
    - apply andb_true_iff in E as [E1 E2]. apply Nat.leb_le in E1. apply Nat.ltb_lt in E2.
      assert (I : In (nth p idx 0%nat) (firstn f (skipn a idx))).
      { replace p with (a + (p - a))%nat by lia.
        assert (X : nth (p - a) (firstn f (skipn a idx)) 0%nat = nth (a + (p - a)) idx 0%nat).
        { apply nth_slice. lia. }
        rewrite <- X. apply nth_In. rewrite firstn_length, skipn_length, idx_len. lia. }
      apply existsb_in in I. now rewrite I.
    - assert (I : existsb (Nat.eqb (nth p idx 0%nat)) (firstn f (skipn a idx)) = false).
      { apply not_true_is_false. intros I. apply existsb_in in I. apply In_nth with (d := 0%nat) in I as (q & Hq & Eq).
        rewrite firstn_length, skipn_length, idx_len in Hq.
        rewrite nth_slice in Eq by lia. apply idx_inj in Eq; [|lia|exact Hp]. subst p.
        apply andb_false_iff in E as [E|E]; [apply Nat.leb_gt in E|apply Nat.ltb_ge in E]; lia. }
      now rewrite I. }
  specialize (IH (S k) j1 (a + f)%nat L1 ltac:(lia)). cbn zeta in IH.
  change r with (fold_left (fun st fn =>
         let '(j, at_) := st in
         (assign (firstn (snd fn) (skipn at_ idx)) (fst fn) j, (at_ + snd fn)%nat))
       (combine (seq (S k) (length fs)) fs) (j1, (a + f)%nat)).
  destruct IH as (H1 & H2 & H3). split; [exact H1|]. split.
  - intros p Hp. rewrite H2 by lia. rewrite A1 by lia. destruct (a <=? p)%nat eqn:E; [apply Nat.leb_le in E; lia|reflexivity].
  - intros p Hp. cbn [nsum fold_right] in Hp. fold (nsum fs) in Hp. rewrite rep_from_cons.
    destruct (lt_dec p f) as [Hf|Hf].
    + rewrite app_nth1 by (now rewrite repeat_length). rewrite H2 by lia. rewrite A1 by lia.
      replace ((a <=? a + p) && (a + p <? a + f))%nat with true.
      2:{ symmetry. apply andb_true_iff. split; [apply Nat.leb_le; lia|apply Nat.ltb_lt; lia]. }
      rewrite (nth_indep _ 0%nat k) by (now rewrite repeat_length). now rewrite nth_repeat.
    + rewrite app_nth2; rewrite repeat_length; [|lia]. rewrite <- H3 by lia. f_equal. f_equal. lia.
Qed.
End Match.
