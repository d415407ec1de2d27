(* Lemmas about the fixed-point estimator of the slopes. *)
From Coq Require Import Permutation Sorted.
From Verif Require Import Base BaseLemmas FixbModel FixbSpec.
Local Open Scope R_scope.

(* ---- a list sorted by a key without ties is grouped ---------------------- *)

Lemma grouped_one r l : grouped l -> (forall s, In s l -> r_i s <> r_i r) -> grouped (r :: l).
Proof.
  intros G H. change (r :: l) with ([r] ++ l). apply grouped_block with (i := r_i r); auto.
  intros s [<-|[]]; reflexivity.
Qed.

Lemma grouped_same L : grouped L -> forall a b l, L = b :: l -> r_i a = r_i b -> grouped (a :: b :: l).
Proof.
  induction 1 as [|i blk rest Hb Hr G IH]; intros a b l E Ei; [discriminate|].
  destruct blk as [|c blk]; simpl in E; [apply IH; auto|].
  injection E as <- <-.
  change (a :: c :: blk ++ rest) with ((a :: c :: blk) ++ rest).
  apply grouped_block with (i := i); auto.
  intros r [<-|Hi]; [|apply Hb; exact Hi].
  rewrite Ei. apply Hb. left; reflexivity.
Qed.

Lemma sorted_grouped key l :
  StronglySorted (fun a b => key a <= key b) l -> no_ties key l ->
  (forall r s, In r l -> In s l -> r_i r = r_i s -> key r = key s) -> grouped l.
Proof.
  induction l as [|a l IH]; intros S T K; [constructor|].
  inversion S as [|? ? S' F]; subst.
  assert (G : grouped l).
  { apply IH; auto.
    - intros r s Hr Hs; apply T; right; assumption.
    - intros r s Hr Hs; apply K; right; assumption. }
  destruct l as [|b l].
  { apply grouped_one; [constructor|intros s []]. }
  rewrite Forall_forall in F.
  destruct (Nat.eq_dec (r_i a) (r_i b)) as [E|E].
  { apply grouped_same with (L := b :: l); auto. }
  apply grouped_one; auto. intros s Hs C. apply E.
  apply T; [left; reflexivity|right; left; reflexivity|].
  assert (Kas : key a = key s) by (apply K; [left; reflexivity|right; exact Hs|congruence]).
  assert (H1 : key a <= key b) by (apply F; left; reflexivity).
  inversion S' as [|? ? _ F2]; subst. rewrite Forall_forall in F2.
  destruct Hs as [<-|Hs]; [exact Kas|]. specialize (F2 s Hs). lra.
Qed.

(* ---- the rows of a pair of firms ----------------------------------------- *)

Inductive paired (j1 j2 : nat) : list row -> Prop :=
| paired_nil : paired j1 j2 []
| paired_cons a b l : r_i a = r_i b ->
    (r_j a = j1 /\ r_j b = j2) \/ (r_j a = j2 /\ r_j b = j1) ->
    paired j1 j2 l -> paired j1 j2 (a :: b :: l).

Lemma paired_app j1 j2 l m : paired j1 j2 l -> paired j1 j2 m -> paired j1 j2 (l ++ m).
Proof. induction 1; intros; simpl; [assumption|constructor; auto]. Qed.

Lemma has_row_spec l j i : has_row l j i = true <-> exists r, In r l /\ r_i r = i /\ r_j r = j.
Proof.
  unfold has_row. rewrite existsb_exists. split.
  - intros [r [H E]]. apply andb_prop in E. destruct E as [E1 E2].
    apply Nat.eqb_eq in E1, E2. eauto.
  - intros [r [H [<- <-]]]. exists r. rewrite !Nat.eqb_refl. auto.
Qed.

Definition is12 (j1 j2 : nat) (r : row) : bool := (r_j r =? j1)%nat || (r_j r =? j2)%nat.

Lemma filter_and {A} (f g : A -> bool) l : filter f (filter g l) = filter (fun x => g x && f x) l.
Proof.
  induction l as [|a l IH]; simpl; auto. destruct (g a); simpl; [destruct (f a)|]; rewrite IH; auto.
Qed.

Lemma rows12_filter j1 j2 jd :
  rows12 j1 j2 jd
  = filter (fun r => is12 j1 j2 r && (has_row jd j1 (r_i r) && has_row jd j2 (r_i r))) jd.
Proof.
  unfold rows12, workers_at. rewrite !filter_and. apply filter_ext_in. intros r Hr. fold (is12 j1 j2 r).
  destruct (is12 j1 j2 r); rewrite ?andb_false_r, ?andb_true_r; simpl; auto.
  destruct (has_row jd j1 (r_i r)) eqn:E1; simpl; auto.
  destruct (has_row jd j2 (r_i r)) eqn:E2.
  - apply has_row_spec. apply has_row_spec in E2. destruct E2 as [s [Hs [Ei Ej]]].
    exists s. split; auto. apply filter_In. rewrite Ei. auto.
  - match goal with |- ?x = false => destruct x eqn:E3; auto end.
    apply has_row_spec in E3. destruct E3 as [s [Hs [Ei Ej]]]. apply filter_In in Hs.
    assert (has_row jd j2 (r_i r) = true); [|congruence].
    apply has_row_spec. exists s. tauto.
Qed.

Lemma filter_false {A} (f : A -> bool) l : (forall x, In x l -> f x = false) -> filter f l = [].
Proof.
  induction l as [|a l IH]; intros H; simpl; auto.
  rewrite (H a (or_introl eq_refl)). apply IH. intros; apply H; right; auto.
Qed.

Lemma NoDup_map_filter {A B} (g : A -> B) f l : NoDup (map g l) -> NoDup (map g (filter f l)).
Proof.
  induction l as [|a l IH]; simpl; intros N; auto. inversion N; subst.
  destruct (f a); simpl; auto. constructor; auto.
  intros C. apply H1. apply in_map_iff in C. destruct C as [x [Ex Hx]]. apply filter_In in Hx.
  rewrite <- Ex. apply in_map. tauto.
Qed.

(* The rows at the two firms in the block of a worker. *)
Lemma block_pair j1 j2 i blk : j1 <> j2 ->
  (forall r, In r blk -> r_i r = i) -> NoDup (map r_j blk) ->
  (exists r, In r blk /\ r_j r = j1) -> (exists r, In r blk /\ r_j r = j2) ->
  paired j1 j2 (filter (is12 j1 j2) blk).
Proof.
  intros ne Hi N [a [Ha Ea]] [b [Hb Eb]].
  assert (Na := NoDup_map_filter r_j (is12 j1 j2) blk N).
  assert (Ia : In a (filter (is12 j1 j2) blk)).
  { apply filter_In. split; auto. unfold is12. rewrite Ea, Nat.eqb_refl. auto. }
  assert (Ib : In b (filter (is12 j1 j2) blk)).
  { apply filter_In. split; auto. unfold is12. rewrite Eb, Nat.eqb_refl. apply orb_true_r. }
  assert (Il : forall r, In r (filter (is12 j1 j2) blk) -> r_i r = i /\ (r_j r = j1 \/ r_j r = j2)).
  { intros r Hr. apply filter_In in Hr. destruct Hr as [Hr E]. split; auto.
    unfold is12 in E. apply orb_prop in E. destruct E as [E|E]; apply Nat.eqb_eq in E; auto. }
  destruct (filter (is12 j1 j2) blk) as [|x [|y [|z l]]].
  - destruct Ia.
  - destruct Ia as [<-|[]]. destruct Ib as [<-|[]]. congruence.
  - destruct (Il x (or_introl eq_refl)) as [Xi Xj].
    destruct (Il y (or_intror (or_introl eq_refl))) as [Yi Yj].
    constructor; [congruence| |constructor].
    simpl in Na. inversion Na as [|? ? N1 N2]; subst. simpl in N1.
    destruct Xj, Yj; subst; try (exfalso; apply N1; left; congruence); [left|right]; auto.
  - exfalso. destruct (Il x (or_introl eq_refl)) as [_ Xj].
    destruct (Il y (or_intror (or_introl eq_refl))) as [_ Yj].
    destruct (Il z (or_intror (or_intror (or_introl eq_refl)))) as [_ Zj].
    simpl in Na. inversion Na as [|? ? N1 N2]; subst. inversion N2 as [|? ? N3 N4]; subst.
    simpl in N1, N3.
    destruct Xj, Yj, Zj; subst;
      try (apply N1; left; congruence); try (apply N1; right; left; congruence);
      try (apply N3; left; congruence).
Qed.

Lemma NoDup_app_l {A} (l m : list A) : NoDup (l ++ m) -> NoDup l.
Proof. induction l; simpl; intros N; [constructor|]. inversion N; subst. constructor; auto. intros C; apply H1; apply in_or_app; auto. Qed.
Lemma NoDup_app_r {A} (l m : list A) : NoDup (l ++ m) -> NoDup m.
Proof. induction l; simpl; intros N; auto. inversion N; auto. Qed.

Lemma grouped_paired j1 j2 (h : nat -> bool) l : j1 <> j2 -> grouped l -> one_spell l ->
  (forall r, In r l -> h (r_i r) = true ->
     (exists a, In a l /\ r_i a = r_i r /\ r_j a = j1) /\
     (exists a, In a l /\ r_i a = r_i r /\ r_j a = j2)) ->
  paired j1 j2 (filter (fun r => is12 j1 j2 r && h (r_i r)) l).
Proof.
  intros ne G. induction G as [|i blk rest Hb Hr G IH]; intros N H; [constructor|].
  unfold one_spell in N. rewrite map_app in N.
  rewrite filter_app. apply paired_app.
  - destruct blk as [|r0 blk0] eqn:Eb; [constructor|]. rewrite <- Eb in *.
    assert (H0 : In r0 blk) by (rewrite Eb; left; reflexivity).
    destruct (h i) eqn:Eh.
    2:{ rewrite filter_false; [constructor|]. intros x Hx. rewrite (Hb x Hx), Eh. apply andb_false_r. }
    rewrite (filter_ext_in _ (is12 j1 j2)).
    2:{ intros x Hx. rewrite (Hb x Hx), Eh. apply andb_true_r. }
    destruct (H r0) as [[a [Ha [Ei Ej]]] [b [Hbb [Fi Fj]]]].
    { apply in_or_app; auto. } { rewrite (Hb r0 H0); auto. }
    rewrite (Hb r0 H0) in Ei, Fi.
    apply block_pair with (i := i); auto.
    + apply NoDup_app_l in N. clear - N Hb.
      induction blk as [|x blk IHb]; simpl in *; [constructor|]. inversion N; subst.
      constructor; [|apply IHb; auto].
      intros C. apply H1. apply in_map_iff in C. destruct C as [y [Ey Hy]].
      apply in_map_iff. exists y. rewrite Ey, (Hb y (or_intror Hy)), (Hb x (or_introl eq_refl)). auto.
    + exists a. split; auto. apply in_app_or in Ha. destruct Ha as [Ha|Ha]; auto.
      exfalso. apply (Hr a Ha); auto.
    + exists b. split; auto. apply in_app_or in Hbb. destruct Hbb as [Hc|Hc]; auto.
      exfalso. apply (Hr b Hc); auto.
  - apply IH; [apply NoDup_app_r in N; exact N|].
    intros r Hi Ht. destruct (H r) as [[a [Ha [Ei Ej]]] [b [Hbb [Fi Fj]]]]; auto.
    { apply in_or_app; auto. }
    assert (ni := Hr r Hi).
    split.
    + exists a. split; auto. apply in_app_or in Ha. destruct Ha as [Ha|Ha]; auto.
      exfalso. apply ni. rewrite <- Ei. auto.
    + exists b. split; auto. apply in_app_or in Hbb. destruct Hbb as [Hc|Hc]; auto.
      exfalso. apply ni. rewrite <- Fi. auto.
Qed.

Lemma rows12_paired j1 j2 jd : j1 <> j2 -> grouped jd -> one_spell jd -> paired j1 j2 (rows12 j1 j2 jd).
Proof.
  intros ne G N. rewrite rows12_filter.
  apply (grouped_paired j1 j2 (fun i => has_row jd j1 i && has_row jd j2 i)); auto.
  intros r Hr E. apply andb_prop in E. destruct E as [E1 E2].
  apply has_row_spec in E1, E2. auto.
Qed.

Lemma rows12_in j1 j2 jd r : In r (rows12 j1 j2 jd) -> In r jd.
Proof. rewrite rows12_filter. intros H. apply filter_In in H. tauto. Qed.

(* ---- groups of a paired list --------------------------------------------- *)

Lemma paired_ids j1 j2 l : j1 <> j2 -> paired j1 j2 l ->
  map r_i (at_firm j1 l) = map r_i (evens l) /\ map r_i (at_firm j2 l) = map r_i (evens l).
Proof.
  intros ne. induction 1 as [|a b l E D P [IH1 IH2]]; simpl; auto.
  destruct D as [[Ea Eb]|[Ea Eb]]; rewrite Ea, Eb, !Nat.eqb_refl;
    rewrite ?(proj2 (Nat.eqb_neq j1 j2) ne), ?(proj2 (Nat.eqb_neq j2 j1) (not_eq_sym ne));
    simpl; rewrite IH1, IH2; split; congruence.
Qed.

Lemma map_pick {A B} (f : A -> B) m l : map f (pick m l) = pick m (map f l).
Proof.
  revert l; induction m as [|b m IH]; intros [|a l]; simpl; auto.
  destruct b; simpl; rewrite IH; auto.
Qed.

Lemma pick_in {A} m (l : list A) x : In x (pick m l) -> In x l.
Proof.
  revert l; induction m as [|b m IH]; intros l; [intros []|].
  destruct l as [|a l]; [intros []|]. simpl.
  destruct b; simpl; intuition.
Qed.

Lemma pick_nonempty {A} m (l : list A) : existsb (fun b => b) m = true -> length m = length l ->
  pick m l <> [].
Proof.
  revert l; induction m as [|b m IH]; intros l; [discriminate|].
  destruct l as [|a l]; [discriminate|]. simpl.
  destruct b; simpl; intros E L; [discriminate|]. apply IH; auto.
Qed.
