From Coq Require Import String Lia Lra.
From Verif Require Import Base BaseLemmas MCModel MCSpec.
Local Open Scope string_scope.
Local Open Scope nat_scope.
Local Open Scope list_scope.

Lemma lookup_has {V} k (d : list (string * V)) v : lookup k d = Ok v <-> has d k v.
Proof.
  induction d as [|[k' v'] d IH]; cbn.
  - split; [discriminate|]. intros (a & b & E & _). destruct a; discriminate.
  - destruct (String.eqb_spec k k') as [->|N].
    + split.
      * intros [= ->]. exists [], d. now split; [|intros []].
      * intros ([|x a] & b & E & H); injection E; intros; subst; [reflexivity|].
        exfalso. apply H. now left.
    + rewrite IH. split.
      * intros (a & b & -> & H). exists ((k', v') :: a), b. split; [reflexivity|].
        cbn. intros [E|E]; [congruence|tauto].
      * intros ([|x a] & b & E & H); injection E; intros; subst; [congruence|].
        exists a, b. split; [reflexivity|]. cbn in H. tauto.
Qed.

Lemma lookup_map {V} (f : string -> V) E e : In e E -> lookup e (map (fun e => (e, f e)) E) = Ok (f e).
Proof.
  induction E as [|a E IH]; [intros []|]. cbn. intros H.
  destruct (String.eqb_spec e a) as [->|N]; [reflexivity|]. apply IH. destruct H; [congruence|assumption].
Qed.

Definition val (e : string) (r : list (string * R)) : R :=
  match lookup e r with Ok v => v | Err _ => 0%R end.

Lemma set_entry_map e i v f E : NoDup E ->
  set_entry e i v (map (fun e => (e, f e)) E)
  = map (fun e' => (e', if String.eqb e e' then set_at i v (f e') else f e')) E.
Proof.
  induction 1 as [|a E Ha HE IH]; cbn; [reflexivity|].
  destruct (String.eqb_spec e a) as [->|N].
  - f_equal. apply map_ext_in. intros b Hb. destruct (String.eqb_spec a b); [congruence|reflexivity].
  - now rewrite IH.
Qed.

Definition mem (e : string) (L : list string) : bool := existsb (String.eqb e) L.

Lemma mem_In e L : mem e L = true <-> In e L.
Proof.
  unfold mem. rewrite existsb_exists. split.
  - intros (x & H & E). apply String.eqb_eq in E. now subst.
  - intros H. exists e. now rewrite String.eqb_refl.
Qed.

Lemma inner r i E L : NoDup E -> NoDup L -> forall f d',
  for_each L (fun e res => bind (lookup e r) (fun v => Ok (set_entry e i v res)))
    (map (fun e => (e, f e)) E) = Ok d' ->
  (forall e, In e L -> lookup e r = Ok (val e r)) /\
  d' = map (fun e => (e, if mem e L then set_at i (val e r) (f e) else f e)) E.
Proof.
  intros HE. induction 1 as [|a L Ha HL IH]; intros f d'; cbn [for_each].
  - intros [= <-]. now split.
  - destruct (lookup a r) as [v|] eqn:Ev; [|discriminate]. cbn [bind].
    rewrite (set_entry_map a i v f E HE). intros H.
    destruct (IH (fun e' => if String.eqb a e' then set_at i v (f e') else f e') _ H) as (H1 & ->).
    assert (Hv : val a r = v) by (unfold val; now rewrite Ev).
    split.
    + intros e [<-|He]; [now rewrite Hv|auto].
    + apply map_ext. intros e. cbn [mem existsb]. fold (mem e L).
      destruct (String.eqb_spec a e) as [<-|N].
      * rewrite String.eqb_refl. cbn [orb]. destruct (mem a L) eqn:M; [apply mem_In in M; tauto|].
        now rewrite Hv.
      * destruct (String.eqb_spec e a); [congruence|]. reflexivity.
Qed.

Lemma inner_ok r i L : (forall e, In e L -> exists v, lookup e r = Ok v) -> forall d : list (string * list R),
  exists d', for_each L (fun e res => bind (lookup e r) (fun v => Ok (set_entry e i v res))) d = Ok d'.
Proof.
  intros H. induction L as [|a L IH]; intros d; cbn [for_each]; [now exists d|].
  destruct (H a (or_introl eq_refl)) as (v & ->). cbn [bind]. apply IH. intros e He. apply H. now right.
Qed.

Lemma set_at_mid a x y v : set_at (List.length a) v (a ++ x :: y) = a ++ v :: y.
Proof.
  unfold set_at. 
  assert (G : forall a k n, n = k + List.length a ->
    map (fun iv : nat * R => if Nat.eqb (fst iv) n then v else snd iv)
      (combine (seq k (List.length (a ++ x :: y))) (a ++ x :: y)) = a ++ v :: y).
  { clear. induction a as [|b a IH]; intros k n ->; cbn.
    - rewrite Nat.add_0_r, Nat.eqb_refl. f_equal.
      assert (Q : forall y j, k < j -> map (fun iv : nat * R => if Nat.eqb (fst iv) k then v else snd iv)
        (combine (seq j (List.length y)) y) = y).
      { clear. induction y as [|b y IH]; intros j Hj; [reflexivity|]. cbn.
        destruct (Nat.eqb_spec j k); [lia|]. f_equal. apply IH. lia. }
      apply Q. lia.
    - destruct (Nat.eqb_spec k (k + S (List.length a))); [lia|]. f_equal. apply IH. lia. }
  apply (G a 0). reflexivity.
Qed.

Lemma outer E : NoDup E -> forall rs done d',
  for_each (combine (seq (List.length done) (List.length rs)) rs)
    (fun ir res => for_each E
       (fun e res => bind (lookup e (snd ir)) (fun v => Ok (set_entry e (fst ir) v res))) res)
    (map (fun e => (e, map (val e) done ++ repeat 0%R (List.length rs))) E) = Ok d' ->
  (forall r e, In r rs -> In e E -> lookup e r = Ok (val e r)) /\
  d' = map (fun e => (e, map (val e) (done ++ rs))) E.
Proof.
  intros HE. induction rs as [|r rs IH]; intros done d'; cbn [List.length seq combine for_each].
  - intros [= <-]. split; [intros r e []|]. apply map_ext. intros e. cbn. now rewrite !app_nil_r.
  - cbn [fst snd].
    match goal with |- bind ?X _ = _ -> _ => destruct X as [d1|] eqn:E1 end; [|discriminate]. cbn [bind].
    apply inner in E1; [|assumption..]. destruct E1 as (H1 & ->). intros H.
    replace (map _ E) with (map (fun e => (e, map (val e) (done ++ [r]) ++ repeat 0%R (List.length rs))) E) in H.
    2:{ apply map_ext_in. intros e He. apply mem_In in He. rewrite He.
        cbn [repeat]. rewrite <- (map_length (val e) done), set_at_mid, map_app, <- app_assoc. reflexivity. }
    replace (S (List.length done)) with (List.length (done ++ [r])) in H
      by (rewrite app_length; cbn; lia).
    destruct (IH _ _ H) as (H2 & ->). split.
    + intros r' e [<-|Hr] He; auto.
    + apply map_ext. intros e. now rewrite <- app_assoc.
Qed.

Lemma outer_ok E rs : (forall r e, In r rs -> In e E -> exists v, lookup e r = Ok v) ->
  forall k (d : list (string * list R)), exists d',
  for_each (combine (seq k (List.length rs)) rs)
    (fun ir res => for_each E
       (fun e res => bind (lookup e (snd ir)) (fun v => Ok (set_entry e (fst ir) v res))) res) d = Ok d'.
Proof.
  induction rs as [|r rs IH]; intros H k d; cbn [List.length seq combine for_each]; [now exists d|].
  cbn [fst snd].
  destruct (inner_ok r k E (fun e He => H r e (or_introl eq_refl) He) d) as (d1 & ->). cbn [bind].
  apply IH. intros r' e Hr He. apply H; [now right|assumption].
Qed.

Lemma estimators_nodup b : NoDup (estimators b).
Proof.
  assert (H : forall l : list string, (if List.list_eq_dec String.string_dec (nodup String.string_dec l) l then True else False) -> NoDup l).
  { intros l. destruct (List.list_eq_dec _ _ _) as [<-|]; [intros _; apply NoDup_nodup|intros []]. }
  apply H. destruct b; vm_compute; exact I.
Qed.
