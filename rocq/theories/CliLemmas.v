(* Proofs about the command line model. *)
From Coq Require Import List String Ascii Bool ZArith Lia Permutation.
From Verif Require Base.
From Verif Require Import CliModel CliSpec.
Import ListNotations.
Local Open Scope string_scope.
Local Open Scope list_scope.

Lemma lower_char_nat c :
  nat_of_ascii (lower_char c) =
  if (Nat.leb 65 (nat_of_ascii c) && Nat.leb (nat_of_ascii c) 90)%bool
  then nat_of_ascii c + 32 else nat_of_ascii c.
Proof.
  unfold lower_char. destruct (Nat.leb 65 _ && Nat.leb _ 90)%bool eqn:E; auto.
  apply andb_true_iff in E. destruct E as [E1 E2]. apply Nat.leb_le in E1. apply Nat.leb_le in E2.
  apply nat_ascii_embedding. lia.
Qed.

Lemma nat_of_ascii_inj a b : nat_of_ascii a = nat_of_ascii b -> a = b.
Proof. intros H. rewrite <- (ascii_nat_embedding a), <- (ascii_nat_embedding b), H. reflexivity. Qed.

Lemma same_char_lower a b : same_char a b <-> lower_char a = lower_char b.
Proof.
  split.
  - intros [->|(i & Hi & H)]; auto. apply nat_of_ascii_inj. rewrite !lower_char_nat.
    destruct H as [[Ha Hb]|[Ha Hb]]; rewrite Ha, Hb;
      destruct (Nat.leb_spec 65 (65 + i)), (Nat.leb_spec (65 + i) 90),
               (Nat.leb_spec 65 (97 + i)), (Nat.leb_spec (97 + i) 90); cbn [andb]; lia.
  - intros H. apply (f_equal nat_of_ascii) in H. rewrite !lower_char_nat in H.
    destruct (Nat.leb_spec 65 (nat_of_ascii a)), (Nat.leb_spec (nat_of_ascii a) 90),
             (Nat.leb_spec 65 (nat_of_ascii b)), (Nat.leb_spec (nat_of_ascii b) 90); cbn [andb] in H;
      first [ left; apply nat_of_ascii_inj; lia
            | right; exists (nat_of_ascii a - 65); split; [lia|]; left; lia
            | right; exists (nat_of_ascii b - 65); split; [lia|]; right; lia ].
Qed.

Lemma same_word_lower s t : same_word s t <-> lower s = lower t.
Proof.
  split.
  - induction 1 as [|a b s t H H' IH]; auto. cbn [lower]. rewrite (proj1 (same_char_lower a b) H), IH. auto.
  - revert t. induction s as [|a s IH]; intros [|b t] H; try discriminate; constructor.
    + apply same_char_lower. cbn [lower] in H. congruence.
    + apply IH. cbn [lower] in H. congruence.
Qed.

Lemma is_in_iff s l : is_in s l = true <-> In s l.
Proof.
  unfold is_in. rewrite existsb_exists. split.
  - intros (w & H & E). apply String.eqb_eq in E. subst. auto.
  - intros H. exists s. split; auto. apply String.eqb_refl.
Qed.

Lemma spells_iff s l : (forall w, In w l -> lower w = w) -> (spells l s <-> In (lower s) l).
Proof.
  intros L. split.
  - intros (w & I & H). apply same_word_lower in H. rewrite H, (L w I). auto.
  - intros H. exists (lower s). split; auto. apply same_word_lower. symmetry. apply L. auto.
Qed.

Lemma yes_lower w : In w yes_words -> lower w = w.
Proof. cbn. intros H. repeat (destruct H as [<-|H]; [reflexivity|]). destruct H. Qed.
Lemma no_lower w : In w no_words -> lower w = w.
Proof. cbn. intros H. repeat (destruct H as [<-|H]; [reflexivity|]). destruct H. Qed.

Lemma yes_no s : In s yes_words -> ~ In s no_words.
Proof. cbn. intros H. repeat (destruct H as [<-|H]; [intuition discriminate|]). destruct H. Qed.

Lemma str2bool_true s : str2bool (VStr s) = Some true <-> spells yes_words s.
Proof.
  rewrite (spells_iff s yes_words yes_lower). cbn [str2bool].
  change ["yes"; "true"; "t"; "y"; "1"] with yes_words.
  change ["no"; "false"; "f"; "n"; "0"] with no_words.
  destruct (is_in (lower s) yes_words) eqn:E.
  - apply is_in_iff in E. tauto.
  - assert (~ In (lower s) yes_words) by (rewrite <- is_in_iff, E; discriminate).
    destruct (is_in (lower s) no_words); split; try discriminate; tauto.
Qed.

Lemma str2bool_false s : str2bool (VStr s) = Some false <-> spells no_words s.
Proof.
  rewrite (spells_iff s no_words no_lower). cbn [str2bool].
  change ["yes"; "true"; "t"; "y"; "1"] with yes_words.
  change ["no"; "false"; "f"; "n"; "0"] with no_words.
  destruct (is_in (lower s) yes_words) eqn:E.
  - apply is_in_iff in E. apply yes_no in E. split; [discriminate|tauto].
  - destruct (is_in (lower s) no_words) eqn:E'.
    + apply is_in_iff in E'. tauto.
    + assert (~ In (lower s) no_words) by (rewrite <- is_in_iff, E'; discriminate).
      split; [discriminate|tauto].
Qed.

Lemma str2bool_refused s : str2bool (VStr s) = None <-> ~ spells yes_words s /\ ~ spells no_words s.
Proof.
  rewrite <- str2bool_true, <- str2bool_false.
  destruct (str2bool (VStr s)) as [[]|]; intuition congruence.
Qed.

Lemma spells_exclusive s : ~ (spells yes_words s /\ spells no_words s).
Proof. rewrite <- str2bool_true, <- str2bool_false. intros [H H']. congruence. Qed.

(* dictionaries *)
Lemma dset_new d k v : ~ In k (keys d) -> dset d k v = d ++ [(k, v)].
Proof.
  induction d as [|[k' v'] d IH]; intros H; auto. cbn [dset app]. cbn in H.
  destruct (String.eqb_spec k' k); [subst; tauto|]. rewrite IH; tauto.
Qed.

Definition is_set (v : pyval) : bool := match v with VNone => false | _ => true end.

Lemma clear_dict_gen d acc : NoDup (keys acc ++ keys d) ->
  fold_left (fun new_d kv => match snd kv with VNone => new_d | v => dset new_d (fst kv) v end) d acc
  = acc ++ filter (fun kv => is_set (snd kv)) d.
Proof.
  revert acc. induction d as [|[k v] d IH]; intros acc N.
  - cbn. rewrite app_nil_r. auto.
  - assert (Nk : ~ In k (keys acc)).
    { unfold keys in N. cbn [map fst] in N. apply NoDup_remove_2 in N. rewrite in_app_iff in N. tauto. }
    assert (N1 : NoDup (keys acc ++ keys d)).
    { unfold keys in N. cbn [map fst] in N. apply NoDup_remove_1 in N. auto. }
    assert (N2 : NoDup (keys (acc ++ [(k, v)]) ++ keys d)).
    { unfold keys. rewrite map_app. cbn [map fst]. rewrite <- app_assoc. exact N. }
    cbn [fold_left snd fst filter].
    destruct v; cbn [is_set]; try (rewrite dset_new by exact Nk; rewrite IH by exact N2;
      rewrite <- app_assoc; reflexivity).
    apply IH. auto.
Qed.

Lemma clear_dict_filter d : is_dict d -> clear_dict d = filter (fun kv => is_set (snd kv)) d.
Proof. intros N. unfold clear_dict. rewrite clear_dict_gen by exact N. reflexivity. Qed.

Lemma clear_dict_entry d k v : is_dict d -> (entry (clear_dict d) k v <-> entry d k v /\ v <> VNone).
Proof.
  intros N. rewrite clear_dict_filter by auto. unfold entry. rewrite filter_In. cbn [snd].
  destruct v; cbn [is_set]; intuition congruence.
Qed.

Lemma NoDup_filter_keys f (d : dict) : NoDup (keys d) -> NoDup (keys (filter f d)).
Proof.
  induction d as [|[k v] d IH]; intros N; [constructor|]. cbn in N. inversion N; subst.
  cbn [filter]. destruct (f (k, v)); auto. cbn. constructor; auto.
  intros H. apply H1. apply in_map_iff in H. destruct H as (kv & E & H). apply filter_In in H.
  apply in_map_iff. exists kv. tauto.
Qed.

Lemma clear_dict_dict d : is_dict d -> is_dict (clear_dict d).
Proof. intros N. rewrite clear_dict_filter by auto. apply NoDup_filter_keys. auto. Qed.

Lemma filter_sublist {A} (f : A -> bool) l : sublist (filter f l) l.
Proof. induction l as [|x l IH]; cbn; [constructor|]. destruct (f x); constructor; auto. Qed.

Lemma clear_dict_sublist d : is_dict d -> sublist (clear_dict d) d.
Proof. intros N. rewrite clear_dict_filter by auto. apply filter_sublist. Qed.

Lemma dget_dset d k v k' : dget (dset d k v) k' = if String.eqb k k' then Some v else dget d k'.
Proof.
  induction d as [|[k0 v0] d IH]; cbn [dset dget]; auto.
  destruct (String.eqb_spec k0 k).
  - subst. cbn [dget]. destruct (String.eqb k k'); auto.
  - cbn [dget]. destruct (String.eqb_spec k0 k'); auto. subst.
    destruct (String.eqb_spec k k'); [congruence|auto].
Qed.

Lemma dget_in d k v : is_dict d -> (dget d k = Some v <-> entry d k v).
Proof.
  unfold is_dict, entry. induction d as [|[k0 v0] d IH]; intros N; cbn [dget].
  - split; [discriminate|intros []].
  - inversion N; subst. destruct (String.eqb_spec k0 k).
    + subst. split.
      * intros E. injection E as ->. left. auto.
      * intros [E|H]; [congruence|]. exfalso. apply H1. apply in_map_iff. exists (k, v). auto.
    + rewrite IH by auto. split; [right; auto|]. intros [E|H]; [congruence|auto].
Qed.

Lemma dget_clear d k : is_dict d ->
  dget (clear_dict d) k = match dget d k with Some VNone => None | x => x end.
Proof.
  intros N. assert (N' := clear_dict_dict d N).
  assert (H := fun v => iff_trans (dget_in _ k v N') (clear_dict_entry d k v N)).
  assert (H' := fun v => dget_in d k v N).
  destruct (dget d k) as [v|] eqn:E.
  - assert (I : entry d k v) by (apply H'; auto).
    destruct v; try (apply H; split; [exact I|discriminate]).
    destruct (dget (clear_dict d) k) as [w|] eqn:E'; auto.
    destruct (proj1 (H w) eq_refl) as [I' D]. apply H' in I'. congruence.
  - destruct (dget (clear_dict d) k) as [w|] eqn:E'; auto.
    destruct (proj1 (H w) eq_refl) as [I' D]. apply H' in I'. congruence.
Qed.

(* ParamsDict *)
Definition accepts (sc : schema) (kv : string * pyval) : Prop :=
  exists t, type_of sc (fst kv) = Some t /\ admissible t (snd kv) = true.

Lemma params_loop_ok sc upd d0 : is_dict upd -> (forall kv, In kv upd -> accepts sc kv) ->
  exists d, Base.for_each upd (fun kv d =>
    match type_of sc (fst kv) with
    | Some t => if admissible t (snd kv) then Base.Ok (dset d (fst kv) (snd kv)) else Base.Err Base.ValueError
    | None => Base.Err Base.ValueError
    end) d0 = Base.Ok d /\
  forall k, dget d k = match dget upd k with Some v => Some v | None => dget d0 k end.
Proof.
  revert d0. induction upd as [|[k v] upd IH]; intros d0 N A.
  - exists d0. split; auto.
  - destruct (A (k, v) (or_introl eq_refl)) as (t & T & V). cbn [fst snd] in T, V.
    inversion N; subst.
    destruct (IH (dset d0 k v) H2 (fun kv I => A kv (or_intror I))) as (d & E & H).
    exists d. split.
    + cbn [Base.for_each fst snd]. rewrite T, V. exact E.
    + intros k'. rewrite H, dget_dset. cbn [dget]. destruct (String.eqb_spec k k'); auto.
      subst. destruct (dget upd k') eqn:F; auto. exfalso. apply H1.
      apply dget_in in F; auto. apply in_map_iff. exists (k', p). auto.
Qed.

Lemma params_loop_err sc upd d0 kv : In kv upd -> ~ accepts sc kv ->
  Base.for_each upd (fun kv d =>
    match type_of sc (fst kv) with
    | Some t => if admissible t (snd kv) then Base.Ok (dset d (fst kv) (snd kv)) else Base.Err Base.ValueError
    | None => Base.Err Base.ValueError
    end) d0 = Base.Err Base.ValueError.
Proof.
  revert d0. induction upd as [|[k v] upd IH]; intros d0 I A; [destruct I|].
  cbn [Base.for_each fst snd].
  destruct (type_of sc k) as [t|] eqn:T; [|reflexivity].
  destruct (admissible t v) eqn:V; [|reflexivity].
  destruct I as [<-|I].
  - exfalso. apply A. exists t. auto.
  - apply (IH (dset d0 k v) I A).
Qed.

Lemma raw_text g o : raw g o = VNone \/ exists s, g o = Some s /\ raw g o = VStr s.
Proof. unfold raw. destruct (g o); [right; eauto|left; auto]. Qed.

Lemma as_bool_spec g o : 
  match as_bool g o with
  | None => ~ bool_ok g o
  | Some v => bool_ok g o /\
      ((g o = None /\ v = VNone) \/
       (exists s, g o = Some s /\ ((spells yes_words s /\ v = VBool true) \/ (spells no_words s /\ v = VBool false))))
  end.
Proof.
  unfold as_bool, bool_ok. destruct (g o) as [s|].
  - destruct (str2bool (VStr s)) as [[]|] eqn:E.
    + apply str2bool_true in E. split; [tauto|]. right. exists s. tauto.
    + apply str2bool_false in E. split; [tauto|]. right. exists s. tauto.
    + apply str2bool_refused in E. tauto.
  - split; auto.
Qed.
