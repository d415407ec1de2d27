(* Glue between the lemmas and the properties of the command line. *)
From Coq Require Import List String Ascii Bool ZArith Lia.
From Verif Require Base.
From Verif Require Import CliModel CliSpec CliLemmas.
Import ListNotations.
Local Open Scope string_scope.
Local Open Scope list_scope.

Ltac nodup_keys :=
  unfold is_dict; cbn; repeat (constructor; [cbn; intuition discriminate|]); constructor.

Lemma fe_dict_dict stata ho he g : is_dict (fe_dict stata ho he g).
Proof. destruct stata; nodup_keys. Qed.
Lemma cre_dict_dict stata p g : is_dict (cre_dict stata p g).
Proof. destruct stata; nodup_keys. Qed.
Lemma fe_defaults_dict : is_dict (defaults fe_schema).
Proof. nodup_keys. Qed.
Lemma cre_defaults_dict : is_dict (defaults cre_schema).
Proof. nodup_keys. Qed.

Lemma keys_dset d k v : keys (dset d k v) = if existsb (fun k' => String.eqb k' k) (keys d) then keys d else keys d ++ [k].
Proof.
  induction d as [|[k' v'] d IH]; auto. cbn [dset keys map fst existsb].
  destruct (String.eqb_spec k' k); cbn [keys map fst]; auto. cbn [orb].
  fold (keys (dset d k v)). fold (keys d). rewrite IH. destruct (existsb _ (keys d)); auto.
Qed.

Lemma dset_dict d k v : is_dict d -> is_dict (dset d k v).
Proof.
  unfold is_dict. intros N. rewrite keys_dset. destruct (existsb _ (keys d)) eqn:E; auto.
  assert (~ In k (keys d)).
  { intros I. rewrite <- not_true_iff_false in E. apply E. apply existsb_exists. exists k.
    split; auto. apply String.eqb_refl. }
  clear E. revert N H. generalize (keys d). clear. intros l. induction l as [|a l IH]; intros N H; cbn.
  - constructor; auto.
  - inversion N; subst. constructor.
    + rewrite in_app_iff. cbn. cbn in H. intuition congruence.
    + apply IH; auto. cbn in H. tauto.
Qed.

Lemma params_dict sc upd d : is_dict (defaults sc) -> params_update sc upd = Base.Ok d -> is_dict d.
Proof.
  unfold params_update. generalize (defaults sc). induction upd as [|[k v] upd IH]; intros d0 N E.
  - cbn in E. injection E as <-. auto.
  - cbn [Base.for_each fst snd] in E. destruct (type_of sc k) as [t|]; [|discriminate].
    destruct (admissible t v); [|discriminate]. cbn in E. apply IH in E; auto. apply dset_dict. auto.
Qed.

Lemma value_dget d k v : is_dict d -> dget d k = Some v -> value d k v.
Proof.
  intros N E. split.
  - apply dget_in; auto.
  - intros v' H. apply dget_in in H; auto. congruence.
Qed.

Lemma not_accepts_str_int sc k s : type_of sc k = Some TInt1 -> ~ accepts sc (k, VStr s).
Proof. intros T (t & T' & A). cbn [fst snd] in *. rewrite T in T'. injection T' as <-. discriminate. Qed.
Lemma not_accepts_str_bool sc k s : type_of sc k = Some TBool -> ~ accepts sc (k, VStr s).
Proof. intros T (t & T' & A). cbn [fst snd] in *. rewrite T in T'. injection T' as <-. discriminate. Qed.
Lemma not_accepts_unknown sc k s : type_of sc k = None -> ~ accepts sc (k, VStr s).
Proof. intros T (t & T' & A). cbn [fst snd] in *. congruence. Qed.
Lemma not_accepts_set sc k s l : type_of sc k = Some (TSet l) -> ~ In s l -> ~ accepts sc (k, VStr s).
Proof.
  intros T H (t & T' & A). cbn [fst snd] in *. rewrite T in T'. injection T' as <-. cbn in A.
  apply is_in_iff in A. tauto.
Qed.

Lemma fe_refused_entry stata ho he g k s :
  entry (fe_dict stata ho he g) k (VStr s) -> ~ accepts fe_schema (k, VStr s) ->
  params_update fe_schema (clear_dict (fe_dict stata ho he g)) = Base.Err Base.ValueError.
Proof.
  intros I A. apply params_loop_err with (kv := (k, VStr s)); auto.
  apply (clear_dict_entry _ k (VStr s) (fe_dict_dict stata ho he g)). split; [auto|discriminate].
Qed.

Lemma fe_int_entry stata ho he g o p s : In (o, p) fe_int_options -> g o = Some s ->
  entry (fe_dict stata ho he g) p (VStr s) /\ type_of fe_schema p = Some TInt1.
Proof.
  intros I E. unfold entry, fe_dict, raw.
  repeat (destruct I as [H|I]; [injection H as <- <-; rewrite E; split; [destruct stata; cbn; tauto|reflexivity]|]).
  destruct I.
Qed.

Lemma fe_word_entry stata ho he g o s : In o ["solver"; "preconditioner"] -> g o = Some s ->
  entry (fe_dict stata ho he g) o (VStr s).
Proof.
  intros I E. unfold entry, fe_dict, raw.
  repeat (destruct I as [<-|I]; [rewrite E; destruct stata; cbn; tauto|]).
  destruct I.
Qed.

Lemma fe_int_refused stata g o p : In (o, p) fe_int_options -> ~ not_given g o ->
  forall d, fe_main stata g <> Some (Base.Ok d).
Proof.
  intros I G d. unfold not_given in G. destruct (g o) as [s|] eqn:E; [|congruence].
  unfold fe_main. destruct (as_bool g "ho") as [ho|]; [|discriminate].
  destruct (as_bool g "he") as [he|]; [|discriminate].
  destruct (fe_int_entry stata ho he g o p s I E) as [J T].
  rewrite (fe_refused_entry stata ho he g p s J); [discriminate|].
  apply not_accepts_str_int. auto.
Qed.

Lemma fe_main_accepts stata g d : fe_main stata g = Some (Base.Ok d) -> fe_accepted g.
Proof.
  intros H. assert (H0 := H). unfold fe_main in H.
  assert (Ho := as_bool_spec g "ho"). assert (He := as_bool_spec g "he").
  destruct (as_bool g "ho") as [ho|]; [|discriminate].
  destruct (as_bool g "he") as [he|]; [|discriminate]. injection H as H.
  split; [tauto|]. split; [tauto|].
  assert (W : forall o l, In o ["solver"; "preconditioner"] -> type_of fe_schema o = Some (TSet l) -> word_ok g o l).
  { intros o l I T. unfold word_ok. destruct (g o) as [s|] eqn:E; auto.
    destruct (In_dec string_dec s l) as [|N]; auto. exfalso.
    rewrite (fe_refused_entry stata ho he g o s) in H; [discriminate| |].
    - apply fe_word_entry; auto.
    - apply (not_accepts_set _ _ _ l); auto. }
  split; [apply W; [cbn; tauto|reflexivity]|]. split; [apply W; [cbn; tauto|reflexivity]|].
  intros o p I. destruct (g o) eqn:E; auto. exfalso.
  apply (fe_int_refused stata g o p I) with (d := d); auto. unfold not_given. congruence.
Qed.

Lemma bool_entry_ok sc k v : type_of sc k = Some TBool -> v <> VNone ->
  (v = VNone \/ v = VBool true \/ v = VBool false) -> accepts sc (k, v).
Proof.
  intros T N H. exists TBool. split; auto. cbn [snd]. destruct H as [H|[->| ->]]; [congruence|auto|auto].
Qed.

Lemma as_bool_three g o v : as_bool g o = Some v -> v = VNone \/ v = VBool true \/ v = VBool false.
Proof.
  intros E. assert (H := as_bool_spec g o). rewrite E in H.
  destruct H as [_ [[_ ->]|(s & _ & [[_ ->]|[_ ->]])]]; auto.
Qed.

Lemma raw_not_given g o : not_given g o -> raw g o = VNone.
Proof. unfold raw, not_given. intros ->. auto. Qed.

Lemma text_entry_ok sc k g o : type_of sc k = Some TStrNone -> raw g o <> VNone -> accepts sc (k, raw g o).
Proof.
  intros T N. exists TStrNone. split; auto. cbn [snd].
  destruct (raw_text g o) as [E|(s & _ & E)]; rewrite E; auto.
Qed.
Lemma word_entry_ok sc k g o l : type_of sc k = Some (TSet l) -> word_ok g o l -> raw g o <> VNone ->
  accepts sc (k, raw g o).
Proof.
  intros T W N. exists (TSet l). split; auto. cbn [snd]. unfold word_ok, raw in *.
  destruct (g o); [|congruence]. apply is_in_iff. auto.
Qed.

Lemma fe_all_accepted stata g ho he : fe_accepted g -> as_bool g "ho" = Some ho -> as_bool g "he" = Some he ->
  forall kv, In kv (clear_dict (fe_dict stata ho he g)) -> accepts fe_schema kv.
Proof.
  intros (_ & _ & Ws & Wp & G) Ho He [k v] I.
  apply (clear_dict_entry _ k v (fe_dict_dict stata ho he g)) in I. destruct I as [I N].
  apply as_bool_three in Ho. apply as_bool_three in He.
  assert (Gn : forall o p, In (o, p) fe_int_options -> raw g o = VNone)
    by (intros o p J; apply raw_not_given, (G o p J)).
  unfold entry, fe_dict in I.
  rewrite (Gn "ndraw_trace_sigma_2" "ndraw_trace_sigma_2"), (Gn "ndraw_trace_ho" "ndraw_trace_ho"),
    (Gn "ndraw_trace_he" "ndraw_trace_he"), (Gn "ndraw_lev_he" "ndraw_lev_he"),
    (Gn "ncore_fe" "ncore") in I by (cbn; tauto).
  destruct stata; cbn [dset String.eqb Ascii.eqb Bool.eqb] in I; cbn [In] in I;
  repeat (destruct I as [E|I];
    [injection E as <- <-;
     first [ congruence
           | apply bool_entry_ok; auto; reflexivity
           | apply text_entry_ok; auto; reflexivity
           | apply (word_entry_ok _ _ _ _ fe_solvers); auto; reflexivity
           | apply (word_entry_ok _ _ _ _ fe_preconditioners); auto; reflexivity
           | exists TStrNone; split; reflexivity ]|]);
  destruct I.
Qed.

Lemma bool_option_default g o default v : as_bool g o = Some v ->
  bool_option g o default match v with VNone => VBool default | x => x end.
Proof.
  intros E. assert (H := as_bool_spec g o). rewrite E in H. unfold bool_option.
  destruct H as [_ [[-> ->]|(s & -> & [[H ->]|[H ->]])]]; auto.
Qed.

Lemma fe_main_ok stata g : fe_accepted g -> exists d, fe_main stata g = Some (Base.Ok d) /\ fe_values stata g d.
Proof.
  intros A. assert (A0 := A). destruct A as (Bo & Be & Ws & Wp & G).
  assert (Ho := as_bool_spec g "ho"). assert (He := as_bool_spec g "he"). unfold fe_main.
  destruct (as_bool g "ho") as [ho|] eqn:Eo; [|tauto].
  destruct (as_bool g "he") as [he|] eqn:Ee; [|tauto].
  assert (N := fe_dict_dict stata ho he g).
  destruct (params_loop_ok fe_schema (clear_dict (fe_dict stata ho he g)) (defaults fe_schema)
              (clear_dict_dict _ N) (fe_all_accepted stata g ho he A0 Eo Ee)) as (d & E & V).
  fold (params_update fe_schema (clear_dict (fe_dict stata ho he g))) in E.
  exists d. rewrite E. split; auto.
  assert (D := params_dict _ _ _ fe_defaults_dict E).
  assert (V' : forall k, dget d k = match dget (fe_dict stata ho he g) k with
                                    | Some VNone | None => dget (defaults fe_schema) k
                                    | Some v => Some v end).
  { intros k. rewrite V, dget_clear by exact N. destruct (dget (fe_dict stata ho he g) k) as [[]|]; auto. }
  assert (Gn : forall o p, In (o, p) fe_int_options -> raw g o = VNone)
    by (intros o p J; apply raw_not_given, (G o p J)).
  unfold fe_values.
  split; [|split; [|split; [|split; [|split; [|split; [|split; [|split; [|split]]]]]]]].
  - exists match ho with VNone => VBool true | x => x end. split; [|apply (bool_option_default g "ho"); auto].
    apply value_dget; auto. rewrite V'. destruct stata; cbn; destruct ho; auto.
  - exists match he with VNone => VBool false | x => x end. split; [|apply (bool_option_default g "he"); auto].
    apply value_dget; auto. rewrite V'. destruct stata; cbn; destruct he; auto.
  - apply value_dget; auto. rewrite V'. unfold text_option. destruct stata; cbn; unfold raw; destruct (g "solver"); auto.
  - apply value_dget; auto. rewrite V'. unfold text_option. destruct stata; cbn; unfold raw; destruct (g "preconditioner"); auto.
  - apply value_dget; auto. rewrite V'. unfold text_option. destruct stata; cbn; unfold raw; destruct (g "outputfile_fe"); auto.
  - apply value_dget; auto. rewrite V'. destruct stata; cbn; rewrite (Gn "ndraw_trace_sigma_2" "ndraw_trace_sigma_2"); cbn; tauto.
  - apply value_dget; auto. rewrite V'. destruct stata; cbn; rewrite (Gn "ndraw_trace_ho" "ndraw_trace_ho"); cbn; tauto.
  - apply value_dget; auto. rewrite V'. destruct stata; cbn; rewrite (Gn "ndraw_trace_he" "ndraw_trace_he"); cbn; tauto.
  - apply value_dget; auto. rewrite V'. destruct stata; cbn; rewrite (Gn "ndraw_lev_he" "ndraw_lev_he"); cbn; tauto.
  - apply value_dget; auto. rewrite V'. destruct stata; cbn; rewrite (Gn "ncore_fe" "ncore"); cbn; tauto.
Qed.

Lemma fe_main_iff stata g :
  (fe_accepted g -> exists d, fe_main stata g = Some (Base.Ok d) /\ fe_values stata g d) /\
  (~ fe_accepted g -> forall d, fe_main stata g <> Some (Base.Ok d)).
Proof.
  split; [apply fe_main_ok|]. intros N d E. apply N. apply (fe_main_accepts stata g d E).
Qed.

(* CRE *)
Lemma cre_refused_entry stata p g k s :
  entry (cre_dict stata p g) k (VStr s) -> ~ accepts cre_schema (k, VStr s) ->
  params_update cre_schema (clear_dict (cre_dict stata p g)) = Base.Err Base.ValueError.
Proof.
  intros I A. apply params_loop_err with (kv := (k, VStr s)); auto.
  apply (clear_dict_entry _ k (VStr s) (cre_dict_dict stata p g)). split; [auto|discriminate].
Qed.

Lemma cre_bad_entry stata p g o s : In o cre_refused_options -> g o = Some s ->
  exists k, entry (cre_dict stata p g) k (VStr s) /\ ~ accepts cre_schema (k, VStr s).
Proof.
  intros I E. unfold entry, cre_dict, raw. destruct I as [<-|[<-|[<-|[<-|[]]]]]; rewrite E.
  - exists "ncore". split; [destruct stata; cbn; tauto|apply not_accepts_str_int; reflexivity].
  - exists "ndraw_trace". split; [destruct stata; cbn; tauto|apply not_accepts_str_int; reflexivity].
  - exists "ndp". split; [destruct stata; cbn; tauto|apply not_accepts_unknown; reflexivity].
  - exists "wo_btw". split; [destruct stata; cbn; tauto|apply not_accepts_str_bool; reflexivity].
Qed.

Lemma cre_main_accepts stata g d : cre_main stata g = Some (Base.Ok d) -> cre_accepted g.
Proof.
  intros H. unfold cre_main in H. assert (Hp := as_bool_spec g "posterior").
  destruct (as_bool g "posterior") as [p|]; [|discriminate]. injection H as H.
  split; [tauto|]. intros o I. unfold not_given. destruct (g o) as [s|] eqn:E; auto. exfalso.
  destruct (cre_bad_entry stata p g o s I E) as (k & J & A).
  rewrite (cre_refused_entry stata p g k s J A) in H. discriminate.
Qed.

Lemma cre_all_accepted stata g p : cre_accepted g -> as_bool g "posterior" = Some p ->
  forall kv, In kv (clear_dict (cre_dict stata p g)) -> accepts cre_schema kv.
Proof.
  intros (_ & G) Hp [k v] I.
  apply (clear_dict_entry _ k v (cre_dict_dict stata p g)) in I. destruct I as [I N].
  apply as_bool_three in Hp.
  assert (Gn : forall o, In o cre_refused_options -> raw g o = VNone)
    by (intros o J; apply raw_not_given, (G o J)).
  unfold entry, cre_dict in I.
  rewrite (Gn "ncore_cre"), (Gn "ndraw_trace_cre"), (Gn "ndp"), (Gn "wo_btw") in I by (cbn; tauto).
  destruct stata; cbn [dset String.eqb Ascii.eqb Bool.eqb] in I; cbn [In] in I;
  repeat (destruct I as [E|I];
    [injection E as <- <-;
     first [ congruence
           | apply bool_entry_ok; auto; reflexivity
           | apply text_entry_ok; auto; reflexivity
           | exists TStrNone; split; reflexivity ]|]);
  destruct I.
Qed.

Lemma cre_main_ok stata g : cre_accepted g -> exists d, cre_main stata g = Some (Base.Ok d) /\ cre_values stata g d.
Proof.
  intros A. assert (A0 := A). destruct A as (Bp & G).
  assert (Hp := as_bool_spec g "posterior"). unfold cre_main.
  destruct (as_bool g "posterior") as [p|] eqn:Ep; [|tauto].
  assert (N := cre_dict_dict stata p g).
  destruct (params_loop_ok cre_schema (clear_dict (cre_dict stata p g)) (defaults cre_schema)
              (clear_dict_dict _ N) (cre_all_accepted stata g p A0 Ep)) as (d & E & V).
  fold (params_update cre_schema (clear_dict (cre_dict stata p g))) in E.
  exists d. rewrite E. split; auto.
  assert (D := params_dict _ _ _ cre_defaults_dict E).
  assert (V' : forall k, dget d k = match dget (cre_dict stata p g) k with
                                    | Some VNone | None => dget (defaults cre_schema) k
                                    | Some v => Some v end).
  { intros k. rewrite V, dget_clear by exact N. destruct (dget (cre_dict stata p g) k) as [[]|]; auto. }
  assert (Gn : forall o, In o cre_refused_options -> raw g o = VNone)
    by (intros o J; apply raw_not_given, (G o J)).
  unfold cre_values. split; [|split; [|split; [|split]]].
  - exists match p with VNone => VBool false | x => x end. split; [|apply (bool_option_default g "posterior"); auto].
    apply value_dget; auto. rewrite V'. destruct stata; cbn; destruct p; auto.
  - apply value_dget; auto. rewrite V'. unfold text_option. destruct stata; cbn; unfold raw; destruct (g "outputfile_cre"); auto.
  - apply value_dget; auto. rewrite V'. destruct stata; cbn; rewrite (Gn "wo_btw"); cbn; tauto.
  - apply value_dget; auto. rewrite V'. destruct stata; cbn; rewrite (Gn "ncore_cre"); cbn; tauto.
  - apply value_dget; auto. rewrite V'. destruct stata; cbn; rewrite (Gn "ndraw_trace_cre"); cbn; tauto.
Qed.

Lemma cre_main_iff stata g :
  (cre_accepted g -> exists d, cre_main stata g = Some (Base.Ok d) /\ cre_values stata g d) /\
  (~ cre_accepted g -> forall d, cre_main stata g <> Some (Base.Ok d)).
Proof.
  split; [apply cre_main_ok|]. intros N d E. apply N. apply (cre_main_accepts stata g d E).
Qed.

(* An example: --ho No --he TRUE --solver amg *)
Definition ex_given : given := fun o =>
  if String.eqb o "ho" then Some "No" else if String.eqb o "he" then Some "TRUE"
  else if String.eqb o "solver" then Some "amg" else None.
Lemma ex_given_ok : fe_accepted ex_given.
Proof.
  unfold fe_accepted. split; [|split; [|split; [|split]]].
  - right. apply str2bool_false. reflexivity.
  - left. apply str2bool_true. reflexivity.
  - cbn. tauto.
  - exact I.
  - intros o p H. repeat (destruct H as [E|H]; [injection E as <- <-; reflexivity|]). destruct H.
Qed.
(* --ncore_fe 4 *)
Definition ex_int : given := fun o => if String.eqb o "ncore_fe" then Some "4" else None.
