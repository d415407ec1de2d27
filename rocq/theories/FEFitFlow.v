From Verif Require Import Base FEFitModel FEFitSpec.

Definition bad (o : fopts) : bool :=
  negb (o_statsonly o) && negb (o_feonly o) &&
  ((o_he o && o_levfile o && o_exact_he o)
   || (o_gamma o && ((o_ho o && o_exact_ho o) || (o_he o && o_exact_he o)))
   || (o_empty o && ((o_ho o && negb (o_exact_ho o)) || (o_he o && negb (o_exact_he o))))).

Lemma bad_spec o : bad o = true -> corrected o /\ (lev_and_exact o \/ exact_gamma o \/ approx_empty o).
Proof.
  unfold bad, corrected, lev_and_exact, exact_gamma, approx_empty.
  rewrite !Bool.andb_true_iff, !Bool.orb_true_iff, !Bool.andb_true_iff, !Bool.orb_true_iff, !Bool.andb_true_iff, !Bool.negb_true_iff.
  tauto.
Qed.

Definition good_end (o : fopts) (s : store) (r : res store) : bool :=
  match r with
  | Ok t => negb (t Amover) && negb (t Amats) && (o_statsonly o || t Aols) &&
      (o_statsonly o || o_feonly o ||
         (t Aresid && t Aplug && (negb (o_ho o) || (t Asigho && t Atrho)) && (negb (o_he o) || (t Alev && t Aepshe && t Atrhe))))
  | Err _ => false
  end.

Lemma flow_run o s : bad o = false -> good_end o s (fit_flow o s) = true.
Proof.
  destruct o as [w ho he so fo at_ es eh el ee lf am ga em].
  destruct so; [destruct he, lf, am; reflexivity|].
  destruct fo; [destruct he, lf, am, at_; reflexivity|].
  destruct ho, he, am; destruct w, es, eh; destruct el, ee, lf, ga, em, at_; intros B; try discriminate B; reflexivity.
Qed.

Definition after (r : res store) (a : attr) : bool := match r with Ok t => t a | Err _ => false end.
Lemma flow_left o s a : bad o = false -> temporary a -> (a = Asqrt -> o_he o = false \/ (o_statsonly o = false /\ o_feonly o = false)) ->
  s a = false -> after (fit_flow o s) a = false.
Proof.
  destruct o as [w ho he so fo at_ es eh el ee lf am ga em]. intros B T Q H. cbn [o_he o_statsonly o_feonly] in Q.
  destruct so.
  { destruct T as [<-|[<-|[<-|[<-|[<-|[]]]]]].
    1-4: destruct he, lf, am; first [reflexivity | exact H].
    destruct he; [destruct (Q eq_refl) as [K|[K _]]; discriminate K|]. destruct lf, am; first [reflexivity | exact H]. }
  destruct fo.
  { destruct T as [<-|[<-|[<-|[<-|[<-|[]]]]]].
    1-4: destruct he, lf, am, at_; first [reflexivity | exact H].
    destruct he; [destruct (Q eq_refl) as [K|[_ K]]; discriminate K|]. destruct lf, am, at_; first [reflexivity | exact H]. }
  clear Q.
  destruct ho, he, am; destruct w, es, eh; destruct el, ee, lf, ga, em; try discriminate B; clear B;
    destruct at_; destruct T as [<-|[<-|[<-|[<-|[<-|[]]]]]]; first [reflexivity | exact H].
Qed.

Lemma flow_sqrt o s : o_he o = true -> o_levfile o = false -> ~ corrected o -> after (fit_flow o s) Asqrt = true.
Proof.
  destruct o as [w ho he so fo at_ es eh el ee lf am ga em]. unfold corrected. cbn. intros -> -> N.
  destruct so; [destruct am; reflexivity|]. destruct fo; [destruct am, at_; reflexivity|]. destruct N. now split.
Qed.
Lemma flow_lemma o s : ~ (corrected o /\ (lev_and_exact o \/ exact_gamma o \/ approx_empty o)) ->
  exists t, fit_flow o s = Ok t /\ (forall a, working a -> t a = false) /\
    (forall a, temporary a -> (a = Asqrt -> o_he o = false \/ corrected o) -> s a = false -> t a = false) /\
    (o_statsonly o = false -> t Aols = true) /\
    (corrected o -> t Aresid = true /\ t Aplug = true /\
       (o_ho o = true -> t Asigho = true /\ t Atrho = true) /\
       (o_he o = true -> t Alev = true /\ t Aepshe = true /\ t Atrhe = true)).
Proof.
  intros N. assert (B : bad o = false). { destruct (bad o) eqn:E; [|reflexivity]. destruct (N (bad_spec o E)). }
  pose proof (flow_run o s B) as G. pose proof (fun a => flow_left o s a B) as L. destruct (fit_flow o s) as [t|]; [|discriminate]. exists t. split; [reflexivity|].
  unfold good_end in G. rewrite !Bool.andb_true_iff, !Bool.negb_true_iff in G. destruct G as (((G1 & G2) & G3) & G4).
  split; [|split; [|split]].
  - intros a [<-|[<-|[]]]; assumption.
  - exact L.
  - intros E. rewrite E in G3. exact G3.
  - intros (E1 & E2). rewrite E1, E2 in G4. cbn [orb] in G4.
    rewrite !Bool.andb_true_iff in G4. destruct G4 as (((G5 & G6) & G7) & G8). split; [assumption|]. split; [assumption|]. split; intros E.
    + rewrite E in G7. cbn [negb orb] in G7. now apply Bool.andb_true_iff in G7.
    + rewrite E in G8. cbn [negb orb] in G8. rewrite !Bool.andb_true_iff in G8. tauto.
Qed.

Lemma flow_lev o s : corrected o -> lev_and_exact o -> ~ exact_gamma o -> ~ approx_empty o -> s Asqrt = false ->
  fit_flow o s = Err AttributeError.
Proof.
  destruct o as [w ho he so fo at_ es eh el ee lf am ga em]. intros (A & B) (C & D & E) G M Q. cbn in A, B, C, D, E. subst.
  destruct ga.
  { destruct G. split; [reflexivity|]. right. now split. }
  destruct ho; [|destruct w, es, el, am, at_; lazy; rewrite Q; reflexivity].
  destruct em; [destruct eh; [|destruct M; split; [reflexivity|]; left; now split]|];
    destruct w, es, el, am, at_; try destruct eh; lazy; rewrite Q; reflexivity.
Qed.

Lemma flow_empty o s : corrected o -> o_ho o = true -> o_exact_ho o = false -> o_empty o = true ->
  fit_flow o s = Err UnboundLocalError.
Proof.
  destruct o as [w ho he so fo at_ es eh el ee lf am ga em]. intros (A & B) C D E. cbn in A, B, C, D, E. subst.
  destruct w, es, am, at_, he, lf; reflexivity.
Qed.

Lemma flow_sqrt_left o s : o_he o = true -> o_levfile o = false -> ~ corrected o ->
  exists t, fit_flow o s = Ok t /\ t Asqrt = true.
Proof.
  intros A B C. pose proof (flow_sqrt o s A B C) as H. destruct (fit_flow o s) as [t|]; [|discriminate]. now exists t.
Qed.
