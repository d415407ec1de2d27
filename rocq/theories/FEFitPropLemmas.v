From Coq Require Import String Lia Lra Permutation.
From Verif Require Import Base BaseLemmas MCModel MCSpec MCLemmas FEFitModel FEFitSpec FEFitLemmas.
Local Open Scope string_scope.
Local Open Scope list_scope.

Lemma lookup_in {V} (d : list (string * V)) e : In e (map fst d) -> exists x, lookup e d = Ok x.
Proof.
  induction d as [|[k v] d IH]; cbn; [intros []|].
  destruct (String.eqb_spec e k) as [->|N]; [eauto|]. intros [H|H]; [congruence|auto].
Qed.
Lemma dval_ok {V} (z : V) d e x : lookup e d = Ok x -> dval z e d = x.
Proof. unfold dval. now intros ->. Qed.
Lemma sdev_std x : np_std x = sdev x.
Proof. reflexivity. Qed.
Lemma avg_mean x : mean x = avg x.
Proof. reflexivity. Qed.

Definition copies (r s : rdict) (K : list string) : Prop :=
  forall k v, lookup k s = Ok v <-> (In k K /\ lookup k r = Ok v).

Lemma copies_step r s K k v : copies r s K -> lookup k r = Ok v ->
  exists s', copy r k s = Ok s' /\ copies r s' (K ++ [k]).
Proof.
  intros H E. unfold copy. rewrite E. cbn [bind]. eexists. split; [reflexivity|].
  intros a w. rewrite lookup_set, in_app_iff. cbn. destruct (String.eqb_spec a k) as [->|N].
  - split; [intros [= <-]; tauto|]. intros (_ & F). congruence.
  - rewrite (H a w). intuition congruence.
Qed.

Lemma copies_if r s K k v (b : bool) : copies r s K -> (b = true -> lookup k r = Ok v) ->
  exists s', (if b then copy r k s else Ok s) = Ok s' /\ copies r s' (K ++ if b then [k] else []).
Proof.
  intros H E. destruct b.
  - now apply (copies_step r s K k v); auto.
  - exists s. rewrite app_nil_r. now split.
Qed.

Definition sum_keys (ho he : bool) (names : list string) : list string :=
  flat_map (fun n => [(n ++ "_fe")%string] ++ (if ho then [(n ++ "_ho")%string] else []) ++ (if he then [(n ++ "_he")%string] else [])) names.

Lemma copies_names r ho he names : (forall n, In n names -> (exists v, lookup (n ++ "_fe") r = Ok v) /\
    (ho = true -> exists v, lookup (n ++ "_ho") r = Ok v) /\ (he = true -> exists v, lookup (n ++ "_he") r = Ok v)) ->
  forall s K, copies r s K -> exists s', summarise ho he names r s = Ok s' /\ copies r s' (K ++ sum_keys ho he names).
Proof.
  unfold summarise. induction names as [|n names IH]; intros H s K C; cbn [for_each].
  - exists s. cbn. rewrite app_nil_r. now split.
  - destruct (H n (or_introl eq_refl)) as ((v1 & E1) & H2 & H3).
    destruct (copies_step _ _ _ _ _ C E1) as (s1 & -> & C1). cbn [bind].
    assert (Q2 : exists s2, (if ho then copy r (n ++ "_ho") s1 else Ok s1) = Ok s2 /\ copies r s2 ((K ++ [(n ++ "_fe")%string]) ++ if ho then [(n ++ "_ho")%string] else [])).
    { destruct ho; [|exists s1; rewrite app_nil_r; now split]. destruct (H2 eq_refl) as (v2 & E2). exact (copies_step _ _ _ _ _ C1 E2). }
    destruct Q2 as (s2 & -> & C2). cbn [bind].
    assert (Q3 : exists s3, (if he then copy r (n ++ "_he") s2 else Ok s2) = Ok s3 /\ copies r s3 (((K ++ [(n ++ "_fe")%string]) ++ if ho then [(n ++ "_ho")%string] else []) ++ if he then [(n ++ "_he")%string] else [])).
    { destruct he; [|exists s2; rewrite app_nil_r; now split]. destruct (H3 eq_refl) as (v3 & E3). exact (copies_step _ _ _ _ _ C2 E3). }
    destruct Q3 as (s3 & -> & C3). cbn [bind].
    destruct (IH (fun a Ha => H a (or_intror Ha)) s3 _ C3) as (s4 & E4 & C4). exists s4. split; [exact E4|].
    change (sum_keys ho he (n :: names)) with (([(n ++ "_fe")%string] ++ (if ho then [(n ++ "_ho")%string] else []) ++ (if he then [(n ++ "_he")%string] else [])) ++ sum_keys ho he names).
    rewrite <- !app_assoc in C4. rewrite <- !app_assoc. exact C4.
Qed.

Section P.
Variable sorted : list string -> list string.
Hypothesis sorted_perm : forall l, Permutation (sorted l) l.
Variables (ho he : bool) (p : parts) (r0 : rdict).
Hypothesis WN : well_named p.
Hypothesis NE : ~ In "var(eps)" (map fst (var_fe p)).
Hypothesis TR : traced ho he p.
Hypothesis PR : prepared he r0.

Let vn := sorted (map fst (var_fe p)).
Let cn := sorted (map fst (cov_fe p)).

Lemma vn_in n : In n vn <-> In n (map fst (var_fe p)).
Proof. unfold vn. split; apply Permutation_in; [apply sorted_perm|apply Permutation_sym, sorted_perm]. Qed.
Lemma cn_in n : In n cn <-> In n (map fst (cov_fe p)).
Proof. unfold cn. split; apply Permutation_in; [apply sorted_perm|apply Permutation_sym, sorted_perm]. Qed.

Let yv := dval 0%R "var(y)" r0.
Let W1 := [("var(y)", yv); ("var(eps)_fe", sigma_2_fe p)] ++ w_plug vn (var_fe p) ++ w_plug cn (cov_fe p).
Let W2 := if ho then [("var(eps)_ho", sigma_2_ho p)] ++ w_traces "_ho" vn (tr_var_ho p) ++ w_traces "_ho" cn (tr_cov_ho p)
    ++ w_correct "_ho" (sigma_2_ho p) vn (var_fe p) (tr_var_ho p) ++ w_correct "_ho" (sigma_2_ho p) cn (cov_fe p) (tr_cov_ho p) else [].
Let W3 := if he then [("var(eps)_he", dval 0%R "var(eps)_he" r0); ("min_lev", dval 0%R "min_lev" r0); ("max_lev", dval 0%R "max_lev" r0)]
    ++ w_traces "_he" vn (tr_var_he p) ++ w_traces "_he" cn (tr_cov_he p)
    ++ w_correct "_he" 1 vn (var_fe p) (tr_var_he p) ++ w_correct "_he" 1 cn (cov_fe p) (tr_cov_he p) else [].
Let W := W1 ++ W2 ++ W3.

Notation rep := (reported ho he p).

Lemma est_v n : In n vn -> estimate p n (dval 0%R n (var_fe p)).
Proof. intros H. apply vn_in in H. destruct (lookup_in _ _ H) as (x & E). rewrite (dval_ok _ _ _ _ E). left. now apply lookup_has. Qed.
Lemma est_c n : In n cn -> estimate p n (dval 0%R n (cov_fe p)).
Proof. intros H. apply cn_in in H. destruct (lookup_in _ _ H) as (x & E). rewrite (dval_ok _ _ _ _ E). right. now apply lookup_has. Qed.
Lemma dho_v n : ho = true -> In n vn -> draws_ho p n (dval [] n (tr_var_ho p)).
Proof. intros Hh H. apply vn_in in H. destruct (proj1 (proj1 TR Hh) n H) as (x & E). apply lookup_has in E. rewrite (dval_ok _ _ _ _ E). left. split; [assumption|now apply lookup_has]. Qed.
Lemma dho_c n : ho = true -> In n cn -> draws_ho p n (dval [] n (tr_cov_ho p)).
Proof. intros Hh H. apply cn_in in H. destruct (proj2 (proj1 TR Hh) n H) as (x & E). apply lookup_has in E. rewrite (dval_ok _ _ _ _ E). right. split; [assumption|now apply lookup_has]. Qed.
Lemma dhe_v n : he = true -> In n vn -> draws_he p n (dval [] n (tr_var_he p)).
Proof. intros Hh H. apply vn_in in H. destruct (proj1 (proj2 TR Hh) n H) as (x & E). apply lookup_has in E. rewrite (dval_ok _ _ _ _ E). left. split; [assumption|now apply lookup_has]. Qed.
Lemma dhe_c n : he = true -> In n cn -> draws_he p n (dval [] n (tr_cov_he p)).
Proof. intros Hh H. apply cn_in in H. destruct (proj2 (proj2 TR Hh) n H) as (x & E). apply lookup_has in E. rewrite (dval_ok _ _ _ _ E). right. split; [assumption|now apply lookup_has]. Qed.

(* Every write is reported, or repeats a reserved entry. *)
Definition fine (w : string * R) : Prop :=
  rep (fst w) (snd w) \/ (reserved (fst w) /\ lookup (fst w) r0 = Ok (snd w)).

Lemma fine_plug_v : Forall fine (w_plug vn (var_fe p)).
Proof. apply Forall_forall. intros w H. apply in_map_iff in H. destruct H as (n & <- & H). left. cbn. constructor. now apply est_v. Qed.
Lemma fine_plug_c : Forall fine (w_plug cn (cov_fe p)).
Proof. apply Forall_forall. intros w H. apply in_map_iff in H. destruct H as (n & <- & H). left. cbn. constructor. now apply est_c. Qed.
Lemma fine_tr m names tr : (forall n, In n names -> rep ("tr_" ++ n ++ m) (avg (dval [] n tr)) /\ rep ("tr_" ++ n ++ m ++ "_sd") (sdev (dval [] n tr))) ->
  Forall fine (w_traces m names tr).
Proof.
  intros H. apply Forall_forall. intros w Hw. apply in_flat_map in Hw. destruct Hw as (n & Hn & [<-|[<-|[]]]); left; apply (H n Hn).
Qed.

Lemma bcase (b : bool) : b = true \/ b = false.
Proof. destruct b; tauto. Qed.

Lemma fine_all : Forall fine W.
Proof.
  unfold W, W1. rewrite !Forall_app. repeat split; try (first [apply fine_plug_v | apply fine_plug_c]).
  - constructor; [|constructor; [left; apply rep_eps_fe|constructor]].
    right. split; [now left|]. cbn. destruct PR as ((v & H) & _). apply lookup_has in H. unfold yv. now rewrite (dval_ok _ _ _ _ H).
  - unfold W2. destruct (bcase ho) as [Hh|Hh]; rewrite Hh; [|constructor]. rewrite !Forall_app. repeat split.
    + constructor; [|constructor]. left. cbn. now apply rep_eps_ho.
    + apply fine_tr. intros n Hn. split; [apply rep_tr_ho|exact (rep_tr_ho_sd _ _ _ _ _ Hh (dho_v n Hh Hn))]; [assumption|now apply dho_v].
    + apply fine_tr. intros n Hn. split; [apply rep_tr_ho|exact (rep_tr_ho_sd _ _ _ _ _ Hh (dho_c n Hh Hn))]; [assumption|now apply dho_c].
    + apply Forall_forall. intros w H. apply in_map_iff in H. destruct H as (n & <- & H). left. cbn [fst snd]. apply rep_ho; [assumption|now apply est_v|now apply dho_v].
    + apply Forall_forall. intros w H. apply in_map_iff in H. destruct H as (n & <- & H). left. cbn [fst snd]. apply rep_ho; [assumption|now apply est_c|now apply dho_c].
  - unfold W3. destruct (bcase he) as [Hh|Hh]; rewrite Hh; [|constructor]. rewrite !Forall_app. repeat split.
    + destruct PR as (_ & Q). destruct (Q Hh) as ((a & A) & (b & B) & (c & D)). apply lookup_has in A, B, D.
      constructor; [|constructor; [|constructor; [|constructor]]]; right; cbn [fst snd]; (split; [unfold reserved; tauto|]).
      * now rewrite (dval_ok _ _ _ _ A).
      * now rewrite (dval_ok _ _ _ _ B).
      * now rewrite (dval_ok _ _ _ _ D).
    + apply fine_tr. intros n Hn. split; [apply rep_tr_he|exact (rep_tr_he_sd _ _ _ _ _ Hh (dhe_v n Hh Hn))]; [assumption|now apply dhe_v].
    + apply fine_tr. intros n Hn. split; [apply rep_tr_he|exact (rep_tr_he_sd _ _ _ _ _ Hh (dhe_c n Hh Hn))]; [assumption|now apply dhe_c].
    + apply Forall_forall. intros w H. apply in_map_iff in H. destruct H as (n & <- & H). left. cbn [fst snd]. rewrite Rmult_1_l. apply rep_he; [assumption|now apply est_v|now apply dhe_v].
    + apply Forall_forall. intros w H. apply in_map_iff in H. destruct H as (n & <- & H). left. cbn [fst snd]. rewrite Rmult_1_l. apply rep_he; [assumption|now apply est_c|now apply dhe_c].
Qed.

(* Everything reported is written. *)
Lemma in_plug names fe n v : In n names -> lookup n fe = Ok v -> In ((n ++ "_fe")%string, v) (w_plug names fe).
Proof. intros H E. apply in_map_iff. exists n. now rewrite (dval_ok _ _ _ _ E). Qed.
Lemma in_tr m names tr n x : In n names -> lookup n tr = Ok x ->
  In (("tr_" ++ n ++ m)%string, mean x) (w_traces m names tr) /\ In (("tr_" ++ n ++ m ++ "_sd")%string, np_std x) (w_traces m names tr).
Proof. intros H E. split; apply in_flat_map; exists n; (split; [assumption|]); rewrite (dval_ok _ _ _ _ E); [now left|right; now left]. Qed.
Lemma in_correct m s names fe tr n v x : In n names -> lookup n fe = Ok v -> lookup n tr = Ok x ->
  In ((n ++ m)%string, (v - s * mean x)%R) (w_correct m s names fe tr).
Proof. intros H E F. apply in_map_iff. exists n. now rewrite (dval_ok _ _ _ _ E), (dval_ok _ _ _ _ F). Qed.

Lemma same_kind n v (x : list R) (a b : list (string * list R)) : estimate p n v ->
  (In n (map fst (var_fe p)) /\ has a n x) \/ (In n (map fst (cov_fe p)) /\ has b n x) ->
  (has (var_fe p) n v /\ In n vn /\ has a n x) \/ (has (cov_fe p) n v /\ In n cn /\ has b n x).
Proof.
  rewrite vn_in, cn_in. intros [E|E] [(I & D)|(I & D)]; [tauto| | |tauto]; destruct (name_one p WN n); eauto using has_name.
Qed.

Lemma rep_in k v : rep k v -> In (k, v) W.
Proof.
  unfold W, W1. rewrite !in_app_iff.
  intros [|n v' [E|E]|Hh|n x Hh D|n x Hh D|n v' x Hh E D|n x Hh D|n x Hh D|n v' x Hh E D].
  - left; left. right. now left.
  - left; right; left. pose proof (has_name _ _ _ E). apply lookup_has in E. apply in_plug; [now apply vn_in|assumption].
  - left; right; right. pose proof (has_name _ _ _ E). apply lookup_has in E. apply in_plug; [now apply cn_in|assumption].
  - right; left. unfold W2. rewrite Hh. now left.
  - right; left. unfold W2. rewrite Hh, !in_app_iff. right. destruct D as [(I & D)|(I & D)]; apply lookup_has in D.
    + left. apply vn_in in I. apply (in_tr "_ho" _ _ _ _ I D).
    + right; left. apply cn_in in I. apply (in_tr "_ho" _ _ _ _ I D).
  - right; left. unfold W2. rewrite Hh, !in_app_iff. right. destruct D as [(I & D)|(I & D)]; apply lookup_has in D.
    + left. apply vn_in in I. apply (in_tr "_ho" _ _ _ _ I D).
    + right; left. apply cn_in in I. apply (in_tr "_ho" _ _ _ _ I D).
  - right; left. unfold W2. rewrite Hh, !in_app_iff. right; right; right.
    destruct (same_kind _ _ _ _ _ E D) as [(F & I & G)|(F & I & G)]; apply lookup_has in F, G; [left|right]; exact (in_correct _ _ _ _ _ _ _ _ I F G).
  - right; right. unfold W3. rewrite Hh, !in_app_iff. right. destruct D as [(I & D)|(I & D)]; apply lookup_has in D.
    + left. apply vn_in in I. apply (in_tr "_he" _ _ _ _ I D).
    + right; left. apply cn_in in I. apply (in_tr "_he" _ _ _ _ I D).
  - right; right. unfold W3. rewrite Hh, !in_app_iff. right. destruct D as [(I & D)|(I & D)]; apply lookup_has in D.
    + left. apply vn_in in I. apply (in_tr "_he" _ _ _ _ I D).
    + right; left. apply cn_in in I. apply (in_tr "_he" _ _ _ _ I D).
  - right; right. unfold W3. rewrite Hh, !in_app_iff. right; right; right.
    replace (v' - avg x)%R with (v' - 1 * mean x)%R by (unfold avg, mean; lra).
    destruct (same_kind _ _ _ _ _ E D) as [(F & I & G)|(F & I & G)]; apply lookup_has in F, G; [left|right]; exact (in_correct _ _ _ _ _ _ _ _ I F G).
Qed.

(* Reading after some of the writes. *)
Lemma fine_fun k v w : fine (k, v) -> fine (k, w) -> v = w.
Proof.
  intros [A|(A & B)] [A'|(A' & B')]; cbn [fst snd] in *.
  - exact (reported_fun ho he p WN NE _ _ _ A A').
  - destruct (reserved_free ho he p WN NE _ _ A' A).
  - destruct (reserved_free ho he p WN NE _ _ A A').
  - congruence.
Qed.
Lemma upd_in U k v r : Forall fine U -> In (k, v) U -> lookup k (upd U r) = Ok v.
Proof.
  intros F H. apply lookup_upd; [assumption|]. intros v' H'. rewrite Forall_forall in F.
  exact (fine_fun _ _ _ (F _ H') (F _ H)).
Qed.
Lemma upd_reserved U k r : Forall fine U -> reserved k -> lookup k r = lookup k r0 -> lookup k (upd U r) = lookup k r0.
Proof.
  intros F K E. destruct (in_dec String.string_dec k (map fst U)) as [H|H].
  - apply in_map_iff in H. destruct H as ([k' v] & Ek & H). cbn in Ek. subst k'. rewrite (upd_in _ _ _ _ F H).
    rewrite Forall_forall in F. destruct (F _ H) as [A|(_ & A)]; cbn in A; [destruct (reserved_free ho he p WN NE _ _ K A)|congruence].
  - now rewrite lookup_upd_out.
Qed.

Lemma proper_v n : In n vn -> proper n.
Proof. intros H. apply (name_proper p WN), in_app_iff. left. now apply vn_in. Qed.
Lemma proper_c n : In n cn -> proper n.
Proof. intros H. apply (name_proper p WN), in_app_iff. right. now apply cn_in. Qed.
Lemma ok_v n : In n vn -> exists v, lookup n (var_fe p) = Ok v.
Proof. rewrite vn_in. apply lookup_in. Qed.
Lemma ok_c n : In n cn -> exists v, lookup n (cov_fe p) = Ok v.
Proof. rewrite cn_in. apply lookup_in. Qed.

Lemma again_run k v r : lookup k r = Ok v -> again k r = Ok (upd [(k, v)] r).
Proof. unfold again. now intros ->. Qed.

Lemma fine_W1 : Forall fine W1.
Proof. pose proof fine_all as F. unfold W in F. rewrite !Forall_app in F. tauto. Qed.
Lemma fine_W2 : Forall fine W2.
Proof. pose proof fine_all as F. unfold W in F. rewrite !Forall_app in F. tauto. Qed.
Lemma fine_W3 : Forall fine W3.
Proof. pose proof fine_all as F. unfold W in F. rewrite !Forall_app in F. tauto. Qed.

Lemma tr_v m tr n : In n vn -> forall names' tr', In (("tr_" ++ n ++ m)%string, mean (dval [] n tr)) (w_traces m vn tr ++ w_traces m names' tr').
Proof. intros H names' tr'. apply in_app_iff. left. apply in_flat_map. exists n. split; [assumption|now left]. Qed.
Lemma tr_c m tr n : In n cn -> forall names' tr', In (("tr_" ++ n ++ m)%string, mean (dval [] n tr)) (w_traces m names' tr' ++ w_traces m cn tr).
Proof. intros H names' tr'. apply in_app_iff. right. apply in_flat_map. exists n. split; [assumption|now left]. Qed.

Open Scope res_scope.
Lemma block_ho r : (if ho then
          let r := set "var(eps)_ho" (sigma_2_ho p) r in
          r <- traces "_ho" vn (tr_var_ho p) r ;;
          r <- traces "_ho" cn (tr_cov_ho p) r ;;
          r <- correct "_ho" (sigma_2_ho p) vn (var_fe p) r ;;
          correct "_ho" (sigma_2_ho p) cn (cov_fe p) r
        else Ok r) = Ok (upd W2 r).
Proof.
  pose proof fine_W2 as F. unfold W2 in F |- *. destruct (bcase ho) as [Hh|Hh]; rewrite Hh in F |- *; [|reflexivity].
  rewrite !Forall_app in F. destruct F as (F0 & F1 & F2 & F3 & F4).
  change (set "var(eps)_ho" (sigma_2_ho p) r) with (upd [("var(eps)_ho", sigma_2_ho p)] r). cbv zeta.
  rewrite traces_run by (intros n H; apply vn_in in H; destruct (proj1 (proj1 TR Hh) n H) as (x & E); exists x; now apply lookup_has). cbn [bind].
  rewrite traces_run by (intros n H; apply cn_in in H; destruct (proj2 (proj1 TR Hh) n H) as (x & E); exists x; now apply lookup_has). cbn [bind].
  rewrite <- !upd_app.
  rewrite (correct_run _ _ _ (tr_var_ho p) _ ok_v proper_v).
  2: { intros n H. apply upd_in; [rewrite !Forall_app; tauto|]. rewrite <- ?app_assoc. apply in_app_iff. right. now apply tr_v. }
  cbn [bind]. rewrite <- !upd_app.
  rewrite (correct_run _ _ _ (tr_cov_ho p) _ ok_c proper_c).
  2: { intros n H. apply upd_in; [rewrite !Forall_app; tauto|]. rewrite <- ?app_assoc, (app_assoc (w_traces _ _ _)). apply in_app_iff. right. apply in_app_iff. left. now apply tr_c. }
  now rewrite <- !upd_app, <- ?app_assoc.
Qed.

Lemma block_he r : (forall k, reserved k -> lookup k r = lookup k r0) -> (if he then
          r <- again "var(eps)_he" r ;;
          r <- again "min_lev" r ;;
          r <- again "max_lev" r ;;
          r <- traces "_he" vn (tr_var_he p) r ;;
          r <- traces "_he" cn (tr_cov_he p) r ;;
          r <- correct "_he" 1 vn (var_fe p) r ;;
          correct "_he" 1 cn (cov_fe p) r
        else Ok r) = Ok (upd W3 r).
Proof.
  intros K. pose proof fine_W3 as F. unfold W3 in F |- *. destruct (bcase he) as [Hh|Hh]; rewrite Hh in F |- *; [|reflexivity].
  rewrite !Forall_app in F. destruct F as (F0 & F1 & F2 & F3 & F4).
  destruct PR as (_ & Q). destruct (Q Hh) as ((a & A) & (b & B) & (c & D)). apply lookup_has in A, B, D.
  rewrite (dval_ok _ _ _ _ A), (dval_ok _ _ _ _ B), (dval_ok _ _ _ _ D) in F0 |- *.
  rewrite (again_run "var(eps)_he" a) by (rewrite K; [assumption|unfold reserved; tauto]). cbn [bind].
  rewrite (again_run "min_lev" b).
  2: { rewrite lookup_upd_out; [rewrite K; [assumption|unfold reserved; tauto]|]. cbn. intros [|[]]; discriminate. }
  cbn [bind]. rewrite <- upd_app.
  rewrite (again_run "max_lev" c).
  2: { rewrite lookup_upd_out; [rewrite K; [assumption|unfold reserved; tauto]|]. cbn. intros [|[|[]]]; discriminate. }
  cbn [bind]. rewrite <- upd_app. change (([("var(eps)_he", a)] ++ [("min_lev", b)]) ++ [("max_lev", c)]) with [("var(eps)_he", a); ("min_lev", b); ("max_lev", c)].
  rewrite traces_run by (intros n H; apply vn_in in H; destruct (proj1 (proj2 TR Hh) n H) as (x & E); exists x; now apply lookup_has). cbn [bind].
  rewrite traces_run by (intros n H; apply cn_in in H; destruct (proj2 (proj2 TR Hh) n H) as (x & E); exists x; now apply lookup_has). cbn [bind].
  rewrite <- !upd_app.
  rewrite (correct_run _ _ _ (tr_var_he p) _ ok_v proper_v).
  2: { intros n H. apply upd_in; [rewrite !Forall_app; tauto|]. rewrite <- ?app_assoc. apply in_app_iff. right. now apply tr_v. }
  cbn [bind]. rewrite <- !upd_app.
  rewrite (correct_run _ _ _ (tr_cov_he p) _ ok_c proper_c).
  2: { intros n H. apply upd_in; [rewrite !Forall_app; tauto|]. rewrite <- ?app_assoc, (app_assoc (w_traces _ _ _)). apply in_app_iff. right. apply in_app_iff. left. now apply tr_c. }
  now rewrite <- !upd_app, <- ?app_assoc.
Qed.

Lemma rep_look k v : rep k v -> lookup k (upd W r0) = Ok v.
Proof. intros H. apply upd_in; [apply fine_all|now apply rep_in]. Qed.

Lemma rep_some n : In n vn \/ In n cn -> (exists v, lookup (n ++ "_fe") (upd W r0) = Ok v) /\
    (ho = true -> exists v, lookup (n ++ "_ho") (upd W r0) = Ok v) /\ (he = true -> exists v, lookup (n ++ "_he") (upd W r0) = Ok v).
Proof.
  intros [H|H]; (split; [|split; intros Hh]); eexists; apply rep_look.
  - apply rep_fe. now apply est_v.
  - apply rep_ho; [assumption|now apply est_v|now apply dho_v].
  - apply rep_he; [assumption|now apply est_v|now apply dhe_v].
  - apply rep_fe. now apply est_c.
  - apply rep_ho; [assumption|now apply est_c|now apply dho_c].
  - apply rep_he; [assumption|now apply est_c|now apply dhe_c].
Qed.

Let keys := ((((([] ++ ["var(y)"]) ++ ["var(eps)_fe"]) ++ (if ho then ["var(eps)_ho"] else [])) ++ (if he then ["var(eps)_he"] else []))
  ++ sum_keys ho he vn) ++ sum_keys ho he cn.

Lemma collect_run : exists s, collect_res sorted ho he p r0 [] = Ok (upd W r0, s) /\ copies (upd W r0) s keys.
Proof.
  unfold collect_res. fold vn. fold cn. destruct PR as ((y & Y) & Q). apply lookup_has in Y.
  rewrite (again_run _ _ _ Y). cbn [bind].
  change (set "var(eps)_fe" (sigma_2_fe p) (upd [("var(y)", y)] r0)) with (upd [("var(y)", y); ("var(eps)_fe", sigma_2_fe p)] r0). cbv zeta.
  rewrite (plug_run _ _ ok_v). cbn [bind]. rewrite (plug_run _ _ ok_c). cbn [bind]. rewrite <- !upd_app, <- ?app_assoc.
  assert (E : [("var(y)", y); ("var(eps)_fe", sigma_2_fe p)] ++ w_plug vn (var_fe p) ++ w_plug cn (cov_fe p) = W1)
    by (unfold W1, yv; now rewrite (dval_ok _ _ _ _ Y)).
  rewrite E. clear E. rewrite block_ho. cbn [bind]. rewrite <- upd_app.
  rewrite block_he.
  2: { intros k K. apply upd_reserved; [|assumption|reflexivity]. apply Forall_app. split; [apply fine_W1|apply fine_W2]. }
  cbn [bind]. rewrite <- upd_app, <- ?app_assoc. fold W.
  assert (C0 : copies (upd W r0) [] []). { intros k v. cbn. split; [discriminate|tauto]. }
  assert (Ey : lookup "var(y)" (upd W r0) = Ok y). { rewrite upd_reserved; [assumption|apply fine_all|now left|reflexivity]. }
  destruct (copies_step _ _ _ _ _ C0 Ey) as (s1 & -> & C1). cbn [bind].
  destruct (copies_step _ _ _ "var(eps)_fe" _ C1 (rep_look _ _ (rep_eps_fe _ _ _))) as (s2 & -> & C2). cbn [bind].
  destruct (copies_if _ _ _ "var(eps)_ho" (sigma_2_ho p) ho C2) as (s3 & -> & C3); [intros Hh; apply rep_look; now apply rep_eps_ho|]. cbn [bind].
  destruct (copies_if _ _ _ "var(eps)_he" (dval 0%R "var(eps)_he" r0) he C3) as (s4 & -> & C4).
  { intros Hh. destruct (Q Hh) as ((v & V) & _). apply lookup_has in V. rewrite (dval_ok _ _ _ _ V).
    rewrite upd_reserved; [assumption|apply fine_all|unfold reserved; tauto|reflexivity]. }
  cbn [bind].
  destruct (copies_names (upd W r0) ho he vn (fun n H => rep_some n (or_introl H)) _ _ C4) as (s5 & -> & C5). cbn [bind].
  destruct (copies_names (upd W r0) ho he cn (fun n H => rep_some n (or_intror H)) _ _ C5) as (s6 & -> & C6). cbn [bind].
  exists s6. split; [reflexivity|exact C6].
Qed.

Lemma sum_keys_in names k : In k (sum_keys ho he names) <->
  exists m, (m = "_fe" \/ (m = "_ho" /\ ho = true) \/ (m = "_he" /\ he = true)) /\ exists n, In n names /\ k = (n ++ m)%string.
Proof.
  unfold sum_keys. rewrite in_flat_map. split.
  - intros (n & Hn & H). rewrite !in_app_iff in H. destruct H as [[<-|[]]|[H|H]].
    + exists "_fe". split; [tauto|]. now exists n.
    + destruct (bcase ho) as [Hh|Hh]; rewrite Hh in H; [|destruct H]. destruct H as [<-|[]]. exists "_ho". split; [tauto|]. now exists n.
    + destruct (bcase he) as [Hh|Hh]; rewrite Hh in H; [|destruct H]. destruct H as [<-|[]]. exists "_he". split; [tauto|]. now exists n.
  - intros (m & M & n & Hn & ->). exists n. split; [assumption|]. rewrite !in_app_iff.
    destruct M as [->|[(-> & ->)|(-> & ->)]]; cbn; tauto.
Qed.

Lemma keys_in k : In k keys <-> in_summary ho he p k.
Proof.
  unfold keys, in_summary. rewrite !in_app_iff, !sum_keys_in. split.
  - intros [[[[[[[]|[<-|[]]]|[<-|[]]]|H]|H]|H]|H].
    + now left.
    + right. exists "_fe". split; [tauto|now left].
    + destruct (bcase ho) as [Hh|Hh]; rewrite Hh in H; [|destruct H]. destruct H as [<-|[]]. right. exists "_ho". split; [tauto|now left].
    + destruct (bcase he) as [Hh|Hh]; rewrite Hh in H; [|destruct H]. destruct H as [<-|[]]. right. exists "_he". split; [tauto|now left].
    + destruct H as (m & M & n & Hn & ->). right. exists m. split; [exact M|]. right. exists n. split; [|reflexivity]. apply in_app_iff. left. now apply vn_in.
    + destruct H as (m & M & n & Hn & ->). right. exists m. split; [exact M|]. right. exists n. split; [|reflexivity]. apply in_app_iff. right. now apply cn_in.
  - intros [->|(m & M & [->|(n & Hn & ->)])].
    + do 5 left. cbn. tauto.
    + destruct M as [->|[(-> & Hh)|(-> & Hh)]].
      * do 4 left. right. now left.
      * do 3 left. right. rewrite Hh. now left.
      * do 2 left. right. rewrite Hh. now left.
    + rewrite in_app_iff in Hn. destruct Hn as [Hn|Hn].
      * left. right. exists m. split; [exact M|]. exists n. split; [now apply vn_in|reflexivity].
      * right. exists m. split; [exact M|]. exists n. split; [now apply cn_in|reflexivity].
Qed.

Lemma collect_lemma : exists r s, collect_res sorted ho he p r0 [] = Ok (r, s) /\
  (forall k v, rep k v -> has r k v) /\
  (forall k, (forall v, ~ rep k v) -> forall v, has r k v <-> has r0 k v) /\
  (forall k v, has s k v <-> in_summary ho he p k /\ has r k v).
Proof.
  destruct collect_run as (s & E & C). exists (upd W r0), s. split; [exact E|]. split; [|split].
  - intros k v H. apply lookup_has. now apply rep_look.
  - intros k N v. rewrite <- !lookup_has.
    destruct (in_dec String.string_dec k (map fst W)) as [H|H]; [|now rewrite lookup_upd_out].
    apply in_map_iff in H. destruct H as ([k' w] & Ek & H). cbn in Ek. subst k'.
    rewrite (upd_in _ _ _ r0 fine_all H). pose proof fine_all as F. rewrite Forall_forall in F.
    destruct (F _ H) as [A|(_ & A)]; cbn in A; [destruct (N _ A)|]. now rewrite A.
  - intros k v. rewrite <- !lookup_has, <- keys_in. apply C.
Qed.
End P.

(* A variance named var(eps) takes the place of the residual variance. *)
Lemma eps_lost sorted (p : parts) r0 v y : (forall l, Permutation (sorted l) l) ->
  has r0 "var(y)" y -> has (var_fe p) "var(eps)" v -> well_named p ->
  exists r s, collect_res sorted false false p r0 [] = Ok (r, s) /\ has r "var(eps)_fe" v /\ has s "var(eps)_fe" v.
Proof.
  intros SP Y E WN. apply lookup_has in Y. unfold collect_res.
  set (vn := sorted (map fst (var_fe p))). set (cn := sorted (map fst (cov_fe p))).
  assert (Vn : forall n, In n vn <-> In n (map fst (var_fe p))) by (intros n; split; apply Permutation_in; [apply SP|apply Permutation_sym, SP]).
  assert (Cn : forall n, In n cn <-> In n (map fst (cov_fe p))) by (intros n; split; apply Permutation_in; [apply SP|apply Permutation_sym, SP]).
  rewrite (again_run _ _ _ Y). cbn [bind]. cbv zeta.
  rewrite plug_run by (intros n H; apply lookup_in; now apply Vn). cbn [bind].
  rewrite plug_run by (intros n H; apply lookup_in; now apply Cn). cbn [bind].
  set (r := upd _ (upd _ _)).
  assert (R1 : lookup "var(eps)_fe" r = Ok v).
  { unfold r. rewrite lookup_upd_out.
    - apply lookup_upd.
      + apply (in_plug _ _ "var(eps)"); [|now apply lookup_has]. apply Vn. now apply has_name in E.
      + intros w H. apply in_map_iff in H. destruct H as (n & H & _). injection H as Hn <-.
        destruct (app_inj_len n "var(eps)" "_fe" "_fe" Hn eq_refl) as (-> & _). apply lookup_has in E. now rewrite (dval_ok _ _ _ _ E).
    - intros H. apply in_map_iff in H. destruct H as (w & Ew & H). apply in_map_iff in H. destruct H as (n & <- & H). cbn [fst] in Ew.
      apply Cn in H. destruct WN as (_ & _ & _ & C). rewrite Forall_forall in C. destruct (C n H) as (t & ->). discriminate. }
  assert (R2 : exists z, lookup "var(y)" r = Ok z).
  { exists y. assert (NP : forall names fe, ~ In "var(y)" (map fst (w_plug names fe))).
    { intros names fe H. apply in_map_iff in H. destruct H as (w & Ew & H). apply in_map_iff in H. destruct H as (n & <- & H). cbn [fst] in Ew.
      destruct (app_inj_len n "var" "_fe" "(y)" Ew eq_refl) as (_ & Q). discriminate. }
    unfold r. rewrite !lookup_upd_out by apply NP. rewrite lookup_set. cbn [String.eqb Ascii.eqb Bool.eqb upd fold_left fst snd]. now rewrite lookup_set. }
  destruct R2 as (z & R2).
  assert (C0 : copies r [] []). { intros k w. cbn. split; [discriminate|tauto]. }
  destruct (copies_step _ _ _ _ _ C0 R2) as (s1 & -> & C1). cbn [bind].
  destruct (copies_step _ _ _ _ _ C1 R1) as (s2 & -> & C2). cbn [bind].
  assert (SN : forall names n, (forall n, In n names -> exists w, lookup (n ++ "_fe") r = Ok w) -> In n names -> (exists w, lookup (n ++ "_fe") r = Ok w) /\
    (false = true -> exists w, lookup (n ++ "_ho") r = Ok w) /\ (false = true -> exists w, lookup (n ++ "_he") r = Ok w)).
  { intros names n H Hn. split; [auto|]. split; discriminate. }
  assert (Sv : forall n, In n vn -> exists w, lookup (n ++ "_fe") r = Ok w).
  { intros n H. unfold r. rewrite lookup_upd_out.
    - destruct (lookup_in (var_fe p) n) as (w & Q); [now apply Vn|]. exists w. apply lookup_upd; [now apply in_plug|].
      intros w' H'. apply in_map_iff in H'. destruct H' as (n' & H' & _). injection H' as Hn <-.
      destruct (app_inj_len n' n "_fe" "_fe" Hn eq_refl) as (-> & _). now rewrite (dval_ok _ _ _ _ Q).
    - intros K. apply in_map_iff in K. destruct K as (w & Ew & K). apply in_map_iff in K. destruct K as (n' & <- & K). cbn [fst] in Ew.
      destruct (app_inj_len n' n "_fe" "_fe" Ew eq_refl) as (-> & _). apply (name_one p WN n); [now apply Vn|now apply Cn]. }
  assert (Sc : forall n, In n cn -> exists w, lookup (n ++ "_fe") r = Ok w).
  { intros n H. destruct (lookup_in (cov_fe p) n) as (w & Q); [now apply Cn|]. exists w. unfold r. apply lookup_upd; [now apply in_plug|].
    intros w' H'. apply in_map_iff in H'. destruct H' as (n' & H' & _). injection H' as Hn <-.
    destruct (app_inj_len n' n "_fe" "_fe" Hn eq_refl) as (-> & _). now rewrite (dval_ok _ _ _ _ Q). }
  destruct (copies_names r false false vn (fun n Hn => SN vn n Sv Hn) _ _ C2) as (s3 & -> & C3). cbn [bind].
  destruct (copies_names r false false cn (fun n Hn => SN cn n Sc Hn) _ _ C3) as (s4 & -> & C4). cbn [bind].
  exists r, s4. split; [reflexivity|]. rewrite <- !lookup_has. split; [exact R1|]. apply C4. split; [|exact R1].
  rewrite !in_app_iff. cbn. tauto.
Qed.

Lemma saved_text str f (r : list (string * value)) : forall k v, has (save_res str (Some f) r) k v -> exists t, v = Text t.
Proof.
  intros k v (a & b & E & _). cbn in E.
  assert (H : In (k, v) (map (fun kv => (fst kv, Text (str (snd kv)))) r)) by (rewrite E; apply in_app_iff; right; now left).
  apply in_map_iff in H. destruct H as (kv & [= _ <-] & _). eauto.
Qed.
