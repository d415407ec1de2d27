From Coq Require Import String Lia Lra.
From Verif Require Import Base BaseLemmas MCModel MCSpec MCLemmas.
Local Open Scope string_scope.
Local Open Scope nat_scope.
Local Open Scope list_scope.

Ltac inls := cbn; repeat (first [left; reflexivity|right]).

Section MC.
Variables G C : Type.
Variable sim : G -> list simrow * G.
Variable move_to_worker : bool.
Variable moves : list brow -> list brow.
Variable clean : list brow -> res C.
Variable fe : C -> G -> res (list (string * R) * G).
Variable cluster : C -> G -> res (C * G).
Variable cre : C -> G -> res ((R * R) * G).
Variable estimate_bs : bool.
Variable bs_clean : C -> res C.
Variable bs : bool -> C -> res (R * R).
Variable spawned : nat -> G.

Notation interior := (interior G C sim move_to_worker moves clean fe cluster cre estimate_bs bs_clean bs).
Notation in_turn := (in_turn G C sim move_to_worker moves clean fe cluster cre estimate_bs bs_clean bs).
Notation in_parallel := (in_parallel G C sim move_to_worker moves clean fe cluster cre estimate_bs bs_clean bs spawned).
Notation monte_carlo := (monte_carlo G C sim move_to_worker moves clean fe cluster cre estimate_bs bs_clean bs spawned).
Notation all_about := (all_about G C sim move_to_worker moves clean fe cluster cre estimate_bs bs_clean bs).

Lemma in_turn_length n : forall g rs, in_turn n g = Ok rs -> List.length rs = n.
Proof.
  induction n as [|n IH]; intros g rs; cbn [MCModel.in_turn]; [now intros [= <-]|].
  destruct (interior g) as [[r g1]|]; [|discriminate]. cbn [bind].
  destruct (in_turn n g1) as [rs1|] eqn:E; [|discriminate]. intros [= <-]. cbn. f_equal. eauto.
Qed.

Lemma traverse_length {A B} (f : A -> res B) l : forall ys, traverse f l = Ok ys -> List.length ys = List.length l.
Proof.
  induction l as [|x l IH]; intros ys; cbn [traverse]; [now intros [= <-]|].
  destruct (f x); [|discriminate]. cbn [bind]. destruct (traverse f l) eqn:E; [|discriminate].
  intros [= <-]. cbn. f_equal. eauto.
Qed.

Lemma traverse_at {A B} (f : A -> res B) l : forall ys i x, traverse f l = Ok ys -> nth_error l i = Some x ->
  exists y, nth_error ys i = Some y /\ f x = Ok y.
Proof.
  induction l as [|a l IH]; intros ys i x; cbn [traverse]; [destruct i; discriminate|].
  destruct (f a) as [y|] eqn:Ey; [|discriminate]. cbn [bind]. destruct (traverse f l) as [ys1|] eqn:E; [|discriminate].
  intros [= <-]. destruct i; cbn; [intros [= <-]; eauto|]. eauto.
Qed.

Lemma in_parallel_length n rs : in_parallel n = Ok rs -> List.length rs = n.
Proof. intros H. apply traverse_length in H. rewrite H. apply seq_length. Qed.

Lemma run_columns N ncore g res : monte_carlo N ncore g = Ok res ->
  exists rs, (if 1 <? ncore then in_parallel N else in_turn N g) = Ok rs /\ List.length rs = N /\
    (forall r e, In r rs -> In e (estimators estimate_bs) -> lookup e r = Ok (val e r)) /\
    res = map (fun e => (e, map (val e) rs)) (estimators estimate_bs).
Proof.
  unfold MCModel.monte_carlo.
  destruct (if 1 <? ncore then in_parallel N else in_turn N g) as [rs|] eqn:E; [|discriminate].
  cbn [bind]. intros H. exists rs. split; [reflexivity|].
  assert (L : List.length rs = N).
  { destruct (1 <? ncore); [now apply in_parallel_length|now apply in_turn_length in E]. }
  split; [assumption|]. unfold enumerate in H. subst N.
  destruct (outer _ (estimators_nodup estimate_bs) rs [] res H) as (H1 & H2). now split.
Qed.

(* What one run returns has every estimator. *)
Lemma interior_keys g r g' : interior g = Ok (r, g') ->
  forall e, In e (estimators estimate_bs) -> exists v, lookup e r = Ok v.
Proof.
  unfold MCModel.interior. destruct (sim g) as [d g1].
  destruct (clean _) as [c|]; [|discriminate]. cbn [bind].
  destruct (fe c g1) as [[fr g2]|]; [|discriminate]. cbn [bind].
  destruct (cluster c g2) as [[c' g3]|]; [|discriminate]. cbn [bind].
  destruct (cre c' g3) as [[cr g4]|]; [|discriminate]. cbn [bind].
  do 6 (destruct (lookup _ fr) as [?|]; [|discriminate]; cbn [bind]).
  destruct estimate_bs.
  - destruct (bs_clean c') as [c''|]; [|discriminate]. cbn [bind].
    destruct (bs false c'') as [b1|]; [|discriminate]. cbn [bind].
    destruct (bs true c'') as [b2|]; [|discriminate]. cbn [bind].
    intros [= <- <-] e He. cbn in He.
    repeat (destruct He as [<-|He]; [eexists; reflexivity|]). destruct He.
  - intros [= <- <-] e He. cbn in He.
    repeat (destruct He as [<-|He]; [eexists; reflexivity|]). destruct He.
Qed.

Lemma in_turn_in n : forall g rs r, in_turn n g = Ok rs -> In r rs -> exists g0 g1, interior g0 = Ok (r, g1).
Proof.
  induction n as [|n IH]; intros g rs r; cbn [MCModel.in_turn]; [intros [= <-] []|].
  destruct (interior g) as [[r1 g1]|] eqn:E1; [|discriminate]. cbn [bind].
  destruct (in_turn n g1) as [rs1|] eqn:E; [|discriminate]. intros [= <-] [<-|H]; eauto.
Qed.
Lemma traverse_in {A B} (f : A -> res B) l : forall ys y, traverse f l = Ok ys -> In y ys -> exists x, f x = Ok y.
Proof.
  induction l as [|a l IH]; intros ys y; cbn [traverse]; [intros [= <-] []|].
  destruct (f a) as [y1|] eqn:Ey; [|discriminate]. cbn [bind]. destruct (traverse f l) as [ys1|] eqn:E; [|discriminate].
  intros [= <-] [<-|H]; eauto.
Qed.

Lemma collect_ok N ncore g rs : (if 1 <? ncore then in_parallel N else in_turn N g) = Ok rs ->
  exists res, monte_carlo N ncore g = Ok res.
Proof.
  intros E. unfold MCModel.monte_carlo. rewrite E. cbn [bind].
  apply (outer_ok (estimators estimate_bs) rs). intros r e Hr He.
  assert (H : exists g0 g1, interior g0 = Ok (r, g1)).
  { destruct (1 <? ncore); [|now apply (in_turn_in _ _ _ _ E)].
    destruct (traverse_in _ _ _ _ E Hr) as (i & Hi).
    destruct (interior (spawned i)) as [[r1 g1]|] eqn:E1; [|discriminate]. injection Hi as ->. eauto. }
  destruct H as (g0 & g1 & H). eapply interior_keys; eauto.
Qed.

Lemma result_of rs e i r : In e (estimators estimate_bs) -> nth_error rs i = Some r ->
  result (map (fun e => (e, map (val e) rs)) (estimators estimate_bs)) e i (val e r).
Proof.
  intros He Hr. exists (map (val e) rs). split.
  - apply lookup_has. now apply (lookup_map (fun e => map (val e) rs)).
  - now rewrite nth_error_map, Hr.
Qed.

Lemma about rs i r g g' : nth_error rs i = Some r -> interior g = Ok (r, g') ->
  all_about (map (fun e => (e, map (val e) rs)) (estimators estimate_bs)) i g g'.
Proof.
  intros Hn. pose proof (fun e H => result_of rs e i r H Hn) as RO.
  set (res := map _ _) in *. clearbody res.
  unfold MCModel.interior. destruct (sim g) as [d g1] eqn:Es.
  destruct (clean _) as [c|] eqn:Ec; [|discriminate]. cbn [bind].
  destruct (fe c g1) as [[fr g2]|] eqn:Ef; [|discriminate]. cbn [bind].
  destruct (cluster c g2) as [[c' g3]|] eqn:El; [|discriminate]. cbn [bind].
  destruct (cre c' g3) as [[[tv tc] g4]|] eqn:Ee; [|discriminate]. cbn [bind].
  destruct (lookup "var(psi)_fe" fr) as [v1|] eqn:V1; [|discriminate]; cbn [bind].
  destruct (lookup "var(psi)_ho" fr) as [v2|] eqn:V2; [|discriminate]; cbn [bind].
  destruct (lookup "var(psi)_he" fr) as [v3|] eqn:V3; [|discriminate]; cbn [bind].
  destruct (lookup "cov(psi, alpha)_fe" fr) as [w1|] eqn:W1; [|discriminate]; cbn [bind].
  destruct (lookup "cov(psi, alpha)_ho" fr) as [w2|] eqn:W2; [|discriminate]; cbn [bind].
  destruct (lookup "cov(psi, alpha)_he" fr) as [w3|] eqn:W3; [|discriminate]; cbn [bind].
  intros H.
  assert (Q : g' = g4 /\
    val "var(psi)_true" r = pop_cov (map m_psi d) (map m_psi d) /\
    val "cov(psi, alpha)_true" r = pop_cov (map m_psi d) (map m_alpha d) /\
    val "var(psi)_fe" r = v1 /\ val "var(psi)_ho" r = v2 /\ val "var(psi)_he" r = v3 /\
    val "cov(psi, alpha)_fe" r = w1 /\ val "cov(psi, alpha)_ho" r = w2 /\ val "cov(psi, alpha)_he" r = w3 /\
    val "var(psi)_cre" r = tv /\ val "cov(psi, alpha)_cre" r = tc /\
    (estimate_bs = true -> exists c'' a1 k1 a2 k2, bs_clean c' = Ok c'' /\
       bs false c'' = Ok (a1, k1) /\ bs true c'' = Ok (a2, k2) /\
       val "var(psi)_bs1" r = a1 /\ val "cov(psi, alpha)_bs1" r = k1 /\
       val "var(psi)_bs2" r = a2 /\ val "cov(psi, alpha)_bs2" r = k2)).
  { destruct estimate_bs.
    - destruct (bs_clean c') as [c''|] eqn:Eb; [|discriminate]. cbn [bind] in H.
      destruct (bs false c'') as [[a1 k1]|] eqn:E1; [|discriminate]. cbn [bind] in H.
      destruct (bs true c'') as [[a2 k2]|] eqn:E2; [|discriminate]. cbn [bind] in H.
      injection H as <- <-. repeat (split; [reflexivity|]). intros _.
      exists c'', a1, k1, a2, k2. repeat (split; [assumption || reflexivity|]). reflexivity.
    - injection H as <- <-. repeat (split; [reflexivity|]). discriminate. }
  clear H. destruct Q as (-> & Q1 & Q2 & Q3 & Q4 & Q5 & Q6 & Q7 & Q8 & Q9 & Q10 & QB).
  exists d, g1, c, fr, g2, c', g3, tv, tc.
  split; [exact Es|]. split; [exact Ec|]. split; [exact Ef|]. split; [exact El|]. split; [exact Ee|].
  split; [rewrite <- Q1; apply RO; inls|]. split; [rewrite <- Q2; apply RO; inls|].
  split.
  { intros e [<-|[<-|[<-|[<-|[<-|[<-|[]]]]]]].
    - exists v1. split; [now apply lookup_has|]. rewrite <- Q3. apply RO; inls.
    - exists v2. split; [now apply lookup_has|]. rewrite <- Q4. apply RO; inls.
    - exists v3. split; [now apply lookup_has|]. rewrite <- Q5. apply RO; inls.
    - exists w1. split; [now apply lookup_has|]. rewrite <- Q6. apply RO; inls.
    - exists w2. split; [now apply lookup_has|]. rewrite <- Q7. apply RO; inls.
    - exists w3. split; [now apply lookup_has|]. rewrite <- Q8. apply RO; inls. }
  split; [rewrite <- Q9; apply RO; inls|]. split; [rewrite <- Q10; apply RO; inls|].
  intros Hb. destruct (QB Hb) as (c'' & a1 & k1 & a2 & k2 & B1 & B2 & B3 & <- & <- & <- & <-).
  do 5 eexists. split; [exact B1|]. split; [exact B2|]. split; [exact B3|]. rewrite Hb in RO.
  repeat split; apply RO; inls.
Qed.

Lemma in_turn_chain n : forall g rs, in_turn n g = Ok rs ->
  exists gs, List.length gs = S n /\ nth_error gs 0 = Some g /\
    forall i r, nth_error rs i = Some r -> exists g1 g2, nth_error gs i = Some g1 /\ nth_error gs (S i) = Some g2 /\
      interior g1 = Ok (r, g2).
Proof.
  induction n as [|n IH]; intros g rs; cbn [MCModel.in_turn].
  - intros [= <-]. exists [g]. split; [reflexivity|]. split; [reflexivity|]. intros [|i] r; discriminate.
  - destruct (interior g) as [[r1 g1]|] eqn:E1; [|discriminate]. cbn [bind].
    destruct (in_turn n g1) as [rs1|] eqn:E; [|discriminate]. intros [= <-].
    destruct (IH _ _ E) as (gs & L & H0 & H). exists (g :: gs). split; [cbn; now rewrite L|]. split; [reflexivity|].
    intros [|i] r; cbn [nth_error].
    + intros [= <-]. exists g, g1. destruct gs; [discriminate|]. now repeat split.
    + intros Hi. destruct (H _ _ Hi) as (a & b & A & B & I). exists a, b. now repeat split.
Qed.

Lemma nth_error_some {A} (l : list A) i : i < List.length l -> exists x, nth_error l i = Some x.
Proof. intros H. destruct (nth_error l i) eqn:E; [eauto|]. apply nth_error_None in E. lia. Qed.

Lemma mc_single N g res : monte_carlo N 1 g = Ok res ->
  exists gs, List.length gs = S N /\ nth_error gs 0 = Some g /\
    forall i, i < N -> exists g1 g2, nth_error gs i = Some g1 /\ nth_error gs (S i) = Some g2 /\ all_about res i g1 g2.
Proof.
  intros H. destruct (run_columns _ _ _ _ H) as (rs & E & L & _ & ->).
  destruct (in_turn_chain _ _ _ E) as (gs & Lg & H0 & Hg). exists gs. split; [assumption|]. split; [assumption|].
  intros i Hi. destruct (nth_error_some rs i) as (r & Hr); [lia|].
  destruct (Hg _ _ Hr) as (g1 & g2 & A & B & I). exists g1, g2. repeat (split; [assumption|]).
  now apply (about rs i r).
Qed.

Lemma mc_parallel N ncore g res : 1 < ncore -> monte_carlo N ncore g = Ok res ->
  forall i, i < N -> exists g', all_about res i (spawned i) g'.
Proof.
  intros Hc H i Hi. destruct (run_columns _ _ _ _ H) as (rs & E & L & _ & ->).
  apply Nat.ltb_lt in Hc. rewrite Hc in E.
  destruct (traverse_at _ _ _ i i E) as (r & Hr & I).
  { unfold range. rewrite nth_error_nth' with (d := 0) by (rewrite seq_length; lia). now rewrite seq_nth. }
  cbv beta in I. destruct (interior (spawned i)) as [[r1 g']|] eqn:E1; [|discriminate]. injection I as ->.
  exists g'. now apply (about rs i r).
Qed.

Lemma mc_shape N ncore g res : monte_carlo N ncore g = Ok res ->
  map fst res = estimators estimate_bs /\ Forall (fun ex => List.length (snd ex) = N) res.
Proof.
  intros H. destruct (run_columns _ _ _ _ H) as (rs & E & L & _ & ->). split.
  - rewrite map_map. apply map_id.
  - apply Forall_forall. intros x Hx. apply in_map_iff in Hx. destruct Hx as (e & <- & _). cbn. now rewrite map_length.
Qed.

Lemma in_turn_prefix n m : forall g rs, in_turn (n + m) g = Ok rs -> exists z rs1, in_turn n g = Ok rs1 /\ rs = rs1 ++ z.
Proof.
  induction n as [|n IH]; intros g rs; [intros H; now exists rs, []|].
  cbn [Nat.add MCModel.in_turn].
  destruct (interior g) as [[r1 g1]|] eqn:E1; [|discriminate]. cbn [bind].
  destruct (in_turn (n + m) g1) as [rs1|] eqn:E; [|discriminate]. intros [= <-].
  destruct (IH _ _ E) as (z & rs2 & E2 & ->). exists z, (r1 :: rs2). rewrite E2. now split.
Qed.
Lemma traverse_app {A B} (f : A -> res B) a b : forall ys, traverse f (a ++ b) = Ok ys ->
  exists y1 y2, traverse f a = Ok y1 /\ ys = y1 ++ y2.
Proof.
  induction a as [|x a IH]; intros ys; [intros H; now exists [], ys|]. cbn [app traverse].
  destruct (f x) as [y|]; [|discriminate]. cbn [bind]. destruct (traverse f (a ++ b)) as [ys1|] eqn:E; [|discriminate].
  intros [= <-]. destruct (IH _ eq_refl) as (y1 & y2 & -> & ->). exists (y :: y1), y2. now split.
Qed.

Lemma mc_extends N M ncore g res : N <= M -> monte_carlo M ncore g = Ok res ->
  exists res1, monte_carlo N ncore g = Ok res1 /\ extends res1 res.
Proof.
  intros HN H. destruct (run_columns _ _ _ _ H) as (rs & E & L & _ & ->).
  assert (Q : exists z rs1, (if 1 <? ncore then in_parallel N else in_turn N g) = Ok rs1 /\ rs = rs1 ++ z).
  { replace M with (N + (M - N)) in E by lia. destruct (1 <? ncore).
    - unfold MCModel.in_parallel, range in E. rewrite seq_app in E.
      destruct (traverse_app _ _ _ _ E) as (y1 & y2 & E1 & ->). now exists y2, y1.
    - now apply in_turn_prefix in E. }
  destruct Q as (z & rs1 & E1 & ->). destruct (collect_ok _ _ _ _ E1) as (res1 & H1). exists res1.
  split; [assumption|]. destruct (run_columns _ _ _ _ H1) as (rs2 & E2 & _ & _ & ->).
  rewrite E1 in E2. injection E2 as <-. unfold extends.
  generalize (estimators estimate_bs). clear. induction l as [|e l IH]; cbn; constructor; [|assumption]. cbn. split; [reflexivity|].
  exists (map (val e) z). apply map_app.
Qed.

Lemma mc_cores N n m g g' : 1 < n -> 1 < m -> monte_carlo N n g = monte_carlo N m g'.
Proof.
  intros Hn Hm. unfold MCModel.monte_carlo. apply Nat.ltb_lt in Hn, Hm. now rewrite Hn, Hm.
Qed.

Section Returns.
Hypothesis clean_ok : forall x, exists c, clean x = Ok c.
Hypothesis fe_ok : forall c g, exists r g', fe c g = Ok (r, g') /\
  forall e, In e ["var(psi)_fe"; "var(psi)_ho"; "var(psi)_he";
                  "cov(psi, alpha)_fe"; "cov(psi, alpha)_ho"; "cov(psi, alpha)_he"] -> exists v, has r e v.
Hypothesis cluster_ok : forall c g, exists r, cluster c g = Ok r.
Hypothesis cre_ok : forall c g, exists r, cre c g = Ok r.
Hypothesis bs_clean_ok : forall c, exists c', bs_clean c = Ok c'.
Hypothesis bs_ok : forall b c, exists r, bs b c = Ok r.

Lemma interior_ok g : exists r g', interior g = Ok (r, g').
Proof.
  unfold MCModel.interior. destruct (sim g) as [d g1].
  match goal with |- context [clean ?x] => destruct (clean_ok x) as (c & ->) end. cbn [bind].
  destruct (fe_ok c g1) as (fr & g2 & -> & K). cbn [bind].
  destruct (cluster_ok c g2) as ([c' g3] & ->). cbn [bind].
  destruct (cre_ok c' g3) as ([cr g4] & ->). cbn [bind].
  assert (K' : forall e, In e ["var(psi)_fe"; "var(psi)_ho"; "var(psi)_he";
                  "cov(psi, alpha)_fe"; "cov(psi, alpha)_ho"; "cov(psi, alpha)_he"] -> exists v, lookup e fr = Ok v).
  { intros e He. destruct (K e He) as (v & Hv). exists v. now apply lookup_has. }
  destruct (K' "var(psi)_fe") as (v1 & ->); [inls|]. cbn [bind].
  destruct (K' "var(psi)_ho") as (v2 & ->); [inls|]. cbn [bind].
  destruct (K' "var(psi)_he") as (v3 & ->); [inls|]. cbn [bind].
  destruct (K' "cov(psi, alpha)_fe") as (w1 & ->); [inls|]. cbn [bind].
  destruct (K' "cov(psi, alpha)_ho") as (w2 & ->); [inls|]. cbn [bind].
  destruct (K' "cov(psi, alpha)_he") as (w3 & ->); [inls|]. cbn [bind].
  destruct estimate_bs; [|eauto].
  destruct (bs_clean_ok c') as (c'' & ->). cbn [bind].
  destruct (bs_ok false c'') as (b1 & ->). destruct (bs_ok true c'') as (b2 & ->). cbn [bind]. eauto.
Qed.

Lemma in_turn_ok n : forall g, exists rs, in_turn n g = Ok rs.
Proof.
  induction n as [|n IH]; intros g; cbn [MCModel.in_turn]; [eauto|].
  destruct (interior_ok g) as (r & g1 & ->). cbn [bind]. destruct (IH g1) as (rs & ->). cbn [bind]. eauto.
Qed.

Lemma mc_returns N ncore g : exists res, monte_carlo N ncore g = Ok res.
Proof.
  assert (Q : exists rs, (if 1 <? ncore then in_parallel N else in_turn N g) = Ok rs).
  { destruct (1 <? ncore); [|apply in_turn_ok]. unfold MCModel.in_parallel.
    induction (range N) as [|i l IH]; cbn [traverse]; [eauto|].
    destruct (interior_ok (spawned i)) as (r & g1 & ->). cbn [bind]. destruct IH as (rs & ->). cbn [bind]. eauto. }
  destruct Q as (rs & E). now apply collect_ok in E.
Qed.
End Returns.
End MC.

(* Histogram range. *)
Local Open Scope R_scope.
Lemma fold_min_le x : forall a, fold_left Rmin x a <= a /\ (forall v, In v x -> fold_left Rmin x a <= v).
Proof.
  induction x as [|b x IH]; intros a; cbn; [split; [lra|intros v []]|].
  destruct (IH (Rmin a b)) as (H1 & H2). pose proof (Rmin_l a b). pose proof (Rmin_r a b).
  split; [lra|]. intros v [<-|Hv]; [lra|auto].
Qed.
Lemma fold_max_le x : forall a, a <= fold_left Rmax x a /\ (forall v, In v x -> v <= fold_left Rmax x a).
Proof.
  induction x as [|b x IH]; intros a; cbn; [split; [lra|intros v []]|].
  destruct (IH (Rmax a b)) as (H1 & H2). pose proof (Rmax_l a b). pose proof (Rmax_r a b).
  split; [lra|]. intros v [<-|Hv]; [lra|auto].
Qed.
Lemma widen_min_le m : widen_min m <= m.
Proof. unfold widen_min. destruct (Rle_dec m 0); lra. Qed.
Lemma widen_max_le m : m <= widen_max m.
Proof. unfold widen_max. destruct (Rle_dec m 0); lra. Qed.

Lemma traverse_In {A B} (f : A -> res B) l : forall ys x, traverse f l = Ok ys -> In x l -> exists y, In y ys /\ f x = Ok y.
Proof.
  induction l as [|a l IH]; intros ys x; cbn [traverse]; [intros _ []|].
  destruct (f a) as [y|] eqn:Ey; [|discriminate]. cbn [bind]. destruct (traverse f l) as [ys1|] eqn:E; [|discriminate].
  intros [= <-] [<-|H].
  - exists y. split; [now left|assumption].
  - destruct (IH _ _ eq_refl H) as (z & Hz & Fz). exists z. split; [now right|assumption].
Qed.

Lemma range_shows diffs rg : plt_range diffs = Ok rg -> shows rg diffs.
Proof.
  unfold plt_range. destruct (traverse np_min diffs) as [[|a mins]|] eqn:E1; try discriminate;
    destruct (traverse np_max diffs) as [[|b maxs]|] eqn:E2; try discriminate.
  cbn [bind]. intros [= <-] x v Hx Hv. cbn [fst snd].
  destruct (traverse_In _ _ _ _ E1 Hx) as (m & Hm & Fm). destruct (traverse_In _ _ _ _ E2 Hx) as (M & HM & FM).
  destruct x as [|x0 x]; [destruct Hv|]. cbn in Fm, FM. injection Fm as Fm. injection FM as FM.
  pose proof (fold_min_le x x0) as (A1 & A2). pose proof (fold_max_le x x0) as (B1 & B2). rewrite Fm in A1, A2. rewrite FM in B1, B2.
  pose proof (fold_min_le mins a) as (C1 & C2). pose proof (fold_max_le maxs b) as (D1 & D2).
  pose proof (widen_min_le (fold_left Rmin mins a)). pose proof (widen_max_le (fold_left Rmax maxs b)).
  assert (m <= v) by (destruct Hv as [<-|Hv]; auto). assert (v <= M) by (destruct Hv as [<-|Hv]; auto).
  assert (fold_left Rmin mins a <= m) by (destruct Hm as [<-|Hm]; auto).
  assert (M <= fold_left Rmax maxs b) by (destruct HM as [<-|HM]; auto). lra.
Qed.

Lemma map2_at (x y : list R) : forall i v t, nth_error x i = Some v -> nth_error y i = Some t ->
  nth_error (map2 Rminus x y) i = Some (v - t).
Proof.
  revert y. induction x as [|a x IH]; intros [|b y] [|i] v t; cbn; try discriminate.
  - now intros [= <-] [= <-].
  - apply IH.
Qed.
Lemma map2_len (x y : list R) : List.length x = List.length y -> List.length (map2 Rminus x y) = List.length x.
Proof. revert y. induction x as [|a x IH]; intros [|b y]; cbn; try discriminate; [reflexivity|]. intros [= H]. f_equal. auto. Qed.

Section Hist.
Variables (res : list (string * list R)) (N : nat) (what : string).
Hypothesis Hlen : Forall (fun ex => List.length (snd ex) = N) res.
Hypothesis HN : (0 < N)%nat.

Lemma lookup_len e x : lookup e res = Ok x -> List.length x = N.
Proof.
  intros H. apply lookup_has in H. destruct H as (a & b & E & _). rewrite Forall_forall in Hlen.
  apply (Hlen (e, x)). rewrite E. apply in_or_app. right. now left.
Qed.
Lemma lookup_In e : In e (map fst res) -> exists x, lookup e res = Ok x.
Proof.
  induction res as [|[k v] r IH]; cbn; [intros []|]. inversion Hlen; subst.
  destruct (String.eqb_spec e k) as [->|Ne]; [eauto|]. intros [H|H]; [congruence|auto].
Qed.

Lemma hist_panel on : on <> [] -> In (what ++ "_true")%string (map fst res) ->
  (forall e, In e on -> In (what ++ "_" ++ e)%string (map fst res)) ->
  exists diffs rg, differences what on res = Ok diffs /\ plt_range diffs = Ok rg /\
    Forall2 (fun e x => List.length x = N /\ forall i v t, result res (what ++ "_" ++ e)%string i v ->
      result res (what ++ "_true")%string i t -> nth_error x i = Some (v - t)) on diffs.
Proof.
  intros Hon Ht He. destruct (lookup_In _ Ht) as (tr & Etr).
  assert (Q : exists diffs, differences what on res = Ok diffs /\
    Forall2 (fun e x => List.length x = N /\ forall i v t, result res (what ++ "_" ++ e)%string i v ->
      result res (what ++ "_true")%string i t -> nth_error x i = Some (v - t)) on diffs).
  { unfold differences. rewrite Etr. cbn [bind]. clear Hon. induction on as [|e on IH]; cbn [traverse].
    - exists []. split; [reflexivity|constructor].
    - destruct (lookup_In _ (He e (or_introl eq_refl))) as (x & Ex). rewrite Ex. cbn [bind].
      destruct IH as (ds & -> & F). { intros e' H'. apply He. now right. }
      cbn [bind]. eexists. split; [reflexivity|]. constructor; [|exact F].
      split. { rewrite map2_len; rewrite (lookup_len _ _ Ex); [reflexivity|]. now rewrite (lookup_len _ _ Etr). }
      intros i v t (x' & Hx & Ev) (t' & Ht' & Et). apply lookup_has in Hx, Ht'. apply map2_at; congruence. }
  destruct Q as (diffs & E & F). exists diffs.
  assert (P : exists rg, plt_range diffs = Ok rg).
  { assert (A : diffs <> []) by (intros ->; inversion F; subst; now apply Hon).
    assert (B : Forall (fun x => x <> []) diffs).
    { clear - F HN. induction F as [|e x on ds (L & _) F IH]; constructor; [|assumption]. intros ->. cbn in L. lia. }
    assert (M : forall f : list R -> Base.res R, (forall x, x <> [] -> exists m, f x = Ok m) ->
      exists m ms, traverse f diffs = Ok (m :: ms)).
    { intros f Hf. assert (T : exists ms, traverse f diffs = Ok ms /\ List.length ms = List.length diffs).
      { clear - B Hf. induction B as [|x ds Hx B IH]; cbn [traverse]; [now exists []|].
        destruct (Hf x Hx) as (m & ->). destruct IH as (ms & -> & L). exists (m :: ms). cbn. now rewrite L. }
      destruct T as ([|m ms] & T & L); [destruct diffs; [congruence|discriminate]|eauto]. }
    unfold plt_range.
    destruct (M np_min) as (m1 & ms1 & ->). { intros [|a x] Hx; [congruence|cbn; eauto]. }
    destruct (M np_max) as (m2 & ms2 & ->). { intros [|a x] Hx; [congruence|cbn; eauto]. }
    cbn [bind]. eauto. }
  destruct P as (rg & P). exists rg. now repeat split.
Qed.
End Hist.

Lemma hist_plots N estimate_bs what on res :
  map fst res = estimators estimate_bs -> Forall (fun ex => List.length (snd ex) = N) res -> (0 < N)%nat ->
  In what ["var(psi)"; "cov(psi, alpha)"] -> on <> [] ->
  (forall e, In e on -> In e (["fe"; "ho"; "he"; "cre"] ++ (if estimate_bs then ["bs1"; "bs2"] else []))) ->
  exists diffs rg, differences what on res = Ok diffs /\ plt_range diffs = Ok rg /\ shows rg diffs /\
    Forall2 (fun e x => List.length x = N /\ forall i v t, result res (what ++ "_" ++ e)%string i v ->
      result res (what ++ "_true")%string i t -> nth_error x i = Some (v - t)) on diffs.
Proof.
  intros K L HN Hw Hon He.
  destruct (hist_panel res N what L HN on Hon) as (diffs & rg & E & P & F).
  - rewrite K. destruct Hw as [<-|[<-|[]]]; inls.
  - intros e H. specialize (He e H). rewrite K.
    destruct estimate_bs; cbn in He; repeat (destruct He as [<-|He]; [destruct Hw as [<-|[<-|[]]]; inls|]); destruct He.
  - exists diffs, rg. repeat (split; [assumption|]). split; [now apply range_shows|assumption].
Qed.

(* A simulated network with an unconnected worker, and cleaning that drops the worker. *)
Definition wit_row (i j t : nat) (p : R) : simrow := mksimrow (mkbrow i j (p + 1) t) p 1.
Definition wit_sim (_ : unit) : list simrow * unit :=
  ([wit_row 0 0 1 0; wit_row 0 1 2 1; wit_row 1 0 1 0; wit_row 1 1 2 1; wit_row 2 2 1 5; wit_row 2 2 2 5], tt).
Definition wit_clean (d : list brow) : res (list brow) := Ok (filter (fun b => (b_j b <? 2)%nat) d).
(* An estimator that returns the variance of its data's wages, here the variance of psi. *)
Definition wit_fe (c : list brow) (_ : unit) : res (list (string * R) * unit) :=
  Ok ([("var(psi)_fe", np_var (map b_y c)); ("var(psi)_ho", np_var (map b_y c)); ("var(psi)_he", np_var (map b_y c));
       ("cov(psi, alpha)_fe", 0); ("cov(psi, alpha)_ho", 0); ("cov(psi, alpha)_he", 0)], tt).
Definition wit_cluster (c : list brow) (g : unit) : res (list brow * unit) := Ok (c, g).
Definition wit_cre (c : list brow) (g : unit) : res ((R * R) * unit) := Ok ((0, 0), g).
Definition wit_bs (b : bool) (c : list brow) : res (R * R) := Ok (0, 0).

Definition wit_mc (N ncore : nat) := monte_carlo unit (list brow) wit_sim false (fun d => d) wit_clean wit_fe wit_cluster
  wit_cre false (fun c => Ok c) wit_bs (fun _ => tt) N ncore tt.

Lemma result_fun res e i v w : result res e i v -> result res e i w -> v = w.
Proof.
  intros (x & Hx & Ex) (y & Hy & Ey). apply lookup_has in Hx, Hy. congruence.
Qed.

Lemma truth_differs :
  exists res, wit_mc 1 1 = Ok res /\
    let d := fst (wit_sim tt) in
    let kept := filter (fun r => (b_j (m_obs r) <? 2)%nat) d in
    wit_clean (map m_obs d) = Ok (map m_obs kept) /\
    result res "var(psi)_fe" 0 (pop_cov (map m_psi kept) (map m_psi kept)) /\
    ~ result res "var(psi)_true" 0 (pop_cov (map m_psi kept) (map m_psi kept)).
Proof.
  assert (R : exists res, wit_mc 1 1 = Ok res).
  { apply mc_returns.
    - intros x. eexists. reflexivity.
    - intros c g. do 2 eexists. split; [reflexivity|]. intros e H.
      cbn in H. repeat (destruct H as [<-|H]; [eexists; apply lookup_has; reflexivity|]). destruct H.
    - intros c g. eexists. reflexivity.
    - intros c g. eexists. reflexivity.
    - intros c. eexists. reflexivity.
    - intros b c. eexists. reflexivity. }
  destruct R as (res & H). exists res. split; [assumption|]. cbv zeta. split; [reflexivity|].
  unfold wit_mc in H. apply mc_single in H. destruct H as (gs & _ & _ & Q).
  destruct (Q 0%nat) as (g1 & g2 & _ & _ & d & g1' & c & r & g3 & c' & g4 & tv & tc & Es & Ec & Ef & _ & _ & T & _ & F & _); [lia|].
  injection Es as <- <-. injection Ec as <-. injection Ef as <- <-.
  destruct (F "var(psi)_fe" (or_introl eq_refl)) as (v & Hv & Rv). apply lookup_has in Hv. injection Hv as <-.
  split.
  - match goal with |- result _ _ _ ?x => replace x with (np_var (map b_y (filter (fun b => (b_j b <? 2)%nat) (map m_obs (fst (wit_sim tt)))))) end; [exact Rv|].
    unfold np_var, np_cov, pop_cov, mean, pop_mean. cbn. field.
  - intros K. pose proof (result_fun _ _ _ _ _ T K) as Z. revert Z. unfold pop_cov, pop_mean. cbn. lra.
Qed.
