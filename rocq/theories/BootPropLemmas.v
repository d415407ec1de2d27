(* Proofs of the bootstrap properties. *)
From Coq Require Import Lra ZifyNat.
From Verif Require Import Base BaseLemmas UtilModel UtilSpec BLMModel BLMEMModel BLMSpec BLMSortLemmas BLMRealModel
  BootModel BootSpec BootLemmas BootFitLemmas.
Local Open Scope R_scope.

Section Boot.
Variables nl nk : nat.
Variable realloc : option (bool * rperiod).
Variable estimator : nat -> list frow -> list frow -> res par.
Variable cluster : nat -> list frow -> list frow -> res (nat -> nat).
Variable gen : nat -> rng.

Section Bootstrap.
Variables J S0 : list frow.

(* What the estimator is given in round t. *)
Definition sampled (p : par) (t : nat) (m : par) : Prop :=
  exists jt st jc sc c y1 y2 ys Lm Ls,
    estimator (S t) jt st = Ok m /\
    Forall2 same_worker J jt /\ Forall2 same_worker S0 st /\
    cluster t jc sc = Ok c /\
    Forall2 same_worker J jc /\ Forall2 same_worker S0 sc /\ wages jc = wages jt /\ wages sc = wages st /\
    types jt = map (fun ab => (c (fst ab), c (snd ab))) (firms J) /\
    types st = map (fun ab => (c (fst ab), c (fst ab))) (firms S0) /\
    simulate_types_wages nl nk p realloc (gen t) (map f_o J) (map f_o S0) (types J) (map (fun f => g1 (f_o f)) S0)
      = Ok ((y1, y2), ys, Lm, Ls) /\
    wages jt = combine y1 y2 /\ wages st = map (fun a => (a, a)) ys.

Lemma firms_same A B : Forall2 same_worker A B -> firms B = firms A.
Proof.
  induction 1 as [|f f' A B H F IH]; simpl; auto. destruct H as (_ & -> & -> & _). now rewrite IH.
Qed.

Lemma boot_round_ok p t jd sd fr m :
  Forall2 same_worker J jd -> Forall2 same_worker S0 sd ->
  boot_round nl nk realloc estimator cluster gen p (types J) (map (fun f => g1 (f_o f)) S0) t jd sd = (fr, Ok m) ->
  Forall2 same_worker J (fst fr) /\ Forall2 same_worker S0 (snd fr) /\ sampled p t m.
Proof.
  intros Fj Fs E. unfold boot_round in E.
  assert (R : forall a b, Forall2 same_worker a b -> Forall2 same_reads a b).
  { intros a b. apply Forall2_weak. intros f f' (_ & _ & _ & H). exact H. }
  rewrite (simulate_reads nl nk p realloc (gen t) J S0 jd sd) in E by (apply R; auto).
  destruct (simulate_types_wages _ _ _ _ _ _ _ _ _) as [[[[[ya yb] ys] Lm] Ls]|e] eqn:ES; [|discriminate].
  destruct (simulate_length _ _ _ _ _ _ _ _ _ _ _ _ _ _ ES) as (L1 & L2 & L3).
  pose proof (Forall2_len _ _ _ Fj) as Lj. pose proof (Forall2_len _ _ _ Fs) as Lss.
  cbn [fst snd] in E.
  set (jc := set_col (fun ab => with_y (fst ab) (snd ab)) (combine ya yb) jd) in *.
  set (sc := set_col (fun a => with_y a a) ys sd) in *.
  assert (Fjc : Forall2 same_worker J jc).
  { apply set_col_spec; auto. apply combine_length_eq; lia. }
  assert (Fsc : Forall2 same_worker S0 sc).
  { apply set_col_spec; auto. lia. }
  destruct (cluster t jc sc) as [c|e] eqn:EC; [|discriminate].
  set (jt := map (fun f => with_g (c (f_j1 f)) (c (f_j2 f)) f) jc) in *.
  set (st := map (fun f => with_g (c (f_j1 f)) (c (f_j1 f)) f) sc) in *.
  injection E as <- Em. cbn [fst snd].
  assert (Fjt : Forall2 same_worker J jt) by (apply map_spec; auto).
  assert (Fst : Forall2 same_worker S0 st) by (apply map_spec; auto).
  split; auto. split; auto.
  exists jt, st, jc, sc, c, ya, yb, ys, Lm, Ls. repeat (split; [assumption|]).
  split. { unfold wages, jt. rewrite map_map. apply map_ext. reflexivity. }
  split. { unfold wages, st. rewrite map_map. apply map_ext. reflexivity. }
  split. { rewrite <- (firms_same J jc) by auto. unfold types, firms, jt. rewrite !map_map. apply map_ext. reflexivity. }
  split. { rewrite <- (firms_same S0 sc) by auto. unfold types, firms, st. rewrite !map_map. apply map_ext. reflexivity. }
  split; [exact ES|]. split.
  - unfold wages, jt. rewrite map_map. simpl. unfold jc.
    rewrite (set_col_get _ (fun f => (y1 (f_o f), y2 (f_o f))) (fun ab => ab)).
    + apply map_id.
    + intros [a b] f. reflexivity.
    + apply combine_length_eq; lia.
  - unfold wages, st. rewrite map_map. simpl. unfold sc.
    rewrite (set_col_get _ (fun f => (y1 (f_o f), y2 (f_o f))) (fun a => (a, a))); auto. lia.
Qed.

Lemma boot_loop_ok p : forall n t jd sd models fr ms,
  Forall2 same_worker J jd -> Forall2 same_worker S0 sd ->
  boot_loop nl nk realloc estimator cluster gen p (types J) (map (fun f => g1 (f_o f)) S0) n t jd sd models = (fr, Ok ms) ->
  Forall2 same_worker J (fst fr) /\ Forall2 same_worker S0 (snd fr) /\
  exists ms', ms = models ++ ms' /\ length ms' = n /\
    forall i d, (i < n)%nat -> sampled p (t + i)%nat (nth i ms' d).
Proof.
  induction n as [|n IH]; intros t jd sd models fr ms Fj Fs E; simpl in E.
  - injection E as <- <-. split; auto. split; auto. exists []. rewrite app_nil_r. repeat split; auto. lia.
  - destruct (boot_round _ _ _ _ _ _ _ _ _ _ _ _) as [[jd' sd'] [m|e]] eqn:ER; [|discriminate].
    destruct (boot_round_ok _ _ _ _ _ _ Fj Fs ER) as (Fj' & Fs' & Sm). cbn [fst snd] in *.
    destruct (IH _ _ _ _ _ _ Fj' Fs' E) as (A & B & ms' & -> & L & H).
    split; auto. split; auto. exists (m :: ms'). rewrite <- app_assoc. split; auto. split; [simpl; lia|].
    intros [|i] d Hi; simpl.
    + now rewrite Nat.add_0_r.
    + replace (t + S i)%nat with (S t + i)%nat by lia. apply H. lia.
Qed.
End Bootstrap.

Lemma same_worker_refl df : Forall2 same_worker df df.
Proof. induction df; constructor; auto. repeat split. Qed.

Lemma boot_fit_inv bm n jd sd fr ms :
  boot_fit nl nk realloc estimator cluster gen bm n jd sd = (fr, Ok ms) ->
  (Forall stayer sd -> fr = (jd, sd)) /\ length ms = n /\
  exists p, match bm with Some p0 => p = p0 | None => estimator 0 jd sd = Ok p end /\
    forall t d, (t < n)%nat -> sampled jd sd p t (nth t ms d).
Proof.
  intros E. unfold boot_fit in E.
  assert (EP : exists p, match bm with Some p => Ok p | None => estimator 0 jd sd end = Ok p /\
    match bm with Some p0 => p = p0 | None => estimator 0 jd sd = Ok p end).
  { destruct bm as [p|]; eauto. destruct (estimator 0 jd sd); [eauto|discriminate]. }
  destruct EP as (p & EP & EP'). rewrite EP in E.
  destruct (boot_loop _ _ _ _ _ _ _ _ _ _ _ _ _ _) as [[jd' sd'] [models|e]] eqn:EL; [|discriminate].
  change (map (fun f => (g1 (f_o f), g2 (f_o f))) jd) with (types jd) in *.
  destruct (boot_loop_ok jd sd p _ _ _ _ _ _ _ (same_worker_refl jd) (same_worker_refl sd) EL) as (Fj & Fs & ms' & -> & L & H).
  simpl in E. injection E as E <-. simpl. split; [|split; [exact L|exists p; split; auto]].
  intros St. rewrite <- E. f_equal.
  - apply Forall2_eq. unfold types. apply (restore _ (fun f => (g1 (f_o f), g2 (f_o f)))
      (fun f f' => same_worker f f' /\ y1 (f_o f') = y1 (f_o f) /\ y2 (f_o f') = y2 (f_o f))).
    + intros [i j1 j2 o] [i' j1' j2' o'] [(A1 & A2 & A3 & A4 & A5 & A6 & A7 & A8 & A9) [A10 A11]].
      unfold with_g. simpl in *. destruct o; simpl in *. congruence.
    + apply (restore _ (fun f => (y1 (f_o f), y2 (f_o f))) same_worker); auto.
  - apply Forall2_eq. apply (restore_stayer _ (fun f => g1 (f_o f))
      (fun f f' => same_worker f f' /\ y1 (f_o f') = y1 (f_o f) /\ y2 (f_o f') = y2 (f_o f)) _ stayer); auto.
    + intros [i j1 j2 o] [i' j1' j2' o'] [_ G] [(A1 & A2 & A3 & A4 & A5 & A6 & A7 & A8 & A9) [A10 A11]].
      unfold with_g. simpl in *. destruct o; simpl in *. congruence.
    + apply (restore _ (fun f => (y1 (f_o f), y2 (f_o f))) same_worker); auto.
Qed.

(* ---- the variance decomposition ---- *)

Variable fe : nat -> list frow -> list frow -> res (list R).

Section Decomposition.
Variables J S0 : list frow.
Variables clusters_as_ids types_as_ids : bool.

(* Firm ids of the frames given to the regression. *)
Definition vd_cur (stay : bool) (f f' : frow) : Prop :=
  same_types f f' /\
  f_j1 f' = (if clusters_as_ids then g1 (f_o f) else f_j1 f) /\
  f_j2 f' = (if clusters_as_ids then (if stay then g1 (f_o f) else g2 (f_o f)) else f_j2 f) /\
  (types_as_ids = false -> f_i f' = f_i f).

Definition decomposed (p : par) (t : nat) (m : list R) : Prop :=
  exists jt st y1 y2 ys Lm Ls,
    fe t jt st = Ok m /\
    Forall2 (vd_cur false) J jt /\ Forall2 (vd_cur true) S0 st /\
    (types_as_ids = true -> ids jt = Lm /\ ids st = Ls) /\
    simulate_types_wages nl nk p realloc (gen t) (map f_o J) (map f_o S0) (types J) (map (fun f => g1 (f_o f)) S0)
      = Ok ((y1, y2), ys, Lm, Ls) /\
    wages jt = combine y1 y2 /\ wages st = map (fun a => (a, a)) ys.

Lemma simulate_types_length p t y1 y2 ys Lm Ls :
  simulate_types_wages nl nk p realloc (gen t) (map f_o J) (map f_o S0) (types J) (map (fun f => g1 (f_o f)) S0)
      = Ok ((y1, y2), ys, Lm, Ls) ->
  length Lm = length J /\ length Ls = length S0.
Proof.
  clear estimator cluster fe.
  unfold simulate_types_wages. intros E.
  destruct (match realloc with Some (j, per) => _ | None => _ end) as [[q1 q0]|e]; simpl in E; try discriminate.
  destruct (negb _); try discriminate.
  assert (K : forall {B} (bs : list B) (f : B -> list nat) (v : B -> list nat) L,
    length (fold_left (fun L b => assign L (f b) (v b)) bs L) = length L).
  { induction bs as [|b bs IH]; intros f v L; simpl; auto. rewrite IH. apply assign_length. }
  inversion E; subst. unfold draw_movers, draw_stayers.
  rewrite (K _ _ (fun kk => where_ (fun q => Nat.eqb (fst q) (fst kk) && Nat.eqb (snd q) (snd kk)) (types J))).
  rewrite (K _ _ (fun k => where_ (fun q => Nat.eqb q k) (map (fun f => g1 (f_o f)) S0))).
  unfold types. now rewrite !map_length.
Qed.

Lemma vd_cur_y stay a b f f' : vd_cur stay f f' -> vd_cur stay f (with_y a b f').
Proof. intros H. exact H. Qed.
Lemma vd_cur_i stay a f f' : types_as_ids = true -> vd_cur stay f f' -> vd_cur stay f (with_i a f').
Proof. intros T (A & B & C & D). repeat split; try apply A; auto. rewrite T. discriminate. Qed.

Lemma vd_round_ok p t jd sd fr m :
  Forall2 (vd_cur false) J jd -> Forall2 (vd_cur true) S0 sd ->
  vd_round nl nk realloc gen fe types_as_ids p (types J) (map (fun f => g1 (f_o f)) S0) t jd sd = (fr, Ok m) ->
  Forall2 (vd_cur false) J (fst fr) /\ Forall2 (vd_cur true) S0 (snd fr) /\ decomposed p t m.
Proof.
  clear estimator cluster.
  intros Fj Fs E. unfold vd_round in E.
  assert (R : forall st a b, Forall2 (vd_cur st) a b -> Forall2 same_reads a b).
  { intros st a b. apply Forall2_weak. intros f f' [(_ & _ & H) _]. exact H. }
  rewrite (simulate_reads nl nk p realloc (gen t) J S0 jd sd) in E by (eapply R; eauto).
  destruct (simulate_types_wages _ _ _ _ _ _ _ _ _) as [[[[[ya yb] ys] Lm] Ls]|e] eqn:ES; [|discriminate].
  destruct (simulate_length _ _ _ _ _ _ _ _ _ _ _ _ _ _ ES) as (L1 & L2 & L3).
  destruct (simulate_types_length _ _ _ _ _ _ _ ES) as (L4 & L5).
  pose proof (Forall2_len _ _ _ Fj) as Lj. pose proof (Forall2_len _ _ _ Fs) as Lss.
  cbn [fst snd] in E.
  set (ja := if types_as_ids then set_col with_i Lm jd else jd) in *.
  set (sa := if types_as_ids then set_col with_i Ls sd else sd) in *.
  assert (Fja : Forall2 (vd_cur false) J ja).
  { unfold ja. destruct types_as_ids eqn:T; auto. apply set_col_spec; auto; [lia|].
    intros. pose proof T as T'. rewrite <- T' in *. apply vd_cur_i; auto. }
  assert (Fsa : Forall2 (vd_cur true) S0 sa).
  { unfold sa. destruct types_as_ids eqn:T; auto. apply set_col_spec; auto; [lia|].
    intros. pose proof T as T'. rewrite <- T' in *. apply vd_cur_i; auto. }
  pose proof (Forall2_len _ _ _ Fja) as Lja. pose proof (Forall2_len _ _ _ Fsa) as Lsa.
  set (jt := set_col (fun ab => with_y (fst ab) (snd ab)) (combine ya yb) ja) in *.
  set (st := set_col (fun a => with_y a a) ys sa) in *.
  injection E as <- Em. cbn [fst snd].
  assert (Fjt : Forall2 (vd_cur false) J jt).
  { apply set_col_spec; auto. apply combine_length_eq; lia. }
  assert (Fst : Forall2 (vd_cur true) S0 st).
  { apply set_col_spec; auto. lia. }
  split; auto. split; auto.
  exists jt, st, ya, yb, ys, Lm, Ls. repeat (split; [assumption|]).
  split.
  { intros T. unfold ids. split.
    - unfold jt. rewrite (set_col_keep _ f_i) by (auto; apply combine_length_eq; lia).
      unfold ja. rewrite T. rewrite (set_col_get _ f_i (fun a => a)) by (auto; lia). apply map_id.
    - unfold st. rewrite (set_col_keep _ f_i) by (auto; lia).
      unfold sa. rewrite T. rewrite (set_col_get _ f_i (fun a => a)) by (auto; lia). apply map_id. }
  split; [exact ES|]. split.
  - unfold wages, jt. rewrite (set_col_get _ (fun f => (y1 (f_o f), y2 (f_o f))) (fun ab => ab)).
    + apply map_id.
    + intros [a b] f. reflexivity.
    + apply combine_length_eq; lia.
  - unfold wages, st. rewrite (set_col_get _ (fun f => (y1 (f_o f), y2 (f_o f))) (fun a => (a, a))); auto. lia.
Qed.

Lemma vd_loop_ok p : forall n t jd sd out fr ms,
  Forall2 (vd_cur false) J jd -> Forall2 (vd_cur true) S0 sd ->
  vd_loop nl nk realloc gen fe types_as_ids p (types J) (map (fun f => g1 (f_o f)) S0) n t jd sd out = (fr, Ok ms) ->
  Forall2 (vd_cur false) J (fst fr) /\ Forall2 (vd_cur true) S0 (snd fr) /\
  exists ms', ms = out ++ ms' /\ length ms' = n /\
    forall i d, (i < n)%nat -> decomposed p (t + i)%nat (nth i ms' d).
Proof.
  clear estimator cluster.
  induction n as [|n IH]; intros t jd sd models fr ms Fj Fs E; simpl in E.
  - injection E as <- <-. split; auto. split; auto. exists []. rewrite app_nil_r. repeat split; auto. lia.
  - destruct (vd_round _ _ _ _ _ _ _ _ _ _ _ _) as [[jd' sd'] [m|e]] eqn:ER; [|discriminate].
    destruct (vd_round_ok _ _ _ _ _ _ Fj Fs ER) as (Fj' & Fs' & Sm). cbn [fst snd] in *.
    destruct (IH _ _ _ _ _ _ Fj' Fs' E) as (A & B & ms' & -> & L & H).
    split; auto. split; auto. exists (m :: ms'). rewrite <- app_assoc. split; auto. split; [simpl; lia|].
    intros [|i] d Hi; simpl.
    + now rewrite Nat.add_0_r.
    + replace (t + S i)%nat with (S t + i)%nat by lia. apply H. lia.
Qed.
End Decomposition.

Lemma vd_init (cl ty : bool) J : Forall2 (vd_cur cl ty false) J
  (if cl then set_col (fun ab => with_j (fst ab) (snd ab)) (types J) J else J).
Proof.
  clear nl nk realloc estimator cluster gen fe.
  destruct cl; unfold set_col, types; induction J as [|f J IH]; simpl; constructor; auto; repeat split.
Qed.
Lemma vd_init_s (cl ty : bool) J : Forall2 (vd_cur cl ty true) J
  (if cl then set_col (fun a => with_j a a) (map (fun f => g1 (f_o f)) J) J else J).
Proof.
  clear nl nk realloc estimator cluster gen fe.
  destruct cl; unfold set_col; induction J as [|f J IH]; simpl; constructor; auto; repeat split.
Qed.

Lemma vd_fit_inv cl ty bm n J S0 fr ms :
  vd_fit nl nk realloc estimator gen fe cl ty bm n J S0 = (fr, Ok ms) ->
  (Forall stayer (tf_rows S0) -> fr = (J, S0)) /\ length ms = n /\ (0 < n)%nat /\
  exists p, match bm with
            | Some p0 => p = p0
            | None => exists jd sd, Forall2 (vd_cur cl ty false) (tf_rows J) jd /\
                Forall2 (vd_cur cl ty true) (tf_rows S0) sd /\ estimator 0 jd sd = Ok p
            end /\
    forall t d, (t < n)%nat -> decomposed (tf_rows J) (tf_rows S0) cl ty p t (nth t ms d).
Proof.
  clear cluster.
  destruct J as [jd tj], S0 as [sd ts]. cbn [tf_rows]. intros E. unfold vd_fit in E. cbn [tf_rows tf_t] in E.
  change (map (fun f => (g1 (f_o f), g2 (f_o f))) jd) with (types jd) in E.
  pose proof (vd_init cl ty jd) as Ij. pose proof (vd_init_s cl ty sd) as Is.
  set (ja := if cl then set_col (fun ab => with_j (fst ab) (snd ab)) (types jd) jd else jd) in *.
  set (sa := if cl then set_col (fun a => with_j a a) (map (fun f => g1 (f_o f)) sd) sd else sd) in *.
  assert (EP : exists p, match bm with Some p => Ok p | None => estimator 0 ja sa end = Ok p /\
    match bm with Some p0 => p = p0 | None => estimator 0 ja sa = Ok p end).
  { destruct bm as [p|]; eauto. destruct (estimator 0 ja sa); [eauto|discriminate]. }
  destruct EP as (p & EP & EP'). rewrite EP in E.
  destruct (vd_loop _ _ _ _ _ _ _ _ _ _ _ _ _ _) as [[jd' sd'] [out|e]] eqn:EL; [|discriminate].
  destruct (vd_loop_ok jd sd cl ty p _ _ _ _ _ _ _ Ij Is EL) as (Fj & Fs & ms' & -> & L & H).
  simpl in H, Fj, Fs. cbn [app] in E.
  destruct ms' as [|m0 ms0] eqn:EM; [discriminate|].
  assert (Hn : (0 < n)%nat) by (rewrite <- L; simpl; lia). rewrite <- EM in *. clear EM.
  injection E as E <-. split; [|split; [exact L|split]].
  - intros St. rewrite <- E. rewrite !orb_false_r. f_equal; f_equal.
    + apply Forall2_eq.
      assert (K1 : Forall2 (fun f f' => vd_cur cl ty false f f' /\ y1 (f_o f') = y1 (f_o f) /\ y2 (f_o f') = y2 (f_o f)) jd
        (set_col (fun ab => with_y (fst ab) (snd ab)) (map (fun f => (y1 (f_o f), y2 (f_o f))) jd) jd')).
      { apply (restore _ (fun f => (y1 (f_o f), y2 (f_o f))) (vd_cur cl ty false)); auto. }
      assert (K2 : Forall2 (fun f f' => f_o f' = f_o f /\ f_j1 f' = f_j1 f /\ f_j2 f' = f_j2 f /\ (ty = false -> f_i f' = f_i f)) jd
        (if cl then set_col (fun ab => with_j (fst ab) (snd ab)) (map (fun f => (f_j1 f, f_j2 f)) jd)
           (set_col (fun ab => with_y (fst ab) (snd ab)) (map (fun f => (y1 (f_o f), y2 (f_o f))) jd) jd')
         else set_col (fun ab => with_y (fst ab) (snd ab)) (map (fun f => (y1 (f_o f), y2 (f_o f))) jd) jd')).
      { assert (Eo : forall st f f', vd_cur cl ty st f f' -> y1 (f_o f') = y1 (f_o f) -> y2 (f_o f') = y2 (f_o f) -> f_o f' = f_o f).
        { intros st f f' [(A1 & A2 & A3 & A4 & A5 & A6 & A7 & A8) _] Y1 Y2. destruct (f_o f), (f_o f'). simpl in *. congruence. }
        destruct cl.
        - apply (restore _ (fun f => (f_j1 f, f_j2 f)) (fun f f' => vd_cur true ty false f f' /\ y1 (f_o f') = y1 (f_o f) /\ y2 (f_o f') = y2 (f_o f))); auto.
          intros f f' (V & Y1 & Y2). simpl. split; [eapply Eo; eauto|]. split; auto. split; auto. apply V.
        - eapply Forall2_weak; [|apply K1]. intros f f' (V & Y1 & Y2). split; [eapply Eo; eauto|].
          destruct V as (_ & B & C & D). auto. }
      destruct ty.
      * apply (restore _ f_i (fun f f' => f_o f' = f_o f /\ f_j1 f' = f_j1 f /\ f_j2 f' = f_j2 f /\ (true = false -> f_i f' = f_i f))); auto.
        intros [i a b o] [i' a' b' o'] (A & B & C & _). unfold with_i. simpl in *. congruence.
      * eapply Forall2_weak; [|apply K2]. intros [i a b o] [i' a' b' o'] (A & B & C & D). simpl in *.
        rewrite (D eq_refl). congruence.
    + apply Forall2_eq.
      assert (K1 : Forall2 (fun f f' => vd_cur cl ty true f f' /\ y1 (f_o f') = y1 (f_o f) /\ y2 (f_o f') = y2 (f_o f)) sd
        (set_col (fun ab => with_y (fst ab) (snd ab)) (map (fun f => (y1 (f_o f), y2 (f_o f))) sd) sd')).
      { apply (restore _ (fun f => (y1 (f_o f), y2 (f_o f))) (vd_cur cl ty true)); auto. }
      assert (K2 : Forall2 (fun f f' => f_o f' = f_o f /\ f_j1 f' = f_j1 f /\ f_j2 f' = f_j2 f /\ (ty = false -> f_i f' = f_i f)) sd
        (if cl then set_col (fun a => with_j a a) (map f_j1 sd)
           (set_col (fun ab => with_y (fst ab) (snd ab)) (map (fun f => (y1 (f_o f), y2 (f_o f))) sd) sd')
         else set_col (fun ab => with_y (fst ab) (snd ab)) (map (fun f => (y1 (f_o f), y2 (f_o f))) sd) sd')).
      { assert (Eo : forall st f f', vd_cur cl ty st f f' -> y1 (f_o f') = y1 (f_o f) -> y2 (f_o f') = y2 (f_o f) -> f_o f' = f_o f).
        { intros st f f' [(A1 & A2 & A3 & A4 & A5 & A6 & A7 & A8) _] Y1 Y2. destruct (f_o f), (f_o f'). simpl in *. congruence. }
        destruct cl.
        - apply (restore_stayer _ f_j1 (fun f f' => vd_cur true ty true f f' /\ y1 (f_o f') = y1 (f_o f) /\ y2 (f_o f') = y2 (f_o f)) _ stayer); auto.
          intros f f' [SJ _] (V & Y1 & Y2). simpl. split; [eapply Eo; eauto|]. split; auto. split; auto. apply V.
        - eapply Forall2_weak; [|apply K1]. intros f f' (V & Y1 & Y2). split; [eapply Eo; eauto|].
          destruct V as (_ & B & C & D). auto. }
      destruct ty.
      * apply (restore _ f_i (fun f f' => f_o f' = f_o f /\ f_j1 f' = f_j1 f /\ f_j2 f' = f_j2 f /\ (true = false -> f_i f' = f_i f))); auto.
        intros [i a b o] [i' a' b' o'] (A & B & C & _). unfold with_i. simpl in *. congruence.
      * eapply Forall2_weak; [|apply K2]. intros [i a b o] [i' a' b' o'] (A & B & C & D). simpl in *.
        rewrite (D eq_refl). congruence.
  - exact Hn.
  - exists p. split; auto. destruct bm; auto. exists ja, sa. auto.
Qed.
End Boot.

Section Drawn.
Variables nl nk : nat.
Variable realloc : option (bool * rperiod).
Variable gen : nat -> rng.

Lemma boot_drawn estimator cluster bm n jd sd fr ms p q1 q0 :
  boot_fit nl nk realloc estimator cluster gen bm n jd sd = (fr, Ok ms) ->
  match bm with Some p0 => p = p0 | None => estimator 0%nat jd sd = Ok p end ->
  (forall t, choices_ok nl (gen t)) -> shapes_ok p ->
  (forall l k, 0 <= S1 p l k) -> (forall l k, 0 <= S2 p l k) ->
  type_shares nl nk realloc p q1 q0 ->
  (forall k1 k2, (k1 < nk)%nat -> (k2 < nk)%nat -> prob_row nl (q1 (k1 + nk * k2)%nat)) ->
  (forall k, (k < nk)%nat -> prob_row nl (q0 k)) ->
  length ms = n /\
  forall t d, (t < n)%nat -> exists jt st jc sc c Lm Ls,
    estimator (S t) jt st = Ok (nth t ms d) /\
    Forall2 same_worker jd jt /\ Forall2 same_worker sd st /\
    cluster t jc sc = Ok c /\
    Forall2 same_worker jd jc /\ Forall2 same_worker sd sc /\ wages jc = wages jt /\ wages sc = wages st /\
    types jt = map (fun ab => (c (fst ab), c (snd ab))) (firms jd) /\
    types st = map (fun ab => (c (fst ab), c (fst ab))) (firms sd) /\
    drawn_from nl nk p q1 q0 (gen t) jd sd jt st Lm Ls.
Proof.
  intros E Ep C Sh H1 H2 T P1 P0.
  destruct (boot_fit_inv _ _ _ _ _ _ _ _ _ _ _ _ E) as (_ & L & p' & Ep' & H).
  assert (p' = p) as -> by (destruct bm; congruence).
  split; auto. intros t d Ht. destruct (H t d Ht) as (jt & st & jc & sc & c & ya & yb & ys & Lm & Ls & A1 & A2 & A3 & A4 & A5 & A6 & A7 & A8 & A9 & A10 & A11 & A12 & A13).
  exists jt, st, jc, sc, c, Lm, Ls. repeat (split; [assumption|]).
  eapply simulate_drawn; eauto.
Qed.

Lemma vd_drawn estimator fe cl ty bm n J S0 fr ms p q1 q0 :
  vd_fit nl nk realloc estimator gen fe cl ty bm n J S0 = (fr, Ok ms) -> bm = Some p ->
  (forall t, choices_ok nl (gen t)) -> shapes_ok p ->
  (forall l k, 0 <= S1 p l k) -> (forall l k, 0 <= S2 p l k) ->
  type_shares nl nk realloc p q1 q0 ->
  (forall k1 k2, (k1 < nk)%nat -> (k2 < nk)%nat -> prob_row nl (q1 (k1 + nk * k2)%nat)) ->
  (forall k, (k < nk)%nat -> prob_row nl (q0 k)) ->
  length ms = n /\
  forall t d, (t < n)%nat -> exists jt st Lm Ls,
    fe t jt st = Ok (nth t ms d) /\
    Forall2 same_types (tf_rows J) jt /\ Forall2 same_types (tf_rows S0) st /\
    firms jt = (if cl then types (tf_rows J) else firms (tf_rows J)) /\
    map fst (firms st) = map fst (if cl then types (tf_rows S0) else firms (tf_rows S0)) /\
    ids jt = (if ty then Lm else ids (tf_rows J)) /\
    ids st = (if ty then Ls else ids (tf_rows S0)) /\
    drawn_from nl nk p q1 q0 (gen t) (tf_rows J) (tf_rows S0) jt st Lm Ls.
Proof.
  intros E Ep C Sh H1 H2 T P1 P0. subst bm.
  destruct (vd_fit_inv _ _ _ _ _ _ _ _ _ _ _ _ _ _ E) as (_ & L & _ & p' & -> & H).
  split; auto. intros t d Ht. destruct (H t d Ht) as (jt & st & ya & yb & ys & Lm & Ls & A1 & A2 & A3 & A4 & A5 & A6 & A7).
  exists jt, st, Lm, Ls. split; auto.
  split. { eapply Forall2_weak; [|apply A2]. intros f f' V. apply V. }
  split. { eapply Forall2_weak; [|apply A3]. intros f f' V. apply V. }
  split.
  { clear -A2. unfold firms, types. induction A2 as [|f f' A B V F IH]; simpl; [destruct cl; auto|].
    destruct V as (_ & -> & -> & _). destruct cl; simpl; now rewrite IH. }
  split.
  { clear -A3. unfold firms, types. induction A3 as [|f f' A B V F IH]; simpl; [destruct cl; auto|].
    destruct V as (_ & -> & _). destruct cl; simpl; now rewrite IH. }
  split.
  { destruct ty; [now apply A4|]. clear -A2. unfold ids. induction A2 as [|f f' A B V F IH]; simpl; auto.
    destruct V as (_ & _ & _ & V). now rewrite V, IH. }
  split.
  { destruct ty; [now apply A4|]. clear -A3. unfold ids. induction A3 as [|f f' A B V F IH]; simpl; auto.
    destruct V as (_ & _ & _ & V). now rewrite V, IH. }
  eapply simulate_drawn; eauto.
Qed.
End Drawn.

(* ---- no samples, errors ---- *)

Lemma vd_no_samples nl nk realloc estimator gen fe p J S0 :
  vd_fit nl nk realloc estimator gen fe false false (Some p) 0 J S0 =
  ((mktframe (tf_rows J) true, mktframe (tf_rows S0) true), Err IndexError).
Proof.
  unfold vd_fit. simpl. rewrite !orb_true_r. f_equal. f_equal; f_equal.
  - unfold set_col. induction (tf_rows J) as [|[i a b o] l IH]; simpl; auto. rewrite IH. f_equal.
    unfold with_y. simpl. now destruct o.
  - unfold set_col. induction (tf_rows S0) as [|[i a b o] l IH]; simpl; auto. rewrite IH. f_equal.
    unfold with_y. simpl. now destruct o.
Qed.

(* A model with one worker type and two firm types. *)
Definition b_par : par :=
  mkpar (fun _ k => 1 + INR k) (fun _ k => 1 + INR k) (fun _ _ => 1) (fun _ _ => 1)
        [] [] [] [] [] [] [] [] (fun _ _ => 1) (fun _ _ => 1) (fun _ _ => 1) (fun _ => 1).
Definition b_obs (a b : R) (k1 k2 : nat) : obs := mkobs a b k1 k2 1 1 [] [] [] [].
Definition b_jd : list frow := [mkfrow 0 5 6 (b_obs 0 0 0 1); mkfrow 1 6 5 (b_obs 0 0 1 0)].
Definition b_sd : list frow := [mkfrow 2 5 5 (b_obs 0 0 0 0); mkfrow 3 6 6 (b_obs 0 0 1 1)].
Definition b_rng : rng :=
  mkrng (fun _ _ _ n => repeat 0%nat n) (fun _ _ n => repeat 0%nat n) (fun _ => 0) (fun _ => 0) (fun _ => 0).
Definition b_cluster (j : nat) : nat := if Nat.eqb j 5 then 1%nat else 0%nat.

Lemma b_choices : choices_ok 1 b_rng.
Proof.
  assert (K : forall row n, prob_row 1 row -> length (repeat 0%nat n) = n /\
    Forall (fun l => (l < 1)%nat /\ 0 < row l) (repeat 0%nat n)).
  { intros row n [_ H]. split; [apply repeat_length|]. apply Forall_forall. intros l Hl. apply repeat_spec in Hl. subst.
    split; [lia|]. unfold sumn, rsum in H. simpl in H. lra. }
  split; simpl; intros; now apply K.
Qed.

Lemma boot_error : exists fr,
  boot_fit 1 2 None (fun t _ _ => match t with 0%nat => Ok b_par | _ => Err LinAlgError end) (fun _ _ _ => Ok b_cluster)
    (fun _ => b_rng) None 1 b_jd b_sd = (fr, Err LinAlgError) /\
  wages (fst fr) <> wages b_jd /\ types (fst fr) <> types b_jd.
Proof.
  eexists. split; [reflexivity|]. split.
  - cbn. unfold wages, b_jd. simpl. intros H. injection H as H _. revert H. unfold draw_wage1. simpl. lra.
  - cbn. discriminate.
Qed.
Lemma vd_error : exists fr,
  vd_fit 1 2 None (fun _ _ _ => Ok b_par) (fun _ => b_rng) (fun _ _ _ => Err LinAlgError) true true (Some b_par) 1
    (mktframe b_jd false) (mktframe b_sd false) = (fr, Err LinAlgError) /\
  wages (tf_rows (fst fr)) <> wages b_jd /\ firms (tf_rows (fst fr)) <> firms b_jd /\
  ids (tf_rows (fst fr)) <> ids b_jd /\ tf_t (fst fr) = true.
Proof.
  eexists. split; [reflexivity|]. split.
  - cbn. unfold wages, b_jd. simpl. intros H. injection H as H _. revert H. unfold draw_wage1. simpl. lra.
  - cbn. split; [discriminate|]. split; [discriminate|reflexivity].
Qed.

Lemma boot_case : exists fr ms,
  boot_fit 1 2 None (fun _ _ _ => Ok b_par) (fun _ _ _ => Ok b_cluster) (fun _ => b_rng) None 3 b_jd b_sd = (fr, Ok ms) /\
  Forall stayer b_sd /\ choices_ok 1 b_rng /\ shapes_ok b_par /\
  (forall l k, 0 <= S1 b_par l k /\ 0 <= S2 b_par l k) /\
  (forall k, prob_row 1 (pk1 b_par k) /\ prob_row 1 (pk0 b_par k)).
Proof.
  eexists. eexists. split; [reflexivity|]. split; [repeat constructor|]. split; [apply b_choices|].
  split; [repeat split|]. split; [intros; simpl; lra|].
  intros k. unfold prob_row, sumn, rsum. simpl. repeat split; intros; lra.
Qed.
Lemma vd_case : exists fr ms,
  vd_fit 1 2 None (fun _ _ _ => Ok b_par) (fun _ => b_rng) (fun _ _ _ => Ok [1]) true true (Some b_par) 2
    (mktframe b_jd false) (mktframe b_sd true) = (fr, Ok ms).
Proof. eexists. eexists. reflexivity. Qed.

(* ---- weights ---- *)

Lemma wage_weights p l f z : 0 < var1 p l (f_o f) -> 0 < w1 (f_o f) -> w1 (f_o f) <> 1 -> z <> 0 ->
  (exists C, 0 < C /\ forall y,
     Rpower (normal_density y (mu1 p l (f_o f)) (sqrt (var1 p l (f_o f)))) (w1 (f_o f)) =
     C * normal_density y (mu1 p l (f_o f)) (sqrt (var1 p l (f_o f)) / sqrt (w1 (f_o f)))) /\
  wage1_of p l f z <> mu1 p l (f_o f) + sqrt (var1 p l (f_o f)) / sqrt (w1 (f_o f)) * z.
Proof.
  intros V W N Z. assert (S0 : 0 < sqrt (var1 p l (f_o f))) by now apply sqrt_lt_R0.
  assert (Q : 0 < sqrt (w1 (f_o f))) by now apply sqrt_lt_R0.
  split; [now apply weighted_density|].
  unfold wage1_of. intros E. apply Rplus_eq_reg_l in E. apply Rmult_eq_reg_r in E; [|auto].
  unfold Rdiv in E. apply Rmult_eq_reg_l in E; [|lra].
  assert (E' : w1 (f_o f) = sqrt (w1 (f_o f))).
  { apply (f_equal Rinv) in E. rewrite !Rinv_inv in E. exact E. }
  assert (E2 : w1 (f_o f) * w1 (f_o f) = w1 (f_o f)).
  { transitivity (sqrt (w1 (f_o f)) * sqrt (w1 (f_o f))); [now rewrite <- E'|]. apply sqrt_sqrt. lra. }
  apply N. apply (Rmult_eq_reg_l (w1 (f_o f))); lra.
Qed.

(* The draws are those of the model when the weights are one. *)
Lemma wage_unweighted p l f z : w1 (f_o f) = 1 -> w2 (f_o f) = 1 ->
  wage1_of p l f z = mu1 p l (f_o f) + sqrt (var1 p l (f_o f)) * z /\
  wage2_of p l f z = mu2 p l (f_o f) + sqrt (var2 p l (f_o f)) * z.
Proof. intros E1 E2. unfold wage1_of, wage2_of. rewrite E1, E2. split; field. Qed.
