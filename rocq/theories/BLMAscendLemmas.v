(* The movers' EM algorithm without controls: one iteration and the whole run. *)
From Verif Require Import Base BaseLemmas UtilModel UtilSpec UtilNumLemmas
  ConsModel ConsSpec ConsLemmas ConsQPLemmas
  BLMModel BLMEMModel BLMSpec BLMSortLemmas BLMLikLemmas BLMEMLemmas BLMStayLemmas
  BLMRunModel BLMFitModel BLMFitSpec BLMAscentLemmas BLMFitLemmas.
From Coq Require Import Sorted.
Local Open Scope res_scope.
Local Open Scope R_scope.

(* ---- log densities ---- *)
Lemma normal_density_pos y mu sd : 0 < sd -> 0 < normal_density y mu sd.
Proof.
  intros H. unfold normal_density. apply Rmult_lt_0_compat; [|apply exp_pos].
  apply Rinv_0_lt_compat, Rmult_lt_0_compat; [exact H|]. apply sqrt_lt_R0, two_pi_pos.
Qed.
Lemma ln_normal y mu sd : 0 < sd ->
  ln (normal_density y mu sd) = - ln sd - (y - mu) ^ 2 / (2 * sd ^ 2) - ln (sqrt (2 * PI)).
Proof.
  intros H. unfold normal_density.
  assert (Hq : 0 < sqrt (2 * PI)) by apply sqrt_lt_R0, two_pi_pos.
  rewrite ln_mult; [|apply Rinv_0_lt_compat, Rmult_lt_0_compat; assumption|apply exp_pos].
  rewrite ln_exp, ln_Rinv, ln_mult by (try apply Rmult_lt_0_compat; assumption). unfold Rdiv. ring.
Qed.
Lemma density_pos p o l : 0 < mover_density p o l.
Proof. unfold mover_density, Rpower. apply Rmult_lt_0_compat; apply exp_pos. Qed.

Lemma ln_density p o l :
  no_controls p -> 0 < S1 p l (g1 o) -> 0 < S2 p l (g2 o) ->
  ln (mover_density p o l)
  = w1 o * (- ln (S1 p l (g1 o)) - (y1 o - A1 p l (g1 o)) ^ 2 / (2 * S1 p l (g1 o) ^ 2)
            - ln (sqrt (2 * PI)))
  + w2 o * (- ln (S2 p l (g2 o)) - (y2 o - A2 p l (g2 o)) ^ 2 / (2 * S2 p l (g2 o) ^ 2)
            - ln (sqrt (2 * PI))).
Proof.
  intros (H1 & H2 & H3 & H4 & H5 & H6 & H7 & H8) P1 P2.
  unfold mover_density. rewrite ln_mult by (unfold Rpower; apply exp_pos).
  unfold Rpower. rewrite !ln_exp.
  unfold mu1, mu2, var1, var2, cat_sum. rewrite H1, H2, H3, H4, H5, H6, H7, H8.
  cbn [map2 map rsum]. rewrite !sqrt_sq_pos by assumption. rewrite !ln_normal by assumption.
  rewrite !Rplus_0_r. reflexivity.
Qed.

Section EM.
Variable argsort : list R -> list nat.
Variable solver : list R -> list R -> problem -> qpres.
Variable pp : period.
Variables (nl nk : nat) (c : cfg settings) (data : list obs).
Hypothesis nl_pos : (0 < nl)%nat.
Hypothesis nk_pos : (0 < nk)%nat.
Hypothesis exact : exact_qp solver.
Hypothesis D : movers_data nk data.
Notation lb := (s_lower_bound (other c)).
Notation d := (d_prior (other c)).
Hypothesis lb_pos : 0 < lb.
Hypothesis d_ge : 1 <= d.
Hypothesis no_cons_s : cons_s (other c) ++ cons_s_all (other c) = [].
Hypothesis cons_valid : forall o, In o (cons_on_A c) -> valid 2 nl nk o.
Hypothesis a_needs_s : do_a c = true -> do_s c = true.
Hypothesis pk_pairs : do_pk1 c = true -> all_pairs nk data /\ equal_weights data.

Definition good (p : par) : Prop :=
  values_ok nl nk lb p /\ (do_a c = true -> A_allowed nl nk c p).
Definition post (p : par) (o : obs) (l : nat) : R :=
  pk1 p (g1 o + nk * g2 o)%nat l * mover_density p o l
  / mixture nl (pk1 p (g1 o + nk * g2 o)%nat) (mover_density p o).
Definition qi_of (p : par) : list (list R) := map (fun o => map (post p o) (range nl)) data.

Lemma in_range_data o : In o data -> data_ok nk o.
Proof. intros H. destruct D as [F _]. rewrite Forall_forall in F. apply (F o H). Qed.
Lemma good_mover p : good p -> Forall (mover_ok nl nk p) data.
Proof.
  intros [(_ & VS & VP) _]. apply Forall_forall. intros o Ho.
  destruct (in_range_data o Ho) as [H1 H2]. split; [split; assumption|]. intros l Hl.
  split; [|split].
  - now apply (VP (g1 o) (g2 o) H1 H2).
  - apply (VS l (g1 o) Hl H1).
  - apply (VS l (g2 o) Hl H2).
Qed.
Lemma good_shapes p : good p -> shapes_ok p.
Proof.
  intros [(V & _) _]. destruct V as (H1 & H2 & H3 & H4 & H5 & H6 & H7 & H8).
  unfold shapes_ok. rewrite H1, H2, H3, H4, H5, H6, H7, H8. cbn. tauto.
Qed.
Lemma good_pk p o l : good p -> In o data -> (l < nl)%nat -> 0 < pk1 p (KK nk o) l.
Proof.
  intros [(_ & _ & VP) _] Ho Hl. destruct (in_range_data o Ho) as [H1 H2].
  now apply (VP (g1 o) (g2 o) H1 H2).
Qed.
Lemma good_pk_sum p o : good p -> In o data -> sumn nl (pk1 p (KK nk o)) = 1.
Proof.
  intros [(_ & _ & VP) _] Ho. destruct (in_range_data o Ho) as [H1 H2].
  now apply (VP (g1 o) (g2 o) H1 H2).
Qed.
Lemma post_pos p o l : good p -> In o data -> (l < nl)%nat -> 0 < post p o l.
Proof.
  intros G Ho Hl. apply (q_pos (KK nk) (mover_density p) nl (pk1 p) data); auto.
  - intros; apply density_pos.
  - intros; now apply good_pk.
Qed.
Lemma post_one p o : good p -> In o data -> sumn nl (post p o) = 1.
Proof.
  intros G Ho. apply (q_one (KK nk) (mover_density p) nl (pk1 p) data); auto.
  - intros; apply density_pos.
  - intros; now apply good_pk.
Qed.
Lemma qi_ok p : good p -> posteriors_ok nl data (qi_of p).
Proof.
  intros G. split; [apply map_length|]. apply Forall_forall. intros row Hr.
  apply in_map_iff in Hr as (o & <- & Ho). split; [now rewrite map_length, length_range|].
  split; [|now apply post_one]. intros x Hx. apply in_map_iff in Hx as (l & <- & Hl).
  apply in_seq in Hl. apply Rlt_le, post_pos; auto. lia.
Qed.

Notation eld1 q := (eld nl data g1 w1 y1 q).
Notation eld2 q := (eld nl data g2 w2 y2 q).

Lemma density_gain p p' q :
  good p -> good p' ->
  rsum (map (fun o => sumn nl (fun l =>
     q o l * (ln (mover_density p' o l) - ln (mover_density p o l)))) data)
  = (eld1 q (A1 p') (S1 p') + eld2 q (A2 p') (S2 p')) - (eld1 q (A1 p) (S1 p) + eld2 q (A2 p) (S2 p)).
Proof.
  intros G G'. unfold eld. rewrite <- !rsum_map_plus, <- rsum_map_minus.
  apply rsum_map_ext. intros o Ho. rewrite <- !sumn_plus, <- sumn_minus. apply sumn_ext.
  intros l Hl.
  pose proof (good_mover p G) as M. pose proof (good_mover p' G') as M'.
  rewrite Forall_forall in M, M'. destruct (M o Ho) as [_ Mo]. destruct (M' o Ho) as [_ Mo'].
  destruct (Mo l Hl) as (_ & s1 & s2). destruct (Mo' l Hl) as (_ & s1' & s2').
  destruct G as [(V & _) _]. destruct G' as [(V' & _) _]. rewrite !ln_density by assumption. ring.
Qed.

Lemma len_pos : 0 < INR (length data).
Proof.
  destruct D as [_ H]. destruct (H 0%nat nk_pos) as [(o & Ho & _) _].
  apply lt_0_INR. destruct data; [destruct Ho|simpl; lia].
Qed.

(* One iteration increases the penalised likelihood. *)
Lemma penalised_grows p p' :
  good p -> good p' ->
  0 <= rsum (map (fun o => sumn nl (fun l => (post p o l + (d - 1)) *
         (ln (pk1 p' (KK nk o) l) - ln (pk1 p (KK nk o) l)))) data) ->
  eld1 (post p) (A1 p) (S1 p) + eld2 (post p) (A2 p) (S2 p)
    <= eld1 (post p) (A1 p') (S1 p') + eld2 (post p) (A2 p') (S2 p') ->
  penalised nl nk d p data <= penalised nl nk d p' data.
Proof.
  intros G G' Hpi He.
  pose proof (step_gain (KK nk) (mover_density p) (mover_density p') nl (pk1 p) (pk1 p') data
    nl_pos (fun a l _ _ => density_pos p a l) (fun a l _ _ => density_pos p' a l)
    (fun a l Ha Hl => good_pk p a l G Ha Hl) (fun a l Ha Hl => good_pk p' a l G' Ha Hl)) as SG.
  cbv beta zeta in SG.
  assert (Hf : 0 <= rsum (map (fun a => sumn nl (fun l =>
       post p a l * (ln (mover_density p' a l) - ln (mover_density p a l)))) data)).
  { rewrite density_gain by assumption. lra. }
  specialize (SG Hf).
  set (Lm := rsum (map (fun a => ln (mixture nl (pk1 p (KK nk a)) (mover_density p a))) data)) in *.
  set (Lm' := rsum (map (fun a => ln (mixture nl (pk1 p' (KK nk a)) (mover_density p' a))) data)) in *.
  set (Pr := rsum (map (fun o => sumn nl (fun l => ln (pk1 p (KK nk o) l))) data)).
  set (Pr' := rsum (map (fun o => sumn nl (fun l => ln (pk1 p' (KK nk o) l))) data)).
  assert (E : rsum (map (fun o => sumn nl (fun l => (post p o l + (d - 1)) *
         (ln (pk1 p' (KK nk o) l) - ln (pk1 p (KK nk o) l)))) data)
       = rsum (map (fun o => sumn nl (fun l => post p o l *
           (ln (pk1 p' (KK nk o) l) - ln (pk1 p (KK nk o) l)))) data) + (d - 1) * (Pr' - Pr)).
  { unfold Pr, Pr'. rewrite <- rsum_map_minus, <- rsum_map_scal, <- rsum_map_plus.
    apply rsum_map_ext. intros o _. rewrite <- sumn_minus, <- sumn_scal, <- sumn_plus.
    apply sumn_ext. intros; ring. }
  rewrite E in Hpi.
  change (rsum (map (fun o => sumn nl (fun l => post p o l *
           (ln (pk1 p' (KK nk o) l) - ln (pk1 p (KK nk o) l)))) data))
    with (rsum (map (fun a => sumn nl (fun l =>
      pk1 p (KK nk a) l * mover_density p a l / mixture nl (pk1 p (KK nk a)) (mover_density p a)
      * (ln (pk1 p' (KK nk a) l) - ln (pk1 p (KK nk a) l)))) data)) in Hpi.
  unfold penalised, movers_loglik.
  change (Lm / INR (length data) + (d - 1) * (Pr / INR (length data))
          <= Lm' / INR (length data) + (d - 1) * (Pr' / INR (length data))).
  pose proof len_pos as L.
  replace (Lm / INR (length data) + (d - 1) * (Pr / INR (length data)))
    with ((Lm + (d - 1) * Pr) * / INR (length data)) by (unfold Rdiv; ring).
  replace (Lm' / INR (length data) + (d - 1) * (Pr' / INR (length data)))
    with ((Lm' + (d - 1) * Pr') * / INR (length data)) by (unfold Rdiv; ring).
  apply Rmult_le_compat_r; [left; now apply Rinv_0_lt_compat|]. lra.
Qed.

(* ---- the update of the proportions ---- *)
Lemma pk_step p pk :
  good p -> all_pairs nk data -> equal_weights data ->
  update_pk1 nl nk d data (qi_of p) = Ok pk ->
  good (set_pk1 pk p) /\
  0 <= rsum (map (fun o => sumn nl (fun l => (post p o l + (d - 1)) *
         (ln (pk (KK nk o) l) - ln (pk1 p (KK nk o) l)))) data).
Proof.
  intros G Hp [W HW] E.
  assert (Hok : Forall (data_ok nk) data) by (apply Forall_forall; exact in_range_data).
  assert (Hw : forall o, In o data -> 0 < w1 o /\ 0 < w2 o).
  { intros o Ho. exact (ws_pos nk data D o Ho). }
  destruct (update_pk1_ok nl nk d data (qi_of p) nl_pos nk_pos d_ge Hok Hw (qi_ok p G) Hp)
    as (pk' & E' & H).
  rewrite E in E'. injection E' as <-.
  set (r := fun o l => post p o l + (d - 1)).
  set (DD := 1 + INR nl * (d - 1)).
  assert (INRp : 0 < INR nl) by (now apply lt_0_INR).
  assert (DDp : 0 < DD) by (unfold DD; nra).
  assert (W0 : 0 < W).
  { destruct (Hp 0%nat 0%nat nk_pos nk_pos) as (o & Ho & _). rewrite <- (HW o Ho).
    destruct (Hw o Ho). now apply Rmult_lt_0_compat. }
  assert (S0 : 0 < sqrt W) by (now apply sqrt_lt_R0).
  assert (rs : forall o, In o data -> sumn nl (r o) = DD).
  { intros o Ho. unfold r. rewrite sumn_plus, post_one, sumn_const by assumption. reflexivity. }
  assert (rp : forall o l, In o data -> (l < nl)%nat -> 0 < r o l).
  { intros o l Ho Hl. unfold r. pose proof (post_pos p o l G Ho Hl). lra. }
  assert (Sh : forall k1 k2 l, (k1 < nk)%nat -> (k2 < nk)%nat -> (l < nl)%nat ->
    share (moves k1 k2) (fun o => sqrt (w1 o * w2 o)) d data (qi_of p) l
    = sqrt W * rsum (map (fun b => if (KK nk b =? k1 + nk * k2)%nat then r b l else 0) data)).
  { intros k1 k2 l H1 H2 Hl. unfold share, qi_of. rewrite map2_map_r, <- rsum_map_scal.
    apply rsum_map_ext. intros o Ho. rewrite (KK_moves nk o k1 k2 (in_range_data o Ho) H1 H2).
    destruct (moves k1 k2 o); [|ring]. rewrite (HW o Ho). unfold r.
    rewrite (nth_map_in _ _ _ 0%nat) by (now rewrite length_range). rewrite nth_range by exact Hl.
    ring. }
  set (N := fun k => rsum (map (fun a => if (KK nk a =? k)%nat then 1 else 0) data)).
  assert (SumSh : forall k1 k2, (k1 < nk)%nat -> (k2 < nk)%nat ->
    sumn nl (share (moves k1 k2) (fun o => sqrt (w1 o * w2 o)) d data (qi_of p))
    = sqrt W * (N (k1 + nk * k2)%nat * DD)).
  { intros k1 k2 H1 H2.
    rewrite (sumn_ext _ _ _ (fun l Hl => Sh k1 k2 l H1 H2 Hl)), sumn_scal. f_equal.
    rewrite <- rsum_sumn_swap. unfold N. rewrite <- rsum_map_scal_r. apply rsum_map_ext.
    intros o Ho. destruct (KK nk o =? k1 + nk * k2)%nat.
    - rewrite rs by exact Ho. ring.
    - rewrite sumn_zero by reflexivity. ring. }
  assert (Np : forall k1 k2, (k1 < nk)%nat -> (k2 < nk)%nat -> 0 < N (k1 + nk * k2)%nat).
  { intros k1 k2 H1 H2. destruct (Hp k1 k2 H1 H2) as (o & Ho & E1 & E2).
    apply (weight_pos (KK nk) (fun _ => 1)); [intros; lra|]. exists o. split; [exact Ho|].
    unfold KK. now rewrite E1, E2. }
  assert (Upd : forall k1 k2 l, (k1 < nk)%nat -> (k2 < nk)%nat -> (l < nl)%nat ->
    pk (k1 + nk * k2)%nat l * (N (k1 + nk * k2)%nat * DD)
    = rsum (map (fun b => if (KK nk b =? k1 + nk * k2)%nat then r b l else 0) data)).
  { intros k1 k2 l H1 H2 Hl. destruct (H k1 k2 H1 H2) as [_ V]. rewrite V by exact Hl.
    rewrite SumSh, Sh by assumption. pose proof (Np k1 k2 H1 H2). field. repeat split; lra. }
  assert (pkp : forall k1 k2 l, (k1 < nk)%nat -> (k2 < nk)%nat -> (l < nl)%nat ->
    0 < pk (k1 + nk * k2)%nat l).
  { intros k1 k2 l H1 H2 Hl. pose proof (Upd k1 k2 l H1 H2 Hl) as U. pose proof (Np k1 k2 H1 H2) as P.
    assert (Q : 0 < rsum (map (fun b => if (KK nk b =? k1 + nk * k2)%nat then r b l else 0) data)).
    { destruct (Hp k1 k2 H1 H2) as (o & Ho & E1 & E2).
      apply (weight_pos (KK nk) (fun b => r b l)).
      - intros b Hb. now apply rp.
      - exists o. split; [exact Ho|]. unfold KK. now rewrite E1, E2. }
    rewrite <- U in Q. assert (P2 : 0 < N (k1 + nk * k2)%nat * DD) by (now apply Rmult_lt_0_compat).
    apply Rmult_lt_reg_r with (N (k1 + nk * k2)%nat * DD); [exact P2|]. lra. }
  split.
  - destruct G as [(V1 & V2 & V3) GA]. split; [|exact GA]. split; [exact V1|]. split; [exact V2|].
    intros k1 k2 H1 H2. cbn [pk1 set_pk1]. split; [intros; now apply pkp|].
    apply (H k1 k2 H1 H2).
  - apply (prior_gain (KK nk) r DD (nk * nk) nl (pk1 p) pk data); auto.
    + intros a Ha. apply KK_lt. now apply in_range_data.
    + intros a l Ha Hl. now apply good_pk.
    + intros a Ha. now apply good_pk_sum.
    + intros a l Ha Hl. destruct (in_range_data a Ha). now apply pkp.
    + intros a l Ha Hl. destruct (in_range_data a Ha). now apply Upd.
Qed.

(* ---- one iteration ---- *)
Lemma em_step qa qs iter p :
  gen_constraints nl nk c = Ok (qa, qs) ->
  (forall x, accepts qa x <-> demands nl nk (cons_on_A c) x) ->
  (forall x, accepts qs x <->
     (forall t l k, (t < 2)%nat -> (l < nl)%nat -> (k < nk)%nat -> lb <= eff nl nk x t l k) /\
     demands nl nk (cons_s (other c) ++ cons_s_all (other c)) x) ->
  good p ->
  exists p', em_update solver nl nk c iter (qa, qs) data (qi_of p) p = Ok (p', (qa, qs)) /\
    good p' /\ penalised nl nk d p data <= penalised nl nk d p' data.
Proof.
  intros Eg Ha Hs G. unfold em_update.
  assert (P1 : exists p1, (if do_pk1 c
        then pk <- update_pk1 nl nk d data (qi_of p) ;; Ok (set_pk1 pk p)
        else Ok p) = Ok p1 /\ good p1 /\ A1 p1 = A1 p /\ A2 p1 = A2 p /\ S1 p1 = S1 p /\ S2 p1 = S2 p /\
     0 <= rsum (map (fun o => sumn nl (fun l => (post p o l + (d - 1)) *
         (ln (pk1 p1 (KK nk o) l) - ln (pk1 p (KK nk o) l)))) data)).
  { destruct (do_pk1 c) eqn:Ek.
    - destruct (pk_pairs eq_refl) as [Hp HW].
      assert (Hok : Forall (data_ok nk) data) by (apply Forall_forall; exact in_range_data).
      destruct (update_pk1_ok nl nk d data (qi_of p) nl_pos nk_pos d_ge Hok
                  (fun o Ho => ws_pos nk data D o Ho) (qi_ok p G) Hp) as (pk & E & _).
      rewrite E. cbn [bind]. exists (set_pk1 pk p).
      destruct (pk_step p pk G Hp HW E) as [G1 Hg]. repeat (split; [solve [reflexivity|exact G1]|]). exact Hg.
    - exists p. repeat (split; [solve [reflexivity|exact G]|]).
      rewrite rsum_zero; [lra|]. intros o _. apply sumn_zero. intros l _. ring. }
  destruct P1 as (p1 & -> & G1 & EA1 & EA2 & ES1 & ES2 & Hg). cbn [bind].
  replace (if (do_a c && (0 <? iter)%nat)%bool then gen_constraints nl nk c else Ok (qa, qs))
    with (Ok (qa, qs) : res (qp * qp)) by (destruct (do_a c && (0 <? iter)%nat)%bool; auto).
  cbn [bind]. unfold qi_of.
  destruct (m_step_ok solver nl nk c data (post p) nk_pos exact D
              (fun o l Ho Hl => post_pos p o l G Ho Hl) qa qs Ha Hs no_cons_s lb_pos p1)
    as (p' & -> & V' & A' & Epk & He); try apply G1; auto.
  cbn [bind]. exists p'. split; [reflexivity|].
  assert (G' : good p') by (split; assumption). split; [exact G'|].
  apply penalised_grows; auto.
  - rewrite Epk. exact Hg.
  - rewrite EA1, EA2, ES1, ES2 in He. exact He.
Qed.

(* ---- the loop ---- *)
Definition recorded (iter : nat) (ps : list par) : list R :=
  map (fun ip => iter_lik nl nk c (fst ip) (snd ip) (movers_loglik nl nk (snd ip) data))
      (combine (seq iter (length ps)) ps).

Lemma loop_ascends qa qs :
  gen_constraints nl nk c = Ok (qa, qs) ->
  (forall x, accepts qa x <-> demands nl nk (cons_on_A c) x) ->
  (forall x, accepts qs x <->
     (forall t l k, (t < 2)%nat -> (l < nl)%nat -> (k < nk)%nat -> lb <= eff nl nk x t l k) /\
     demands nl nk (cons_s (other c) ++ cons_s_all (other c)) x) ->
  forall n iter p prev min lik liks, good p ->
  exists p' lik' ps,
    movers_loop argsort solver pp nl nk n c data iter (qa, qs) p prev min lik liks
      = Ok (p', lik', liks ++ recorded iter ps)
    /\ good p' /\ Forall good ps /\ (length ps <= n)%nat /\ (n <> 0%nat -> ps <> [])
    /\ lik' = match recorded iter ps with [] => lik | _ => Some (last (recorded iter ps) 0) end
    /\ hd p (ps ++ [p']) = p
    /\ Sorted Rle (map (fun q => penalised nl nk d q data) (ps ++ [p'])).
Proof.
  intros Eg Ha Hs. induction n as [|n IH]; intros iter p prev min lik liks G.
  - exists p, lik, []. cbn [movers_loop]. unfold recorded. cbn. rewrite app_nil_r.
    repeat (split; [solve [auto|congruence|lia]|]). repeat constructor.
  - cbn [movers_loop].
    pose proof (movers_likelihood nl nk p data nl_pos (good_shapes p G) (good_mover p G)) as EL.
    pose proof (movers_posteriors nl nk p data nl_pos (good_shapes p G) (good_mover p G)) as EQ.
    destruct (lp_movers nl nk p data) as [lp|e]; [|discriminate]. cbn [bind] in EL, EQ |- *.
    rewrite EL, EQ. cbn [bind].
    set (lik1 := iter_lik nl nk c iter p (movers_loglik nl nk p data)).
    set (mn := if force_min_firm_type (other c) then min else min_firm_type argsort pp nl nk (A1 p) (A2 p)).
    destruct (converged (threshold (other c)) lik1 prev && (mn =? min)%nat)%bool.
    + exists p, (Some lik1), [p]. unfold recorded. cbn. fold lik1.
      repeat (split; [solve [auto|congruence|lia|constructor; auto]|]).
      constructor; [repeat constructor|constructor; lra].
    + change (map (fun o => map (fun l => pk1 p (g1 o + nk * g2 o)%nat l * mover_density p o l
          / mixture nl (pk1 p (g1 o + nk * g2 o)%nat) (mover_density p o)) (range nl)) data)
        with (qi_of p).
      destruct (em_step qa qs iter p Eg Ha Hs G) as (p1 & -> & G1 & Hle). cbn [bind].
      destruct (IH (S iter) p1 (Some lik1) mn (Some lik1) (liks ++ [lik1]) G1)
        as (p' & lik' & ps & -> & G' & Fp & Hl & _ & El & Hh & Hso).
      exists p', lik', (p :: ps).
      assert (Er : recorded iter (p :: ps) = lik1 :: recorded (S iter) ps) by reflexivity.
      rewrite Er. split; [now rewrite <- app_assoc|]. split; [exact G'|]. split; [now constructor|].
      split; [simpl; lia|]. split; [discriminate|]. split.
      { rewrite El. destruct (recorded (S iter) ps); reflexivity. }
      split; [reflexivity|]. cbn [app map]. constructor; [exact Hso|].
      destruct ps as [|p2 ps]; cbn [app map hd] in *; subst; constructor; exact Hle.
Qed.

(* ---- the whole fit ---- *)
Lemma relabelled_values s t p p' b :
  relabelling nl s -> (forall k, t k = k) -> relabelled nl nk s t p p' -> values_ok nl nk b p ->
  values_ok nl nk b p'.
Proof.
  intros Hs Ht Hr ((H1 & H2 & H3 & H4 & H5 & H6 & H7 & H8) & VS & VP).
  split; [|split].
  - pose proof (r_A1_cat _ _ _ _ _ _ Hr) as E1. pose proof (r_A2_cat _ _ _ _ _ _ Hr) as E2.
    pose proof (r_S1_cat _ _ _ _ _ _ Hr) as E3. pose proof (r_S2_cat _ _ _ _ _ _ Hr) as E4.
    pose proof (r_A1_cts _ _ _ _ _ _ Hr) as E5. pose proof (r_A2_cts _ _ _ _ _ _ Hr) as E6.
    pose proof (r_S1_cts _ _ _ _ _ _ Hr) as E7. pose proof (r_S2_cts _ _ _ _ _ _ Hr) as E8.
    rewrite H1 in E1; rewrite H2 in E2; rewrite H3 in E3; rewrite H4 in E4;
    rewrite H5 in E5; rewrite H6 in E6; rewrite H7 in E7; rewrite H8 in E8.
    inversion E1; inversion E2; inversion E3; inversion E4; inversion E5; inversion E6;
      inversion E7; inversion E8. unfold no_controls. repeat split; congruence.
  - intros l k Hl Hk. destruct (r_S _ _ _ _ _ _ Hr l k Hl Hk) as [-> ->]. rewrite Ht.
    apply VS; [now apply (relabelling_lt nl)|exact Hk].
  - intros k1 k2 Hk1 Hk2. destruct (VP k1 k2 Hk1 Hk2) as [P1 P2].
    assert (E : forall l, (l < nl)%nat -> pk1 p' (k1 + nk * k2)%nat l = pk1 p (k1 + nk * k2)%nat (s l)).
    { intros l Hl. rewrite (r_pk1 _ _ _ _ _ _ Hr k1 k2 l Hk1 Hk2 Hl). now rewrite !Ht. }
    split.
    + intros l Hl. rewrite E by exact Hl. apply P1. now apply (relabelling_lt nl).
    + rewrite (sumn_ext _ _ _ E).
      rewrite (relabelling_sumn nl s (pk1 p (k1 + nk * k2)%nat) Hs). exact P2.
Qed.

Lemma same_data (t : nat -> nat) : (forall k, t k = k) -> Forall2 (same_row nk t) data data.
Proof.
  intros Ht. destruct D as [F _]. clear -F Ht.
  induction F as [|o l [[H1 H2] _] F IH]; constructor; auto.
  unfold same_row. rewrite !Ht. tauto.
Qed.

Lemma relabelled_penalised s t p p' :
  relabelling nl s -> (forall k, t k = k) -> relabelled nl nk s t p p' ->
  movers_loglik nl nk p' data = movers_loglik nl nk p data /\
  penalised nl nk d p' data = penalised nl nk d p data.
Proof.
  intros Hs Ht Hr.
  assert (E : movers_loglik nl nk p' data = movers_loglik nl nk p data).
  { apply (loglik_relabelled nl nk s t p p' data data); auto. now apply same_data. }
  split; [exact E|]. unfold penalised. rewrite E. do 4 f_equal.
  apply map_ext_in. intros o Ho. destruct (in_range_data o Ho) as [H1 H2].
  rewrite <- (relabelling_sumn nl s (fun l => ln (pk1 p (g1 o + nk * g2 o)%nat l)) Hs).
  apply sumn_ext. intros l Hl. f_equal.
  rewrite (r_pk1 _ _ _ _ _ _ Hr (g1 o) (g2 o) l H1 H2 Hl). now rewrite !Ht.
Qed.

Hypothesis sorts : forall l, is_argsort l (argsort l).
Notation sorted_p := (sort_parameters argsort pp nl nk false false).

Lemma fit_ascends cnn min p :
  values_ok nl nk lb p -> (do_a c = true -> A_allowed nl nk c (sorted_p p)) ->
  exists p' lik ps,
    fit_movers_ argsort solver pp nl nk c cnn min data p = Ok (p', lik, recorded 0 ps)
    /\ values_ok nl nk lb p' /\ (length ps <= n_iters (other c))%nat
    /\ (n_iters (other c) <> 0%nat -> ps <> [])
    /\ lik = match recorded 0 ps with [] => None | _ => Some (last (recorded 0 ps) 0) end
    /\ hd 0 (map (fun q => movers_loglik nl nk q data) (ps ++ [p'])) = movers_loglik nl nk p data
    /\ hd 0 (map (fun q => penalised nl nk d q data) (ps ++ [p'])) = penalised nl nk d p data
    /\ Sorted Rle (map (fun q => penalised nl nk d q data) (ps ++ [p'])).
Proof.
  intros V HA. unfold fit_movers_.
  destruct (gen_constraints_ok nl nk c) as (qa & qs & Eg & Ha & Hs).
  { rewrite no_cons_s, app_nil_r. exact cons_valid. }
  rewrite Eg. cbn [bind].
  destruct (sort_spec argsort sorts pp nl nk false false p) as (s & t & Rs & _ & Ht & Rl & _).
  specialize (Ht eq_refl).
  assert (G : good (sorted_p p)).
  { split; [exact (relabelled_values s t _ _ _ Rs Ht Rl V)|exact HA]. }
  set (mn := if force_min_firm_type (other c) then min else _).
  destruct (loop_ascends qa qs Eg Ha Hs (n_iters (other c)) 0 (sorted_p p) None mn None [] G)
    as (p' & lik & ps & -> & G' & _ & Hl & Hne & El & Hh & So).
  cbn [bind app].
  destruct (sort_spec argsort sorts pp nl nk false false p') as (s' & t' & Rs' & _ & Ht' & Rl' & _).
  specialize (Ht' eq_refl).
  set (p2 := if cnn then _ else _).
  assert (V2 : values_ok nl nk lb p2).
  { unfold p2. pose proof (relabelled_values s' t' _ _ _ Rs' Ht' Rl' (proj1 G')) as V'.
    destruct cnn; exact V'. }
  assert (L2 : movers_loglik nl nk p2 data = movers_loglik nl nk p' data /\
               penalised nl nk d p2 data = penalised nl nk d p' data).
  { pose proof (relabelled_penalised s' t' _ _ Rs' Ht' Rl') as L. unfold p2. destruct cnn; exact L. }
  destruct L2 as [L2 P2]. destruct (relabelled_penalised s t _ _ Rs Ht Rl) as [L1 P1].
  exists p2, lik, ps. split; [reflexivity|]. split; [exact V2|]. split; [exact Hl|].
  split; [exact Hne|]. split; [exact El|].
  rewrite map_app in So |- *. rewrite map_app. cbn [map] in So |- *. rewrite L2, P2.
  split; [|split].
  - rewrite <- L1. destruct ps; cbn in Hh |- *; now subst.
  - rewrite <- P1. destruct ps; cbn in Hh |- *; now subst.
  - exact So.
Qed.

Lemma recorded_plain iter ps : d = 1 ->
  recorded iter ps = map (fun q => movers_loglik nl nk q data) ps.
Proof.
  intros Hd. unfold recorded. revert iter. induction ps as [|q ps IH]; intros iter; [reflexivity|].
  cbn [length seq combine map fst snd]. rewrite IH. f_equal. unfold iter_lik.
  destruct ((0 <? iter)%nat && do_pk1 c)%bool; [|reflexivity].
  unfold lik_prior. rewrite Hd. ring.
Qed.
Lemma penalised_plain q : d = 1 -> penalised nl nk d q data = movers_loglik nl nk q data.
Proof. intros Hd. unfold penalised. rewrite Hd. ring. Qed.

Lemma fit_monotone cnn min p :
  d = 1 -> values_ok nl nk lb p -> (do_a c = true -> A_allowed nl nk c (sorted_p p)) ->
  exists p' lik liks,
    fit_movers_ argsort solver pp nl nk c cnn min data p = Ok (p', lik, liks)
    /\ Sorted Rle (liks ++ [movers_loglik nl nk p' data])
    /\ hd 0 (liks ++ [movers_loglik nl nk p' data]) = movers_loglik nl nk p data
    /\ (length liks <= n_iters (other c))%nat
    /\ (n_iters (other c) <> 0%nat -> lik = Some (last liks 0)).
Proof.
  intros Hd V HA. destruct (fit_ascends cnn min p V HA) as (p' & lik & ps & E & _ & L & Ne & El & Hh & _ & So).
  pose proof (recorded_plain 0 ps Hd) as Er.
  exists p', lik, (recorded 0 ps). split; [exact E|]. rewrite Er.
  change [movers_loglik nl nk p' data] with (map (fun q => movers_loglik nl nk q data) [p']).
  rewrite <- map_app. split; [|split; [exact Hh|split; [now rewrite map_length|]]].
  - rewrite (map_ext _ _ (fun q => penalised_plain q Hd)) in So. exact So.
  - intros Hn. rewrite Er in El. specialize (Ne Hn). destruct ps; [congruence|exact El].
Qed.

Lemma sorted_last l a : Sorted Rle (l ++ [a]) -> hd 0 (l ++ [a]) <= a.
Proof.
  intros H. apply Sorted_StronglySorted in H; [|intros x y z; apply Rle_trans].
  destruct l as [|b l]; cbn in *; [lra|]. inversion H as [|? ? _ F]; subst.
  rewrite Forall_forall in F. apply F. apply in_or_app. right. now left.
Qed.

Lemma fit_penalised cnn min p :
  values_ok nl nk lb p -> (do_a c = true -> A_allowed nl nk c (sorted_p p)) ->
  exists p' lik liks,
    fit_movers_ argsort solver pp nl nk c cnn min data p = Ok (p', lik, liks)
    /\ penalised nl nk d p data <= penalised nl nk d p' data.
Proof.
  intros V HA. destruct (fit_ascends cnn min p V HA) as (p' & lik & ps & E & _ & _ & _ & _ & _ & Hh & So).
  exists p', lik, (recorded 0 ps). split; [exact E|]. rewrite <- Hh.
  rewrite map_app in So |- *. now apply sorted_last.
Qed.
End EM.
