(* The estimation of the BLM model with control variables: E-step, loop and result. *)
From Verif Require Import Base BaseLemmas UtilModel UtilSpec ConsModel ConsSpec ConsLemmas ConsPropLemmas
  BLMModel BLMEMModel BLMSpec BLMSortLemmas BLMNormLemmas BLMLikLemmas BLMEMLemmas BLMStayLemmas BLMRunModel
  BLMFitModel BLMFitSpec BLMFitLemmas BLMAscendLemmas
  BLMGenModel BLMGenSpec BLMGenLemmas BLMGenPropLemmas BLMCtlModel BLMCtlSpec BLMCtlLemmas BLMCtlStepLemmas.
From Coq Require Import FunctionalExtensionality.
Local Open Scope res_scope.
Local Open Scope R_scope.

Lemma traverse_map {A B C} (f : B -> res C) (g : A -> B) l : traverse f (map g l) = traverse (fun a => f (g a)) l.
Proof. induction l as [|a l IH]; [reflexivity|]. cbn [map traverse]. now rewrite IH. Qed.
Lemma traverse_ext {A B} (f g : A -> res B) l : (forall a, In a l -> f a = g a) -> traverse f l = traverse g l.
Proof.
  induction l as [|a l IH]; intros H; [reflexivity|]. cbn [traverse]. rewrite (H a) by now left.
  rewrite IH; [reflexivity|]. intros; apply H; now right.
Qed.
Lemma combine_self {A B} (f : A -> B) l : combine l (map f l) = map (fun a => (a, f a)) l.
Proof. induction l; cbn; congruence. Qed.

Lemma e_step_eq nl nk data p : e_step nl nk data p (start_sums data p) = lp_movers nl nk p data.
Proof.
  unfold e_step, lp_movers. f_equal. apply traverse_ext. intros l _. unfold lp_row, lp_col.
  assert (E : forall t, lp_part nk data p (start_sums data p) t l
     = (if t then lp2_col else lp1_col) nk p data l).
  { intros t. unfold lp_part, start_sums, lp1_col, lp2_col. rewrite combine_self, traverse_map.
    destruct t; destruct (any_controls p); reflexivity. }
  now rewrite !E.
Qed.

Section Run.
Variable argsort : list R -> list nat.
Variable solver : list R -> list R -> problem -> qpres.
Variables (nl nk : nat) (cats ctss : list gcol) (data : list obs) (c : cset).
Notation s := (cs_gen c).
Hypothesis sorts : forall l, is_argsort l (argsort l).
Hypothesis exact : exact_qp solver.
Hypothesis complete : complete_qp solver.
Hypothesis nl_pos : (0 < nl)%nat.
Hypothesis nk_pos : (0 < nk)%nat.
Hypothesis cts_one : Forall (fun c => gc_n c = 1%nat) ctss.
Hypothesis D : ctl_data nk cats ctss data s.
Hypothesis V : all_valid s nl nk (cats ++ ctss).
Hypothesis lb : 0 < p_lb s.
Hypothesis updates : cs_a c = true -> cs_s c = true.
Hypothesis prior : cs_pk1 c = true -> 1 <= cs_prior c /\ all_pairs nk data.

Notation good p := (ctl_par nl nk cats ctss s p).
Notation blocks := (blocks cats ctss).

Lemma rows o : In o data -> data_ok nk o /\ 0 < w1 o /\ 0 < w2 o.
Proof. exact (row_ok nk cats ctss data s D o). Qed.

Lemma good_shapes p : good p -> shapes_ok p.
Proof.
  intros (K & _). destruct (K false) as (a1 & s1 & x1 & z1). destruct (K true) as (a2 & s2 & x2 & z2).
  apply F2_length in a1, s1, x1, z1, a2, s2, x2, z2. cbn [Acatp Scatp Actsp Sctsp] in *.
  unfold shapes_ok. repeat split; congruence.
Qed.
Lemma good_movers p : good p -> Forall (mover_ok nl nk p) data.
Proof.
  intros (_ & Hs & Hp). apply Forall_forall. intros o Ho. destruct (rows o Ho) as (Hd & _).
  split; [exact Hd|]. intros l Hl. destruct Hd as [d1 d2]. split; [now apply Hp|].
  split; [apply (Hs Firm false l (g1 o))|apply (Hs Firm true l (g2 o))]; auto; now left.
Qed.
Lemma pk_pos p o l : good p -> In o data -> (l < nl)%nat -> 0 < pk1 p (KK nk o) l.
Proof. intros (_ & _ & Hp) Ho Hl. destruct (rows o Ho) as ([d1 d2] & _). now apply Hp. Qed.
Lemma bayes_pos p o l : good p -> In o data -> (l < nl)%nat -> 0 < bayes nl nk p o l.
Proof.
  intros G Ho Hl. apply (q_pos (KK nk) (mover_density p) nl (pk1 p) data); auto.
  - intros; apply density_pos.
  - intros; now apply pk_pos.
Qed.
Lemma bayes_one p o : good p -> In o data -> sumn nl (bayes nl nk p o) = 1.
Proof.
  intros G Ho. apply (q_one (KK nk) (mover_density p) nl (pk1 p) data); auto.
  - intros; apply density_pos.
  - intros; now apply pk_pos.
Qed.
Definition post (p : par) : list (list R) := map (fun o => map (bayes nl nk p o) (range nl)) data.
Lemma post_ok p : good p -> posteriors_ok nl data (post p).
Proof.
  intros G. split; [apply map_length|]. apply Forall_forall. intros row Hr.
  apply in_map_iff in Hr as (o & <- & Ho). split; [now rewrite map_length, length_range|].
  split; [|now apply bayes_one]. intros x Hx. apply in_map_iff in Hx as (l & <- & Hl).
  apply in_seq in Hl. apply Rlt_le, bayes_pos; auto. lia.
Qed.

Lemma pk_done p : good p -> cs_pk1 c = true ->
  exists pk, update_pk1 nl nk (cs_prior c) data (post p) = Ok pk /\ good (set_pk1 pk p) /\
    pk1_done nl nk data c p (set_pk1 pk p).
Proof.
  intros G Hu. destruct (prior Hu) as [Hd Hp].
  assert (Hok : Forall (data_ok nk) data) by (apply Forall_forall; intros o Ho; apply (rows o Ho)).
  assert (Hw : forall o, In o data -> 0 < w1 o /\ 0 < w2 o) by (intros o Ho; apply (rows o Ho)).
  destruct (update_pk1_ok nl nk (cs_prior c) data (post p) nl_pos nk_pos Hd Hok Hw (post_ok p G) Hp)
    as (pk & E & H).
  exists pk. split; [exact E|].
  set (sh := fun k1 k2 => share (moves k1 k2) (fun o => sqrt (w1 o * w2 o)) (cs_prior c) data (post p)) in *.
  assert (shp : forall k1 k2 l, (k1 < nk)%nat -> (k2 < nk)%nat -> (l < nl)%nat -> 0 < sh k1 k2 l).
  { intros k1 k2 l H1 H2 Hl. unfold sh, share, post. rewrite map2_map_r.
    assert (Z : rsum (map (fun o => if moves k1 k2 o
        then sqrt (w1 o * w2 o) * (nth l (map (bayes nl nk p o) (range nl)) 0 + cs_prior c - 1) else 0) data)
      = rsum (map (fun o => if (KK nk o =? k1 + nk * k2)%nat
        then sqrt (w1 o * w2 o) * (bayes nl nk p o l + cs_prior c - 1) else 0) data)).
    { apply rsum_map_ext. intros o Ho. rewrite (KK_moves nk o k1 k2) by (auto; apply (rows o Ho)).
      destruct (moves k1 k2 o); [|reflexivity].
      rewrite (nth_map_in _ _ _ 0%nat) by (now rewrite length_range). now rewrite nth_range. }
    rewrite Z. apply (weight_pos (KK nk) (fun o => sqrt (w1 o * w2 o) * (bayes nl nk p o l + cs_prior c - 1))).
    - intros o Ho. destruct (Hw o Ho). apply Rmult_lt_0_compat; [apply sqrt_lt_R0; now apply Rmult_lt_0_compat|].
      pose proof (bayes_pos p o l G Ho Hl). lra.
    - destruct (Hp k1 k2 H1 H2) as (o & Ho & E1 & E2). exists o. split; [exact Ho|]. unfold KK. now rewrite E1, E2. }
  assert (sp : forall k1 k2, (k1 < nk)%nat -> (k2 < nk)%nat -> 0 < sumn nl (sh k1 k2)).
  { intros k1 k2 H1 H2. apply sumn_pos; auto. }
  split.
  - destruct G as (K & Hs & Hpk). split; [intros t; destruct t; [exact (K true)|exact (K false)]|]. split.
    + intros b t l n Hb Hl Hn. specialize (Hs b t l n Hb Hl Hn). destruct b, t; exact Hs.
    + intros k1 k2 l H1 H2 Hl. cbn [pk1 set_pk1]. destruct (H k1 k2 H1 H2) as [_ ->]; [|exact Hl].
      apply Rdiv_lt_0_compat; [now apply shp|now apply sp].
  - exists pk. split; [reflexivity|]. intros k1 k2 l H1 H2 Hl. now apply H.
Qed.

(* One iteration, with the constraints for the lowest firm type k0. *)
Lemma gen_ok k0 : (k0 < nk)%nat -> exists qa qs cols, gen_all s nl nk cats ctss k0 = Ok (qa, qs, cols) /\
  (forall x, accepts qa x <-> okA nl nk cats ctss s Firm k0 x) /\
  (forall x, accepts qs x <-> okV nl nk cats ctss s Firm x) /\
  Forall2 (col_spec s nl) (cats ++ ctss) cols.
Proof.
  intros Hk. destruct (gen_meaning s nl nk cats ctss k0 Hk nl_pos V) as (qa & qs & cols & E & Ha & Hs & Hc).
  exists qa, qs, cols. split; [exact E|]. split; [|split; [|exact Hc]]; intros x.
  - rewrite Ha. unfold okA. cbn. split.
    + intros [H1 H2]. split; [exact H1|]. split; [discriminate|]. intros _. exact H2.
    + intros (H1 & _ & H2). split; [exact H1|]. now apply H2.
  - rewrite Hs. unfold okV. cbn. split.
    + intros [H1 H2]. split; [exact H1|]. split; [exact H2|discriminate].
    + intros (H1 & H2 & _). now split.
Qed.

Lemma sums_pk pk p : start_sums data (set_pk1 pk p) = start_sums data p.
Proof. apply functional_extensionality. intros []; reflexivity. Qed.
Lemma adj_pk pk p : adj data (set_pk1 pk p) = adj data p.
Proof. apply functional_extensionality. intros []; reflexivity. Qed.

Lemma step_ok k0 cons p : (k0 < nk)%nat -> gen_all s nl nk cats ctss k0 = Ok cons -> good p ->
  exists p1 p', (if cs_pk1 c then pk <- update_pk1 nl nk (cs_prior c) data (post p) ;; Ok (set_pk1 pk p) else Ok p) = Ok p1 /\
    m_step_ctl solver nl nk cats ctss data c (post p) cons p1 (adj data p) (start_sums data p)
      = Ok (p', adj data p', start_sums data p') /\ good p' /\
    (forall k, (cs_a c = true -> k = k0) -> iteration nl nk cats ctss data s c k p p').
Proof.
  intros Hk Hc G. pose proof (pk_done p G) as PD.
  assert (P1 : exists p1, (if cs_pk1 c then pk <- update_pk1 nl nk (cs_prior c) data (post p) ;; Ok (set_pk1 pk p)
      else Ok p) = Ok p1 /\ good p1 /\ (if cs_pk1 c then pk1_done nl nk data c p p1 else p1 = p) /\
      adj data p1 = adj data p /\ start_sums data p1 = start_sums data p).
  { destruct (cs_pk1 c).
    - destruct (PD eq_refl) as (pk & -> & G1 & Hd). exists (set_pk1 pk p). cbn [bind].
      split; [reflexivity|]. split; [exact G1|]. split; [exact Hd|]. split; [apply adj_pk|apply sums_pk].
    - exists p. repeat (split; [solve [reflexivity|assumption]|]). reflexivity. }
  destruct P1 as (p1 & E1 & G1 & Hpk & Ea & Es).
  destruct (gen_ok k0 Hk) as (qa & qs & cols & E & Hqa & Hqs & HC). rewrite Hc in E. injection E as ->.
  destruct G1 as (K1 & S1 & X1).
  destruct (m_step_ok solver nl nk cats ctss data s exact complete nl_pos nk_pos cts_one D V (bayes nl nk p)
      (fun o l Ho Hl => Rlt_le _ _ (bayes_pos p o l G Ho Hl)) c k0 Hk qa qs cols p1 K1 S1 lb updates Hqa Hqs HC)
    as (p' & p2 & Em & HA & HS & K' & S' & X').
  exists p1, p'. split; [exact E1|]. rewrite Ea, Es in Em. split; [exact Em|]. split.
  { split; [exact K'|]. split; [exact S'|]. intros k1 k2 l H1 H2 Hl. rewrite X'. now apply X1. }
  intros k Hk'. exists p1, p2. split; [exact Hpk|]. split.
  2:{ destruct (cs_s c); [|exact HS]. destruct HS as [HS1 HS2]. split; [exact HS1|]. split; [|exact HS2].
      intros t. destruct (K' t) as (_ & k2 & _ & k4). now split. }
  destruct (cs_a c); [|exact HA]. now rewrite (Hk' eq_refl).
Qed.

(* ---- the loop ---- *)
Definition rec_from (iter : nat) (ps : list par) : list R :=
  map (fun ip => recorded_lik nl nk data c (fst ip) (snd ip)) (combine (seq iter (length ps)) ps).

Lemma settled_snoc l a ks k : length l = length ks ->
  (settled c (l ++ [a]) (ks ++ [k]) <->
   (converged (cs_threshold c) a (last_lik l) && (k =? last ks 0)%nat)%bool = true).
Proof.
  intros Hl. unfold settled, last_lik. split.
  - intros ((l0 & x & b & E & H) & (k0 & y & E2)).
    replace (l0 ++ [x; b]) with ((l0 ++ [x]) ++ [b]) in E by (rewrite <- app_assoc; reflexivity).
    replace (k0 ++ [y; y]) with ((k0 ++ [y]) ++ [y]) in E2 by (rewrite <- app_assoc; reflexivity).
    apply app_inj_tail in E as [-> <-]. apply app_inj_tail in E2 as [-> <-].
    rewrite !last_last, Nat.eqb_refl, andb_true_r.
    destruct (l0 ++ [x]) eqn:E0; [destruct l0; discriminate|]. unfold converged.
    destruct (Rlt_dec (Rabs (a - x)) (cs_threshold c)); [reflexivity|contradiction].
  - intros E. apply andb_true_iff in E as [E1 E2]. apply Nat.eqb_eq in E2. destruct l as [|b l]; [discriminate|].
    destruct ks as [|kb ks]; [discriminate|]. unfold converged in E1.
    destruct (Rlt_dec _ _) as [L|L]; [|discriminate]. split.
    + exists (removelast (b :: l)), (last (b :: l) 0), a. split; [|exact L].
      rewrite (app_removelast_last 0 (l := b :: l)) at 1 by discriminate. now rewrite <- app_assoc.
    + exists (removelast (kb :: ks)), k. rewrite (app_removelast_last 0%nat (l := kb :: ks)) at 1 by discriminate.
      rewrite <- app_assoc. cbn [app]. now rewrite <- E2.
Qed.

(* ---- the cycle check ---- *)
Definition lastn (n : nat) (l : list nat) : list nat := skipn (length l - n) l.
Lemma all_change_spec l : all_change l = true <-> forall i, (S i < length l)%nat -> nth i l 0%nat <> nth (S i) l 0%nat.
Proof.
  induction l as [|a [|b l] IH].
  - split; [intros _ i H; cbn in H; lia|reflexivity].
  - split; [intros _ i H; cbn in H; lia|reflexivity].
  - change (all_change (a :: b :: l)) with (negb (a =? b)%nat && all_change (b :: l))%bool.
    rewrite andb_true_iff, IH, negb_true_iff, Nat.eqb_neq. split.
    + intros [H1 H2] [|i] Hi; [exact H1|]. apply (H2 i). cbn [length] in *. lia.
    + intros H. split; [apply (H 0%nat); cbn; lia|]. intros i Hi. apply (H (S i)). cbn [length] in *. lia.
Qed.
Lemma skipn_1 m (l : list nat) : skipn (1 + m) l = tl (skipn m l).
Proof. revert l. induction m as [|m IH]; intros [|a l]; try reflexivity. exact (IH l). Qed.
Lemma lastn_snoc n l a : (1 <= n)%nat ->
  lastn n (l ++ [a]) = if (n <? length (lastn n l ++ [a]))%nat then tl (lastn n l ++ [a]) else lastn n l ++ [a].
Proof.
  intros Hn. unfold lastn. rewrite !app_length, skipn_length. cbn [length].
  destruct (le_lt_dec n (length l)) as [H|H].
  - replace (n <? length l - (length l - n) + 1)%nat with true by (symmetry; apply Nat.ltb_lt; lia).
    rewrite skipn_app. replace (length l + 1 - n - length l)%nat with 0%nat by lia. cbn [skipn].
    replace (length l + 1 - n)%nat with (1 + (length l - n))%nat by lia.
    rewrite skipn_1. destruct (skipn (length l - n) l) as [|b t] eqn:E; [|reflexivity].
    exfalso. apply (f_equal (@length nat)) in E. rewrite skipn_length in E. cbn in E. lia.
  - replace (n <? length l - (length l - n) + 1)%nat with false by (symmetry; apply Nat.ltb_ge; lia).
    replace (length l - n)%nat with 0%nat by lia. replace (length l + 1 - n)%nat with 0%nat by lia. reflexivity.
Qed.
Lemma skipn_snoc n (l : list nat) a : (n <= length l)%nat -> skipn n (l ++ [a]) = skipn n l ++ [a].
Proof. intros H. rewrite skipn_app. now replace (n - length l)%nat with 0%nat by lia. Qed.

Lemma cycling_spec ks : (1 <= cs_obs c)%nat -> cats <> [] -> p_force s = false ->
  (cycling cats s c ks <-> (cs_obs c <= length (lastn (cs_obs c) (skipn (cs_start c) ks)))%nat /\
                           all_change (lastn (cs_obs c) (skipn (cs_start c) ks)) = true).
Proof.
  intros Ho Hc Hf. unfold cycling, lastn. rewrite !skipn_length. split.
  - intros (_ & _ & k0 & r & -> & Hr & Hk & H).
    rewrite !app_length. split; [lia|].
    replace (skipn (length k0 + length r - cs_start c - cs_obs c) (skipn (cs_start c) (k0 ++ r))) with r.
    { now apply all_change_spec. }
    rewrite (skipn_app (cs_start c)). replace (cs_start c - length k0)%nat with 0%nat by lia. cbn [skipn].
    rewrite skipn_app, skipn_length.
    replace (length k0 + length r - cs_start c - cs_obs c - (length k0 - cs_start c))%nat with 0%nat by lia. cbn [skipn].
    rewrite skipn_all2; [reflexivity|]. rewrite skipn_length. lia.
  - intros [H1 H2]. split; [exact Hc|]. split; [exact Hf|].
    set (m := (length ks - cs_start c - cs_obs c)%nat) in *.
    exists (firstn (cs_start c) ks ++ firstn m (skipn (cs_start c) ks)), (skipn m (skipn (cs_start c) ks)).
    split; [now rewrite <- app_assoc, !firstn_skipn|]. split; [rewrite !skipn_length; lia|].
    split; [rewrite app_length, !firstn_length, skipn_length; lia|]. now apply all_change_spec.
Qed.

Lemma cycle_ok iter mn seen ks seen' st : cycle_check cats c iter mn seen = (seen', st) ->
  (1 <= cs_obs c)%nat -> length ks = iter ->
  (cats <> [] -> p_force s = false -> seen = lastn (cs_obs c) (skipn (cs_start c) ks)) ->
  (cats <> [] -> p_force s = false -> seen' = lastn (cs_obs c) (skipn (cs_start c) (ks ++ [mn]))) /\
  (cycling cats s c (ks ++ [mn]) <-> st = true).
Proof.
  intros E Ho Hi Hs. unfold cycle_check in E.
  destruct (length cats) as [|nc] eqn:Ec.
  { apply length_zero_iff_nil in Ec. cbn in E. injection E as <- <-. split; [congruence|].
    split; [intros (H & _); congruence|discriminate]. }
  assert (Hc : cats <> []) by (intros H; rewrite H in Ec; discriminate).
  destruct (p_force s) eqn:Ef.
  { rewrite andb_false_r in E. injection E as <- <-. split; [congruence|].
    split; [intros (_ & H & _); congruence|discriminate]. }
  specialize (Hs Hc eq_refl). rewrite (cycling_spec _ Ho Hc Ef).
  change (0 <? S nc)%nat with true in E. cbn [andb negb] in E. rewrite andb_true_r in E.
  destruct (cs_start c <=? iter)%nat eqn:Es.
  - apply Nat.leb_le in Es. rewrite skipn_snoc by lia. rewrite lastn_snoc by exact Ho. rewrite <- Hs.
    destruct (cs_obs c <=? length (seen ++ [mn]))%nat eqn:El.
    + injection E as <- <-. apply Nat.leb_le in El. split; [auto|]. split; [tauto|]. intros H. split; [|exact H].
      destruct (cs_obs c <? length (seen ++ [mn]))%nat eqn:E2; [|exact El]. apply Nat.ltb_lt in E2.
      destruct (seen ++ [mn]); cbn [tl length] in *; lia.
    + injection E as <- <-. apply Nat.leb_gt in El.
      replace (cs_obs c <? length (seen ++ [mn]))%nat with false by (symmetry; apply Nat.ltb_ge; lia).
      split; [auto|]. split; [lia|discriminate].
  - injection E as <- <-. apply Nat.leb_gt in Es. rewrite (skipn_all2 ks) in Hs by lia.
    rewrite skipn_all2 by (rewrite app_length; cbn; lia). split; [auto|]. split; [cbn; lia|discriminate].
Qed.

Lemma loop_ok k : (p_force s = true -> (k < nk)%nat) ->
  forall n iter cons p prev pm seen lik liks ks, good p ->
  (p_force s = true -> pm = k) ->
  (exists k0, (k0 < nk)%nat /\ gen_all s nl nk cats ctss k0 = Ok cons /\
              (iter = 0%nat -> k0 = if p_force s then k else min_firm_type argsort (p_primary s) nl nk (A1 p) (A2 p))) ->
  prev = last_lik liks -> length liks = length ks -> (liks <> [] -> pm = last ks 0%nat) ->
  length ks = iter ->
  ((1 <= cs_obs c)%nat -> cats <> [] -> p_force s = false -> seen = lastn (cs_obs c) (skipn (cs_start c) ks)) ->
  ctl_loop argsort solver nl nk cats ctss data n c iter cons p (adj data p) (start_sums data p) prev pm seen lik liks
    = Ok Stuck /\ p_force s = false /\ cats <> [] /\
    (exists qs pn, path nl nk cats ctss data s c k true p qs pn /\ (length qs <= n)%nat /\
      forall q1 q2, qs = q1 ++ q2 -> q1 <> [] ->
        ~ settled c (liks ++ rec_from iter (map fst q1)) (ks ++ map snd q1) /\
        ((1 <= cs_obs c)%nat -> (cycling cats s c (ks ++ map snd q1) <-> q2 = []))) \/
  exists p' lik' qs (stop : bool),
    ctl_loop argsort solver nl nk cats ctss data n c iter cons p (adj data p) (start_sums data p) prev pm seen lik liks
    = Ok (Finished p' lik' (liks ++ rec_from iter (map fst qs))) /\ good p' /\
    path nl nk cats ctss data s c k stop p qs p' /\ (length qs <= n)%nat /\ (stop = false -> length qs = n) /\
    lik' = match rec_from iter (map fst qs) with [] => lik | l => Some (last l 0) end /\
    forall q1 q2, qs = q1 ++ q2 -> q1 <> [] ->
      (settled c (liks ++ rec_from iter (map fst q1)) (ks ++ map snd q1) <-> q2 = [] /\ stop = true) /\
      ((1 <= cs_obs c)%nat -> cycling cats s c (ks ++ map snd q1) -> q2 = [] /\ stop = true).
Proof.
  intros Hk. induction n as [|n IH];
    intros iter cons p prev pm seen lik liks ks G Hpm (k0 & Hk0 & Hg & Hi) Hprev Hlen Hlast Hiter Hseen.
  - right. exists p, lik, [], false. cbn [ctl_loop]. unfold rec_from. cbn. rewrite app_nil_r.
    split; [reflexivity|]. split; [exact G|]. split; [split; reflexivity|]. split; [lia|]. split; [reflexivity|].
    split; [reflexivity|]. intros q1 q2 E Hq. destruct q1; [congruence|discriminate].
  - cbn [ctl_loop]. rewrite e_step_eq.
    pose proof (movers_likelihood nl nk p data nl_pos (good_shapes p G) (good_movers p G)) as EL.
    pose proof (movers_posteriors nl nk p data nl_pos (good_shapes p G) (good_movers p G)) as EQ.
    destruct (lp_movers nl nk p data) as [lp|e]; [|discriminate]. cbn [bind] in EL, EQ |- *.
    rewrite EL, EQ. cbn [bind].
    change (map (fun o => map (fun l => pk1 p (g1 o + nk * g2 o)%nat l * mover_density p o l
          / mixture nl (pk1 p (g1 o + nk * g2 o)%nat) (mover_density p o)) (range nl)) data)
        with (post p).
    assert (Elik : (if (0 <? iter)%nat && cs_pk1 c
       then movers_loglik nl nk p data + lik_prior (cs_prior c) (nk * nk) nl (pk1 p)
       else movers_loglik nl nk p data)%bool = recorded_lik nl nk data c iter p).
    { unfold recorded_lik, lik_prior. destruct ((0 <? iter)%nat && cs_pk1 c)%bool; lra. }
    rewrite Elik. set (lik1 := recorded_lik nl nk data c iter p).
    set (mn := if p_force s then pm else min_firm_type argsort (p_primary s) nl nk (A1 p) (A2 p)).
    assert (Hmn : low nl nk s k p mn).
    { unfold low, mn. destruct (p_force s); [now apply Hpm|]. now apply min_firm_type_lowest. }
    assert (Lmn : (mn < nk)%nat).
    { unfold low in Hmn. destruct (p_force s); [rewrite Hmn; auto|apply Hmn]. }
    assert (Hset : settled c (liks ++ [lik1]) (ks ++ [mn]) <->
                   (converged (cs_threshold c) lik1 prev && (mn =? pm)%nat)%bool = true).
    { rewrite (settled_snoc liks lik1 ks mn Hlen), Hprev. destruct liks as [|b liks]; [reflexivity|].
      rewrite Hlast by discriminate. reflexivity. }
    destruct (converged (cs_threshold c) lik1 prev && (mn =? pm)%nat)%bool eqn:Ec.
    + right. exists p, (Some lik1), [(p, mn)], true. unfold rec_from. cbn [map fst length seq combine snd]. fold lik1.
      split; [reflexivity|]. split; [exact G|].
      split; [cbn [path]; split; [reflexivity|]; split; [exact Hmn|]; left; auto|]. split; [lia|].
      split; [discriminate|]. split; [reflexivity|]. intros q1 q2 E Hq. destruct q1 as [|x [|y q1]]; [congruence| |discriminate].
      injection E as <- <-. cbn [map fst length seq combine snd]. fold lik1. rewrite Hset. tauto.
    + destruct (cycle_check cats c iter mn seen) as [seen' st] eqn:Ecy.
      pose proof (fun H => cycle_ok iter mn seen ks seen' st Ecy H Hiter (Hseen H)) as Hcy.
      destruct st.
      { left. split; [reflexivity|]. unfold cycle_check in Ecy.
        destruct ((0 <? length cats)%nat && (cs_start c <=? iter)%nat && negb (p_force s))%bool eqn:Eb;
          [|injection Ecy; discriminate].
        apply andb_true_iff in Eb as [Eb1 Eb2]. apply andb_true_iff in Eb1 as [Eb1 _].
        split; [now destruct (p_force s)|]. split; [destruct cats; [discriminate|discriminate]|].
        exists [(p, mn)], p. split; [cbn [path]; split; [reflexivity|]; split; [exact Hmn|]; left; auto|].
        split; [cbn; lia|]. intros q1 q2 E Hq. destruct q1 as [|x [|y q1]]; [congruence| |discriminate].
        injection E as <- <-. unfold rec_from. cbn [map fst length seq combine snd]. fold lik1. rewrite Hset.
        split; [discriminate|]. intros Ho. destruct (Hcy Ho) as [_ Hc]. rewrite Hc. tauto. }
      assert (Hc : exists k1 cons', (k1 < nk)%nat /\ (if (cs_a c && (0 <? iter)%nat)%bool
          then gen_all s nl nk cats ctss mn else Ok cons) = Ok cons' /\ gen_all s nl nk cats ctss k1 = Ok cons' /\
          (cs_a c = true -> mn = k1)).
      { destruct (cs_a c) eqn:Ea; cbn [andb].
        - destruct (0 <? iter)%nat eqn:E0.
          + destruct (gen_ok mn Lmn) as (qa & qs & cols & E & _). exists mn, (qa, qs, cols). auto.
          + apply Nat.ltb_ge in E0. exists k0, cons. split; [exact Hk0|]. split; [reflexivity|].
            split; [exact Hg|]. intros _. rewrite Hi by lia. unfold mn.
            destruct (p_force s); auto.
        - exists k0, cons. split; [exact Hk0|]. split; [reflexivity|]. split; [exact Hg|discriminate]. }
      destruct Hc as (k1 & cons' & Hk1 & Ecn & Hg' & Hm).
      destruct (step_ok k1 cons' p Hk1 Hg' G) as (p1 & p2 & E1 & E2 & G2 & It).
      rewrite E1. cbn [bind]. rewrite Ecn. cbn [bind]. rewrite E2. cbn [bind].
      specialize (IH (S iter) cons' p2 (Some lik1) mn seen' (Some lik1) (liks ++ [lik1]) (ks ++ [mn]) G2).
      destruct IH as [IH|(p' & lik' & qs & stop & E & G' & Pa & Hl & Hne & El & Hst)].
      { intros Hf. unfold mn. rewrite Hf. now apply Hpm. }
      { exists k1. split; [exact Hk1|]. split; [exact Hg'|discriminate]. }
      { unfold last_lik. rewrite last_last. destruct liks; reflexivity. }
      { rewrite !app_length. cbn [length]. lia. }
      { intros _. now rewrite last_last. }
      { rewrite app_length. cbn [length]. lia. }
      { intros Ho. apply (Hcy Ho). }
      { left. destruct IH as (E & Hf & Hcs & qs & pn & Pa & Hl & Hst). split; [exact E|]. split; [exact Hf|].
        split; [exact Hcs|]. exists ((p, mn) :: qs), pn. split.
        { cbn [path]. split; [reflexivity|]. split; [exact Hmn|]. right. exists p2. split; [now apply It|exact Pa]. }
        split; [cbn [length]; lia|]. intros q1 q2 Eq Hq. destruct q1 as [|x q1]; [congruence|]. injection Eq as <- Eq.
        cbn [map snd]. destruct q1 as [|y q1].
        - unfold rec_from. cbn [map fst length seq combine snd]. fold lik1. rewrite Hset. split; [discriminate|].
          intros Ho. destruct (Hcy Ho) as [_ Hc]. rewrite Hc. split; [discriminate|]. intros ->. cbn [app] in Eq. subst qs.
          destruct Pa as [Pa _]. discriminate.
        - specialize (Hst (y :: q1) q2 Eq). rewrite <- !app_assoc in Hst. apply Hst. discriminate. }
      right. exists p', lik', ((p, mn) :: qs), stop.
      assert (Er : forall q1 : list (par * nat), rec_from iter (map fst ((p, mn) :: q1)) = lik1 :: rec_from (S iter) (map fst q1))
        by reflexivity.
      rewrite Er, E, <- !app_assoc. split; [reflexivity|]. split; [exact G'|]. split.
      { cbn [path]. split; [reflexivity|]. split; [exact Hmn|]. right. exists p2. split; [|exact Pa].
        now apply It. }
      split; [cbn [length]; lia|]. split; [intros Hs; cbn [length]; now rewrite Hne|]. split.
      { rewrite El. destruct (rec_from (S iter) (map fst qs)); reflexivity. }
      intros q1 q2 Eq Hq. destruct q1 as [|x q1]; [congruence|]. injection Eq as <- Eq. rewrite Er. cbn [map snd].
      destruct q1 as [|y q1].
      * cbn [map rec_from length seq combine]. unfold rec_from. cbn [map length seq combine]. rewrite Hset.
        split.
        { split; [discriminate|]. intros [-> ->]. cbn [app] in Eq. subst qs. destruct Pa as [Pa _]. discriminate. }
        intros Ho. destruct (Hcy Ho) as [_ Hc]. rewrite Hc. discriminate.
      * specialize (Hst (y :: q1) q2 Eq). rewrite <- !app_assoc in Hst. apply Hst. discriminate.
Qed.

(* ---- the start and the result ---- *)
Lemma codes_true : codes_ok cats data = true.
Proof.
  unfold codes_ok. apply forallb_forall. intros [j col] Hj. apply forallb_forall. intros o Ho. cbn [fst snd].
  unfold enumerate in Hj. pose proof (in_combine_l _ _ _ _ Hj) as Hl. apply in_seq in Hl.
  assert (Ec : nth j cats (mkgcol 0 true None None) = col).
  { apply In_nth with (d := (0%nat, mkgcol 0 true None None)) in Hj as (i & Hi & E).
    rewrite combine_length, seq_length, Nat.min_id in Hi.
    rewrite combine_nth in E by apply seq_length. rewrite seq_nth in E by exact Hi. injection E as <- <-. reflexivity. }
  destruct D as (_ & _ & H).
  destruct (H j false) as [H1 _]; [lia|]. destruct (H j true) as [H2 _]; [lia|].
  specialize (H1 o Ho). specialize (H2 o Ho). cbn in H1, H2. rewrite Ec in H1, H2.
  unfold code, cp. apply andb_true_iff. split; apply Nat.ltb_lt; assumption.
Qed.

Lemma rel_lt f n i : relabelling n f -> (i < n)%nat -> (f i < n)%nat.
Proof.
  intros H Hi. assert (X : In (f i) (range n)).
  { eapply Permutation.Permutation_in; [exact H|]. apply in_map. apply in_seq. lia. }
  apply in_seq in X. lia.
Qed.

Lemma kind_rel {A} (sg : nat -> nat) (cs : list gcol) (P : gcol -> A -> Prop) (Q : A -> A -> Prop) l l' :
  (forall col a a', P col a -> Q a a' -> P col a') -> Forall2 P cs l -> Forall2 Q l l' -> Forall2 P cs l'.
Proof.
  intros H F. revert l'. induction F as [|col a cs l Ha F IH]; intros l' F'; inversion F'; subst; constructor; eauto.
Qed.
Lemma cat_kind_rel sg col a a' : cat_kind col a -> cat_relabelled nl sg a a' -> cat_kind col a'.
Proof. destruct a, a'; cbn; auto; contradiction. Qed.
Lemma cts_kind_rel sg col a a' : cts_kind col a -> cts_relabelled nl sg a a' -> cts_kind col a'.
Proof. destruct a, a'; cbn; auto; contradiction. Qed.

Lemma relabelled_good p p' sg t : relabelling nl sg -> (forall k, t k = k) -> relabelled nl nk sg t p p' ->
  good p -> good p'.
Proof.
  intros R1 Ht Hr (K & Hs & Hp).
  assert (Hl : forall l, (l < nl)%nat -> (sg l < nl)%nat) by (intros; now apply rel_lt).
  assert (K' : forall t, Forall2 cat_kind cats (Acatp t p') /\ Forall2 cat_kind cats (Scatp t p') /\
             Forall2 cts_kind ctss (Actsp t p') /\ Forall2 cts_kind ctss (Sctsp t p')).
  { intros t0. destruct (K t0) as (a1 & a2 & a3 & a4).
    split; [|split; [|split]].
    - apply (kind_rel sg _ _ (cat_relabelled nl sg) _ _ (cat_kind_rel sg) a1). destruct t0; apply Hr.
    - apply (kind_rel sg _ _ (cat_relabelled nl sg) _ _ (cat_kind_rel sg) a2). destruct t0; apply Hr.
    - apply (kind_rel sg _ _ (cts_relabelled nl sg) _ _ (cts_kind_rel sg) a3). destruct t0; apply Hr.
    - apply (kind_rel sg _ _ (cts_relabelled nl sg) _ _ (cts_kind_rel sg) a4). destruct t0; apply Hr. }
  split; [exact K'|]. split.
  - intros b t0 l n Hb Hll Hn. destruct b as [|j|j].
    + pose proof (Hs Firm t0 (sg l) n Hb (Hl l Hll) Hn) as X. cbn in Hn, X. change (0 < Sp t0 p' l n).
      destruct (r_S _ _ _ _ _ _ Hr l n Hll Hn) as [X1 X2]. rewrite Ht in X1, X2.
      destruct t0; cbn [Sp] in X |- *; [rewrite X2|rewrite X1]; exact X.
    + pose proof (Hs (Cat j) t0 (sg l) n Hb (Hl l Hll) Hn) as X. cbn [sd] in X |- *.
      apply (in_cat nl nk cats ctss nl_pos nk_pos) in Hb.
      assert (F : Forall2 (cat_relabelled nl sg) (Scatp t0 p) (Scatp t0 p')) by (destruct t0; apply Hr).
      destruct (K t0) as (_ & a2 & _). apply F2_length in a2.
      pose proof (Forall2_at _ _ _ j (Shared (fun _ => 0)) (Shared (fun _ => 0)) F) as Y.
      destruct (nth j (Scatp t0 p) (Shared (fun _ => 0))), (nth j (Scatp t0 p') (Shared (fun _ => 0)));
        cbn in X, Y |- *; rewrite ?Y by (try exact Hll; congruence); try exact X; exfalso; apply Y; congruence.
    + pose proof (Hs (Cts j) t0 (sg l) n Hb (Hl l Hll) Hn) as X. cbn [sd] in X |- *.
      apply (in_cts nl nk cats ctss nl_pos nk_pos) in Hb.
      assert (F : Forall2 (cts_relabelled nl sg) (Sctsp t0 p) (Sctsp t0 p')) by (destruct t0; apply Hr).
      destruct (K t0) as (_ & _ & _ & a2). apply F2_length in a2.
      pose proof (Forall2_at _ _ _ j (XShared 0) (XShared 0) F) as Y.
      destruct (nth j (Sctsp t0 p) (XShared 0)), (nth j (Sctsp t0 p') (XShared 0));
        cbn in X, Y |- *; rewrite ?Y by (try exact Hll; congruence); try exact X; exfalso; apply Y; congruence.
  - intros k1 k2 l H1 H2 Hll. rewrite (r_pk1 _ _ _ _ _ _ Hr) by assumption. rewrite !Ht. apply Hp; auto.
Qed.
Lemma sorted_good p sf : sf = false -> good p -> good (sort_parameters argsort (p_primary s) nl nk sf false p).
Proof.
  intros -> G.
  destruct (sort_spec argsort sorts (p_primary s) nl nk false false p) as (sg & t & R1 & R2 & Ht & Hr & _).
  exact (relabelled_good _ _ sg t R1 (Ht eq_refl) Hr G).
Qed.
End Run.
