(* Control variables of simulated data: the statements of the properties. *)
From Verif Require Import Base BaseLemmas UtilModel UtilSpec BLMModel BLMEMModel BLMSpec BLMPropLemmas SimModel SimSpec
  SimParamLemmas SimPropLemmas SimCtlModel SimCtlSpec SimCtlLemmas.
From Coq Require Import Lra Lia.
Local Open Scope R_scope.

Section Gen.
Variable argsort : list R -> list nat.
Variable sort : list R -> list R.
Variables nl nk : nat.
Variables cats ctss : list scol.
Variables (o : topts) (a : four mat) (q1 q0 : mat) (dc : nat -> four mat) (dx : nat -> four (nat -> R)).
Variable p : par.
Hypothesis E : gen_params argsort sort nl nk cats ctss o a q1 q0 dc dx = Ok p.

Lemma cat_arr_at c m l i : cat_at l i (cat_arr c m) = cat_drawn c m l i.
Proof. unfold cat_arr, cat_drawn. now destruct (sc_wi c). Qed.
Lemma cts_arr_at c v l : cts_sd l (cts_arr c v) = cts_drawn c v l.
Proof. unfold cts_arr, cts_drawn. now destruct (sc_wi c). Qed.

Lemma cat_all j c : nth_error cats j = Some c -> exists a1 a2 s1 s2,
  cat_col p j a1 a2 s1 s2 /\
  (interacts_cat a1 = sc_wi c /\ interacts_cat a2 = sc_wi c /\ interacts_cat s1 = sc_wi c /\ interacts_cat s2 = sc_wi c) /\
  (forall l i, cat_at l i a1 = cat_drawn c (fA1 (dc j)) l i /\ cat_at l i s1 = cat_drawn c (fS1 (dc j)) l i) /\
  (forall l i, cat_at l i s2 = if sc_S c then cat_at l i s1 else cat_drawn c (fS2 (dc j)) l i) /\
  (sc_A c = true -> forall l i, (l < nl)%nat -> (i < sc_n c)%nat -> cat_at l i a2 = cat_at l i a1) /\
  (sc_A c = false -> sc_var c = false -> forall l i, cat_at l i a2 = cat_drawn c (fA2 (dc j)) l i).
Proof.
  intros Hj. destruct (gen_inv _ _ _ _ _ _ _ _ _ _ _ _ _ E) as (_ & G & _). destruct (G j c Hj) as (q & Gq & Hq).
  exists (fA1 q), (fA2 q), (fS1 q), (fS2 q). split; [exact Hq|].
  split; [exact (cat_interacts _ _ _ _ Gq)|]. destruct (cat_first _ _ _ _ Gq) as (F1 & F2 & F3).
  split; [|split; [|split]].
  - intros l i. rewrite F1, F2, !cat_arr_at. auto.
  - intros l i. rewrite F3. destruct (sc_S c); [reflexivity|apply cat_arr_at].
  - exact (cat_stat_A _ _ _ _ Gq).
  - intros H1 H2 l i. rewrite (cat_free _ _ _ _ Gq H1 H2). unfold cat_drawn. now destruct (sc_wi c).
Qed.

Lemma cat_var_all j c : nth_error cats j = Some c -> sc_var c = true -> (0 < sc_n c)%nat -> exists a1 a2 s1 s2,
  cat_col p j a1 a2 s1 s2 /\
  (sc_wi c = false \/ nl = 1%nat -> cat_same_variation nl (sc_n c) a1 a2) /\
  (sc_wi c = false -> sc_A c = false -> cat_mean (sc_n c) a2 = sumn (sc_n c) (fA2 (dc j) 0%nat) / INR (sc_n c)).
Proof.
  intros Hj Hv Hn. destruct (gen_inv _ _ _ _ _ _ _ _ _ _ _ _ _ E) as (_ & G & _). destruct (G j c Hj) as (q & Gq & Hq).
  exists (fA1 q), (fA2 q), (fS1 q), (fS2 q). split; [exact Hq|]. split.
  - intros [H|H]; [exact (proj1 (cat_vary _ _ _ _ Gq Hv H Hn))|exact (cat_one _ _ _ _ Gq H Hv)].
  - intros H1 H2. exact (proj2 (cat_vary _ _ _ _ Gq Hv H1 Hn) H2).
Qed.

Lemma cts_all j c : nth_error ctss j = Some c -> exists a1 a2 s1 s2,
  cts_col p j a1 a2 s1 s2 /\
  (interacts_cts a1 = sc_wi c /\ interacts_cts a2 = sc_wi c /\ interacts_cts s1 = sc_wi c /\ interacts_cts s2 = sc_wi c) /\
  (forall l, cts_sd l a1 = cts_drawn c (fA1 (dx j)) l /\ cts_sd l s1 = cts_drawn c (fS1 (dx j)) l) /\
  (forall l, cts_sd l s2 = if sc_S c then cts_sd l s1 else cts_drawn c (fS2 (dx j)) l) /\
  (sc_A c = true -> forall l, cts_sd l a2 = cts_sd l a1) /\
  (sc_A c = false -> sc_var c = false -> forall l, cts_sd l a2 = cts_drawn c (fA2 (dx j)) l) /\
  (sc_var c = true -> cts_same_variation nl a1 a2 /\
     (sc_A c = false -> (0 < nl)%nat ->
      sumn nl (fun l => cts_sd l a2) / INR nl = sumn nl (cts_drawn c (fA2 (dx j))) / INR nl)).
Proof.
  intros Hj. destruct (gen_inv _ _ _ _ _ _ _ _ _ _ _ _ _ E) as (_ & _ & G & _). pose proof (G j c Hj) as Hq. cbv zeta in Hq.
  set (q := gen_cts nl c (dx j)) in *.
  exists (fA1 q), (fA2 q), (fS1 q), (fS2 q). split; [exact Hq|].
  split; [apply cts_interacts|]. split; [|split; [|split; [|split]]].
  - intros l. unfold q, gen_cts. cbn [fA1 fS1]. now rewrite !cts_arr_at.
  - intros l. unfold q, gen_cts. cbn [fS1 fS2]. destruct (sc_S c); [reflexivity|]. apply cts_arr_at.
  - intros H l. now apply cts_stat_A.
  - intros H1 H2 l. unfold q. rewrite cts_free by assumption. unfold cts_drawn. now destruct (sc_wi c).
  - intros H. split; [now apply cts_vary|]. intros H1 H2. unfold cts_drawn. destruct (sc_wi c) eqn:W.
    + exact (proj2 (cts_vary nl c (dx j) H) H1 H2 W).
    + f_equal. apply sumn_ext. intros l _. unfold q, gen_cts. cbn [fA2]. rewrite H, H1. unfold cts_arr. rewrite W. cbn. lra.
Qed.

Lemma sq_all n j c : nth_error cats j = Some c -> nl = n -> sc_n c = n -> sc_wi c = true -> sc_A c = false -> sc_var c = true ->
  exists a1 a2 s1 s2, cat_col p j a1 a2 s1 s2 /\
  (cat_same_variation n n a1 a2 <->
   forall l l', (l < n)%nat -> (l' < n)%nat ->
     row_mean n (fA2 (dc j)) l - row_mean n (fA1 (dc j)) l = row_mean n (fA2 (dc j)) l' - row_mean n (fA1 (dc j)) l').
Proof.
  intros Hj En Hn Hw HA Hv. destruct (gen_inv _ _ _ _ _ _ _ _ _ _ _ _ _ E) as (_ & G & _). destruct (G j c Hj) as (q & Gq & Hq).
  rewrite En in Gq. exists (fA1 q), (fA2 q), (fS1 q), (fS2 q). split; [exact Hq|].
  exact (cat_square _ _ _ _ Gq Hn Hw HA Hv).
Qed.

Lemma gen_types : shapes_ok p /\ length (A1_cat p) = length cats /\ length (A1_cts p) = length ctss /\
  finish argsort sort nl nk (t_strict o) (t_A o) (t_S o) (t_var o) (fA1 a) (fA2 a) (fS1 a) (fS2 a)
    = Ok (A1 p, A2 p, S1 p, S2 p).
Proof. destruct (gen_inv _ _ _ _ _ _ _ _ _ _ _ _ _ E) as ((H1 & H2 & H3) & _ & _ & H4). auto. Qed.
End Gen.

(* Two worker types, a column with two categories: as drawn, the effects do not vary by category
   in either period. *)
Definition w_col : scol := mkscol 2 true false false true.
Definition w_plain : topts := mktopts false false false false.
Definition w_ones : four mat := mkfour (fun _ _ => 1) (fun _ _ => 1) (fun _ _ => 1) (fun _ _ => 1).
Definition w_draw : four mat :=
  mkfour (fun _ _ => 0) (fun l _ => INR l) (fun _ _ => 1) (fun _ _ => 1).

Lemma w_gen argsort sort q1 q0 dx : exists p a1 a2 s1 s2,
  gen_params argsort sort 2 2 [w_col] [] w_plain w_ones q1 q0 (fun _ => w_draw) dx = Ok p /\
  cat_col p 0 a1 a2 s1 s2 /\ ~ cat_same_variation 2 2 a1 a2.
Proof.
  unfold gen_params, finish. cbn -[sort_A].
  destruct (sort_A argsort sort 2 2 false (fun _ _ => 1) (fun _ _ => 1)) as [b1 b2].
  eexists. eexists. eexists. eexists. eexists. split; [reflexivity|]. split; [now cbn|].
  intros H. specialize (H 0%nat 0%nat 1%nat ltac:(lia) ltac:(lia) ltac:(lia)). cbn in H. unfold row_mean in H. cbn in H. lra.
Qed.

(* Three worker types and two firm types; one categorical column that interacts with worker
   type and has stationary means, one continuous column that does not. *)
Definition w_cats : list scol := [mkscol 2 true true false false].
Definition w_ctss : list scol := [mkscol 0 false false true false].
Definition w_cat : four mat := mkfour (fun l i => INR (l * i)) (fun _ _ => 7) (fun _ _ => 1) (fun _ _ => 2).
Definition w_cts : four (nat -> R) := mkfour (fun _ => 1) (fun _ => 2) (fun _ => 3) (fun _ => 4).
Definition w_cdraws : cdraws :=
  mkcdraws (fun r _ => r mod 2)%nat (fun r _ => (r + 1) mod 2)%nat (fun r _ => INR r) (fun r _ => 1) (fun _ => 1) (fun _ => 2).

Lemma ctl_case argsort sort q1 q0 : exists p jd sd,
  gen_params argsort sort 3 2 w_cats w_ctss w_plain w_ones q1 q0 (fun _ => w_cat) (fun _ => w_cts) = Ok p /\
  shapes_ok p /\ length (A1_cat p) = 1%nat /\ length (A1_cts p) = 1%nat /\
  simulate_ctl 2 (fun _ _ => 1%nat) (fun _ => 3%nat) p 1 1 sim_draws w_cdraws w_cdraws 3 = Ok (jd, sd) /\
  length jd = 4%nat /\ length sd = 6%nat.
Proof.
  destruct (gen_params argsort sort 3 2 w_cats w_ctss w_plain w_ones q1 q0 (fun _ => w_cat) (fun _ => w_cts)) as [p|e] eqn:G.
  2:{ exfalso. revert G. unfold gen_params, finish. cbn -[sort_A].
      destruct (sort_A argsort sort 3 2 false (fun _ _ => 1) (fun _ _ => 1)). discriminate. }
  destruct (gen_types _ _ _ _ _ _ _ _ _ _ _ _ _ G) as (H1 & H2 & H3 & _).
  exists p. unfold simulate_ctl.
  assert (X : exists jd0 sd0, simulate 2 (fun _ _ => 1%nat) (fun _ => 3%nat) (A1 p) (A2 p) (S1 p) (S2 p) sim_draws 3 = Ok (jd0, sd0)
     /\ length jd0 = 4%nat /\ length sd0 = 6%nat).
  { generalize (A1 p), (A2 p), (S1 p), (S2 p). intros a1 a2 s1 s2. eexists. eexists.
    split; [cbv -[INR Rplus Rmult IZR]; reflexivity|]. split; reflexivity. }
  destruct X as (jd0 & sd0 & X & L1 & L2). rewrite X. cbn [bind].
  eexists. eexists. split; [reflexivity|]. split; [exact H1|]. split; [exact H2|]. split; [exact H3|]. split; [reflexivity|].
  rewrite !length_map2; unfold range; rewrite !seq_length; auto.
Qed.
