(* Properties C109 and C110: control variables in data simulated by SimBLM. *)
From Verif Require Import Base UtilModel UtilSpec BLMModel BLMEMModel BLMSpec BLMPropLemmas SimModel SimSpec SimPropLemmas SimCtlModel SimCtlSpec
  SimCtlLemmas SimCtlPropLemmas.
Local Open Scope R_scope.

Section Run.
Variables nk : nat.
Variable cm : nat -> nat -> nat.
Variable cs : nat -> nat.
Variable p : par.

(* C109: with control variables the workers, firms, firm types and worker types are those of
   the same run without them (C46, C84 apply); each row has the control variables drawn for
   it; to each wage the effects and one shock are added, so that its mean and variance
   are those of the likelihood of BLMModel. *)
Theorem C109_rows g dm ds fuel jd sd : shapes_ok p ->
  simulate_ctl nk cm cs p (length (A1_cat p)) (length (A1_cts p)) g dm ds fuel = Ok (jd, sd) ->
  exists jd0 sd0, simulate nk cm cs (A1 p) (A2 p) (S1 p) (S2 p) g fuel = Ok (jd0, sd0) /\
    with_controls p (length (A1_cat p)) (length (A1_cts p)) dm jd jd0 /\
    with_controls p (length (A1_cat p)) (length (A1_cts p)) ds sd sd0.
Proof. exact (fun sh => run_ctl nk cm cs p sh g dm ds fuel jd sd). Qed.
End Run.

Section Gen.
Variable argsort : list R -> list nat.
Variable sort : list R -> list R.
Variables nl nk : nat.
Variables cats ctss : list scol.
Variables (o : topts) (a : four mat) (q1 q0 : mat) (dc : nat -> four mat) (dx : nat -> four (nat -> R)).
Let gen := gen_params argsort sort nl nk cats ctss o a q1 q0 dc dx.

(* C110: the returned parameters have the arrays of all columns; those of firm and worker
   types are as without control variables. *)
Theorem C110_shapes p : gen = Ok p ->
  shapes_ok p /\ length (A1_cat p) = length cats /\ length (A1_cts p) = length ctss /\
  finish argsort sort nl nk (t_strict o) (t_A o) (t_S o) (t_var o) (fA1 a) (fA2 a) (fS1 a) (fS2 a)
    = Ok (A1 p, A2 p, S1 p, S2 p).
Proof. exact (gen_types argsort sort nl nk cats ctss o a q1 q0 dc dx p). Qed.

(* C110, categorical columns: they interact with worker type exactly if asked to, the first
   period is as drawn, stationary_S and stationary_A make the periods equal, and without
   options the second period is as drawn. *)
Theorem C110_categorical p j c : gen = Ok p -> nth_error cats j = Some c -> exists a1 a2 s1 s2,
  cat_col p j a1 a2 s1 s2 /\
  (interacts_cat a1 = sc_wi c /\ interacts_cat a2 = sc_wi c /\ interacts_cat s1 = sc_wi c /\ interacts_cat s2 = sc_wi c) /\
  (forall l i, cat_at l i a1 = cat_drawn c (fA1 (dc j)) l i /\ cat_at l i s1 = cat_drawn c (fS1 (dc j)) l i) /\
  (forall l i, cat_at l i s2 = if sc_S c then cat_at l i s1 else cat_drawn c (fS2 (dc j)) l i) /\
  (sc_A c = true -> forall l i, (l < nl)%nat -> (i < sc_n c)%nat -> cat_at l i a2 = cat_at l i a1) /\
  (sc_A c = false -> sc_var c = false -> forall l i, cat_at l i a2 = cat_drawn c (fA2 (dc j)) l i).
Proof. exact (fun E => cat_all argsort sort nl nk cats ctss o a q1 q0 dc dx p E j c). Qed.

(* C110, stationary_firm_type_variation of categorical columns, without interaction or with one
   worker type: categories differ by the same amount in both periods; the mean over
   categories is the drawn one. *)
Theorem C110_variation_partial p j c : gen = Ok p -> nth_error cats j = Some c -> sc_var c = true -> (0 < sc_n c)%nat ->
  exists a1 a2 s1 s2, cat_col p j a1 a2 s1 s2 /\
  (sc_wi c = false \/ nl = 1%nat -> cat_same_variation nl (sc_n c) a1 a2) /\
  (sc_wi c = false -> sc_A c = false -> cat_mean (sc_n c) a2 = sumn (sc_n c) (fA2 (dc j) 0%nat) / INR (sc_n c)).
Proof. exact (fun E => cat_var_all argsort sort nl nk cats ctss o a q1 q0 dc dx p E j c). Qed.

(* C110, continuous columns: the same, and with stationary_firm_type_variation the worker types
   differ by the same amount in both periods around the drawn mean. *)
Theorem C110_continuous p j c : gen = Ok p -> nth_error ctss j = Some c -> exists a1 a2 s1 s2,
  cts_col p j a1 a2 s1 s2 /\
  (interacts_cts a1 = sc_wi c /\ interacts_cts a2 = sc_wi c /\ interacts_cts s1 = sc_wi c /\ interacts_cts s2 = sc_wi c) /\
  (forall l, cts_sd l a1 = cts_drawn c (fA1 (dx j)) l /\ cts_sd l s1 = cts_drawn c (fS1 (dx j)) l) /\
  (forall l, cts_sd l s2 = if sc_S c then cts_sd l s1 else cts_drawn c (fS2 (dx j)) l) /\
  (sc_A c = true -> forall l, cts_sd l a2 = cts_sd l a1) /\
  (sc_A c = false -> sc_var c = false -> forall l, cts_sd l a2 = cts_drawn c (fA2 (dx j)) l) /\
  (sc_var c = true -> cts_same_variation nl a1 a2 /\
     (sc_A c = false -> (0 < nl)%nat ->
      sumn nl (fun l => cts_sd l a2) / INR nl = sumn nl (cts_drawn c (fA2 (dx j))) / INR nl)).
Proof. exact (fun E => cts_all argsort sort nl nk cats ctss o a q1 q0 dc dx p E j c). Qed.

(* C110 fails for a categorical column that interacts with worker type: with
   stationary_firm_type_variation nothing is returned, unless there are as many worker types as
   categories (or one of either). *)
Theorem C110_interacted_refuted j c : nth_error cats j = Some c -> sc_wi c = true -> sc_var c = true ->
  nl <> sc_n c -> (2 <= nl)%nat -> (2 <= sc_n c)%nat -> gen = Err ValueError.
Proof. exact (gen_refused argsort sort nl nk cats ctss o a q1 q0 dc dx j c). Qed.

(* C110: and then the variation is the same in both periods only if the means of all worker types
   move alike. *)
Theorem C110_square n p j c : gen = Ok p -> nth_error cats j = Some c -> nl = n -> sc_n c = n ->
  sc_wi c = true -> sc_A c = false -> sc_var c = true ->
  exists a1 a2 s1 s2, cat_col p j a1 a2 s1 s2 /\
  (cat_same_variation n n a1 a2 <->
   forall l l', (l < n)%nat -> (l' < n)%nat ->
     row_mean n (fA2 (dc j)) l - row_mean n (fA1 (dc j)) l = row_mean n (fA2 (dc j)) l' - row_mean n (fA1 (dc j)) l').
Proof. exact (fun E => sq_all argsort sort nl nk cats ctss o a q1 q0 dc dx p E n j c). Qed.
End Gen.

(* C110 fails for two worker types and two categories. *)
Theorem C110_square_refuted argsort sort q1 q0 dx : exists p a1 a2 s1 s2,
  gen_params argsort sort 2 2 [w_col] [] w_plain w_ones q1 q0 (fun _ => w_draw) dx = Ok p /\
  cat_col p 0 a1 a2 s1 s2 /\ ~ cat_same_variation 2 2 a1 a2.
Proof. exact (w_gen argsort sort q1 q0 dx). Qed.

Print Assumptions C109_rows.
Print Assumptions C110_shapes.
Print Assumptions C110_categorical.
Print Assumptions C110_variation_partial.
Print Assumptions C110_continuous.
Print Assumptions C110_interacted_refuted.
Print Assumptions C110_square.
Print Assumptions C110_square_refuted.

(* Three worker types, two firm types, an interacting categorical column with stationary means and a
   continuous column: parameters are returned, and a run with four movers and six stayers. *)
Example C109_case argsort sort q1 q0 : exists p jd sd,
  gen_params argsort sort 3 2 w_cats w_ctss w_plain w_ones q1 q0 (fun _ => w_cat) (fun _ => w_cts) = Ok p /\
  shapes_ok p /\ length (A1_cat p) = 1%nat /\ length (A1_cts p) = 1%nat /\
  simulate_ctl 2 (fun _ _ => 1%nat) (fun _ => 3%nat) p 1 1 sim_draws w_cdraws w_cdraws 3 = Ok (jd, sd) /\
  length jd = 4%nat /\ length sd = 6%nat.
Proof. exact (ctl_case argsort sort q1 q0). Qed.
