(* Properties C46, C47, C83 and C84: data simulated by SimBLM. *)
From Coq Require Import Permutation Sorted.
From Verif Require Import Base UtilModel UtilSpec BLMModel BLMSpec SimModel SimSpec
  SimPropLemmas SimParamLemmas BLMPropLemmas.
Local Open Scope nat_scope.

Section Sim.
Variables nl nk : nat.
Variables cm : nat -> nat -> nat.
Variables cs : nat -> nat.
Variables A1 A2 S1 S2 : mat.
Variable g : draws.
Local Notation simulate := (simulate nk cm cs A1 A2 S1 S2 g).

(* C46: cm k1 k2 movers from type k1 to type k2, cs k stayers of type k, and no
   other rows. *)
Theorem C46_counts fuel jd sd : simulate fuel = Ok (jd, sd) ->
  (forall k1 k2, k1 < nk -> k2 < nk -> count (of_types k1 k2) jd = cm k1 k2) /\
  (forall k, k < nk -> count (of_types k k) sd = cs k) /\
  Forall (fun o => s_g1 (o_row o) < nk /\ s_g2 (o_row o) < nk) jd /\
  Forall (fun o => s_g1 (o_row o) < nk /\ s_g2 (o_row o) = s_g1 (o_row o)) sd.
Proof. exact (sim_counts nk cm cs A1 A2 S1 S2 g fuel jd sd). Qed.

(* C46: the workers are numbered from 0 without gaps, movers first; m tells them
   apart, stayers stay. *)
Theorem C46_ids fuel jd sd : simulate fuel = Ok (jd, sd) ->
  map o_i (jd ++ sd) = range (length jd + length sd) /\
  Forall (fun o => o_m o = 1) jd /\ Forall (fun o => o_m o = 0 /\ o_j1 o = o_j2 o) sd.
Proof. exact (sim_ids nk cm cs A1 A2 S1 S2 g fuel jd sd). Qed.

(* C46: firms are numbered from 0 without gaps and each has one type. *)
Theorem C46_firms fuel jd sd : simulate fuel = Ok (jd, sd) ->
  (forall k, k < nk -> length (st_firm g k) = cs k) ->
  (exists n, forall j, j < n <-> exists k, employs sd k j) /\
  (forall k k' j, employs sd k j -> employs sd k' j -> k = k').
Proof. exact (sim_firms nk cm cs A1 A2 S1 S2 g fuel jd sd). Qed.

(* C46: no firm type has its stayers in a single firm; such draws are refused. *)
Theorem C46_two_firms fuel jd sd : simulate fuel = Ok (jd, sd) ->
  (forall k, k < nk -> length (st_firm g k) = cs k) ->
  forall k j, employs sd k j -> exists j', j' <> j /\ employs sd k j'.
Proof. exact (sim_two_firms nk cm cs A1 A2 S1 S2 g fuel jd sd). Qed.

(* C46: movers change firm, and their first firm has the type of the row. *)
Theorem C46_first_firm fuel jd sd : simulate fuel = Ok (jd, sd) ->
  draws_ok nl nk cm cs (employs sd) g ->
  Forall (fun o => o_j1 o <> o_j2 o) jd /\
  Forall2 (employs sd) (map (fun o => s_g1 (o_row o)) jd) (map o_j1 jd).
Proof.
  exact (fun H ok => let '(conj a (conj _ c)) := sim_j2 nl nk cm cs A1 A2 S1 S2 g _ ok fuel jd sd H in conj c a).
Qed.

(* C46: the second firms have the second types in increasing order ... *)
Theorem C46_second_order fuel jd sd : simulate fuel = Ok (jd, sd) ->
  draws_ok nl nk cm cs (employs sd) g ->
  exists ks, Permutation ks (map (fun o => s_g2 (o_row o)) jd) /\ StronglySorted le ks /\
             Forall2 (employs sd) ks (map o_j2 jd).
Proof. exact (sim_second_order nl nk cm cs A1 A2 S1 S2 g fuel jd sd). Qed.

(* ... so each mover's second firm has the type of the row exactly if the rows are
   in order of the second type. *)
Theorem C46_second_firm fuel jd sd : simulate fuel = Ok (jd, sd) ->
  draws_ok nl nk cm cs (employs sd) g ->
  (Forall (fun o => employs sd (s_g2 (o_row o)) (o_j2 o)) jd
   <-> StronglySorted le (map (fun o => s_g2 (o_row o)) jd)).
Proof. exact (sim_second nl nk cm cs A1 A2 S1 S2 g fuel jd sd). Qed.

(* C46 fails whenever there are two firm types and movers up from the first and
   down from the second, so for all valid counts with nk >= 2: some mover's second
   firm is not of the type of the row, whatever is drawn. *)
Theorem C46_firm_types_refuted fuel jd sd k1 k2 k1' k2' : simulate fuel = Ok (jd, sd) ->
  draws_ok nl nk cm cs (employs sd) g ->
  k1 < k1' < nk -> k2' < k2 < nk -> 0 < cm k1 k2 -> 0 < cm k1' k2' ->
  exists o, In o jd /\ ~ employs sd (s_g2 (o_row o)) (o_j2 o).
Proof. exact (sim_second_wrong nl nk cm cs A1 A2 S1 S2 g fuel jd sd k1 k2 k1' k2'). Qed.

(* C84: the worker types of the movers between two firm types, and of the stayers of
   a firm type, are those drawn for these firm types. *)
Theorem C84_worker_types fuel jd sd has : simulate fuel = Ok (jd, sd) ->
  draws_ok nl nk cm cs has g ->
  (forall k1 k2, k1 < nk -> k2 < nk ->
     map (fun o => s_l (o_row o)) (filter (of_types k1 k2) jd) = mv_l g k1 k2) /\
  (forall k, k < nk -> map (fun o => s_l (o_row o)) (filter (of_types k k) sd) = st_l g k).
Proof. exact (sim_worker_types nl nk cm cs A1 A2 S1 S2 g fuel jd sd has). Qed.

(* C84: the q-th mover between two firm types, and the q-th stayer of a firm type,
   gets the mean of the worker type drawn for this row and of the firm type of the
   period, plus the standard deviation times a draw of its own, in each period. *)
Theorem C84_wages fuel jd sd has : simulate fuel = Ok (jd, sd) ->
  draws_ok nl nk cm cs has g ->
  (forall k1 k2, k1 < nk -> k2 < nk ->
     map (fun o => (s_y1 (o_row o), s_y2 (o_row o))) (filter (of_types k1 k2) jd)
     = map2 (fun q l => (A1 l k1 + S1 l k1 * mv_z1 g k1 k2 q, A2 l k2 + S2 l k2 * mv_z2 g k1 k2 q)%R)
         (range (cm k1 k2)) (mv_l g k1 k2)) /\
  (forall k, k < nk ->
     map (fun o => (s_y1 (o_row o), s_y2 (o_row o))) (filter (of_types k k) sd)
     = map2 (fun q l => (A1 l k + S1 l k * st_z1 g k q, A2 l k + S2 l k * st_z2 g k q)%R)
         (range (cs k)) (st_l g k)).
Proof. exact (sim_wages nl nk cm cs A1 A2 S1 S2 g fuel jd sd has). Qed.
End Sim.

Local Open Scope R_scope.
Section Params.
Variable argsort : list R -> list nat.
Variable sort : list R -> list R.
Hypothesis argsort_ok : forall l, is_argsort l (argsort l).
Hypothesis sort_ok : sorts_ok sort.

(* C47 holds with one worker type. *)
Theorem C47_one_worker_type nk b sA sS A1 A2 S1 S2 a1 a2 s1 s2 :
  finish argsort sort 1 nk b sA sS true A1 A2 S1 S2 = Ok (a1, a2, s1, s2) -> same_variation 1 nk a1 a2.
Proof. exact (finish_one argsort sort nk b sA sS A1 A2 S1 S2 a1 a2 s1 s2). Qed.

(* C47 with as many worker types as firm types: only if the mean over firm types
   moves by the same amount for each worker type. *)
Theorem C47_square n A1 A2 A : firm_type_variation n n A1 A2 = Ok A ->
  (same_variation n n A1 A <->
   forall k k', (k < n)%nat -> (k' < n)%nat ->
     row_mean n A2 k - row_mean n A1 k = row_mean n A2 k' - row_mean n A1 k').
Proof. exact (variation_square n A1 A2 A). Qed.

(* C47 fails: other numbers of types are refused, whatever is drawn, and equal
   numbers give other variation. *)
Theorem C47_refuted :
  (forall nl nk b sA sS A1 A2 S1 S2, (nl <> nk)%nat -> (2 <= nl)%nat -> (2 <= nk)%nat ->
     finish argsort sort nl nk b sA sS true A1 A2 S1 S2 = Err ValueError) /\
  exists A1 A2 a1 a2 s1 s2,
    finish argsort sort 2 2 false false false true A1 A2 (fun _ _ => 1) (fun _ _ => 1) = Ok (a1, a2, s1, s2) /\
    ~ same_variation 2 2 a1 a2.
Proof.
  exact (conj (fun nl nk b sA sS A1 A2 S1 S2 => finish_error argsort sort nl nk b sA sS A1 A2 S1 S2)
              (ex_intro _ _ (ex_intro _ _ (square_wrong argsort sort argsort_ok)))).
Qed.

(* C83, default: worker types and firm types are in increasing order of their mean
   in the first period, by one reordering of both periods. *)
Theorem C83_order nl nk A1 A2 :
  let A1' := fst (sort_A argsort sort nl nk false A1 A2) in
  let A2' := snd (sort_A argsort sort nl nk false A1 A2) in
  increasing nl (row_mean nk A1') /\ increasing nk (col_mean nl A1') /\
  exists s t, relabelling nl s /\ relabelling nk t /\
    forall l k, A1' l k = A1 (s l) (t k) /\ A2' l k = A2 (s l) (t k).
Proof. exact (sort_A_plain argsort sort argsort_ok nl nk A1 A2). Qed.

(* C83, strictly_monotone_a: increasing by firm type for each worker type in both
   periods; each worker type keeps its values. *)
Theorem C83_monotone nl nk A1 A2 :
  let A1' := fst (sort_A argsort sort nl nk true A1 A2) in
  let A2' := snd (sort_A argsort sort nl nk true A1 A2) in
  increasing nl (row_mean nk A1') /\
  (forall l, increasing nk (A1' l) /\ increasing nk (A2' l)) /\
  exists s, relabelling nl s /\
    forall l, Permutation (map (A1' l) (range nk)) (map (A1 (s l)) (range nk)) /\
              Permutation (map (A2' l) (range nk)) (map (A2 (s l)) (range nk)).
Proof. exact (sort_A_strict argsort sort argsort_ok sort_ok nl nk A1 A2). Qed.

(* C83: linear additivity survives the sorting. *)
Theorem C83_additive nl nk b A1 A2 :
  (additive nl nk A1 -> additive nl nk (fst (sort_A argsort sort nl nk b A1 A2))) /\
  (additive nl nk A2 -> additive nl nk (snd (sort_A argsort sort nl nk b A1 A2))).
Proof. exact (sort_A_additive argsort sort argsort_ok sort_ok nl nk b A1 A2). Qed.

(* C83 fails for the second period: firm types need not be in increasing order of
   their mean. *)
Theorem C83_second_period_refuted :
  exists A1 A2, ~ increasing 2 (col_mean 1 (snd (sort_A argsort sort 1 2 false A1 A2))).
Proof. exact (A2_not_increasing_ex argsort sort argsort_ok). Qed.
End Params.

Print Assumptions C46_counts.
Print Assumptions C46_ids.
Print Assumptions C46_firms.
Print Assumptions C46_two_firms.
Print Assumptions C46_first_firm.
Print Assumptions C46_second_order.
Print Assumptions C46_second_firm.
Print Assumptions C46_firm_types_refuted.
Print Assumptions C84_worker_types.
Print Assumptions C84_wages.
Print Assumptions C47_one_worker_type.
Print Assumptions C47_square.
Print Assumptions C47_refuted.
Print Assumptions C83_order.
Print Assumptions C83_monotone.
Print Assumptions C83_additive.
Print Assumptions C83_second_period_refuted.

(* Two firm types, one mover between each pair of them, three stayers at two firms
   of each type. *)
Example C46_case : exists jd sd,
  simulate 2 (fun _ _ => 1%nat) (fun _ => 3%nat) (fun l k => INR (l + k)) (fun l k => INR l)
    (fun _ _ => 1%R) (fun _ _ => 1%R) sim_draws 3 = Ok (jd, sd) /\
  map o_j1 jd = [0; 0; 2; 3]%nat /\ map o_j2 jd = [1; 1; 3; 2]%nat /\
  map o_j1 sd = [1; 0; 1; 3; 2; 3]%nat /\ draws_ok 3 2 (fun _ _ => 1%nat) (fun _ => 3%nat) (employs sd) sim_draws.
Proof. exact sim_case. Qed.

(* The contracts of np.sort and np.argsort can be met. *)
Example C83_case : (forall l, is_argsort l (isort l)) /\ sorts_ok vsort.
Proof. exact (conj isort_ok vsort_ok). Qed.
