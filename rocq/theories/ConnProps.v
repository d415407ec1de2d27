(* C94: the connectedness measure of the movers' graph. *)
From Verif Require Import Base BLMModel BLMRunSpec ConnModel ConnSpec ConnPropLemmas.
Local Open Scope R_scope.

(* C94.  The measure lies between 0 and 2, and is 0 exactly if for some worker type the
   firm types fall into two groups that no mover of this type links.  Missing: pairs of
   firm types with movers in one direction only (refuted below). *)
Theorem C94_measure_partial : forall eig all nl nk NN pk1, eig_ok nk eig ->
  (forall a b, (a < nk)%nat -> (b < nk)%nat -> 0 <= NN a b) ->
  (forall a b l, (a < nk)%nat -> (b < nk)%nat -> (l < nl)%nat -> 0 <= prop_of nk pk1 a b l) ->
  both_ways nk NN -> (0 < nl)%nat -> (2 <= nk)%nat ->
  (forall l, (l < nl)%nat -> touched nk (moves_of nk NN pk1 l)) ->
  exists c, compute_connectedness eig all nl nk NN pk1 = Ok (SVal c) /\ 0 <= c <= 2 /\
    (c = 0 <-> exists l, (l < nl)%nat /\ falls_apart nk (moves_of nk NN pk1 l)).
Proof. exact conn_measure. Qed.
Print Assumptions C94_measure_partial.

(* C94.  REFUTED in general: the measure can be positive although no mover of some worker
   type links the two groups, if movers go in one direction only. *)
Theorem C94_direction_refuted : ~ (forall eig nl nk NN pk1, eig_ok nk eig ->
  (forall a b, (a < nk)%nat -> (b < nk)%nat -> 0 <= NN a b) ->
  (forall a b, (a < nk)%nat -> (b < nk)%nat -> prob_vec nl (prop_of nk pk1 a b)) ->
  (2 <= nk)%nat ->
  (forall l, (l < nl)%nat -> touched nk (moves_of nk NN pk1 l)) ->
  (exists l, (l < nl)%nat /\ falls_apart nk (moves_of nk NN pk1 l)) ->
  compute_connectedness eig false nl nk NN pk1 = Ok (SVal 0)).
Proof. exact direction_wrong. Qed.
Print Assumptions C94_direction_refuted.

(* C94.  A firm type that no mover of some worker type leaves, enters or moves within
   makes the measure raise LinAlgError. *)
Theorem C94_isolated : forall eig all nl nk NN pk1, eig_ok nk eig ->
  (forall a b, (a < nk)%nat -> (b < nk)%nat -> 0 <= NN a b) ->
  (forall a b l, (a < nk)%nat -> (b < nk)%nat -> (l < nl)%nat -> 0 <= prop_of nk pk1 a b l) ->
  both_ways nk NN -> forall l a, (2 <= nk)%nat -> (l < nl)%nat -> (a < nk)%nat ->
  (forall b, (b < nk)%nat -> moves_of nk NN pk1 l a b = 0 /\ moves_of nk NN pk1 l b a = 0) ->
  compute_connectedness eig all nl nk NN pk1 = Err LinAlgError.
Proof. exact conn_isolated. Qed.
Print Assumptions C94_isolated.

(* C94.  REFUTED for a single firm type: IndexError. *)
Theorem C94_one_firm_type_refuted : forall eig all nl nk NN pk1, eig_ok nk eig ->
  (forall a b, (a < nk)%nat -> (b < nk)%nat -> 0 <= NN a b) ->
  (forall a b l, (a < nk)%nat -> (b < nk)%nat -> (l < nl)%nat -> 0 <= prop_of nk pk1 a b l) ->
  both_ways nk NN -> forall l, nk = 1%nat -> (l < nl)%nat ->
  (forall l, (l < nl)%nat -> 0 < moves_of nk NN pk1 l 0%nat 0%nat) ->
  compute_connectedness eig all nl nk NN pk1 = Err IndexError.
Proof. exact conn_one. Qed.
Print Assumptions C94_one_firm_type_refuted.

(* C94.  REFUTED: all=True never stores the vector of the worker types' measures; it
   stores the smallest, as all=False does. *)
Theorem C94_all_refuted : forall eig nl nk NN pk1,
  compute_connectedness eig true nl nk NN pk1 = compute_connectedness eig false nl nk NN pk1 /\
  forall EV, compute_connectedness eig true nl nk NN pk1 <> Ok (SVec EV).
Proof. exact conn_all. Qed.
Print Assumptions C94_all_refuted.

(* An eigenvalue routine for two firm types; worker type 1 links them, worker type 0 does
   not. *)
Example C94_case : eig_ok 2 eig2 /\ both_ways 2 cc_NN /\
  (forall l, (l < 2)%nat -> touched 2 (moves_of 2 cc_NN cc_pk l)) /\
  falls_apart 2 (moves_of 2 cc_NN cc_pk 0) /\ ~ falls_apart 2 (moves_of 2 cc_NN cc_pk 1).
Proof. exact cc_case. Qed.
