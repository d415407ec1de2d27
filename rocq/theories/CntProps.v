(* Property C121: pytwoway/blm.py and pytwoway/blm_dynamic.py, the numbers of movers and
   stayers stored in the model. *)
From Verif Require Import Base CntModel CntSpec CntLemmas.
From Coq Require Import Permutation.
Local Open Scope nat_scope.

(* If stayers are observed at every firm type, NNs has one entry per firm type, the number
   of its stayers.  Missing: firm types without stayers, where the claim is false. *)
Theorem C121_stayers_partial nk g1 : 0 < nk -> all_types nk g1 ->
  length (NNs_of g1) = nk /\ forall k, k < nk -> nth_error (NNs_of g1) k = Some (stayers_at g1 k).
Proof. exact (stayers_lemma nk g1). Qed.
Print Assumptions C121_stayers_partial.

(* If every firm type is left and joined by movers, NNm is square and its entry (a, b) is
   the number of movers from a to b, also for pairs without movers. *)
Theorem C121_movers_partial nk movers : 0 < nk ->
  all_types nk (map fst movers) -> all_types nk (map snd movers) ->
  length (NNm_of movers) = nk /\ Forall (fun r => length r = nk) (NNm_of movers) /\
  forall a b, a < nk -> b < nk ->
    exists r, nth_error (NNm_of movers) a = Some r /\ nth_error r b = Some (moves movers a b).
Proof. exact (movers_lemma nk movers). Qed.
Print Assumptions C121_movers_partial.

(* A firm type k without stayers is left out: NNs is too short, and the number of stayers of
   every higher type is found at a lower place, with another type's proportions in pk0. *)
Theorem C121_stayers_refuted g1 nk k : (forall x, In x g1 -> x < nk) -> k < nk -> ~ In k g1 ->
  length (NNs_of g1) < nk /\
  forall k', k < k' -> In k' g1 -> exists i, i < k' /\ nth_error (NNs_of g1) i = Some (stayers_at g1 k').
Proof. exact (stayers_shift g1 nk k). Qed.
Print Assumptions C121_stayers_refuted.

(* A firm type k that no mover leaves: NNm lacks a row, and the movers from higher types are
   found in lower rows. *)
Theorem C121_movers_refuted movers nk k : (forall x, In x movers -> fst x < nk /\ snd x < nk) ->
  k < nk -> ~ In k (map fst movers) ->
  length (NNm_of movers) < nk /\
  forall a b, k < a -> In (a, b) movers ->
    exists i j r, i < a /\ nth_error (NNm_of movers) i = Some r /\ nth_error r j = Some (moves movers a b).
Proof. exact (movers_shift movers nk k). Qed.
Print Assumptions C121_movers_refuted.

(* A firm type k that no mover joins: every row of NNm lacks an entry, and the movers to
   higher types are found in lower columns. *)
Theorem C121_columns_refuted movers nk k : (forall x, In x movers -> fst x < nk /\ snd x < nk) ->
  k < nk -> ~ In k (map snd movers) ->
  Forall (fun r => length r < nk) (NNm_of movers) /\
  forall a b, k < b -> In (a, b) movers ->
    exists i j r, j < b /\ nth_error (NNm_of movers) i = Some r /\ nth_error r j = Some (moves movers a b).
Proof. exact (columns_shift movers nk k). Qed.
Print Assumptions C121_columns_refuted.

(* Whatever the types, no worker is lost or counted twice. *)
Theorem C121_totals g1 movers :
  list_sum (NNs_of g1) = length g1 /\ list_sum (map list_sum (NNm_of movers)) = length movers.
Proof. exact (totals g1 movers). Qed.
Print Assumptions C121_totals.

(* The plot of type proportions of all workers, with the firm types in the given order.  With
   stayers at every firm type it uses the right numbers. *)
Theorem C121_used_partial nk order g1 in_order : 0 < nk -> all_types nk g1 ->
  Permutation order (range nk) -> (in_order = true -> order = range nk) ->
  stayers_used nk order in_order (NNs_of g1) = Ok (map (stayers_at g1) order).
Proof. exact (used_lemma nk order g1 in_order). Qed.
Print Assumptions C121_used_partial.

(* With a firm type without stayers it raises, if the types are out of order or two types
   have stayers ... *)
Theorem C121_used_refuted nk order g1 in_order k : (forall x, In x g1 -> x < nk) -> k < nk -> ~ In k g1 ->
  Permutation order (range nk) -> (in_order = true -> exists a b, In a g1 /\ In b g1 /\ a < b) ->
  exists e, stayers_used nk order in_order (NNs_of g1) = Err e.
Proof. exact (used_fails nk order g1 in_order k). Qed.
Print Assumptions C121_used_refuted.

(* ... and if only one has stayers, every firm type is given all of them. *)
Theorem C121_one_type_refuted nk g1 a : 1 < nk -> g1 <> [] -> (forall x, In x g1 -> x = a) ->
  stayers_used nk (range nk) true (NNs_of g1) = Ok (repeat (length g1) nk).
Proof. exact (used_one nk g1 a). Qed.
Print Assumptions C121_one_type_refuted.

(* The connectedness measure, computed at the end of fit_movers_cstr_uncstr: with every firm type
   left and joined it uses the numbers of movers of all pairs of types. *)
Theorem C121_connected_partial nk movers : 0 < nk ->
  all_types nk (map fst movers) -> all_types nk (map snd movers) ->
  movers_used nk movers = Ok (map (fun a => map (moves movers a) (range nk)) (range nk)).
Proof. exact (movers_used_all nk movers). Qed.
Print Assumptions C121_connected_partial.

(* It raises if some type is never left but two others are ... *)
Theorem C121_connected_refuted nk movers k a b : (forall x, In x movers -> fst x < nk /\ snd x < nk) ->
  k < nk -> ~ In k (map fst movers) -> In a (map fst movers) -> In b (map fst movers) -> a < b ->
  movers_used nk movers = Err ValueError.
Proof. exact (rows_missing nk movers k a b). Qed.
Print Assumptions C121_connected_refuted.

(* ... or some type is never joined but two others are. *)
Theorem C121_connected_joined_refuted nk movers k a b : (forall x, In x movers -> fst x < nk /\ snd x < nk) ->
  k < nk -> ~ In k (map snd movers) -> In a (map snd movers) -> In b (map snd movers) -> a < b ->
  movers_used nk movers = Err ValueError.
Proof. exact (columns_missing nk movers k a b). Qed.
Print Assumptions C121_connected_joined_refuted.

(* Three firm types; then no stayers at type 1, and no movers leaving type 0. *)
Example C121_case :
  all_types 3 [2; 0; 1; 2] /\ NNs_of [2; 0; 1; 2] = [1; 1; 2] /\
  NNm_of [(0, 2); (1, 1); (2, 0); (0, 2)] = [[0; 0; 2]; [0; 1; 0]; [1; 0; 0]] /\
  NNs_of [2; 0; 2; 0; 0] = [3; 2] /\
  NNm_of [(1, 2); (2, 0); (1, 1)] = [[0; 1; 1]; [1; 0; 0]] /\
  NNm_of [(0, 2); (1, 2); (2, 0); (0, 2)] = [[0; 2]; [0; 1]; [1; 0]] /\
  movers_used 3 [(0, 2); (1, 1); (2, 0)] = Ok [[0; 0; 1]; [0; 1; 0]; [1; 0; 0]] /\
  movers_used 3 [(1, 2); (2, 0); (1, 1)] = Err ValueError /\
  movers_used 3 [(0, 2); (1, 2); (2, 0)] = Err ValueError.
Proof.
  split; [|repeat split]. intros k. cbn. lia.
Qed.
