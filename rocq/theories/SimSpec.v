(* Vocabulary for the simulated data. *)
From Coq Require Import Permutation Sorted.
From Verif Require Import Base BLMModel SimModel.
Local Open Scope R_scope.

(* The generator returns as many values as it is asked for, and values that are
   possible: worker types below nl, firms of movers among those of stayers of the
   same type ([has k j]: firm j has type k). *)
Record draws_ok (nl nk : nat) (cm : nat -> nat -> nat) (cs : nat -> nat)
    (has : nat -> nat -> Prop) (g : draws) : Prop := {
  ok_mv_l : forall k1 k2, (k1 < nk)%nat -> (k2 < nk)%nat ->
    length (mv_l g k1 k2) = cm k1 k2 /\ Forall (fun l => (l < nl)%nat) (mv_l g k1 k2);
  ok_st_l : forall k, (k < nk)%nat ->
    length (st_l g k) = cs k /\ Forall (fun l => (l < nl)%nat) (st_l g k);
  ok_st_firm : forall k, (k < nk)%nat -> length (st_firm g k) = cs k;
  ok_mv_j1 : forall k1, (k1 < nk)%nat ->
    length (mv_j1 g k1) = list_sum (map (fun k2 => cm k1 k2) (range nk)) /\ Forall (has k1) (mv_j1 g k1);
  ok_mv_j2 : forall t k2, (k2 < nk)%nat ->
    length (mv_j2 g t k2) = list_sum (map (fun k1 => cm k1 k2) (range nk)) /\ Forall (has k2) (mv_j2 g t k2)
}.

(* A row is about firm types k1 and k2. *)
Definition of_types (k1 k2 : nat) (o : orow) : bool :=
  Nat.eqb (s_g1 (o_row o)) k1 && Nat.eqb (s_g2 (o_row o)) k2.
Definition count {A} (p : A -> bool) (l : list A) : nat := length (filter p l).

(* Firm j has stayers of type k in the data. *)
Definition employs (sd : list orow) (k j : nat) : Prop :=
  exists o, In o sd /\ s_g1 (o_row o) = k /\ o_j1 o = j.

(* In increasing order. *)
Definition increasing (n : nat) (f : nat -> R) : Prop :=
  forall i j, (i < j < n)%nat -> f i <= f j.
Definition row_mean (nk : nat) (A : mat) (l : nat) : R := sumn nk (fun k => A l k) / INR nk.
Definition col_mean (nl : nat) (A : mat) (k : nat) : R := sumn nl (fun l => A l k) / INR nl.
Definition additive (nl nk : nat) (A : mat) : Prop :=
  exists a p : nat -> R, forall l k, (l < nl)%nat -> (k < nk)%nat -> A l k = a l + p k.
(* The same differences between firm types for each worker type. *)
Definition same_variation (nl nk : nat) (A1 A2 : mat) : Prop :=
  forall l k k', (l < nl)%nat -> (k < nk)%nat -> (k' < nk)%nat -> A2 l k - A2 l k' = A1 l k - A1 l k'.
Definition sorts_ok (sort : list R -> list R) : Prop :=
  forall l, Permutation (sort l) l /\ StronglySorted Rle (sort l).
