(* Parameters kept by a fit, up to the names of the worker types. *)
From Verif Require Import Base BLMModel BLMSpec.
Local Open Scope R_scope.

Definition kept_A (nl nk : nat) (s : nat -> nat) (p p' : par) : Prop :=
  forall l k, (l < nl)%nat -> (k < nk)%nat -> A1 p' l k = A1 p (s l) k /\ A2 p' l k = A2 p (s l) k.
Definition kept_S (nl nk : nat) (s : nat -> nat) (p p' : par) : Prop :=
  forall l k, (l < nl)%nat -> (k < nk)%nat -> S1 p' l k = S1 p (s l) k /\ S2 p' l k = S2 p (s l) k.
(* the pair (k1, k2) of firm types is in row k1 + nk * k2 *)
Definition kept_pk1 (nl nk : nat) (s : nat -> nat) (p p' : par) : Prop :=
  forall k1 k2 l, (k1 < nk)%nat -> (k2 < nk)%nat -> (l < nl)%nat ->
    pk1 p' (k1 + nk * k2)%nat l = pk1 p (k1 + nk * k2)%nat (s l).
