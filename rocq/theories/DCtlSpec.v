(* What property C96 speaks about. *)
From Verif Require Import Base DCtlModel.
From Coq Require Import String.
Local Open Scope nat_scope.
Local Open Scope list_scope.

(* Control variables have different names, and none has the name of a period. *)
Definition names_ok (cat cts : list ccol) : Prop :=
  NoDup (map c_name (cat ++ cts)) /\ forall c, In c (cat ++ cts) -> ~ In (c_name c) all_periods.
(* Categories are 0, ..., n - 1. *)
Definition codes_ok (cat : list ccol) (codes : string -> string -> list nat) : Prop :=
  forall c p i, In c cat -> In i (codes p (c_name c)) -> i < c_n c.
(* Nothing goes wrong with the data, the constraints or the proportions. *)
Definition no_trouble (o : numbers) : Prop :=
  o_data o = Ok tt /\ (forall i, o_cons o i = Ok tt) /\ (forall i, o_pk1 o i = Ok tt).
