(* The user's constraints of the dynamic BLM model. *)
From Verif Require Import Base UtilModel ConsModel ConsSpec BLMModel BLMFitModel DBLMModel.
Local Open Scope R_scope.

(* The object rules something out. *)
Definition restricts (nl nk : nat) (o : cobj) : Prop :=
  exists d x, get_constraints o nl nk = Ok d /\ ~ sat d x.
(* The object rules something out by an inequality. *)
Definition restricts_le (nl nk : nat) (o : cobj) : Prop :=
  exists d x, get_constraints o nl nk = Ok d /\ ~ sat_G d x.

(* Number of columns of an array. *)
Definition cols (a : arr) : nat := match a with Arr1 l => length l | Arr2 m => nc m | ArrSp m => nc m end.
(* The matrices of the problem have a column for each of the n unknowns. *)
Definition fits (n : nat) (pb : problem) : Prop :=
  (forall a h, p_G pb = Some (a, h) -> cols a = n) /\ (forall a b, p_A pb = Some (a, b) -> cols a = n).
(* The solver solves only problems of which the sizes agree. *)
Definition checks_sizes (solver : nat -> mat -> list R -> problem -> qpres) : Prop :=
  forall n P q pb x, solver n P q pb = QSol x -> fits n pb.
