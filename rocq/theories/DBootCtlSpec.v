(* Vocabulary for control variables in simulated samples of the dynamic model. *)
From Coq Require Import String.
From Verif Require Import Base DCtlModel DBootCtlModel.
Local Open Scope list_scope.

(* All columns have names, as in every BipartiteDataFrame. *)
Definition named (f : bframe) : Prop := Forall (fun x => exists s, x = Name s) (b_cols f).
(* A column of the data: it is there in one column, or in one for each period. *)
Definition has_column (f : bframe) (col : string) : Prop :=
  (lookup col (b_refs f) = Ok [col] /\ In (Name col) (b_cols f)) \/
  (exists a b c d, lookup col (b_refs f) = Ok [a; b; c; d] /\ Forall (fun s => In (Name s) (b_cols f)) [a; b; c; d]).
(* The parameters of a column for every period. *)
Definition has_periods (A : table) (col : string) : Prop :=
  exists d, lookup col A = Ok (EDict d) /\ forall p, In p all_periods -> exists s, lookup p d = Ok s.
Definition estimated (t : ctl) (cat cts : list ccol) : Prop :=
  Forall (fun c => has_periods (k_Acat t) (c_name c) /\ has_periods (k_Scat t) (c_name c)) cat /\
  Forall (fun c => has_periods (k_Acts t) (c_name c) /\ has_periods (k_Scts t) (c_name c)) cts.
