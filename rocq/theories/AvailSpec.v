(* What the calls of the past imply for the counts. *)
From Verif Require Import Base BLMRealModel AvailModel.

Section Spec.
Variables data_m data_s : Type.
(* The data and the option compute_NNm, if the call fits movers. *)
Definition of_movers (c : call data_m data_s) : option (data_m * bool) :=
  match c with
  | FitMovers f | FitA f | FitS f | FitPk f | CstrUncstr f _ => Some (f_data f, f_compute f)
  | _ => None
  end.
Definition of_stayers (c : call data_m data_s) : option (data_s * bool) :=
  match c with FitStayers d b => Some (d, b) | _ => None end.

(* The last data set fitted with the option to compute counts. *)
Inductive last_counted {D} (kind : call data_m data_s -> option (D * bool)) : list (call data_m data_s) -> D -> Prop :=
| last_here h c d : kind c = Some (d, true) -> last_counted kind (h ++ [c]) d
| last_before h c d : last_counted kind h d -> (forall d', kind c <> Some (d', true)) -> last_counted kind (h ++ [c]) d.
(* No data set has been. *)
Definition never_counted {D} (kind : call data_m data_s -> option (D * bool)) (h : list (call data_m data_s)) : Prop :=
  forall c d, In c h -> kind c <> Some (d, true).

(* Which fits a subset needs. *)
Definition can_plot (sub : subset_kind) (h : list (call data_m data_s)) : Prop :=
  match sub with
  | SMovers => ~ never_counted of_movers h
  | SStayers => ~ never_counted of_stayers h
  | SAll => ~ never_counted of_movers h /\ ~ never_counted of_stayers h
  end.
End Spec.
Arguments of_movers {_ _}. Arguments of_stayers {_ _}. Arguments last_counted {_ _ _}. Arguments never_counted {_ _ _}.
Arguments can_plot {_ _}.
