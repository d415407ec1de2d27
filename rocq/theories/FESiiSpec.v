(* Vocabulary for the variances of single rows and the leverages behind them
   (C77, C78). *)
Set Warnings "-notation-overridden,-ambiguous-paths".
From mathcomp Require Import all_ssreflect all_algebra.
From Verif Require Import FEModel FESpec.

Set Implicit Arguments.
Unset Strict Implicit.
Unset Printing Implicit Defensive.

Import GRing.Theory Num.Theory Order.POrderTheory.
Local Open Scope ring_scope.

Section Sii.
Variable F : realFieldType.
Variables nn nf1 nw : nat.
Variable d : frame F nn nf1 nw.

(* A row of a worker who is at one firm throughout and marked as a stayer. *)
Definition stayer_row (r : 'I_nn) : Prop :=
  forall s, fi d s = fi d r -> fm d s = false /\ fj d s = fj d r.

(* The total weight of the worker of a row. *)
Definition worker_weight (r : 'I_nn) : F := \sum_(s | fi d s == fi d r) wgt d s.

(* Every stayer's firm employs a mover. *)
Definition movers_everywhere : Prop :=
  forall r, fm d r = false -> exists s, fm d s /\ fj d s = fj d r.
End Sii.

Section Jla.
Variable F : realFieldType.

(* 1 / (1 - share) for the share x / (x + y), and its second-order Taylor
   polynomial around (p, m); [taylor_rest] is what is left, of third order in
   the deviations. *)
Definition inv_rest (x y : F) : F := 1 / (1 - x / (x + y)).
Definition taylor2 (p m x y : F) : F :=
  (p + m) / m + (x - p) / m - p * (y - m) / m ^+ 2
  - (x - p) * (y - m) / m ^+ 2 + p * (y - m) ^+ 2 / m ^+ 3.
Definition taylor_rest (p m x y : F) : F :=
  (y - m) ^+ 2 * (m * (x - p) - p * (y - m)) / (m ^+ 3 * y).
End Jla.

Section Link.
Variable F : realFieldType.
Variables nn nf1 nw : nat.
Variable d : frame F nn nf1 nw.

(* Firms and workers as the nodes of a graph whose edges are the rows; the edges
   that remain when row r is left out. *)
Definition edge_without (r : 'I_nn) (x y : 'I_nf1.+1 + 'I_nw) : bool :=
  [exists s, (s != r) &&
     (((x == inl (fj d s)) && (y == inr (fi d s)))
      || ((x == inr (fi d s)) && (y == inl (fj d s))))].

(* Without row r its worker and its firm are still linked by a path of rows. *)
Definition linked_without (r : 'I_nn) : Prop :=
  connect (edge_without r) (inr (fi d r)) (inl (fj d r)).
End Link.
