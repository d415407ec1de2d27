(* What the Sorkin estimator should compute, stated on the rows of the data. *)
From Coq Require Import Relations.
From Verif Require Import Base SorkinModel.
Local Open Scope R_scope.

(* Number of moves of movers from firm j to firm k. *)
Fixpoint moves (rows : list move) (j k : nat) : nat :=
  match rows with
  | [] => 0
  | r :: rows' =>
      (if mv_m r && (mv_from r =? j)%nat && (mv_to r =? k)%nat then 1 else 0) + moves rows' j k
  end.

(* What firm k gains from the values v of the firms its movers come from, and
   the value of what it loses. *)
Definition inflow (rows : list move) (nf : nat) (v : nat -> R) (k : nat) : R :=
  sumn nf (fun j => INR (moves rows j k) * v j).
Definition outflow (rows : list move) (nf : nat) (v : nat -> R) (k : nat) : R :=
  sumn nf (fun j => INR (moves rows k j)) * v k.

(* Sorkin (2018): the values solve sum_j M_kj v_j = (sum_j M_jk) v_k. *)
Definition flow_equations (rows : list move) (nf : nat) (v : nat -> R) : Prop :=
  forall k, (k < nf)%nat -> inflow rows nf v k = outflow rows nf v k.

(* Firms are numbered 0, ..., nf - 1; movers both leave and join every one. *)
Definition firms_ok (rows : list move) (nf : nat) : Prop :=
  (1 <= nf)%nat
  /\ (forall r, In r rows -> mv_m r = true -> (mv_from r < nf)%nat /\ (mv_to r < nf)%nat)
  /\ (forall k, (k < nf)%nat -> exists r, In r rows /\ mv_m r = true /\ mv_from r = k)
  /\ (forall k, (k < nf)%nat -> exists r, In r rows /\ mv_m r = true /\ mv_to r = k).

(* Some mover goes from j to k; strong connectedness. *)
Definition goes (rows : list move) (j k : nat) : Prop :=
  exists r, In r rows /\ mv_m r = true /\ mv_from r = j /\ mv_to r = k.
Definition strongly_connected (rows : list move) (nf : nat) : Prop :=
  forall j k, (j < nf)%nat -> (k < nf)%nat -> clos_refl_trans nat (goes rows) j k.

Definition positive (nf : nat) (v : nat -> R) : Prop := forall k, (k < nf)%nat -> 0 < v k.

(* The values V_EE = log(v) of all firms. *)
Definition log_values (nf : nat) (v : nat -> R) : list (option R) :=
  map (fun k => Some (ln (v k))) (range nf).
