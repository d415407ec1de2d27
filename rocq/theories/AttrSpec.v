(* Vocabulary for the attrition properties. *)
Set Warnings "-notation-overridden,-ambiguous-paths".
From Coq Require Import ZArith QArith.
From mathcomp Require Import all_ssreflect.
From Verif Require Base.
From Verif Require Import AttrModel.

Set Implicit Arguments.
Unset Strict Implicit.
Unset Printing Implicit Defensive.
Local Open Scope nat_scope.

(* Drawing k elements of a set without replacement: k different elements of it. *)
Definition valid_draw (draw : seq nat -> nat -> seq nat) : Prop :=
  forall (pool : seq nat) (k : nat), uniq pool -> k <= size pool ->
    [/\ uniq (draw pool k), size (draw pool k) = k & {subset draw pool k <= pool}].

(* Cleaning that keeps a set of firms and a set of workers with all observations
   between them, and leaves out only workers who do not connect two of the firms
   kept.  Taking the largest connected set does this (no worker of the kept firms
   is left out), and so does taking a leave-one-observation-out connected set
   (a worker left out is linked to the kept firms by at most one observation). *)
Definition prunes (clean : seq obs -> Base.res (seq obs)) : Prop :=
  forall rows s, clean rows = Base.Ok s ->
  exists fs ws : seq nat,
    s = [seq r <- rows | (ob_j r \in fs) && (ob_i r \in ws)]
    /\ forall i, i \notin ws -> ~~ is_mover [seq r <- rows | ob_j r \in fids s] i.

(* Shares between 0 and 1, weakly increasing or weakly decreasing. *)
Definition shares01 (l : seq Q) : Prop :=
  forall k, (k < size l)%N -> Qle (inject_Z 0) (nth (inject_Z 0) l k) /\ Qle (nth (inject_Z 0) l k) (inject_Z 1).
Definition increasing (l : seq Q) : Prop :=
  forall a b, (a <= b)%N -> (b < size l)%N -> Qle (nth (inject_Z 0) l a) (nth (inject_Z 0) l b).
Definition decreasing (l : seq Q) : Prop :=
  forall a b, (a <= b)%N -> (b < size l)%N -> Qle (nth (inject_Z 0) l b) (nth (inject_Z 0) l a).

(* Every observation of [a] is one of [b]: [a] is [b] with some positions left out. *)
Definition sub_obs (a b : seq obs) : Prop := exists m : seq bool, a = mask m b.

Definition n_movers (rows : seq obs) : nat := size (movers rows).
Definition natQ (n : nat) : Q := inject_Z (Z.of_nat n).

(* n is x rounded to a nearest integer. *)
Definition nearest (n : Z) (x : Q) : Prop := Qle (Qabs.Qabs (Qminus (inject_Z n) x)) (Qmake 1 2).

(* The i-th subset of a list. *)
Definition sub_at (l : seq subset) (k : nat) : subset := nth (None, None) l k.

(* Values never going down along a list. *)
Definition sortedQ (l : seq Q) : Prop :=
  forall a b, a <= b -> b < size l -> Qle (nth (inject_Z 0) l a) (nth (inject_Z 0) l b).
