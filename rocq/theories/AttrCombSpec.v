(* Vocabulary for the properties of the combined attrition results. *)
Set Warnings "-notation-overridden,-ambiguous-paths".
From Coq Require Import ZArith QArith String.
From mathcomp Require Import all_ssreflect.
From Verif Require Base.
From Verif Require Import AttrModel AttrSpec AttrCombModel.

Set Implicit Arguments.
Unset Strict Implicit.
Unset Printing Implicit Defensive.
Local Open Scope nat_scope.

(* The result of simulation i at share j for a model. *)
Definition has_result (res : results) (m : string) (i j : nat) (d : rdict) : Prop :=
  exists t l, res m = Some t /\ i < size t /\ nth [::] t i = l /\ j < size l
              /\ nth d l j = d.

(* The number c is the value stored under num in percent of that stored under den. *)
Definition percent_of (d : rdict) (num den : string) (c : Q) : Prop :=
  exists x y, d num = Some x /\ d den = Some y /\ ~ Qeq y (inject_Z 0)
              /\ Qeq (Qmult c y) (Qmult (inject_Z 100) x).

(* A dictionary of tables has, under the name of the estimator, an N by M table of
   these percentages. *)
Definition table_ok (res : results) (num : est -> string) (N M : nat) (v : pyval) (e : est) : Prop :=
  exists d k t, v = Dict d /\ k < size d /\ nth (e_name e, t) d k = (e_name e, t)
    /\ size t = N
    /\ forall i, i < N -> size (nth [::] t i) = M
       /\ forall j, j < M -> exists r, has_result res (e_model e) i j r
            /\ percent_of r (num e) (e_vary e) (nth (inject_Z 0) (nth [::] t i) j).

(* All results a table needs are there and var(y) is not zero. *)
Definition complete (res : results) (N M : nat) (e : est) : Prop :=
  forall i j, i < N -> j < M -> exists r x y z, has_result res (e_model e) i j r
    /\ r (e_vary e) = Some y /\ r (e_var e) = Some x /\ r (e_cov e) = Some z
    /\ ~ Qeq y (inject_Z 0).

(* The point at height [t] on the segment from (x0, m0) to (x1, m1). *)
Definition on_segment (x0 m0 x1 m1 v t : Q) : Prop :=
  Qeq (Qmult (Qminus v x0) (Qminus m1 m0)) (Qmult (Qminus x1 x0) (Qminus t m0)).

(* Where an estimator's numbers are documented to be: 'fe', 'ho' and 'he' in the
   results of FEEstimator under the estimator's suffix, 'cre' in those of
   CREEstimator, 'bs1' and 'bs2' in those of BSEstimator. *)
Local Open Scope string_scope.
Definition documented (e : est) : Prop :=
  (e_model e = "fe" /\ (e_name e = "fe" \/ e_name e = "ho" \/ e_name e = "he")
   /\ e_vary e = "var(y)" /\ e_var e = "var(psi)_" ++ e_name e
   /\ e_cov e = "cov(psi, alpha)_" ++ e_name e)
  \/ (e_model e = "cre" /\ e_name e = "cre"
   /\ e_vary e = "var_y" /\ e_var e = "tot_var" /\ e_cov e = "tot_cov")
  \/ (e_model e = "bs" /\ (e_name e = "bs1" \/ e_name e = "bs2")
   /\ e_vary e = "var(y)" /\ e_var e = "var(mu)_" ++ e_name e
   /\ e_cov e = "cov(lambda, mu)_" ++ e_name e).

(* The list m holds for every share the movers per firm of the FE samples, averaged
   over the simulations and raised by five percent. *)
Definition five_percent_above (res : results) (N M : nat) (m : seq Q) : Prop :=
  size m = M /\ forall j, j < M -> exists q : nat -> Q,
    (forall i, i < N -> exists r a b, has_result res "fe" i j r
       /\ r "n_movers" = Some a /\ r "n_firms" = Some b /\ Qeq (Qmult (q i) b) a
       /\ ~ Qeq b (inject_Z 0))
    /\ Qeq (Qmult (inject_Z 100) (nth (inject_Z 0) m j))
           (Qmult (inject_Z 105) (Qdiv (foldr Qplus (inject_Z 0) (map q (iota 0 N)))
                                       (inject_Z (Z.of_nat N)))).
Local Close Scope string_scope.
