(* Vocabulary for preconditioners. *)
Set Warnings "-notation-overridden,-ambiguous-paths".
From mathcomp Require Import all_ssreflect all_algebra.
From Verif Require Base.

Set Implicit Arguments.
Unset Strict Implicit.
Unset Printing Implicit Defensive.

Import GRing.Theory Num.Theory.
Local Open Scope ring_scope.

Section Spec.
Variable F : realFieldType.

Definition dot n (x y : 'cV[F]_n) : F := \sum_i x i 0 * y i 0.
Definition symmetric n (A : 'M[F]_n) : Prop := forall i j, A i j = A j i.
Definition pos_def n (A : 'M[F]_n) : Prop := forall x, x != 0 -> 0 < dot x (A *m x).

(* What conjugate gradients need of a preconditioner: it returns, is linear, symmetric
   and positive definite. *)
Definition spd_operator n (f : 'cV[F]_n -> Base.res 'cV[F]_n) : Prop :=
  exists B, (forall r, f r = Base.Ok (B *m r)) /\ symmetric B /\ pos_def B.

(* m sweeps of damped Jacobi for A x = b from 0. *)
Fixpoint damped (om : F) n (A : 'M[F]_n) (b : 'cV[F]_n) (m : nat) : 'cV[F]_n :=
  match m with
  | O => 0
  | m'.+1 => let x := damped om A b m' in
             \col_i (x i 0 + om * (b i 0 - \sum_j A i j * x j 0) / A i i)
  end.

(* A solver that returns for matrices without entries. *)
Definition solves_empty (spsolve : forall n, 'M[F]_n -> 'cV[F]_n -> Base.res 'cV[F]_n) : Prop :=
  forall n (A : 'M[F]_n) b, n = 0%N -> exists x, spsolve n A b = Base.Ok x.
(* A solver whose result is linear and symmetric if the matrix is symmetric, or raises. *)
Definition solves_symmetric (spsolve : forall n, 'M[F]_n -> 'cV[F]_n -> Base.res 'cV[F]_n) : Prop :=
  forall n (A : 'M[F]_n), symmetric A ->
    (exists B, symmetric B /\ forall b, spsolve n A b = Base.Ok (B *m b)) \/
    (exists e, forall b, spsolve n A b = Base.Err e).

(* The weight of cell j in coarse cell i along one dimension: a half for the cell in the
   middle, a quarter for its two neighbours. *)
Definition tent (j i : nat) : F :=
  if (j == i.*2)%N then 1 / 2%:R else if (j.+1 == i.*2)%N || (j == i.*2.+1)%N then 1 / 4%:R else 0.
End Spec.
