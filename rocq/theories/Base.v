(* Shared vocabulary of the model: Python exceptions as values, loops as
   folds, Python list indexing, finite sums of reals.  No code of the package
   is modelled here; each item names the Python construct it stands for. *)
From Coq Require Export List Arith ZArith Lia Bool.
From Coq Require Export Reals Lra.
Export ListNotations.

(* Python exception classes that the modelled code can raise. *)
Inductive exc : Type :=
| ValueError | IndexError | TypeError | KeyError | AttributeError
| UnboundLocalError | NotImplementedError | ZeroDivisionError | LinAlgError
| AssertionError
| OutOfFuel.

Inductive res (A : Type) : Type :=
| Ok (a : A)
| Err (e : exc).
Arguments Ok {A} a.
Arguments Err {A} e.

Definition bind {A B} (x : res A) (f : A -> res B) : res B :=
  match x with Ok a => f a | Err e => Err e end.

Definition rmap {A B} (f : A -> B) (x : res A) : res B :=
  match x with Ok a => Ok (f a) | Err e => Err e end.

Declare Scope res_scope.
Delimit Scope res_scope with res.
Notation "x <- a ;; b" := (bind a (fun x => b))
  (at level 61, a at next level, right associativity) : res_scope.
Notation "' p <- a ;; b" := (bind a (fun p => b))
  (at level 61, p pattern, a at next level, right associativity) : res_scope.

(* [for x in l: s = body(x, s)], stopping at the first exception. *)
Fixpoint for_each {A St} (l : list A) (body : A -> St -> res St) (s : St) : res St :=
  match l with
  | [] => Ok s
  | x :: l' => bind (body x s) (for_each l' body)
  end.

(* Python [range(n)], [range(a, b)] and [enumerate(l)]. *)
Definition range (n : nat) : list nat := seq 0 n.
Definition range2 (a b : nat) : list nat := seq a (b - a).
Definition enumerate {A} (l : list A) : list (nat * A) :=
  combine (seq 0 (length l)) l.

(* Python list indexing [l[z]]; negative indices count from the end. *)
Definition getitem {A} (l : list A) (z : Z) : res A :=
  let n := Z.of_nat (length l) in
  let j := if (z <? 0)%Z then (z + n)%Z else z in
  if ((j <? 0) || (n <=? j))%Z then Err IndexError
  else match nth_error l (Z.to_nat j) with
       | Some x => Ok x
       | None => Err IndexError
       end.

(* Apply a fallible function to every element, left to right (a list
   comprehension). *)
Fixpoint traverse {A B} (f : A -> res B) (l : list A) : res (list B) :=
  match l with
  | [] => Ok []
  | x :: l' => bind (f x) (fun y => bind (traverse f l') (fun ys => Ok (y :: ys)))
  end.

(* Finite sums of reals. *)
Fixpoint rsum (l : list R) : R :=
  match l with [] => 0%R | x :: l' => (x + rsum l')%R end.

Definition sumn (n : nat) (f : nat -> R) : R := rsum (map f (range n)).

(* Elementwise binary operation on vectors of equal length (numpy would raise
   or broadcast otherwise; the theorems assume equal lengths). *)
Fixpoint map2 {A B C} (f : A -> B -> C) (l : list A) (m : list B) : list C :=
  match l, m with
  | x :: l', y :: m' => f x y :: map2 f l' m'
  | _, _ => []
  end.
