(* Vocabulary of the properties of the incomplete Cholesky decomposition. *)
From Verif Require Import Base IcholModel.
Local Open Scope R_scope.

(* The matrix that a csc triple stands for: what is stored for row i in column j. *)
Definition entry (M : csc) (i j : nat) : R :=
  rsum (map (fun idx => if (aval (cr M) idx =? i)%nat then aval (cv M) idx else 0)
            (range2 (aval (cp M) j) (aval (cp M) (j + 1)))).

(* scipy's canonical format of a square matrix: pointers from zero upwards within
   the arrays, row indices in bounds and strictly increasing within a column. *)
Record canonical (n : nat) (M : csc) : Prop := {
  can_p : alen (cp M) = (n + 1)%nat;
  can_0 : aval (cp M) 0%nat = 0%nat;
  can_mono : forall j, (j < n)%nat -> (aval (cp M) j <= aval (cp M) (j + 1))%nat;
  can_r : (aval (cp M) n <= alen (cr M))%nat;
  can_v : (aval (cp M) n <= alen (cv M))%nat;
  can_row : forall j idx, (j < n)%nat -> (aval (cp M) j <= idx < aval (cp M) (j + 1))%nat ->
            (aval (cr M) idx < n)%nat;
  can_inc : forall j idx idx', (j < n)%nat ->
            (aval (cp M) j <= idx)%nat -> (idx < idx')%nat -> (idx' < aval (cp M) (j + 1))%nat ->
            (aval (cr M) idx < aval (cr M) idx')%nat }.

(* Every diagonal element is stored (its value may be zero). *)
Definition diagonal_stored (n : nat) (M : csc) : Prop :=
  forall j, (j < n)%nat ->
  exists idx, (aval (cp M) j <= idx < aval (cp M) (j + 1))%nat /\ aval (cr M) idx = j.

(* A lower triangular matrix with a positive diagonal. *)
Definition lower (n : nat) (L : nat -> nat -> R) : Prop :=
  (forall i j, (i < j)%nat -> (j < n)%nat -> L i j = 0) /\
  (forall j, (j < n)%nat -> 0 < L j j).

(* L L' *)
Definition square (n : nat) (L : nat -> nat -> R) (i j : nat) : R :=
  sumn n (fun k => L i k * L j k).

Definition symmetric (n : nat) (M : nat -> nat -> R) : Prop :=
  forall i j, (i < n)%nat -> (j < n)%nat -> M i j = M j i.
Definition mulv (n : nat) (M : nat -> nat -> R) (x : nat -> R) (i : nat) : R :=
  sumn n (fun j => M i j * x j).
Definition dot (n : nat) (x y : nat -> R) : R := sumn n (fun i => x i * y i).
Definition nonzero (n : nat) (x : nat -> R) : Prop := exists i, (i < n)%nat /\ x i <> 0.
Definition positive_definite (n : nat) (M : nat -> nat -> R) : Prop :=
  symmetric n M /\ forall x, nonzero n x -> 0 < dot n x (mulv n M x).

(* The sum of the absolute values of column j from the diagonal down. *)
Definition column_size (n : nat) (M : nat -> nat -> R) (j : nat) : R :=
  sumn n (fun i => if (j <=? i)%nat then Rabs (M i j) else 0).
