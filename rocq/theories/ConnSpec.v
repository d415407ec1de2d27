(* Vocabulary for the connectedness measure. *)
From Verif Require Import Base BLMModel BLMRunSpec.
Local Open Scope R_scope.

(* An eigenvalue routine for matrices with n rows: for a symmetric matrix it returns the eigenvalues, with
   multiplicity, of an orthonormal basis of eigenvectors V (row i for eigenvalue i). *)
Definition eig_ok (n : nat) (eig : nat -> mat -> res (list R)) : Prop :=
  forall M, (forall a b, (a < n)%nat -> (b < n)%nat -> M a b = M b a) ->
  exists evals (V : mat), eig n M = Ok evals /\ length evals = n /\
    (forall i a, (i < n)%nat -> (a < n)%nat ->
       sumn n (fun b => M a b * V i b) = nth i evals 0 * V i a) /\
    (forall i j, (i < n)%nat -> (j < n)%nat ->
       sumn n (fun a => V i a * V j a) = if Nat.eqb i j then 1 else 0) /\
    (forall a b, (a < n)%nat -> (b < n)%nat ->
       sumn n (fun i => V i a * V i b) = if Nat.eqb a b then 1 else 0).

(* The firm types fall into two groups with no weight between them. *)
Definition falls_apart (nk : nat) (W : mat) : Prop :=
  exists G : nat -> bool,
    (exists a, (a < nk)%nat /\ G a = true) /\ (exists b, (b < nk)%nat /\ G b = false) /\
    forall a b, (a < nk)%nat -> (b < nk)%nat -> G a = true -> G b = false -> W a b = 0 /\ W b a = 0.

(* Movers of worker type l from firm type a to firm type b. *)
Definition moves_of (nk : nat) (NN pk1 : mat) (l : nat) : mat := fun a b => type_moves nk NN pk1 a b l.

(* Every firm type has movers of worker type l, in one direction or the other (movers
   within the firm type count). *)
Definition touched (nk : nat) (W : mat) : Prop :=
  forall a, (a < nk)%nat -> exists b, (b < nk)%nat /\ 0 < W a b + W b a.

(* There are moves from a to b exactly if there are from b to a. *)
Definition both_ways (nk : nat) (NN : mat) : Prop :=
  forall a b, (a < nk)%nat -> (b < nk)%nat -> (0 < NN a b <-> 0 < NN b a).
