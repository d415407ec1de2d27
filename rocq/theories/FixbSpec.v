(* Vocabulary for the fixed-point estimator of the slopes of the interacted model. *)
From Coq Require Import Permutation Sorted.
From Verif Require Import Base FixbModel.
Local Open Scope R_scope.

(* The rows of a worker are next to each other. *)
Inductive grouped : list row -> Prop :=
| grouped_nil : grouped []
| grouped_block i blk rest :
    (forall r, In r blk -> r_i r = i) -> (forall r, In r rest -> r_i r <> i) ->
    grouped rest -> grouped (blk ++ rest).

(* One row per worker and firm: spells are collapsed and nobody returns. *)
Definition one_spell (jd : list row) : Prop := NoDup (map (fun r => (r_i r, r_j r)) jd).

(* Wages without noise. *)
Definition noise_free (A B alpha : nat -> R) (jd : list row) : Prop :=
  forall r, In r jd -> r_y r = A (r_j r) + B (r_j r) * alpha (r_i r).

(* Weights are positive, and the same in all rows of a worker. *)
Definition worker_weights (jd : list row) : Prop :=
  (forall r, In r jd -> 0 < r_w r) /\
  (forall r s, In r jd -> In s jd -> r_i r = r_i s -> r_w r = r_w s).

(* A sort by a key. *)
Definition sorts (sort : (row -> R) -> list row -> list row) (key : row -> R) (l : list row) : Prop :=
  Permutation l (sort key l) /\ StronglySorted (fun a b => key a <= key b) (sort key l).

(* No two workers have the same key. *)
Definition no_ties (key : row -> R) (l : list row) : Prop :=
  forall r s, In r l -> In s l -> key r = key s -> r_i r = r_i s.

(* v is a fixed point of the matrix L. *)
Definition fixed (n : nat) (L : nat -> nat -> R) (v : nat -> R) : Prop :=
  forall a, (a < n)%nat -> sumn n (fun b => L a b * v b) = v a.
Definition nonzero (n : nat) (v : nat -> R) : Prop := exists a, (a < n)%nat /\ v a <> 0.

(* The eigenvalue solver finds a fixed point other than zero of L if there is one. *)
Definition eig_ok (n : nat) (eig : (nat -> nat -> R) -> nat -> R) (L : nat -> nat -> R) : Prop :=
  (exists v, nonzero n v /\ fixed n L v) -> nonzero n (eig L) /\ fixed n L (eig L).

(* Firms linked to firm 0 by pairs of firms for which an equation was formed. *)
Inductive linked (es : list (nat * nat * R)) : nat -> Prop :=
| linked_0 : linked es 0
| linked_step a b v : In (a, b, v) es -> linked es a -> linked es b.

(* The rows in the order in which they are split into groups. *)
Definition in_order (weighted : bool) (how : split) (sort : (row -> R) -> list row -> list row)
    (jd : list row) : list row :=
  match how with Income => sort (mean_y weighted jd) jd | EnterExit => jd end.

(* 'income': rows are sorted by the average wage of the worker, without ties.
   'enter_exit': rows of a worker are next to each other. *)
Definition order_ok (weighted : bool) (how : split) (sort : (row -> R) -> list row -> list row)
    (jd : list row) : Prop :=
  match how with
  | Income => sorts sort (mean_y weighted jd) jd /\ no_ties (mean_y weighted jd) jd
  | EnterExit => grouped jd
  end.

(* Collapsed data of movers without returns, wages without noise, firm ids 0, ...,
   nf - 1; with weights, they are positive and constant for a worker. *)
Record clean (weighted : bool) (nf : nat) (A B alpha : nat -> R) (jd : list row) : Prop := {
  cl_spell : one_spell jd;
  cl_noise : noise_free A B alpha jd;
  cl_weights : weighted = true -> worker_weights jd;
  cl_firms : forall r, In r jd -> (r_j r < nf)%nat }.
