(* What a constraint means, independently of how the matrices are built. *)
From Verif Require Import Base UtilModel ConsModel.
Local Open Scope R_scope.

(* The r-th entry of m @ x. *)
Definition rowdot (m : dmat) (r : nat) (x : nat -> R) : R :=
  sumn (nc m) (fun j => ent m r j * x j).

(* m @ x <= rhs  and  m @ x == rhs *)
Definition all_le (m : dmat) (rhs : list R) (x : nat -> R) : Prop :=
  forall r, (r < nr m)%nat -> rowdot m r x <= nth r rhs 0.
Definition all_eq (m : dmat) (rhs : list R) (x : nat -> R) : Prop :=
  forall r, (r < nr m)%nat -> rowdot m r x = nth r rhs 0.

(* x satisfies a constraint dictionary. *)
Definition sat (c : cons) (x : nat -> R) : Prop :=
  match c_G c with Some (G, h) => all_le G h x | None => True end /\
  match c_A c with Some (A, b) => all_eq A b x | None => True end.

(* Shapes: matrices have n columns and right-hand sides one entry per row. *)
Definition half_wf (n : nat) (o : option (dmat * list R)) : Prop :=
  match o with Some (m, rhs) => nc m = n /\ length rhs = nr m | None => True end.
Definition cons_wf (n : nat) (c : cons) : Prop :=
  half_wf n (c_G c) /\ half_wf n (c_A c).

(* The effect of worker type l at firm type k in period t inside a parameter
   vector: "parameters are ordered with precedence of (time, worker type, firm
   type)" (constraints.py:12). *)
Definition eff (nl nk : nat) (x : nat -> R) (t l k : nat) : R :=
  x (t * nl * nk + l * nk + k)%nat.

(* Mean over n indices. *)
Definition mean (n : nat) (f : nat -> R) : R := sumn n f / INR n.
(* Mean over a list of periods. *)
Definition mean_over (ts : list nat) (f : nat -> R) : R :=
  rsum (map f ts) / INR (length ts).

(* Constrained periods exist. *)
Definition in_periods (ts : list nat) (nt : nat) : Prop :=
  forall t, In t ts -> (t < nt)%nat.

(* Effects change linearly in the worker type. *)
Definition linear_in_l (nl nk : nat) (x : nat -> R) (t k : nat) : Prop :=
  forall l, (l + 2 < nl)%nat ->
    eff nl nk x t (l + 1) k - eff nl nk x t l k
    = eff nl nk x t (l + 2) k - eff nl nk x t (l + 1) k.

(* effect(l, k) = a_k + l d *)
Definition linear_additive_at (nl nk : nat) (x : nat -> R) (t : nat) : Prop :=
  exists (a : nat -> R) (d : R), forall l k, (l < nl)%nat -> (k < nk)%nat ->
    eff nl nk x t l k = a k + INR l * d.

(* Worker-firm effects are the same in all periods. *)
Definition stationary (nt nl nk : nat) (x : nat -> R) : Prop :=
  forall t l k, (t + 1 < nt)%nat -> (l < nl)%nat -> (k < nk)%nat ->
    eff nl nk x t l k = eff nl nk x (t + 1) l k.

(* Deviations from the mean over firm types are those of period 0. *)
Definition stationary_variation (nl nk : nat) (x : nat -> R) (t : nat) : Prop :=
  forall l k, (l < nl)%nat -> (k < nk)%nat ->
    eff nl nk x t l k - mean nk (eff nl nk x t l) = eff nl nk x 0 l k - mean nk (eff nl nk x 0 l).

(* ---- histories of a QPConstrained object ---- *)
Inductive op : Type :=
| OpAdd (cs : list cobj)                 (* add_constraints(cs) *)
| OpManual (d : cons)                    (* _add_constraint(G, h, A, b) *)
| OpClear (inequality equality : bool)   (* clear_constraints *)
| OpCheck                                (* check_feasible() *)
| OpSolve (sparse : bool) (n : nat).     (* solve(P, q, solver), P n-by-n *)

Definition step (o : op) (s : qp) : res qp :=
  match o with
  | OpAdd cs => add_constraints cs s
  | OpManual d => add_constraint d s
  | OpClear i e => Ok (clear_constraints i e s)
  | OpCheck => Ok (fst (check_feasible s))
  | OpSolve sp n => Ok (fst (solve sp n s))
  end.
Definition run (ops : list op) (s : qp) : res qp := for_each ops step s.

(* The operation adds the constraint dictionary d. *)
Definition adds (nl nk : nat) (o : op) (d : cons) : Prop :=
  match o with
  | OpAdd cs => exists c, In c cs /\ get_constraints c nl nk = Ok d
  | OpManual d' => d = d'
  | _ => False
  end.
Definition clears_G (o : op) : Prop := exists e, o = OpClear true e.
Definition clears_A (o : op) : Prop := exists i, o = OpClear i true.

(* d was added and not cleared since. *)
Definition active (clears : op -> Prop) (nl nk : nat) (ops : list op) (d : cons) : Prop :=
  exists pre o post, ops = pre ++ o :: post /\ adds nl nk o d
    /\ forall o', In o' post -> ~ clears o'.

Definition sat_G (d : cons) (x : nat -> R) : Prop :=
  match c_G d with Some (G, h) => all_le G h x | None => True end.
Definition sat_A (d : cons) (x : nat -> R) : Prop :=
  match c_A d with Some (A, b) => all_eq A b x | None => True end.

(* x satisfies the constraints handed to the solver: the matrices are
   two-dimensional and G x <= h, A x = b. *)
Definition feasible (p : problem) (x : nat -> R) : Prop :=
  match p_G p with
  | None => True
  | Some (Arr2 m, h) | Some (ArrSp m, h) => all_le m h x
  | Some (Arr1 _, _) => False
  end /\
  match p_A p with
  | None => True
  | Some (Arr2 m, b) | Some (ArrSp m, b) => all_eq m b x
  | Some (Arr1 _, _) => False
  end.

(* x satisfies the constraints of the object. *)
Definition accepts (s : qp) (x : nat -> R) : Prop :=
  forall n, feasible (snd (solve false n s)) x.

(* The operation only adds constraints on vectors of length n that can be
   built, and no sparse solver is used. *)
Definition op_ok (n nl nk : nat) (o : op) : Prop :=
  match o with
  | OpAdd cs => forall c, In c cs -> exists d, get_constraints c nl nk = Ok d /\ cons_wf n d
  | OpManual d => cons_wf n d
  | OpSolve sparse _ => sparse = false
  | _ => True
  end.

(* The solver's matrices have as many columns as there are unknowns. *)
Definition cols_ok (n : nat) (o : option (arr * list R)) : Prop :=
  match o with
  | None => True
  | Some (Arr2 m, rhs) | Some (ArrSp m, rhs) => nc m = n /\ length rhs = nr m
  | Some (Arr1 _, _) => False
  end.
Definition problem_ok (p : problem) : Prop :=
  cols_ok (p_n p) (p_G p) /\ cols_ok (p_n p) (p_A p).

(* A built-in constraint object that makes sense for nl worker types, nk firm
   types and nt periods. *)
Definition cross_ok (cross : bool) (nnt : list nat) : Prop :=
  cross = true -> NoDup nnt /\ nnt <> [].
Definition valid (nt nl nk : nat) (c : cobj) : Prop :=
  match c with
  | CLinear nnt t => t = nt /\ (2 <= nl)%nat /\ in_periods (periods nnt nt) nt
  | CLinearAdditive nnt t =>
      t = nt /\ (2 <= nl)%nat /\ (1 <= nk)%nat /\ in_periods (periods nnt nt) nt
  | CMonotonic _ _ t => t = nt /\ (1 <= nl)%nat
  | CMonotonicMean _ _ cr nnt t =>
      t = nt /\ (1 <= nl)%nat /\ in_periods (periods nnt nt) nt
      /\ cross_ok cr (periods nnt nt)
  | CMinFirmType k0 _ _ cr nnt t =>
      t = nt /\ (k0 < nk)%nat /\ in_periods (periods nnt nt) nt
      /\ cross_ok cr (periods nnt nt)
  | CNoWorkerTypeInteraction nnt t =>
      t = nt /\ (1 <= nl)%nat /\ in_periods (periods nnt nt) nt
  | CNormalizeLowest k0 cr nnt t =>
      t = nt /\ (k0 < nk)%nat /\ (1 <= nl)%nat /\ in_periods (periods nnt nt) nt
      /\ cross_ok cr (periods nnt nt)
  | CNormalizeAll k0 cr nnt t =>
      t = nt /\ (k0 < nk)%nat /\ in_periods (periods nnt nt) nt
      /\ cross_ok cr (periods nnt nt)
  | CStationary nwt t => t = nt /\ (nwt = -1 \/ 1 <= nwt)%Z /\ (1 <= nt)%nat
  | CStationaryFirmTypeVariation nnt t =>
      t = nt /\ forall p, In p (periods1 nnt nt) -> (1 <= p < nt)%nat
  | CBoundedBelow _ t | CBoundedAbove _ t => t = nt
  end.
