(* Vocabulary for C52, independent of DynModel apart from the row type and the result record. *)
From Verif Require Import Base DynModel.
Local Open Scope R_scope.

(* Average and covariance over a list, divided by the number of elements. *)
Definition pavg {A} (f : A -> R) (l : list A) : R := rsum (map f l) / INR (length l).
Definition pcov {A} (f h : A -> R) (l : list A) : R :=
  pavg (fun r => (f r - pavg f l) * (h r - pavg h l)) l.

(* A stayer of the dynamic model: a fixed effect and four shocks. *)
Record stayer4 := mkst4 { cl : nat; alpha : R; nu : nat -> R }.

(* The wage equations: the shock of period 2 is carried to period 1 with rho_1 and to
   period 3 with rho_t, what was added up to period 3 is carried to period 4 with rho_4. *)
Definition wage (rho_1 rho_4 rho_t : R) (s : stayer4) (t : nat) : R :=
  match t with
  | 0%nat => alpha s + rho_1 * nu s 1 + nu s 0
  | 1%nat => alpha s + nu s 1
  | 2%nat => alpha s + rho_t * nu s 1 + nu s 2
  | _ => alpha s + rho_4 * (rho_t * nu s 1 + nu s 2) + nu s 3
  end.

Definition observed (rho_1 rho_4 rho_t : R) (s : stayer4) : drow := mkdrow (cl s) (wage rho_1 rho_4 rho_t s).

Definition members (l : list stayer4) (g : nat) : list stayer4 := filter (fun s => (cl s =? g)%nat) l.

(* Within every group the effect and the shocks are uncorrelated. *)
Definition uncorrelated_parts (l : list stayer4) : Prop :=
  forall g, (forall t, (t < 4)%nat -> pcov alpha (fun s => nu s t) (members l g) = 0) /\
            (forall t t', (t < 4)%nat -> (t' < 4)%nat -> t <> t' ->
               pcov (fun s => nu s t) (fun s => nu s t') (members l g) = 0).

(* The true variances of group g, in the order alpha, nu_1, ..., nu_4. *)
Definition true_var (l : list stayer4) (b g : nat) : R :=
  match b with
  | 0%nat => pcov alpha alpha (members l g)
  | S t => pcov (fun s => nu s t) (fun s => nu s t) (members l g)
  end.

Definition all_groups (nk : nat) (l : list stayer4) : Prop := forall g, (g < nk)%nat -> members l g <> [].

(* The solver of the quadratic program: whatever it returns is nonnegative and
   minimises 1/2 x'Px + q'x over the nonnegative vectors. *)
Definition objective (n : nat) (P : nat -> nat -> R) (q x : nat -> R) : R :=
  / 2 * sumn n (fun i => x i * sumn n (fun j => P i j * x j)) + sumn n (fun i => q i * x i).
Definition nonneg (n : nat) (x : nat -> R) : Prop := forall i, (i < n)%nat -> 0 <= x i.
Definition qp_solver (quadprog : nat -> (nat -> nat -> R) -> (nat -> R) -> option (nat -> R)) : Prop :=
  forall n P q x, quadprog n P q = Some x ->
    nonneg n x /\ forall x', nonneg n x' -> objective n P q x <= objective n P q x'.

(* The ten moments of a group, for a candidate vector of variances (fixed effect and
   four shocks) and given rhos: what the wage equations imply. *)
Definition implied (rho_1 rho_4 rho_t : R) (v : nat -> R) (t1 t2 : nat) : R :=
  let a := v 0%nat in let v1 := v 1%nat in let v2 := v 2%nat in let v3 := v 3%nat in let v4 := v 4%nat in
  let load t := match t with 0%nat => rho_1 | 1%nat => 1 | 2%nat => rho_t | _ => rho_4 * rho_t end in
  let load3 t := match t with 2%nat => 1 | 3%nat => rho_4 | _ => 0 end in
  a + load t1 * load t2 * v2 + load3 t1 * load3 t2 * v3
  + (if (t1 =? t2)%nat then match t1 with 0%nat => v1 | 3%nat => v4 | _ => 0 end else 0).
