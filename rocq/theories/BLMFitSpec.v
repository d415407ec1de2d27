(* What the properties about the movers' EM algorithm speak about. *)
From Verif Require Import Base UtilModel UtilSpec ConsModel ConsSpec BLMModel BLMEMModel BLMSpec
  BLMRunModel BLMFitModel.
Local Open Scope R_scope.

(* The objective of the solver, 1/2 x'Px + q'x for a diagonal P. *)
Definition qobj (P q : list R) (x : nat -> R) : R :=
  sumn (length P) (fun i => nth i P 0 * x i ^ 2 / 2 + nth i q 0 * x i).
(* The solver may give up, but a solution it returns is one. *)
Definition exact_qp (solver : list R -> list R -> problem -> qpres) : Prop :=
  forall P q pb x, solver P q pb = QSol x ->
    length x = length P /\ feasible pb (fun i => nth i x 0) /\
    forall z, feasible pb z -> qobj P q (fun i => nth i x 0) <= qobj P q z.

Definition no_controls (p : par) : Prop :=
  A1_cat p = [] /\ A2_cat p = [] /\ S1_cat p = [] /\ S2_cat p = [] /\
  A1_cts p = [] /\ A2_cts p = [] /\ S1_cts p = [] /\ S2_cts p = [].

(* The vector x holds the effects of both periods. *)
Definition stacked (nl nk : nat) (B1 B2 : mat) (x : nat -> R) : Prop :=
  forall l k, (l < nl)%nat -> (k < nk)%nat ->
    eff nl nk x 0 l k = B1 l k /\ eff nl nk x 1 l k = B2 l k.

(* The constraints on A hold for the effects of p. *)
Definition cons_on_A (c : cfg settings) : list cobj :=
  cons_a (other c) ++ match cons_a_all c with Some cs => cs | None => [] end.
Definition A_allowed (nl nk : nat) (c : cfg settings) (p : par) : Prop :=
  exists x, stacked nl nk (A1 p) (A2 p) x /\
    forall o d, In o (cons_on_A c) -> get_constraints o nl nk = Ok d -> sat d x.

(* Data: firm types in range and all observed in both periods, positive
   weights. *)
Definition movers_data (nk : nat) (data : list obs) : Prop :=
  Forall (fun o => data_ok nk o /\ 0 < w1 o /\ 0 < w2 o) data /\
  forall k, (k < nk)%nat -> (exists o, In o data /\ g1 o = k) /\ (exists o, In o data /\ g2 o = k).
(* Every pair of firm types is observed. *)
Definition all_pairs (nk : nat) (data : list obs) : Prop :=
  forall k1 k2, (k1 < nk)%nat -> (k2 < nk)%nat -> exists o, In o data /\ g1 o = k1 /\ g2 o = k2.
Definition equal_weights (data : list obs) : Prop :=
  exists W, forall o, In o data -> w1 o * w2 o = W.

(* Parameters: no controls, variances at least lb, proportions positive
   distributions. *)
Definition values_ok (nl nk : nat) (lb : R) (p : par) : Prop :=
  no_controls p /\
  (forall l k, (l < nl)%nat -> (k < nk)%nat ->
     0 < S1 p l k /\ 0 < S2 p l k /\ lb <= S1 p l k ^ 2 /\ lb <= S2 p l k ^ 2) /\
  (forall k1 k2, (k1 < nk)%nat -> (k2 < nk)%nat ->
     (forall l, (l < nl)%nat -> 0 < pk1 p (k1 + nk * k2)%nat l) /\
     sumn nl (pk1 p (k1 + nk * k2)%nat) = 1).

(* The mean log-likelihood plus, per row, the log of the Dirichlet prior of the
   proportions of its pair: what an EM step with d_prior increases. *)
Definition penalised (nl nk : nat) (d : R) (p : par) (data : list obs) : R :=
  movers_loglik nl nk p data
  + (d - 1) * (rsum (map (fun o => sumn nl (fun l => ln (pk1 p (g1 o + nk * g2 o)%nat l))) data)
               / INR (length data)).
