(* What the CRE estimator promises, written without the functions of CreModel
   (only its row types are used). *)
From Verif Require Import Base CreModel.
Local Open Scope R_scope.

(* Sum of squared residuals of the movers' wage changes on cluster effects. *)
Definition ssr (a : nat -> R) (jd : list mover) : R :=
  rsum (map (fun r => ((m_y2 r - m_y1 r) - (a (m_g2 r) - a (m_g1 r))) ^ 2) jd).

(* Clusters joined by movers. *)
Inductive linked (jd : list mover) : nat -> nat -> Prop :=
| linked_refl k : linked jd k k
| linked_move r k : In r jd -> linked jd (m_g2 r) k -> linked jd (m_g1 r) k
| linked_back r k : In r jd -> linked jd (m_g1 r) k -> linked jd (m_g2 r) k.
Definition all_linked (nc : nat) (jd : list mover) : Prop :=
  forall k, (k < nc)%nat -> linked jd k (nc - 1).
Definition clusters_below (nc : nat) (jd : list mover) : Prop :=
  forall r, In r jd -> (m_g1 r < nc)%nat /\ (m_g2 r < nc)%nat.
Definition stayers_below (nc : nat) (sd : list stayer) : Prop :=
  forall r, In r sd -> (s_g1 r < nc)%nat.

(* [x] solves the n by n system. *)
Definition solves (n : nat) (M : nat -> nat -> R) (b x : nat -> R) : Prop :=
  forall i, (i < n)%nat -> sumn n (fun j => M i j * x j) = b i.
(* The system has at most one solution, whatever the right hand side. *)
Definition nonsingular (n : nat) (M : nat -> nat -> R) : Prop :=
  forall x, solves n M (fun _ => 0) x -> forall i, (i < n)%nat -> x i = 0.

(* spsolve returned a solution of the between-cluster system it was given. *)
Definition solved (spsolve : nat -> (nat -> nat -> R) -> (nat -> R) -> nat -> R) (nc : nat) (jd : list mover) : Prop :=
  solves (nc - 1)%nat (Mc jd) (JY jd) (spsolve (nc - 1)%nat (Mc jd) (JY jd)).

(* Wage changes are exactly differences of the cluster effects [a]. *)
Definition noise_free (a : nat -> R) (jd : list mover) : Prop :=
  forall r, In r jd -> m_y2 r - m_y1 r = a (m_g2 r) - a (m_g1 r).

(* The average of f over a list of rows. *)
Definition average {A} (f : A -> R) (l : list A) : R := rsum (map f l) / INR (length l).

(* The other rows: position i is left out. *)
Definition remove_at {A} (i : nat) (l : list A) : list A := firstn i l ++ skipn (S i) l.

(* The movers who leave r's first firm for another cluster than r goes to, and the
   movers who join r's second firm from another cluster than r comes from. *)
Definition comparable1 (r r' : mover) : Prop := m_j1 r' = m_j1 r /\ m_g2 r' <> m_g2 r.
Definition comparable2 (r r' : mover) : Prop := m_j2 r' = m_j2 r /\ m_g1 r' <> m_g1 r.
(* [l'] lists the rows of [l] with the property, in order. *)
Inductive picks {A} (P : A -> Prop) : list A -> list A -> Prop :=
| picks_nil : picks P [] []
| picks_in x l l' : P x -> picks P l l' -> picks P (x :: l) (x :: l')
| picks_out x l l' : ~ P x -> picks P l l' -> picks P (x :: l) l'.
(* Stayers: the firms that somebody leaves and somebody joins *)
Definition left_and_joined (dm : list mover) (r : stayer) : Prop :=
  (exists r', In r' dm /\ m_j1 r' = s_j1 r) /\ (exists r', In r' dm /\ m_j2 r' = s_j1 r).
(* A firm belongs to one cluster. *)
Definition firm_cluster (cl : nat -> nat) (jd : list mover) : Prop :=
  forall r, In r jd -> m_g1 r = cl (m_j1 r) /\ m_g2 r = cl (m_j2 r).

(* The sample covariance, divided by n - 1. *)
Definition sample_cov {A} (f g : A -> R) (l : list A) : R :=
  rsum (map (fun r => (f r - average f l) * (g r - average g l)) l) / (INR (length l) - 1).

(* Cluster-level shifts of wages. *)
Definition shift_mover (b : nat -> R) (r : mover) : mover :=
  mkmv (m_y1 r + b (m_g1 r)) (m_y2 r + b (m_g2 r)) (m_g1 r) (m_g2 r) (m_j1 r) (m_j2 r).
Definition shift_stayer (b : nat -> R) (r : stayer) : stayer :=
  mkst (s_y1 r + b (s_g1 r)) (s_g1 r) (s_j1 r).

(* Random variables on a finite probability space. *)
Record space : Type := mkspace {
  sp_n : nat; sp_p : nat -> R;
  sp_nonneg : forall i, (i < sp_n)%nat -> 0 <= sp_p i;
  sp_one : sumn sp_n sp_p = 1 }.
Definition rv : Type := nat -> R.
Definition expect (P : space) (X : rv) : R := sumn (sp_n P) (fun i => sp_p P i * X i).
Definition cov (P : space) (X Y : rv) : R :=
  expect P (fun i => X i * Y i) - expect P X * expect P Y.
Definition add (X Y : rv) : rv := fun i => X i + Y i.
Definition sub (X Y : rv) : rv := fun i => X i - Y i.

(* The model behind the within step: two stayers of a firm with effect psi, two
   workers who leave it and two who join it.  All variables are net of cluster
   means. *)
Record story : Type := mkstory {
  psi : rv;                          (* the effect of the firm *)
  As : rv; As' : rv; es : rv; es' : rv;   (* stayers: worker effects, noise *)
  Am : rv; Am' : rv;                 (* worker effects of the leavers *)
  to : rv; to' : rv;                 (* effects of the firms they go to *)
  e1 : rv; e2 : rv; e1' : rv; e2' : rv;
  Bm : rv; Bm' : rv;                 (* worker effects of the joiners *)
  from : rv; from' : rv;             (* effects of the firms they come from *)
  f1 : rv; f2 : rv; f1' : rv; f2' : rv }.

Section Story.
Variables (P : space) (s : story).
Definition uncorrelated (X : rv) (l : list rv) : Prop := forall Y, In Y l -> cov P X Y = 0 /\ cov P Y X = 0.
(* The worker effects, firm effect and noise of a person's rows. *)
Definition stayer_vars := [As s; psi s; es s].
Definition stayer_vars' := [As' s; psi s; es' s].
Definition leaver_vars := [Am s; psi s; to s; e1 s; e2 s].
Definition leaver_vars' := [Am' s; psi s; to' s; e1' s; e2' s].
Definition joiner_vars := [Bm s; psi s; from s; f1 s; f2 s].
Definition joiner_vars' := [Bm' s; psi s; from' s; f1' s; f2' s].

(* Noise is not correlated with anything of another person; the other firm of a
   mover lies in another cluster than the other firms, and its effect is not
   correlated with anything of another person. *)
Definition independent_story : Prop :=
  uncorrelated (es s) (stayer_vars' ++ leaver_vars ++ joiner_vars) /\
  uncorrelated (es' s) stayer_vars /\
  (forall X, In X [to s; e1 s; e2 s] -> uncorrelated X (leaver_vars' ++ stayer_vars)) /\
  (forall X, In X [to' s; e1' s; e2' s] -> uncorrelated X leaver_vars) /\
  (forall X, In X [from s; f1 s; f2 s] -> uncorrelated X (joiner_vars' ++ stayer_vars)) /\
  (forall X, In X [from' s; f1' s; f2' s] -> uncorrelated X joiner_vars) /\
  (* two persons of the same kind are alike *)
  cov P (As' s) (psi s) = cov P (As s) (psi s) /\
  cov P (Am' s) (psi s) = cov P (Am s) (psi s) /\
  cov P (Bm' s) (psi s) = cov P (Bm s) (psi s) /\
  (* firm effects have one variance; noise is not correlated with firm effects *)
  cov P (to s) (to s) = cov P (psi s) (psi s) /\
  uncorrelated (to s) [e1 s; e2 s] /\ uncorrelated (psi s) [e1 s; e2 s].

(* Wages *)
Definition w_s : rv := add (As s) (add (psi s) (es s)).
Definition w_s' : rv := add (As' s) (add (psi s) (es' s)).
Definition w1_leaver : rv := add (Am s) (add (psi s) (e1 s)).
Definition w2_leaver : rv := add (Am s) (add (to s) (e2 s)).
Definition w1_leaver' : rv := add (Am' s) (add (psi s) (e1' s)).
Definition w2_leaver' : rv := add (Am' s) (add (to' s) (e2' s)).
Definition w1_joiner : rv := add (Bm s) (add (from s) (f1 s)).
Definition w2_joiner : rv := add (Bm s) (add (psi s) (f2 s)).
Definition w1_joiner' : rv := add (Bm' s) (add (from' s) (f1' s)).
Definition w2_joiner' : rv := add (Bm' s) (add (psi s) (f2' s)).

(* The moments are the covariances of these wages. *)
Definition population (m : moments) : Prop :=
  y1s_y1s m = cov P w_s w_s' /\
  y1s_y1m1 m = cov P w_s w1_leaver /\ y1s_y2m1 m = cov P w_s w2_leaver /\
  y1m1_y1m1 m = cov P w1_leaver w1_leaver' /\ y2m1_y1m1 m = cov P w2_leaver w1_leaver' /\
  y2m1_y2m1 m = cov P w2_leaver w2_leaver' /\
  y1s_y1m2 m = cov P w_s w1_joiner /\ y1s_y2m2 m = cov P w_s w2_joiner /\
  y1m2_y1m2 m = cov P w1_joiner w1_joiner' /\ y2m2_y1m2 m = cov P w2_joiner w1_joiner' /\
  y2m2_y2m2 m = cov P w2_joiner w2_joiner' /\
  dym_dym m = cov P (sub w2_leaver w1_leaver) (sub w2_leaver w1_leaver).
End Story.

(* The cross section: stayers and movers, with their first wage. *)
Definition row : Type := (stayer + mover)%type.
Definition cross_section (sd : list stayer) (jd : list mover) : list row := map inl sd ++ map inr jd.
Definition row_cluster (x : row) : nat := match x with inl r => s_g1 r | inr r => m_g1 r end.
Definition row_wage (x : row) : R := match x with inl r => s_y1 r | inr r => m_y1 r end.
(* Wages that are exactly a cluster effect plus a worker effect that is the same for
   all stayers of a cluster (d) and all movers between two clusters (c). *)
Definition exact_wages (a : nat -> R) (c : nat -> nat -> R) (d : nat -> R) (jd : list mover) (sd : list stayer) : Prop :=
  (forall r, In r jd -> m_y1 r = a (m_g1 r) + c (m_g1 r) (m_g2 r) /\ m_y2 r = a (m_g2 r) + c (m_g1 r) (m_g2 r)) /\
  (forall r, In r sd -> s_y1 r = a (s_g1 r) + d (s_g1 r)).
Definition row_worker (c : nat -> nat -> R) (d : nat -> R) (x : row) : R :=
  match x with inl r => d (s_g1 r) | inr r => c (m_g1 r) (m_g2 r) end.
(* The population variance, divided by n. *)
Definition pop_var {A} (f : A -> R) (l : list A) : R :=
  rsum (map (fun r => (f r - average f l) ^ 2) l) / INR (length l).
