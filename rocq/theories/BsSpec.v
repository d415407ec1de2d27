(* Vocabulary for the properties of the Borovickova-Shimer estimator; only the row
   type and the result record of BsModel are used. *)
From Coq Require Import Sorted Permutation.
From Verif Require Import Base BsModel.
Local Open Scope R_scope.

Definition average {A} (f : A -> R) (l : list A) : R := rsum (map f l) / INR (length l).
Definition waverage {A} (w f : A -> R) (l : list A) : R := rsum (map (fun x => w x * f x) l) / rsum (map w l).

(* All ordered pairs of elements at distinct positions. *)
Definition remove_at {A} (i : nat) (l : list A) : list A := firstn i l ++ skipn (S i) l.
Definition distinct_pairs {A} (l : list A) : list (A * A) :=
  flat_map (fun i => match nth_error l i with
                     | Some x => map (fun y => (x, y)) (remove_at i l)
                     | None => [] end) (range (length l)).

(* The observations of one worker (key = bi) or of one firm (key = bj). *)
Definition obs (key : brow -> nat) (v : nat) (l : list brow) : list brow := filter (fun r => (key r =? v)%nat) l.
(* [vs] lists every worker (firm) once. *)
Definition lists_units (key : brow -> nat) (vs : list nat) (l : list brow) : Prop :=
  NoDup vs /\ forall v, In v vs <-> exists r, In r l /\ key r = v.
Definition two_obs (key : brow -> nat) (l : list brow) : Prop :=
  forall r, In r l -> (2 <= length (obs key (key r) l))%nat.
Definition sorted_by (key : brow -> nat) (l : list brow) : Prop := StronglySorted (fun r s => (key r <= key s)%nat) l.
(* What sort_values guarantees, whatever the order of ties. *)
Definition is_sort_j (sort_j : list brow -> list brow) : Prop :=
  forall l, Permutation (sort_j l) l /\ sorted_by bj (sort_j l).

(* The variance of unit means: average product of distinct observations of a unit,
   units weighted by their numbers of observations, minus the squared grand mean. *)
Definition pair_variance (key : brow -> nat) (vs : list nat) (l : list brow) : R :=
  rsum (map (fun v => INR (length (obs key v l)) * average (fun p => by_ (fst p) * by_ (snd p)) (distinct_pairs (obs key v l))) vs)
  / INR (length l) - average by_ l ^ 2.
(* With weights: pairs weighted by sqrt(w_a) sqrt(w_b), units by their total weight. *)
Definition pair_variance_w (key : brow -> nat) (vs : list nat) (l : list brow) : R :=
  rsum (map (fun v => rsum (map bw (obs key v l))
     * waverage (fun p => sqrt (bw (fst p)) * sqrt (bw (snd p))) (fun p => by_ (fst p) * by_ (snd p)) (distinct_pairs (obs key v l))) vs)
  / rsum (map bw l) - waverage bw by_ l ^ 2.

(* The average over the other observations of the worker (firm) of the row at position
   [p]: all positions except [p] itself. *)
Definition others (key : brow -> nat) (p : nat) (l : list brow) : list brow :=
  match nth_error l p with Some r => obs key (key r) (remove_at p l) | None => [] end.
Definition pair_covariance (l : list brow) : R :=
  average (fun p => average by_ (others bi p l) * average by_ (others bj p l)) (range (length l)) - average by_ l ^ 2.
Definition pair_covariance_w (l : list brow) : R :=
  waverage (fun p => match nth_error l p with Some r => bw r | None => 0 end)
    (fun p => waverage bw by_ (others bi p l) * waverage bw by_ (others bj p l)) (range (length l)) - waverage bw by_ l ^ 2.

Definition positive_weights (l : list brow) : Prop := forall r, In r l -> 0 < bw r.

(* ---- expectations ---- *)
Record outcome := mkout { prob : R; wage_of : nat -> R }.
Definition expect (Om : list outcome) (f : (nat -> R) -> R) : R := rsum (map (fun o => prob o * f (wage_of o)) Om).
Definition is_space (Om : list outcome) : Prop := (forall o, In o Om -> 0 <= prob o) /\ rsum (map prob Om) = 1.
(* The data with the wage of the row at position p replaced by y p. *)
Definition with_wages (l : list brow) (y : nat -> R) : list brow :=
  map (fun pr => let r := snd pr in mkbrow (bi r) (bj r) (bt r) (y (fst pr)) (bw r) (bu r)) (enumerate l).

(* Every worker-firm pair is observed once, as in collapsed data without returns. *)
Definition single_spells (l : list brow) : Prop :=
  forall p q r s, nth_error l p = Some r -> nth_error l q = Some s -> bi r = bi s -> bj r = bj s -> p = q.
(* The variance of the mean of the first n wages around the mean of the m p. *)
Definition mean_variance (Om : list outcome) (m : nat -> R) (n : nat) : R :=
  expect Om (fun y => (average y (range n) - average m (range n)) ^ 2).

(* ---- data after the call ---- *)
Definition before (r s : brow) : Prop := (bi r < bi s)%nat \/ bi r = bi s /\ (bt r < bt s)%nat.
Definition is_sort_rows (sort_rows : list brow -> list brow) : Prop :=
  forall l, Permutation (sort_rows l) l /\ StronglySorted (fun r s => ~ before s r) (sort_rows l).

(* ---- changes of the data ---- *)
Definition add_wage (c : R) (r : brow) : brow := mkbrow (bi r) (bj r) (bt r) (by_ r + c) (bw r) (bu r).
Definition scale_weight (k : R) (r : brow) : brow := mkbrow (bi r) (bj r) (bt r) (by_ r) (k * bw r) (bu r).
