(* Vocabulary for control variables in simulated data. *)
From Verif Require Import Base BLMModel BLMEMModel BLMSpec SimModel SimCtlModel.
Local Open Scope R_scope.

(* A simulated row as the estimator reads it, without weights. *)
Definition obs_of (r : crow) : obs :=
  let s := o_row (k_o r) in
  mkobs (s_y1 s) (s_y2 s) (s_g1 s) (s_g2 s) 1 1 (k_c1 r) (k_c2 r) (k_x1 r) (k_x2 r).

(* The same worker, firms and types; the wages may differ. *)
Definition same_worker (r : crow) (o : orow) : Prop :=
  o_i (k_o r) = o_i o /\ o_m (k_o r) = o_m o /\ o_j1 (k_o r) = o_j1 o /\ o_j2 (k_o r) = o_j2 o /\
  s_g1 (o_row (k_o r)) = s_g1 (o_row o) /\ s_g2 (o_row (k_o r)) = s_g2 (o_row o) /\
  s_l (o_row (k_o r)) = s_l (o_row o).

(* The wages of [r], a worker of the type and firm types of [o]: to the wage without
   control variables their effects and a normal shock are added, so that the mean and the
   variance are those of the likelihood. *)
Definition adds (p : par) (r : crow) (o : orow) (z1 z2 : R) : Prop :=
  let l := s_l (o_row o) in
  exists s1 s2, 0 <= s1 /\ 0 <= s2 /\
    S1 p l (s_g1 (o_row o)) ^ 2 + s1 ^ 2 = var1 p l (obs_of r) /\
    S2 p l (s_g2 (o_row o)) ^ 2 + s2 ^ 2 = var2 p l (obs_of r) /\
    s_y1 (o_row (k_o r)) - mu1 p l (obs_of r) = (s_y1 (o_row o) - A1 p l (s_g1 (o_row o))) + s1 * z1 /\
    s_y2 (o_row (k_o r)) - mu2 p l (obs_of r) = (s_y2 (o_row o) - A2 p l (s_g2 (o_row o))) + s2 * z2.

(* The control variables of a row are those drawn for it. *)
Definition records (ncat ncts : nat) (d : cdraws) (i : nat) (r : crow) : Prop :=
  length (k_c1 r) = ncat /\ length (k_c2 r) = ncat /\ length (k_x1 r) = ncts /\ length (k_x2 r) = ncts /\
  (forall j, (j < ncat)%nat -> nth j (k_c1 r) 0%nat = d_c1 d i j /\ nth j (k_c2 r) 0%nat = d_c2 d i j) /\
  (forall j, (j < ncts)%nat -> nth j (k_x1 r) 0 = d_x1 d i j /\ nth j (k_x2 r) 0 = d_x2 d i j).

(* Two categories differ by the same amount in both periods. *)
Definition cat_same_variation (nl n : nat) (a1 a2 : catpar) : Prop :=
  forall l i i', (l < nl)%nat -> (i < n)%nat -> (i' < n)%nat ->
    cat_at l i a2 - cat_at l i' a2 = cat_at l i a1 - cat_at l i' a1.
(* The mean over categories of a column that does not interact. *)
Definition cat_mean (n : nat) (a : catpar) : R := sumn n (fun i => cat_at 0 i a) / INR n.
(* Two worker types differ by the same amount in both periods. *)
Definition cts_same_variation (nl : nat) (a1 a2 : ctspar) : Prop :=
  forall l l', (l < nl)%nat -> (l' < nl)%nat -> cts_sd l a2 - cts_sd l' a2 = cts_sd l a1 - cts_sd l' a1.
Definition interacts_cat (a : catpar) : bool := match a with Inter _ => true | Shared _ => false end.
Definition interacts_cts (a : ctspar) : bool := match a with XInter _ => true | XShared _ => false end.

(* The arrays of column j in the returned parameters. *)
Definition cat_col (p : par) (j : nat) (a1 a2 s1 s2 : catpar) : Prop :=
  nth_error (A1_cat p) j = Some a1 /\ nth_error (A2_cat p) j = Some a2 /\
  nth_error (S1_cat p) j = Some s1 /\ nth_error (S2_cat p) j = Some s2.
Definition cts_col (p : par) (j : nat) (a1 a2 s1 s2 : ctspar) : Prop :=
  nth_error (A1_cts p) j = Some a1 /\ nth_error (A2_cts p) j = Some a2 /\
  nth_error (S1_cts p) j = Some s1 /\ nth_error (S2_cts p) j = Some s2.

(* [rows] are [rows0] with control variables, row by row. *)
Definition with_controls (p : par) (ncat ncts : nat) (d : cdraws) (rows : list crow) (rows0 : list orow) : Prop :=
  length rows = length rows0 /\
  forall i r o, nth_error rows i = Some r -> nth_error rows0 i = Some o ->
    same_worker r o /\ records ncat ncts d i r /\ adds p r o (d_z1 d i) (d_z2 d i).

(* The entry of the arrays drawn for a column: with interaction there is one row for
   each worker type, without it one row. *)
Definition cat_drawn (c : scol) (m : mat) (l i : nat) : R := if sc_wi c then m l i else m 0%nat i.
Definition cts_drawn (c : scol) (v : nat -> R) (l : nat) : R := if sc_wi c then v l else v 0%nat.
