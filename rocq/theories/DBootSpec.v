(* Vocabulary for the bootstrap and the variance decomposition of the dynamic model. *)
From Verif Require Import Base UtilModel UtilSpec BLMModel BLMSpec BLMRealModel DBLMModel DBLMSpec DBootModel.
Local Open Scope R_scope.

(* rng.choice returns as many worker types as asked for, each with positive
   probability. *)
Definition dchoices_ok (nl : nat) (g : drng) : Prop :=
  (forall k1 k2 row n, prob_row nl row ->
     length (dch_m g k1 k2 row n) = n /\ Forall (fun l => (l < nl)%nat /\ 0 < row l) (dch_m g k1 k2 row n)) /\
  (forall k row n, prob_row nl row ->
     length (dch_s g k row n) = n /\ Forall (fun l => (l < nl)%nat /\ 0 < row l) (dch_s g k row n)).

(* A row with wages y of a worker at firm types k1 (first) and k2 (last period). *)
Definition row_of (y : quad R) (k1 k2 : nat) : dobs := mkdobs (at1 y) (at2 y) (at3 y) (at4 y) k1 k2.

(* The wages y of a mover of type l have the shocks z: each is the expected wage given
   the wages it depends on, plus its own standard deviation times its own shock. *)
Definition mover_shocks (p : dpar) (l k1 k2 : nat) (y z : quad R) : Prop :=
  let o := row_of y k1 k2 in
  at1 y = mean1 p (dA p) o l + sqrt (dvar1 p (sq (dS p)) o l) * at1 z /\
  at2 y = mean2 (dA p) (dAb p) o l + sqrt (dvar2 (sq (dS p)) (sqb (dSb p)) o l) * at2 z /\
  at3 y = mean3 p (dA p) (dAb p) o l + sqrt (dvar3 p (sq (dS p)) (sqb (dSb p)) o l) * at3 z /\
  at4 y = mean4 p (dA p) o l + sqrt (dvar4 p (sq (dS p)) o l) * at4 z.
Definition stayer_shocks (p : dpar) (l k : nat) (y z : quad R) : Prop :=
  let o := row_of y k k in
  at1 y = smean1 p o l + sqrt (svar1 p o l) * at1 z /\
  at2 y = dA p T2s l k + dS p T2s l k * at2 z /\
  at3 y = smean3 p (dA p) o l + sqrt (svar3 p (sq (dS p)) o l) * at3 z /\
  at4 y = smean4 p o l + sqrt (svar4 p o l) * at4 z.

(* The joint density of four independent standard normal shocks. *)
Definition shock_density (z : quad R) : R :=
  normal_density (at1 z) 0 1 * normal_density (at2 z) 0 1 * normal_density (at3 z) 0 1
  * normal_density (at4 z) 0 1.

(* The distribution over worker types that simulations use: the estimated one, or
   the reallocated one. *)
Definition dtype_shares (nl nk : nat) (realloc : option (bool * rperiod)) (p : dpar) (q1 q0 : mat) : Prop :=
  match realloc with
  | None => q1 = dpk1 p /\ q0 = dpk0 p
  | Some (jointly, per) => reallocate nl nk jointly per (dNNm p) (dNNs p) (dpk1 p) (dpk0 p) = Ok (q1, q0)
  end.

Definition worker_ids (df : list erow) : list nat := map e_i df.
Definition firm_ids (df : list erow) : list (quad nat) := map e_j df.
Definition firm_types (df : list erow) : list (quad nat) := map e_g df.
Definition ewages (df : list erow) : list (quad R) := map e_y df.

(* Movers: the firm changes between the second and the third period; stayers: it
   never does.  So do the firm types. *)
Definition mover_row (f : erow) : Prop :=
  (exists a b, e_j f = Q4 a a b b) /\ (exists a b, e_g f = Q4 a a b b).
Definition stayer_row (f : erow) : Prop :=
  (exists a, e_j f = Q4 a a a a) /\ (exists a, e_g f = Q4 a a a a).

(* The wages yj and ys are drawn from the model p at the firm types of jd and sd,
   with worker types Lm and Ls and the shocks of g. *)
Definition ddrawn_from (nl nk : nat) (p : dpar) (q1 q0 : mat) (g : drng) (jd sd : list erow)
    (yj ys : list (quad R)) (Lm Ls : list nat) : Prop :=
  length yj = length jd /\ length ys = length sd /\ length Lm = length jd /\ length Ls = length sd /\
  (forall r d y, (r < length jd)%nat ->
     let k1 := at1 (e_g (nth r jd d)) in let k2 := at4 (e_g (nth r jd d)) in
     let l := nth r Lm 0%nat in
     (l < nl)%nat /\ 0 < q1 (k1 + nk * k2)%nat l /\ mover_shocks p l k1 k2 (nth r yj y) (dzm g r)) /\
  (forall r d y, (r < length sd)%nat ->
     let k := at1 (e_g (nth r sd d)) in let l := nth r Ls 0%nat in
     (l < nl)%nat /\ 0 < q0 k l /\ stayer_shocks p l k (nth r ys y) (dzs g r)).

(* What a run finds in a frame and what it leaves there. *)
Definition same_rows (J J' : list erow) : Prop :=
  worker_ids J' = worker_ids J /\ firm_ids J' = firm_ids J.
