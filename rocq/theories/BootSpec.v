(* Vocabulary for the bootstrap. *)
From Verif Require Import Base UtilModel UtilSpec BLMModel BLMEMModel BLMSpec BLMRealModel BootModel.
Local Open Scope R_scope.

(* rng.choice returns as many worker types as asked for, each with positive
   probability. *)
Definition choices_ok (nl : nat) (g : rng) : Prop :=
  (forall k1 k2 row n, prob_row nl row ->
     length (ch_m g k1 k2 row n) = n /\ Forall (fun l => (l < nl)%nat /\ 0 < row l) (ch_m g k1 k2 row n)) /\
  (forall k row n, prob_row nl row ->
     length (ch_s g k row n) = n /\ Forall (fun l => (l < nl)%nat /\ 0 < row l) (ch_s g k row n)).

(* The row with firm types k1 and k2. *)
Definition retyped (k1 k2 : nat) (o : obs) : obs :=
  mkobs (y1 o) (y2 o) k1 k2 (w1 o) (w2 o) (c1 o) (c2 o) (x1 o) (x2 o).

(* The same row but for wages and firm types. *)
Definition same_worker (f f' : frow) : Prop :=
  f_i f' = f_i f /\ f_j1 f' = f_j1 f /\ f_j2 f' = f_j2 f /\
  w1 (f_o f') = w1 (f_o f) /\ w2 (f_o f') = w2 (f_o f) /\
  c1 (f_o f') = c1 (f_o f) /\ c2 (f_o f') = c2 (f_o f) /\
  x1 (f_o f') = x1 (f_o f) /\ x2 (f_o f') = x2 (f_o f).

(* The same row but for wages and ids: the types, weights and controls. *)
Definition same_types (f f' : frow) : Prop :=
  g1 (f_o f') = g1 (f_o f) /\ g2 (f_o f') = g2 (f_o f) /\
  w1 (f_o f') = w1 (f_o f) /\ w2 (f_o f') = w2 (f_o f) /\
  c1 (f_o f') = c1 (f_o f) /\ c2 (f_o f') = c2 (f_o f) /\
  x1 (f_o f') = x1 (f_o f) /\ x2 (f_o f') = x2 (f_o f).

Definition wages (df : list frow) : list (R * R) := map (fun f => (y1 (f_o f), y2 (f_o f))) df.
Definition types (df : list frow) : list (nat * nat) := map (fun f => (g1 (f_o f), g2 (f_o f))) df.
Definition firms (df : list frow) : list (nat * nat) := map (fun f => (f_j1 f, f_j2 f)) df.
Definition ids (df : list frow) : list nat := map f_i df.

(* Stayers: one firm and one firm type. *)
Definition stayer (f : frow) : Prop := f_j2 f = f_j1 f /\ g2 (f_o f) = g1 (f_o f).

(* The distribution over worker types that simulations use: the estimated one, or
   the reallocated one. *)
Definition type_shares (nl nk : nat) (realloc : option (bool * rperiod)) (p : par) (q1 q0 : mat) : Prop :=
  match realloc with
  | None => q1 = pk1 p /\ q0 = pk0 p
  | Some (jointly, per) => reallocate nl nk jointly per (NNm p) (NNs p) (pk1 p) (pk0 p) = Ok (q1, q0)
  end.

(* Wages of the row f, if its worker is of type l and its shocks are z1 and z2. *)
Definition wage1_of (p : par) (l : nat) (f : frow) (z1 : R) : R :=
  mu1 p l (f_o f) + sqrt (var1 p l (f_o f)) / w1 (f_o f) * z1.
Definition wage2_of (p : par) (l : nat) (f : frow) (z2 : R) : R :=
  mu2 p l (f_o f) + sqrt (var2 p l (f_o f)) / w2 (f_o f) * z2.

(* The wages of jt and st are drawn from the model p at the firm types, controls and
   weights of jd and sd, with worker types Lm and Ls and the shocks of g. *)
Definition drawn_from (nl nk : nat) (p : par) (q1 q0 : mat) (g : rng) (jd sd jt st : list frow)
    (Lm Ls : list nat) : Prop :=
  length jt = length jd /\ length st = length sd /\ length Lm = length jd /\ length Ls = length sd /\
  (forall r d, (r < length jd)%nat ->
     let f := nth r jd d in let f' := nth r jt d in let l := nth r Lm 0%nat in
     (l < nl)%nat /\ 0 < q1 (g1 (f_o f) + nk * g2 (f_o f))%nat l /\
     y1 (f_o f') = wage1_of p l f (zm1 g r) /\ y2 (f_o f') = wage2_of p l f (zm2 g r)) /\
  (forall r d, (r < length sd)%nat ->
     let f := nth r sd d in let f' := nth r st d in let l := nth r Ls 0%nat in
     (l < nl)%nat /\ 0 < q0 (g1 (f_o f)) l /\
     y1 (f_o f') = wage1_of p l f (zs g r) /\ y2 (f_o f') = wage1_of p l f (zs g r)).
