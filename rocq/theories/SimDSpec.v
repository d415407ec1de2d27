(* Vocabulary for data simulated from the dynamic model. *)
From Verif Require Import Base BLMModel BLMRealModel DBLMModel DBLMSpec DBootModel DBootSpec SimModel SimDModel.
Local Open Scope R_scope.

(* The number an array holds for worker type l and firm type or category k. *)
Definition entry (a : arr) (l k : nat) : R :=
  match a with Num x => x | Arr1 _ f => f k | Arr2 _ _ f => f l k end.

(* The returned parameters as parameters of the dynamic model (the shares of worker
   types play no role for wages). *)
Definition par_of (A S : dict) (q : rhos) : dpar :=
  mkdpar (fun t l k => entry (get A (PA t)) l k) (fun b k => entry (get A (PB b)) 0%nat k)
         (fun t l k => entry (get S (PA t)) l k) (fun b k => entry (get S (PB b)) 0%nat k)
         (fun _ _ => 0) (fun _ _ => 0) (fun _ _ => 0) (fun _ => 0)
         (r12 q) (r43 q) (r32m q) (r32s q).

(* Endogeneity and state dependence can be switched off. *)
Definition off (o : opts) (p : dper) : bool :=
  match p with PB T2mb => negb (endo o) | PB T3mb => negb (sdep o) | PA _ => false end.
Definition stationary (s : stat) : bool := stat_A s || stat_S s || stat_var s.

(* The value a row has in the first or the second job. *)
Definition in_job {A} (p : dper) (v : quad A) : A := if second p then at4 v else at1 v.

(* The effect of a control variable: by worker type if interacted, except in the
   periods '2mb' and '3mb'. *)
Definition cat_effect (o : opts) (int : bool) (f : dper -> mat) (p : dper) (l code : nat) : R :=
  if off o p then 0 else f p (if int && negb (is_b p) then l else 0%nat) code.
Definition cts_effect (o : opts) (int : bool) (f : dper -> nat -> R) (p : dper) (l : nat) : R :=
  if off o p then 0 else f p (if int && negb (is_b p) then l else 0%nat).

(* For a row of the data: what its control variables add to the mean and to the
   variance of a period; and the sum of the standard deviations. *)
Section Row.
Variables (o : opts) (cats : list catspec) (ctss : list ctsspec) (row : drow) (p : dper).
Definition sum_over (f : catspec -> nat -> R) (h : ctsspec -> R -> R) : R :=
  rsum (map (fun cv => f (fst cv) (in_job p (snd cv))) (combine cats (d_cat row)))
  + rsum (map (fun cv => h (fst cv) (in_job p (snd cv))) (combine ctss (d_cts row))).
Definition ctrl_mean : R :=
  sum_over (fun c v => cat_effect o (cat_int c) (cat_A c) p (d_l row) v)
           (fun c x => cts_effect o (cts_int c) (cts_A c) p (d_l row) * x).
Definition ctrl_var : R :=
  sum_over (fun c v => cat_effect o (cat_int c) (cat_S c) p (d_l row) v ^ 2)
           (fun c _ => cts_effect o (cts_int c) (cts_S c) p (d_l row) ^ 2).
Definition ctrl_sds : R :=
  sum_over (fun c v => cat_effect o (cat_int c) (cat_S c) p (d_l row) v)
           (fun c _ => cts_effect o (cts_int c) (cts_S c) p (d_l row)).
End Row.

(* The dynamic model with [m] added to the means and [v] to the variances. *)
Definition with_controls (q : dpar) (m v : dper -> R) : dpar :=
  mkdpar (fun t l k => dA q t l k + m (PA t)) (fun b k => dAb q b k + m (PB b))
         (fun t l k => sqrt (dS q t l k ^ 2 + v (PA t))) (fun b k => sqrt (dSb q b k ^ 2 + v (PB b)))
         (dpk1 q) (dpk0 q) (dNNm q) (dNNs q) (R12 q) (R43 q) (R32m q) (R32s q).

(* The wages of a row are those of the model q with the shocks z. *)
Definition mover_follows (q : dpar) (row : drow) (z : quad R) : Prop :=
  mover_shocks q (d_l row) (at1 (d_g row)) (at4 (d_g row)) (d_y row) z.
Definition stayer_follows (q : dpar) (row : drow) (z : quad R) : Prop :=
  stayer_shocks q (d_l row) (at1 (d_g row)) (d_y row) z.

(* Every drawn standard deviation of the control variables satisfies P. *)
Definition sds (P : R -> Prop) (cats : list catspec) (ctss : list ctsspec) : Prop :=
  Forall (fun c => forall p l k, P (cat_S c p l k)) cats /\
  Forall (fun c => forall p l, P (cts_S c p l)) ctss.

(* Firm j has stayers of type k in the data. *)
Definition demploys (sd : list drow) (k j : nat) : Prop :=
  exists o, In o sd /\ d_g o = Q4 k k k k /\ d_j o = Q4 j j j j.
(* A row is about a worker at firm type k1 in the first two periods, k2 after. *)
Definition quad_eqb (u v : quad nat) : bool :=
  Nat.eqb (at1 u) (at1 v) && Nat.eqb (at2 u) (at2 v) && Nat.eqb (at3 u) (at3 v) && Nat.eqb (at4 u) (at4 v).
Definition between (k1 k2 : nat) (o : drow) : bool := quad_eqb (d_g o) (Q4 k1 k1 k2 k2).

(* The means as drawn: with linear_additive the sum of a worker and a firm effect, in the
   periods '2mb' and '3mb' of one number and a firm effect. *)
Definition mean_drawn (o : opts) (d : pdraws) (u : aper) (l k : nat) : R :=
  if additive_ o then pd_alpha d (PA u) l + pd_psi d (PA u) k else pd_A d u l k.
Definition mean_drawn_b (o : opts) (d : pdraws) (b : bper) (k : nat) : R :=
  if additive_ o then pd_alpha d (PB b) 0%nat + pd_psi d (PB b) k else pd_Ab d b k.

(* The control variables of a row: each has the first drawn value in periods 1 and 2, the
   second in periods 3 and 4. *)
Definition drecords {A} (n : nat) (first second : nat -> A) (l : list (quad A)) : Prop :=
  length l = n /\ forall c, (c < n)%nat -> nth_error l c = Some (Q4 (first c) (first c) (second c) (second c)).
