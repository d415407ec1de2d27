(* What the properties about the dynamic BLM model speak about, independently of
   the model's functions (only its data types are used). *)
From Verif Require Import Base UtilModel UtilSpec ConsModel ConsSpec BLMModel BLMSpec BLMFitModel
  DBLMModel.
Local Open Scope R_scope.

(* ---- relabelling of types ---- *)
(* p' holds the parameters of p under new names of the worker types (s) and firm
   types (t); the effects of the 'b' periods have no worker type, the rhos no
   type at all. *)
Record drelabelled (nl nk : nat) (s t : nat -> nat) (p p' : dpar) : Prop := {
  dr_A : forall a l k, (l < nl)%nat -> (k < nk)%nat -> dA p' a l k = dA p a (s l) (t k);
  dr_S : forall a l k, (l < nl)%nat -> (k < nk)%nat -> dS p' a l k = dS p a (s l) (t k);
  dr_Ab : forall b k, (k < nk)%nat -> dAb p' b k = dAb p b (t k);
  dr_Sb : forall b k, (k < nk)%nat -> dSb p' b k = dSb p b (t k);
  dr_pk1 : forall k1 k2 l, (k1 < nk)%nat -> (k2 < nk)%nat -> (l < nl)%nat ->
    dpk1 p' (k1 + nk * k2)%nat l = dpk1 p (t k1 + nk * t k2)%nat (s l);
  dr_pk0 : forall k l, (k < nk)%nat -> (l < nl)%nat -> dpk0 p' k l = dpk0 p (t k) (s l);
  dr_NNm : forall k1 k2, (k1 < nk)%nat -> (k2 < nk)%nat -> dNNm p' k1 k2 = dNNm p (t k1) (t k2);
  dr_NNs : forall k, (k < nk)%nat -> dNNs p' k = dNNs p (t k);
  dr_rho : R12 p' = R12 p /\ R43 p' = R43 p /\ R32m p' = R32m p /\ R32s p' = R32s p
}.

(* The same row of data with the firm types under their new names. *)
Definition dsame_row (nk : nat) (t : nat -> nat) (o o' : dobs) : Prop :=
  (dg1 o' < nk)%nat /\ (dg4 o' < nk)%nat /\ t (dg1 o') = dg1 o /\ t (dg4 o') = dg4 o /\
  dy1 o' = dy1 o /\ dy2 o' = dy2 o /\ dy3 o' = dy3 o /\ dy4 o' = dy4 o.

(* ---- the distribution of wages ---- *)
(* A mover of type l: expected wage and variance in each period, given the wage
   of the period they depend on (1 on 2, 3 on 2, 4 on 3).  The effects are those
   of the tables A (by worker and firm type) and Ab (by firm type). *)
Section Movers.
Variables (p : dpar) (A : aper -> mat) (Ab : bper -> nat -> R) (o : dobs) (l : nat).
Definition mean1 : R := A T12 l (dg1 o) + R12 p * (dy2 o - A T2ma l (dg1 o)).
Definition mean2 : R := A T2ma l (dg1 o) + Ab T2mb (dg4 o).
Definition mean3 : R := A T3ma l (dg4 o) + Ab T3mb (dg1 o) + R32m p * (dy2 o - mean2).
Definition mean4 : R := A T43 l (dg4 o) + R43 p * (dy3 o - A T3ma l (dg4 o)).
End Movers.
(* V12 .. are the variances of the components *)
Section MoversVar.
Variables (p : dpar) (V : aper -> mat) (Vb : bper -> nat -> R) (o : dobs) (l : nat).
Definition dvar1 : R := V T12 l (dg1 o) + R12 p ^ 2 * V T2ma l (dg1 o).
Definition dvar2 : R := V T2ma l (dg1 o) + Vb T2mb (dg4 o).
Definition dvar3 : R := V T3ma l (dg4 o) + Vb T3mb (dg1 o) + R32m p ^ 2 * dvar2.
Definition dvar4 : R := V T43 l (dg4 o) + R43 p ^ 2 * V T3ma l (dg4 o).
End MoversVar.
(* The squares of the standard deviations of p. *)
Definition sq (S : aper -> mat) : aper -> mat := fun t l k => S t l k ^ 2.
Definition sqb (S : bper -> nat -> R) : bper -> nat -> R := fun t k => S t k ^ 2.

Definition dmover_density (p : dpar) (o : dobs) (l : nat) : R :=
  normal_density (dy1 o) (mean1 p (dA p) o l) (sqrt (dvar1 p (sq (dS p)) o l))
  * normal_density (dy2 o) (mean2 (dA p) (dAb p) o l) (sqrt (dvar2 (sq (dS p)) (sqb (dSb p)) o l))
  * normal_density (dy3 o) (mean3 p (dA p) (dAb p) o l)
      (sqrt (dvar3 p (sq (dS p)) (sqb (dSb p)) o l))
  * normal_density (dy4 o) (mean4 p (dA p) o l) (sqrt (dvar4 p (sq (dS p)) o l)).

(* A stayer of type l at firm type dg1. *)
Definition smean1 (p : dpar) (o : dobs) (l : nat) : R :=
  dA p T12 l (dg1 o) + R12 p * (dy2 o - dA p T2ma l (dg1 o)).
Definition smean3 (p : dpar) (A : aper -> mat) (o : dobs) (l : nat) : R :=
  A T3s l (dg1 o) + R32s p * (dy2 o - A T2s l (dg1 o)).
Definition smean4 (p : dpar) (o : dobs) (l : nat) : R :=
  dA p T43 l (dg1 o) + R43 p * (dy3 o - dA p T3ma l (dg1 o)).
Definition svar1 (p : dpar) (o : dobs) (l : nat) : R :=
  dS p T12 l (dg1 o) ^ 2 + R12 p ^ 2 * dS p T2ma l (dg1 o) ^ 2.
Definition svar3 (p : dpar) (V : aper -> mat) (o : dobs) (l : nat) : R :=
  V T3s l (dg1 o) + R32s p ^ 2 * V T2s l (dg1 o).
Definition svar4 (p : dpar) (o : dobs) (l : nat) : R :=
  dS p T43 l (dg1 o) ^ 2 + R43 p ^ 2 * dS p T3ma l (dg1 o) ^ 2.
Definition dstayer_density (p : dpar) (o : dobs) (l : nat) : R :=
  normal_density (dy1 o) (smean1 p o l) (sqrt (svar1 p o l))
  * normal_density (dy2 o) (dA p T2s l (dg1 o)) (dS p T2s l (dg1 o))
  * normal_density (dy3 o) (smean3 p (dA p) o l) (sqrt (svar3 p (sq (dS p)) o l))
  * normal_density (dy4 o) (smean4 p o l) (sqrt (svar4 p o l)).

(* Mean log-likelihoods and Bayes posteriors. *)
Definition mixture_m (nl nk : nat) (p : dpar) (o : dobs) : R :=
  mixture nl (dpk1 p (dg1 o + nk * dg4 o)%nat) (dmover_density p o).
Definition mixture_s (nl : nat) (p : dpar) (o : dobs) : R :=
  mixture nl (dpk0 p (dg1 o)) (dstayer_density p o).
Definition dmovers_loglik (nl nk : nat) (p : dpar) (data : list dobs) : R :=
  rsum (map (fun o => ln (mixture_m nl nk p o)) data) / INR (length data).
Definition dstayers_loglik (nl : nat) (p : dpar) (data : list dobs) : R :=
  rsum (map (fun o => ln (mixture_s nl p o)) data) / INR (length data).
Definition mover_posterior (nl nk : nat) (p : dpar) (o : dobs) (l : nat) : R :=
  dpk1 p (dg1 o + nk * dg4 o)%nat l * dmover_density p o l / mixture_m nl nk p o.
Definition stayer_posterior (nl : nat) (p : dpar) (o : dobs) (l : nat) : R :=
  dpk0 p (dg1 o) l * dstayer_density p o l / mixture_s nl p o.

(* Rows for which the likelihood is a real number: the firm types exist, the
   proportions are positive, and so are the standard deviations of the periods
   that always have one (those of the 'b' periods may be zero). *)
Definition dmover_ok (nl nk : nat) (p : dpar) (o : dobs) : Prop :=
  (dg1 o < nk)%nat /\ (dg4 o < nk)%nat /\
  forall l, (l < nl)%nat ->
    0 < dpk1 p (dg1 o + nk * dg4 o)%nat l /\ 0 < dS p T12 l (dg1 o) /\
    0 < dS p T2ma l (dg1 o) /\ 0 < dS p T3ma l (dg4 o) /\ 0 < dS p T43 l (dg4 o).
Definition dstayer_ok (nl nk : nat) (p : dpar) (o : dobs) : Prop :=
  (dg1 o < nk)%nat /\
  forall l, (l < nl)%nat ->
    0 < dpk0 p (dg1 o) l /\ 0 < dS p T12 l (dg1 o) /\ 0 < dS p T2s l (dg1 o) /\
    0 < dS p T3s l (dg1 o) /\ 0 < dS p T43 l (dg1 o).

(* ---- the quadratic programs ---- *)
(* 1/2 x'Px + q'x; a solver may give up, but a solution it returns is one
   (exact), and it finds one if there is one (complete). *)
Definition dqobj (n : nat) (P : mat) (q : list R) (x : nat -> R) : R :=
  sumn n (fun i => x i * sumn n (fun j => P i j * x j)) / 2 + sumn n (fun i => nth i q 0 * x i).
Definition dsolution (n : nat) (P : mat) (q : list R) (pb : problem) (x : list R) : Prop :=
  length x = n /\ feasible pb (fun i => nth i x 0) /\
  forall z, feasible pb z -> dqobj n P q (fun i => nth i x 0) <= dqobj n P q z.
Definition dexact (solver : nat -> mat -> list R -> problem -> qpres) : Prop :=
  forall n P q pb x, solver n P q pb = QSol x -> dsolution n P q pb x.
Definition dcomplete (solver : nat -> mat -> list R -> problem -> qpres) : Prop :=
  forall n P q pb x, dsolution n P q pb x -> exists y, solver n P q pb = QSol y.

(* The vector x holds the values of the periods ts one after the other; a 'b'
   period has the same values for all worker types. *)
Definition period_value (A : aper -> mat) (Ab : bper -> nat -> R) (t : dper) (l k : nat) : R :=
  match t with PA a => A a l k | PB b => Ab b k end.
Definition dstacked (nl nk : nat) (ts : list dper) (A : aper -> mat) (Ab : bper -> nat -> R)
    (x : nat -> R) : Prop :=
  forall i t l k, nth_error ts i = Some t -> (l < nl)%nat -> (k < nk)%nat ->
    eff nl nk x i l k = period_value A Ab t l k.
(* The user's constraints hold for the values. *)
Definition dallowed (nl nk : nat) (ts : list dper) (cs : list cobj) (A : aper -> mat)
    (Ab : bper -> nat -> R) : Prop :=
  exists x, dstacked nl nk ts A Ab x /\
    forall o d, In o cs -> get_constraints o nl nk = Ok d -> sat d x.

(* Weighted sums of squares: each squared difference between an observed value
   and its expected value has the weight of its row and type, divided by the
   square root of the variance. *)
Definition sqdev (y m v : R) : R := (y - m) ^ 2 / sqrt v.
Definition mover_fit (p : dpar) (A : aper -> mat) (Ab : bper -> nat -> R) (o : dobs) (l : nat) : R :=
  sqdev (dy1 o) (mean1 p A o l) (dvar1 p (sq (dS p)) o l)
  + sqdev (dy2 o) (mean2 A Ab o l) (dvar2 (sq (dS p)) (sqb (dSb p)) o l)
  + sqdev (dy3 o) (mean3 p A Ab o l) (dvar3 p (sq (dS p)) (sqb (dSb p)) o l)
  + sqdev (dy4 o) (mean4 p A o l) (dvar4 p (sq (dS p)) o l).
Definition stayer_fit (p : dpar) (A : aper -> mat) (o : dobs) (l : nat) : R :=
  sqdev (dy2 o) (A T2s l (dg1 o)) (dS p T2s l (dg1 o) ^ 2)
  + sqdev (dy3 o) (smean3 p A o l) (svar3 p (sq (dS p)) o l).
Definition weighted (nl : nat) (fit : dobs -> nat -> R) (data : list dobs) (qi : list (list R)) : R :=
  rsum (map2 (fun o row => sumn nl (fun l => nth l row 0 * fit o l)) data qi).
(* The ridge penalty of d_X_diag. *)
Definition dridge (d : R) (nl nk : nat) (ts : list dper) (A : aper -> mat) (Ab : bper -> nat -> R) : R :=
  Rmax 0 (d - 1)
  * rsum (map (fun t => sumn nl (fun l => sumn nk (fun k => period_value A Ab t l k ^ 2))) ts).

(* The same for variances: the squared differences between the observed and the
   expected wages are fitted by the variances V, Vb. *)
Definition mover_var_fit (p : dpar) (A : aper -> mat) (Ab : bper -> nat -> R) (V : aper -> mat)
    (Vb : bper -> nat -> R) (o : dobs) (l : nat) : R :=
  sqdev ((dy1 o - mean1 p A o l) ^ 2) (dvar1 p V o l) (dvar1 p (sq (dS p)) o l)
  + sqdev ((dy2 o - mean2 A Ab o l) ^ 2) (dvar2 V Vb o l) (dvar2 (sq (dS p)) (sqb (dSb p)) o l)
  + sqdev ((dy3 o - mean3 p A Ab o l) ^ 2) (dvar3 p V Vb o l)
      (dvar3 p (sq (dS p)) (sqb (dSb p)) o l)
  + sqdev ((dy4 o - mean4 p A o l) ^ 2) (dvar4 p V o l) (dvar4 p (sq (dS p)) o l).
Definition stayer_var_fit (p : dpar) (A V : aper -> mat) (o : dobs) (l : nat) : R :=
  sqdev ((dy2 o - A T2s l (dg1 o)) ^ 2) (V T2s l (dg1 o)) (dS p T2s l (dg1 o) ^ 2)
  + sqdev ((dy3 o - smean3 p A o l) ^ 2) (svar3 p V o l) (svar3 p (sq (dS p)) o l).

(* Without endogeneity (state dependence) there is no effect '2mb' ('3mb'). *)
Definition b_absent (nk : nat) (e s : bool) (Ab : bper -> nat -> R) : Prop :=
  (e = false -> forall k, (k < nk)%nat -> Ab T2mb k = 0) /\
  (s = false -> forall k, (k < nk)%nat -> Ab T3mb k = 0).
