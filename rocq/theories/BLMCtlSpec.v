(* What the estimation of a BLM model with control variables should do, in terms of
   the predicted means and variances of BLMSpec and the constraints of BLMGenSpec. *)
From Verif Require Import Base UtilModel UtilSpec ConsModel ConsSpec BLMModel BLMEMModel BLMSpec
  BLMFitModel BLMFitSpec BLMGenModel BLMGenSpec BLMCtlModel.
Local Open Scope R_scope.

(* A solver that finds a solution if there is one (exact_qp of BLMFitSpec: what it
   returns is one). *)
Definition complete_qp (solver : list R -> list R -> problem -> qpres) : Prop :=
  forall P q pb x,
    length x = length P /\ feasible pb (fun i => nth i x 0) /\
      (forall z, feasible pb z -> qobj P q (fun i => nth i x 0) <= qobj P q z) ->
    exists y, solver P q pb = QSol y.

(* The best of the allowed values. *)
Definition best {T} (ok : T -> Prop) (loss : T -> R) (a : T) : Prop :=
  ok a /\ forall b, ok b -> loss a <= loss b.

(* ---- blocks of parameters ---- *)
(* The parameters come in blocks: of the firm types, of a categorical column, of a
   continuous column.  A block has a value for each period, worker type and firm
   type or category. *)
Inductive block : Type := Firm | Cat (j : nat) | Cts (j : nat).
Definition vals : Type := bool -> nat -> nat -> R.

(* The list with v at place j. *)
Definition put {A} (j : nat) (v : A) (l : list A) : list A :=
  map (fun ia => if (fst ia =? j)%nat then v else snd ia) (enumerate l).

Section Spec.
Variables (nl nk : nat) (cats ctss : list gcol) (data : list obs) (s : gset).

Definition blocks : list block :=
  Firm :: map Cat (range (length cats)) ++ map Cts (range (length ctss)).
Definition column (b : block) : gcol :=
  match b with
  | Firm => mkgcol nk true (p_a s) (p_s s)
  | Cat j => nth j cats (mkgcol 0 true None None)
  | Cts j => nth j ctss (mkgcol 1 true None None)
  end.
Definition size (b : block) : nat := match b with Cts _ => 1%nat | _ => gc_n (column b) end.
Definition interacts (b : block) : bool := gc_wi (column b).

(* Which value of the block a row has, and what it is multiplied with. *)
Definition key (b : block) (t : bool) (o : obs) : nat :=
  match b with Firm => gp t o | Cat j => nth j (cp t o) 0%nat | Cts _ => 0%nat end.
Definition reg (b : block) (t : bool) (o : obs) : R :=
  match b with Cts j => nth j (xp t o) 0 | _ => 1 end.

(* Arrays of a column that does not interact have no worker types. *)
Definition cat_arr (wi : bool) (a : mat) : catpar := if wi then Inter a else Shared (a 0%nat).
Definition cts_arr (wi : bool) (a : mat) : ctspar :=
  if wi then XInter (fun l => a l 0%nat) else XShared (a 0%nat 0%nat).
Definition cat_kind (c : gcol) (a : catpar) : Prop :=
  match a with Inter _ => gc_wi c = true | Shared _ => gc_wi c = false end.
Definition cts_kind (c : gcol) (a : ctspar) : Prop :=
  match a with XInter _ => gc_wi c = true | XShared _ => gc_wi c = false end.

(* p with the effects a of block b *)
Definition with_A (b : block) (a : vals) (p : par) : par :=
  let '(m1, m2) := match b with Firm => (a false, a true) | _ => (A1 p, A2 p) end in
  let '(k1, k2) := match b with
                   | Cat j => (put j (cat_arr (interacts b) (a false)) (A1_cat p),
                               put j (cat_arr (interacts b) (a true)) (A2_cat p))
                   | _ => (A1_cat p, A2_cat p)
                   end in
  let '(x1, x2) := match b with
                   | Cts j => (put j (cts_arr (interacts b) (a false)) (A1_cts p),
                               put j (cts_arr (interacts b) (a true)) (A2_cts p))
                   | _ => (A1_cts p, A2_cts p)
                   end in
  mkpar m1 m2 (S1 p) (S2 p) k1 k2 (S1_cat p) (S2_cat p) x1 x2 (S1_cts p) (S2_cts p)
        (pk1 p) (pk0 p) (NNm p) (NNs p).
(* the standard deviations of block b *)
Definition sd (b : block) (p : par) : vals := fun t l n =>
  match b with
  | Firm => Sp t p l n
  | Cat j => cat_at l n (nth j (Scatp t p) (Shared (fun _ => 0)))
  | Cts j => cts_sd l (nth j (Sctsp t p) (XShared 0))
  end.
(* p and p' differ at most in the standard deviations *)
Definition same_but_S (p p' : par) : Prop :=
  A1 p' = A1 p /\ A2 p' = A2 p /\ A1_cat p' = A1_cat p /\ A2_cat p' = A2_cat p /\
  A1_cts p' = A1_cts p /\ A2_cts p' = A2_cts p /\ pk1 p' = pk1 p /\ pk0 p' = pk0 p /\
  NNm p' = NNm p /\ NNs p' = NNs p.
Definition with_pk1 (pk : mat) (p : par) : par :=
  mkpar (A1 p) (A2 p) (S1 p) (S2 p) (A1_cat p) (A2_cat p) (S1_cat p) (S2_cat p)
    (A1_cts p) (A2_cts p) (S1_cts p) (S2_cts p) pk (pk0 p) (NNm p) (NNs p).

(* ---- constraints ---- *)
(* The vector x of the solver holds the values a. *)
Definition holds (b : block) (x : nat -> R) (a : vals) : Prop :=
  forall (t : bool) l n, (l < nl)%nat -> (n < size b)%nat ->
    eff nl (size b) x (if t then 1 else 0)%nat l n = a t l n.
(* Effects: the user's constraints, one effect for all worker types if the column
   does not interact, and for the firm types the order and normalisation of
   C65_meaning, with k0 as lowest firm type. *)
Definition A_ok (b : block) (k0 : nat) (a : vals) : Prop :=
  exists x, holds b x a /\
    imposed nl (size b) (optl (gc_a (column b)) ++ optl (p_a_all s)) x /\
    (interacts b = false -> same_for_types nl (size b) x) /\
    (b = Firm -> cats <> [] -> (p_a_all s <> None \/ reached cats) ->
       types_ordered (p_primary s) (p_md_worker s) nl nk x /\
       (p_normalize s = true ->
          (p_force s = true -> p_force_cons s = true -> lowest_firm (p_primary s) (p_md_firm s) nl nk k0 x) /\
          normalised (p_primary s) nl nk cats k0 x)).
(* Variances: at least s_lower_bound, and likewise. *)
Definition V_ok (b : block) (v : vals) : Prop :=
  exists x, holds b x v /\ at_least (p_lb s) nl (size b) x /\
    imposed nl (size b) (optl (gc_s (column b)) ++ optl (p_s_all s)) x /\
    (interacts b = false -> same_for_types nl (size b) x).

(* ---- one iteration ---- *)
Definition mu (t : bool) : par -> nat -> obs -> R := if t then mu2 else mu1.
Definition var (t : bool) : par -> nat -> obs -> R := if t then var2 else var1.
Definition resid_sq (t : bool) (p : par) (l : nat) (o : obs) : R := (yp t o - mu t p l o) ^ 2.
(* The probability of worker type l given the wages of a row. *)
Definition bayes (p : par) (o : obs) (l : nat) : R :=
  pk1 p (g1 o + nk * g2 o)%nat l * mover_density p o l
  / mixture nl (pk1 p (g1 o + nk * g2 o)%nat) (mover_density p o).

(* sum over rows, worker types and both periods *)
Definition total (f : bool -> nat -> obs -> R) : R :=
  rsum (map (fun o => sumn nl (fun l => f false l o + f true l o)) data).
(* The weight of a row for block b: its probability over the block's own variance. *)
Definition weight (b : block) (q : obs -> nat -> R) (p : par) (t : bool) (l : nat) (o : obs) : R :=
  wp t o * q o l / sd b p t l (key b t o) ^ 2.

(* Effects: the weighted squared residuals of wages from the means of p'. *)
Definition A_loss (b : block) (q : obs -> nat -> R) (p p' : par) : R :=
  total (fun t l o => weight b q p t l o * resid_sq t p' l o).
Definition A_done (k0 : nat) (q : obs -> nat -> R) (b : block) (p p' : par) : Prop :=
  let opt := best (A_ok b k0) (fun a => A_loss b q p (with_A b a p)) in
  (exists a, opt a /\ p' = with_A b a p) \/ ((forall a, ~ opt a) /\ p' = p).
(* One block after the other. *)
Fixpoint in_turn (step : block -> par -> par -> Prop) (bs : list block) (p p' : par) : Prop :=
  match bs with
  | [] => p' = p
  | b :: bs => exists p1, step b p p1 /\ in_turn step bs p1 p'
  end.

(* Variances: the squared residuals are regressed on the block's regressor, which for
   a continuous column is the column, with the sign that makes the covariance
   positive. *)
Definition covar (b : block) (q : obs -> nat -> R) (p : par) (t : bool) (l : nat) : R :=
  rsum (map (fun o => weight b q p t l o * reg b t o * resid_sq t p l o) data).
Definition V_reg (b : block) (q : obs -> nat -> R) (p : par) (t : bool) (l : nat) (o : obs) : R :=
  if Rle_dec 0 (covar b q p t l) then reg b t o else - reg b t o.
Definition V_loss (b : block) (q : obs -> nat -> R) (p : par) (v : vals) : R :=
  total (fun t l o => weight b q p t l o
           * (resid_sq t p l o - V_reg b q p t l o * v t l (key b t o)) ^ 2).
Definition V_done (q : obs -> nat -> R) (p p' : par) (b : block) : Prop :=
  let opt := best (V_ok b) (V_loss b q p) in
  (exists v, opt v /\
     forall t l n, (l < nl)%nat -> (n < size b)%nat -> sd b p' t l n = sqrt (v t l n)) \/
  ((forall v, ~ opt v) /\
     forall t l n, (l < nl)%nat -> (n < size b)%nat -> sd b p' t l n = sd b p t l n).

(* Proportions: the shares of the posteriors among the movers of the pair. *)
Definition pk1_done (c : cset) (p p' : par) : Prop :=
  exists pk, p' = with_pk1 pk p /\
    forall k1 k2 l, (k1 < nk)%nat -> (k2 < nk)%nat -> (l < nl)%nat ->
      let sh := share (moves k1 k2) (fun o => sqrt (w1 o * w2 o)) (cs_prior c) data
                  (map (fun o => map (bayes p o) (range nl)) data) in
      pk (k1 + nk * k2)%nat l = sh l / sumn nl sh.

(* The arrays of standard deviations are of the right kinds. *)
Definition S_kinds (p : par) : Prop :=
  forall t, Forall2 cat_kind cats (Scatp t p) /\ Forall2 cts_kind ctss (Sctsp t p).

(* An iteration leads from p to p'. *)
Definition iteration (c : cset) (k0 : nat) (p p' : par) : Prop :=
  exists p1 p2,
    (if cs_pk1 c then pk1_done c p p1 else p1 = p) /\
    (if cs_a c then in_turn (A_done k0 (bayes p)) blocks p1 p2 else p2 = p1) /\
    (if cs_s c then same_but_S p2 p' /\ S_kinds p' /\ forall b, In b blocks -> V_done (bayes p) p2 p' b else p' = p2).

(* ---- data and parameters ---- *)
(* Firm types and categories in range, and all observed in both periods; the columns
   are there. *)
Definition ctl_data : Prop :=
  movers_data nk data /\
  Forall (fun o => length (c1 o) = length cats /\ length (c2 o) = length cats /\
                   length (x1 o) = length ctss /\ length (x2 o) = length ctss) data /\
  forall j t, (j < length cats)%nat ->
    (forall o, In o data -> (key (Cat j) t o < size (Cat j))%nat) /\
    (forall n, (n < size (Cat j))%nat -> exists o, In o data /\ key (Cat j) t o = n).
(* Arrays of the right kinds, positive standard deviations and proportions. *)
Definition ctl_par (p : par) : Prop :=
  (forall t, Forall2 cat_kind cats (Acatp t p) /\ Forall2 cat_kind cats (Scatp t p) /\
             Forall2 cts_kind ctss (Actsp t p) /\ Forall2 cts_kind ctss (Sctsp t p)) /\
  (forall b t l n, In b blocks -> (l < nl)%nat -> (n < size b)%nat -> 0 < sd b p t l n) /\
  (forall k1 k2 l, (k1 < nk)%nat -> (k2 < nk)%nat -> (l < nl)%nat -> 0 < pk1 p (k1 + nk * k2)%nat l).

(* The likelihood recorded at iteration i: with the log of the prior of the
   proportions from the second iteration on. *)
Definition recorded_lik (c : cset) (i : nat) (p : par) : R :=
  movers_loglik nl nk p data +
  (if ((0 <? i)%nat && cs_pk1 c)%bool
   then (cs_prior c - 1) * sumn (nk * nk) (fun k => sumn nl (fun l => ln (pk1 p k l))) else 0).

(* The iterations qs from p, each with its parameters and its lowest firm type, and
   the parameters pn at the end: those of the last iteration if the estimator stops
   there, else the ones it leads to.  The lowest firm type is one of the parameters,
   or the one that is forced. *)
Definition low (k : nat) (p : par) (k0 : nat) : Prop :=
  if p_force s then k0 = k else lowest (p_primary s) nl nk k0 (A1 p) (A2 p).
Fixpoint path (c : cset) (k : nat) (stop : bool) (p : par) (qs : list (par * nat)) (pn : par) : Prop :=
  match qs with
  | [] => stop = false /\ pn = p
  | (q, k0) :: qs => q = p /\ low k q k0 /\
      ((stop = true /\ qs = [] /\ pn = q) \/
       exists q', iteration c k0 q q' /\ path c k stop q' qs pn)
  end.
(* The list of recorded likelihoods, and the last. *)
Definition recorded_liks (c : cset) (ps : list par) : list R :=
  map (fun ip => recorded_lik c (fst ip) (snd ip)) (enumerate ps).
Definition last_lik (l : list R) : option R := match l with [] => None | _ => Some (last l 0) end.
(* The last two likelihoods differ by less than the threshold and the last two lowest
   firm types are the same. *)
Definition settled (c : cset) (liks : list R) (ks : list nat) : Prop :=
  (exists l0 a b, liks = l0 ++ [a; b] /\ Rabs (b - a) < cs_threshold c) /\
  exists k0 a, ks = k0 ++ [a; a].
(* A run of the estimator from p: it starts from p with the worker types renamed, and
   stops the first time it is settled, or at the given number of iterations (s is the
   entry cs_gen of c). *)
Definition run (c : cset) (k : nat) (p : par) (qs : list (par * nat)) (pn : par) : Prop :=
  exists sg p0 stop, relabelling nl sg /\ relabelled nl nk sg (fun k => k) p p0 /\
    path c k stop p0 qs pn /\ (length qs <= cs_iters c)%nat /\ (stop = false -> length qs = cs_iters c) /\
    forall q1 q2, qs = q1 ++ q2 ->
      (settled c (recorded_liks c (map fst q1)) (map snd q1) <-> q2 = [] /\ stop = true).

(* ks, the lowest firm types so far, end with a cycle: there are categories and no forced
   lowest firm type, and among the last cycle_check_n_obs of ks, which are all from
   iteration start_cycle_check_threshold or later, any two neighbours differ. *)
Definition cycling (c : cset) (ks : list nat) : Prop :=
  cats <> [] /\ p_force s = false /\
  exists k0 r, ks = k0 ++ r /\ length r = cs_obs c /\ (cs_start c <= length k0)%nat /\
    forall i, (S i < length r)%nat -> nth i r 0%nat <> nth (S i) r 0%nat.
(* There is no cycle, unless the estimator settles just there. *)
Definition no_cycle (c : cset) (qs : list (par * nat)) : Prop :=
  forall q1 q2, qs = q1 ++ q2 -> cycling c (map snd q1) ->
    q2 = [] /\ settled c (recorded_liks c (map fst q1)) (map snd q1).
(* The iterations qs from p end with the first cycle and have not settled. *)
Definition cycle_run (c : cset) (p : par) (qs : list (par * nat)) : Prop :=
  exists sg p0 pn, relabelling nl sg /\ relabelled nl nk sg (fun k => k) p p0 /\
    path c 0 true p0 qs pn /\ (length qs <= cs_iters c)%nat /\
    forall q1 q2, qs = q1 ++ q2 ->
      ~ settled c (recorded_liks c (map fst q1)) (map snd q1) /\ (cycling c (map snd q1) <-> q2 = []).

(* p with other proportions of stayers *)
Definition but_pk0 (p p' : par) : Prop :=
  exists f, p' = mkpar (A1 p) (A2 p) (S1 p) (S2 p) (A1_cat p) (A2_cat p) (S1_cat p) (S2_cat p)
    (A1_cts p) (A2_cts p) (S1_cts p) (S2_cts p) (pk1 p) f (NNm p) (NNs p).

(* p' is the model p under other names of the worker types: the same proportions, and
   the same mean and variance of the wages of every row of the data. *)
Definition same_model (sg : nat -> nat) (p p' : par) : Prop :=
  (forall k1 k2 l, (k1 < nk)%nat -> (k2 < nk)%nat -> (l < nl)%nat ->
     pk1 p' (k1 + nk * k2)%nat l = pk1 p (k1 + nk * k2)%nat (sg l)) /\
  (forall t l o, (l < nl)%nat -> In o data -> mu t p' l o = mu t p (sg l) o /\ var t p' l o = var t p (sg l) o).

(* Sum over the rows with firm type k in period t, weighted with the rows' weights and
   the probability of worker type l that they have under q. *)
Definition weighted (q : par) (t : bool) (k l : nat) (f : obs -> R) : R :=
  rsum (map (fun o => wp t o * bayes q o l * f o) (filter (fun o => gp t o =? k)%nat data)).
End Spec.
