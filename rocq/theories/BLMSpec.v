(* What the BLM properties speak about, independently of the model's
   functions (only the data types of the model are used). *)
From Verif Require Import Base UtilModel UtilSpec BLMModel BLMEMModel.
From Coq Require Import Permutation.
Local Open Scope R_scope.

(* ---- relabelling of types ---- *)
(* A relabelling of n types: the new type i is the old type s i. *)
Definition relabelling (n : nat) (s : nat -> nat) : Prop :=
  Permutation (map s (range n)) (range n).

Definition cat_relabelled (nl : nat) (s : nat -> nat) (c c' : catpar) : Prop :=
  match c, c' with
  | Inter m, Inter m' => forall l n, (l < nl)%nat -> m' l n = m (s l) n
  | Shared v, Shared v' => forall n, v' n = v n
  | _, _ => False
  end.
Definition cts_relabelled (nl : nat) (s : nat -> nat) (c c' : ctspar) : Prop :=
  match c, c' with
  | XInter v, XInter v' => forall l, (l < nl)%nat -> v' l = v (s l)
  | XShared a, XShared a' => a' = a
  | _, _ => False
  end.

(* p' holds the parameters of p under new names of the worker types (s) and firm
   types (t).  The movers' proportions of the pair (k1, k2) are in row
   k1 + nk * k2. *)
Record relabelled (nl nk : nat) (s t : nat -> nat) (p p' : par) : Prop := {
  r_A : forall l k, (l < nl)%nat -> (k < nk)%nat ->
    A1 p' l k = A1 p (s l) (t k) /\ A2 p' l k = A2 p (s l) (t k);
  r_S : forall l k, (l < nl)%nat -> (k < nk)%nat ->
    S1 p' l k = S1 p (s l) (t k) /\ S2 p' l k = S2 p (s l) (t k);
  r_pk1 : forall k1 k2 l, (k1 < nk)%nat -> (k2 < nk)%nat -> (l < nl)%nat ->
    pk1 p' (k1 + nk * k2)%nat l = pk1 p (t k1 + nk * t k2)%nat (s l);
  r_pk0 : forall k l, (k < nk)%nat -> (l < nl)%nat -> pk0 p' k l = pk0 p (t k) (s l);
  r_NNm : forall k1 k2, (k1 < nk)%nat -> (k2 < nk)%nat -> NNm p' k1 k2 = NNm p (t k1) (t k2);
  r_NNs : forall k, (k < nk)%nat -> NNs p' k = NNs p (t k);
  r_A1_cat : Forall2 (cat_relabelled nl s) (A1_cat p) (A1_cat p');
  r_A2_cat : Forall2 (cat_relabelled nl s) (A2_cat p) (A2_cat p');
  r_S1_cat : Forall2 (cat_relabelled nl s) (S1_cat p) (S1_cat p');
  r_S2_cat : Forall2 (cat_relabelled nl s) (S2_cat p) (S2_cat p');
  r_A1_cts : Forall2 (cts_relabelled nl s) (A1_cts p) (A1_cts p');
  r_A2_cts : Forall2 (cts_relabelled nl s) (A2_cts p) (A2_cts p');
  r_S1_cts : Forall2 (cts_relabelled nl s) (S1_cts p) (S1_cts p');
  r_S2_cts : Forall2 (cts_relabelled nl s) (S2_cts p) (S2_cts p')
}.

(* The same row of data with the firm types under their new names. *)
Definition same_row (nk : nat) (t : nat -> nat) (o o' : obs) : Prop :=
  (g1 o' < nk)%nat /\ (g2 o' < nk)%nat /\ t (g1 o') = g1 o /\ t (g2 o') = g2 o /\
  y1 o' = y1 o /\ y2 o' = y2 o /\ w1 o' = w1 o /\ w2 o' = w2 o /\
  c1 o' = c1 o /\ c2 o' = c2 o /\ x1 o' = x1 o /\ x2 o' = x2 o.

(* The effect of the primary period. *)
Definition primary (pp : period) (A1 A2 : mat) (l k : nat) : R :=
  match pp with
  | PFirst => A1 l k
  | PSecond => A2 l k
  | PAll => (A1 l k + A2 l k) / 2
  end.
(* Mean effect of a worker type, of a firm type. *)
Definition worker_mean (pp : period) (nk : nat) (A1 A2 : mat) (l : nat) : R :=
  sumn nk (fun k => primary pp A1 A2 l k) / INR nk.
Definition firm_mean (pp : period) (nl : nat) (A1 A2 : mat) (k : nat) : R :=
  sumn nl (fun l => primary pp A1 A2 l k) / INR nl.

(* f runs up (or down, with reverse) over 0 .. n-1 *)
Definition ordered (reverse : bool) (n : nat) (f : nat -> R) : Prop :=
  forall i j, (i < j < n)%nat -> if reverse then f j <= f i else f i <= f j.

(* ---- predicted wages ---- *)
Definition cat_at (l n : nat) (c : catpar) : R :=
  match c with Inter m => m l n | Shared v => v n end.
Definition cts_at (l : nat) (x : R) (c : ctspar) : R :=
  match c with XInter v => v l * x | XShared a => a * x end.
Definition cts_sd (l : nat) (c : ctspar) : R :=
  match c with XInter v => v l | XShared a => a end.

(* Sum over the categorical controls of the effect of category ns[c]. *)
Definition cat_sum (l : nat) (cs : list catpar) (ns : list nat) : R :=
  rsum (map2 (fun c n => cat_at l n c) cs ns).

(* Mean and variance of the wage of worker type l in each period: the firm type
   effect plus the effects of all controls. *)
Definition mu1 (p : par) (l : nat) (o : obs) : R :=
  A1 p l (g1 o) + cat_sum l (A1_cat p) (c1 o)
  + rsum (map2 (fun c x => cts_at l x c) (A1_cts p) (x1 o)).
Definition mu2 (p : par) (l : nat) (o : obs) : R :=
  A2 p l (g2 o) + cat_sum l (A2_cat p) (c2 o)
  + rsum (map2 (fun c x => cts_at l x c) (A2_cts p) (x2 o)).
Definition var1 (p : par) (l : nat) (o : obs) : R :=
  S1 p l (g1 o) ^ 2 + rsum (map2 (fun c n => cat_at l n c ^ 2) (S1_cat p) (c1 o))
  + rsum (map (fun c => cts_sd l c ^ 2) (S1_cts p)).
Definition var2 (p : par) (l : nat) (o : obs) : R :=
  S2 p l (g2 o) ^ 2 + rsum (map2 (fun c n => cat_at l n c ^ 2) (S2_cat p) (c2 o))
  + rsum (map (fun c => cts_sd l c ^ 2) (S2_cts p)).

(* Density of the wages of a mover of type l (each period's density raised to
   its weight), and the mixture over worker types. *)
Definition mover_density (p : par) (o : obs) (l : nat) : R :=
  Rpower (normal_density (y1 o) (mu1 p l o) (sqrt (var1 p l o))) (w1 o)
  * Rpower (normal_density (y2 o) (mu2 p l o) (sqrt (var2 p l o))) (w2 o).
Definition stayer_density (p : par) (o : obs) (l : nat) : R :=
  Rpower (normal_density (y1 o) (mu1 p l o) (sqrt (var1 p l o))) (w1 o).
Definition mixture (nl : nat) (prior : nat -> R) (f : nat -> R) : R :=
  sumn nl (fun l => prior l * f l).

(* Mean log-likelihood of the movers; the prior of a mover is the row of its pair
   of firm types. *)
Definition movers_loglik (nl nk : nat) (p : par) (data : list obs) : R :=
  rsum (map (fun o => ln (mixture nl (pk1 p (g1 o + nk * g2 o)%nat) (mover_density p o))) data)
  / INR (length data).
Definition stayers_loglik (nl : nat) (p : par) (pk : mat) (data : list obs) : R :=
  rsum (map (fun o => ln (mixture nl (pk (g1 o)) (stayer_density p o))) data)
  / INR (length data).

(* Data and parameters the likelihood is defined for: firm types in range,
   control columns present in parameters and data, positive proportions and
   variances. *)
Definition data_ok (nk : nat) (o : obs) : Prop :=
  (g1 o < nk)%nat /\ (g2 o < nk)%nat.
Definition shapes_ok (p : par) : Prop :=
  length (S1_cat p) = length (A1_cat p) /\ length (A2_cat p) = length (A1_cat p) /\
  length (S2_cat p) = length (A1_cat p) /\ length (S1_cts p) = length (A1_cts p) /\
  length (A2_cts p) = length (A1_cts p) /\ length (S2_cts p) = length (A1_cts p).

(* ---- normalisation ---- *)
(* The parameter array has the shape its column is configured with. *)
Definition cat_shape (col : catcfg) (c : catpar) : Prop :=
  match c with Inter _ => cc_inter col = true | Shared _ => cc_inter col = false end.

(* A stationary column has the same effects in both periods. *)
Definition same_effects (c c' : catpar) : Prop :=
  forall l n, cat_at l n c = cat_at l n c'.

(* The likelihood of a row is a real number: the firm types exist, proportions
   and standard deviations are positive. *)
Definition mover_ok (nl nk : nat) (p : par) (o : obs) : Prop :=
  data_ok nk o /\
  forall l, (l < nl)%nat ->
    0 < pk1 p (g1 o + nk * g2 o)%nat l /\ 0 < S1 p l (g1 o) /\ 0 < S2 p l (g2 o).
Definition stayer_ok (nl nk : nat) (p : par) (o : obs) : Prop :=
  (g1 o < nk)%nat /\
  forall l, (l < nl)%nat -> 0 < pk0 p (g1 o) l /\ 0 < S1 p l (g1 o).

Definition has_col (cols : list catcfg) (inter stat : bool) : Prop :=
  exists col, In col cols /\ cc_inter col = inter /\ cc_stat col = stat.

(* Which effects of the reference firm type k0 are zero.  With a column that
   interacts with worker types and varies over time: all.  Otherwise, with an
   interacting column: those of the primary period, for each worker type;
   with a time-varying column: those of worker type 0, in each period;
   with other columns only: that of worker type 0 in the primary period. *)
Definition reference_zero (pp : period) (nl : nat) (cols : list catcfg) (k0 : nat)
    (B1 B2 : mat) : Prop :=
  (has_col cols true false -> forall l, (l < nl)%nat -> B1 l k0 = 0 /\ B2 l k0 = 0) /\
  (~ has_col cols true false -> has_col cols true true ->
     forall l, (l < nl)%nat -> primary pp B1 B2 l k0 = 0) /\
  (~ has_col cols true false -> has_col cols false false -> B1 0%nat k0 = 0 /\ B2 0%nat k0 = 0) /\
  (cols <> [] -> primary pp B1 B2 0%nat k0 = 0).

(* k0 is a firm type with the lowest mean effect. *)
Definition lowest (pp : period) (nl nk : nat) (k0 : nat) (A1 A2 : mat) : Prop :=
  (k0 < nk)%nat /\
  forall k, (k < nk)%nat -> firm_mean pp nl A1 A2 k0 <= firm_mean pp nl A1 A2 k.

(* ---- type proportions ---- *)
(* Posteriors of the rows: one distribution over the nl worker types each. *)
Definition posteriors_ok (nl : nat) (data : list obs) (qi : list (list R)) : Prop :=
  length qi = length data /\
  Forall (fun row => length row = nl /\ (forall x, In x row -> 0 <= x) /\ rsum row = 1) qi.

(* The weighted posteriors (plus d_prior - 1) of the rows satisfying sel, summed. *)
Definition share (sel : obs -> bool) (W : obs -> R) (d_prior : R) (data : list obs)
    (qi : list (list R)) (l : nat) : R :=
  rsum (map2 (fun o row => if sel o then W o * (nth l row 0 + d_prior - 1) else 0) data qi).

Definition moves (k1 k2 : nat) (o : obs) : bool := ((g1 o =? k1) && (g2 o =? k2))%nat.
Definition works_at (k : nat) (o : obs) : bool := (g1 o =? k)%nat.

Definition prob_row (nl : nat) (r : nat -> R) : Prop :=
  (forall l, (l < nl)%nat -> 0 <= r l) /\ sumn nl r = 1.
