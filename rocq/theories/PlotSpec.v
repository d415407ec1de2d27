(* What the plots of the bootstrap and of the estimator should show. *)
From Verif Require Import Base BLMModel DBLMModel BLMSpec BLMRealModel PlotModel.
From Coq Require Import Permutation.
Local Open Scope R_scope.

(* v is the q-quantile of x: at position q (n - 1) of the values in ascending order,
   counted from 0, linearly between neighbours. *)
Definition is_quantile (q : R) (x : list R) (v : R) : Prop :=
  exists s i, Permutation x s /\
    (forall a b, (a < b < length s)%nat -> nth a s 0 <= nth b s 0) /\
    (i < length x)%nat /\ INR i <= q * (INR (length x) - 1) < INR i + 1 /\
    v = nth i s 0 + (q * (INR (length x) - 1) - INR i) * (nth (S i) s (nth i s 0) - nth i s 0).

(* The effects of a model in the two periods. *)
Definition effects : Type := (mat * mat)%type.
Definition effs (m : par) : effects := (A1 m, A2 m).
Definition deffs (m : dpar) : effects := (dA m T12, dA m T43).

(* The effect shown for a worker type and a firm type. *)
Definition earn (per : rperiod) (e : effects) (l k : nat) : R :=
  match per with
  | RFirst => fst e l k
  | RSecond => snd e l k
  | _ => (fst e l k + snd e l k) / 2
  end.

(* s l is the worker type of rank l and t k the firm type of rank k, by mean effect
   in the primary period. *)
Definition ranks (pp : period) (nl nk : nat) (e : effects) (s t : nat -> nat) : Prop :=
  relabelling nl s /\ relabelling nk t /\
  (forall l l', (l < l' < nl)%nat ->
     worker_mean pp nk (fst e) (snd e) (s l) <= worker_mean pp nk (fst e) (snd e) (s l')) /\
  (forall k k', (k < k' < nk)%nat ->
     firm_mean pp nl (fst e) (snd e) (t k) <= firm_mean pp nl (fst e) (snd e) (t k')).

(* Each worker type has a line with a point for each firm type: at the mean over
   the models of the effects of the pair with these ranks, with a bar from the 2.5 to
   the 97.5 percentile. *)
Definition shows (pp : period) (nl nk : nat) (per : rperiod) (es : list effects)
    (lines : list (list bar)) : Prop :=
  exists rs : list ((nat -> nat) * (nat -> nat)),
    Forall2 (fun e r => ranks pp nl nk e (fst r) (snd r)) es rs /\
    length lines = nl /\ Forall (fun line => length line = nk) lines /\
    forall l k line b, nth_error lines l = Some line -> nth_error line k = Some b ->
      let x := map2 (fun e r => earn per e (fst r l) (snd r k)) es rs in
      b_mean b * INR (length es) = rsum x /\
      is_quantile (25 / 1000) x (b_mean b - b_down b) /\
      is_quantile (975 / 1000) x (b_mean b + b_up b) /\
      0 <= b_down b /\ 0 <= b_up b.

(* No two worker types and no two firm types have the same mean effect. *)
Definition distinct_types (pp : period) (nl nk : nat) (e : effects) : Prop :=
  (forall l l', (l < nl)%nat -> (l' < nl)%nat ->
     worker_mean pp nk (fst e) (snd e) l = worker_mean pp nk (fst e) (snd e) l' -> l = l') /\
  (forall k k', (k < nk)%nat -> (k' < nk)%nat ->
     firm_mean pp nl (fst e) (snd e) k = firm_mean pp nl (fst e) (snd e) k' -> k = k').

(* The same effects under other names of the types. *)
Definition renamed (nl nk : nat) (e e' : effects) : Prop :=
  exists s t, relabelling nl s /\ relabelling nk t /\
    forall l k, (l < nl)%nat -> (k < nk)%nat ->
      fst e' l k = fst e (s l) (t k) /\ snd e' l k = snd e (s l) (t k).

(* The point of a model in the plot of likelihoods and connectedness. *)
Definition point {M} (lik1 : M -> R) (connectedness : M -> option R) (m : M) : R * R :=
  (lik1 m, match connectedness m with Some c => c | None => 0 end).
