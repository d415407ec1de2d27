(* Vocabulary for the results of the fixed-effects estimators. *)
From Coq Require Import String.
From Verif Require Import Base MCModel MCSpec FEFitModel.
Local Open Scope string_scope.
Local Open Scope list_scope.
Local Open Scope R_scope.

(* The names of variances begin with var( and those of covariances with cov(, as in Q.py; a
   dictionary has a key once. *)
Definition begins (a s : string) : Prop := exists t, s = (a ++ t)%string.
Definition well_named (p : parts) : Prop :=
  NoDup (map fst (var_fe p)) /\ NoDup (map fst (cov_fe p)) /\
  Forall (begins "var(") (map fst (var_fe p)) /\ Forall (begins "cov(") (map fst (cov_fe p)).

(* The plug-in estimate under the name n, and the draws of its trace. *)
Definition estimate (p : parts) (n : string) (v : R) : Prop := has (var_fe p) n v \/ has (cov_fe p) n v.
Definition draws_ho (p : parts) (n : string) (x : list R) : Prop :=
  (In n (map fst (var_fe p)) /\ has (tr_var_ho p) n x) \/ (In n (map fst (cov_fe p)) /\ has (tr_cov_ho p) n x).
Definition draws_he (p : parts) (n : string) (x : list R) : Prop :=
  (In n (map fst (var_fe p)) /\ has (tr_var_he p) n x) \/ (In n (map fst (cov_fe p)) /\ has (tr_cov_he p) n x).

(* Mean and (population) standard deviation of draws. *)
Definition avg (x : list R) : R := rsum x / INR (List.length x).
Definition sdev (x : list R) : R := sqrt (avg (map (fun a => (a - avg x) * (a - avg x)) x)).

(* What fit reports: the plug-in estimates, the corrections asked for and their traces. *)
Inductive reported (ho he : bool) (p : parts) : string -> R -> Prop :=
  | rep_eps_fe : reported ho he p "var(eps)_fe" (sigma_2_fe p)
  | rep_fe n v : estimate p n v -> reported ho he p (n ++ "_fe") v
  | rep_eps_ho : ho = true -> reported ho he p "var(eps)_ho" (sigma_2_ho p)
  | rep_tr_ho n x : ho = true -> draws_ho p n x -> reported ho he p ("tr_" ++ n ++ "_ho") (avg x)
  | rep_tr_ho_sd n x : ho = true -> draws_ho p n x -> reported ho he p ("tr_" ++ n ++ "_ho_sd") (sdev x)
  | rep_ho n v x : ho = true -> estimate p n v -> draws_ho p n x ->
      reported ho he p (n ++ "_ho") (v - sigma_2_ho p * avg x)
  | rep_tr_he n x : he = true -> draws_he p n x -> reported ho he p ("tr_" ++ n ++ "_he") (avg x)
  | rep_tr_he_sd n x : he = true -> draws_he p n x -> reported ho he p ("tr_" ++ n ++ "_he_sd") (sdev x)
  | rep_he n v x : he = true -> estimate p n v -> draws_he p n x -> reported ho he p (n ++ "_he") (v - avg x).

(* The traces of the corrections asked for are there for every name. *)
Definition traced (ho he : bool) (p : parts) : Prop :=
  (ho = true -> (forall n, In n (map fst (var_fe p)) -> exists x, has (tr_var_ho p) n x) /\
                (forall n, In n (map fst (cov_fe p)) -> exists x, has (tr_cov_ho p) n x)) /\
  (he = true -> (forall n, In n (map fst (var_fe p)) -> exists x, has (tr_var_he p) n x) /\
                (forall n, In n (map fst (cov_fe p)) -> exists x, has (tr_cov_he p) n x)).
(* What the earlier steps have put into the results. *)
Definition prepared (he : bool) (r : rdict) : Prop :=
  (exists v, has r "var(y)" v) /\
  (he = true -> (exists v, has r "var(eps)_he" v) /\ (exists v, has r "min_lev" v) /\ (exists v, has r "max_lev" v)).

(* The keys of the summary. *)
Definition in_summary (ho he : bool) (p : parts) (k : string) : Prop :=
  k = "var(y)" \/
  exists m, (m = "_fe" \/ (m = "_ho" /\ ho = true) \/ (m = "_he" /\ he = true)) /\
    (k = ("var(eps)" ++ m)%string \/
     exists n, In n (map fst (var_fe p) ++ map fst (cov_fe p)) /\ k = (n ++ m)%string).

(* ---- which requests fit can serve ---- *)
(* Corrections are computed. *)
Definition corrected (o : fopts) : Prop := o_statsonly o = false /\ o_feonly o = false.
(* Given leverages together with an analytical trace of the heteroskedastic correction. *)
Definition lev_and_exact (o : fopts) : Prop := o_he o = true /\ o_levfile o = true /\ o_exact_he o = true.
(* An analytical trace for the variance of psi + alpha. *)
Definition exact_gamma (o : fopts) : Prop :=
  o_gamma o = true /\ ((o_ho o = true /\ o_exact_ho o = true) \/ (o_he o = true /\ o_exact_he o = true)).
(* An approximate trace with no variance, or no covariance, to estimate. *)
Definition approx_empty (o : fopts) : Prop :=
  o_empty o = true /\ ((o_ho o = true /\ o_exact_ho o = false) \/ (o_he o = true /\ o_exact_he o = false)).
(* The working matrices; those only some options need. *)
Definition working (a : attr) : Prop := In a [Amover; Amats].
Definition temporary (a : attr) : Prop := In a [AQ; Ainv; Asolver; Apcd; Asqrt].
