(* Model of BLMBootstrap.plot_type_proportions, pytwoway/blm.py. *)
From Verif Require Import Base BLMModel BLMRealModel.
Local Open Scope res_scope.
Local Open Scope R_scope.

Section Plot.
Variable argsort : list R -> list nat.
Variables (pp : period) (nl nk : nat).

(* blm.py:2710-2750, for one of the documented subsets, after a fit: a row of rectangles for
   each worker type, with one rectangle, (bottom, height), for each firm type.  Without models
   numpy divides 0 by 0; the theorems assume that there are models.  The drawing is not
   modelled. *)
Definition plot_type_proportions (sub : subset_kind) (per : rperiod) (models : list par)
    : res (list (list (R * R))) :=
  pms <- traverse (fun m =>
      let p := sort_parameters argsort pp nl nk true false m in
      type_proportions nk sub per (NNm p) (NNs p) (pk1 p) (pk0 p)) models ;;
  let pk_mean k l := rsum (map (fun pm : mat => pm k l) pms) / INR (length models) in
  let pk_cumsum k l := sumn (S l) (pk_mean k) in
  Ok (map (fun l => map (fun k => (match l with O => 0 | S l' => pk_cumsum k l' end, pk_mean k l)) (range nk))
        (range nl)).
End Plot.
