(* Property C65: pytwoway/blm.py, the constraints generated when there are control
   variables, and what they identify. *)
From Verif Require Import Base UtilModel ConsModel ConsSpec BLMModel BLMSpec BLMGenModel BLMGenSpec
  BLMGenPropLemmas.
From Coq Require Import Permutation.
Local Open Scope R_scope.

(* ================================================================== C65 *)
(* What the generated constraint objects say.  The means of worker and firm types
   (qa) obey the user's constraints and, with constrained categorical controls, the
   order of worker types and the normalisation of the lowest firm type k0.  Every
   standard deviation is at least s_lower_bound, and columns that do not interact
   with worker types have one effect for all of them. *)
Theorem C65_meaning s nl nk cats ctss k0 :
  (k0 < nk)%nat -> (1 <= nl)%nat -> all_valid s nl nk (cats ++ ctss) ->
  exists qa qs cols, gen_all s nl nk cats ctss k0 = Ok (qa, qs, cols) /\
    (forall x, accepts qa x <->
       imposed nl nk (optl (p_a s) ++ optl (p_a_all s)) x /\
       (cats <> [] -> (p_a_all s <> None \/ reached cats) ->
          types_ordered (p_primary s) (p_md_worker s) nl nk x /\
          (p_normalize s = true ->
             (p_force s = true -> p_force_cons s = true -> lowest_firm (p_primary s) (p_md_firm s) nl nk k0 x) /\
             normalised (p_primary s) nl nk cats k0 x))) /\
    (forall x, accepts qs x <-> at_least (p_lb s) nl nk x /\ imposed nl nk (optl (p_s s) ++ optl (p_s_all s)) x) /\
    Forall2 (fun c q =>
      (forall x, accepts (fst q) x <->
         (gc_wi c = false -> same_for_types nl (gc_n c) x) /\
         imposed nl (gc_n c) (optl (gc_a c) ++ optl (p_a_all s)) x) /\
      (forall x, accepts (snd q) x <->
         at_least (p_lb s) nl (gc_n c) x /\
         (gc_wi c = false -> same_for_types nl (gc_n c) x) /\
         imposed nl (gc_n c) (optl (gc_s c) ++ optl (p_s_all s)) x)) (cats ++ ctss) cols.
Proof. exact (gen_meaning s nl nk cats ctss k0). Qed.
Print Assumptions C65_meaning.

(* With normalize=True, when a constrained column is reached (see the refutation
   below), two estimates that both meet the constraints and predict the same mean
   wages have the same worker-firm effects. *)
Theorem C65_identified s nl nk cats ctss k0 qa qs cols x xs x' xs' :
  (k0 < nk)%nat -> (1 <= nl)%nat -> all_valid s nl nk (cats ++ ctss) ->
  Forall (fun c => (1 <= gc_n c)%nat) cats -> Forall stationary_all cats ->
  p_normalize s = true -> p_a_all s <> None \/ reached cats ->
  gen_all s nl nk cats ctss k0 = Ok (qa, qs, cols) ->
  accepts qa x -> Forall2 (fun q y => accepts (fst q) y) (firstn (length cats) cols) xs ->
  accepts qa x' -> Forall2 (fun q y => accepts (fst q) y) (firstn (length cats) cols) xs' ->
  same_predictions nl nk cats x xs x' xs' -> equal_effects nl nk x x'.
Proof. exact (identified s nl nk cats ctss k0 qa qs cols x xs x' xs'). Qed.
Print Assumptions C65_identified.

(* The normalisation excludes no model: whatever the effects x and the controls'
   effects xs that meet their constraints, some parameters predict the same wages,
   meet the controls' constraints and all equality constraints on the effects.
   (Order constraints are cleared: they choose the labels of the types.) *)
Theorem C65_attainable s nl nk cats ctss k0 qa qs cols x xs :
  (k0 < nk)%nat -> (1 <= nl)%nat -> all_valid s nl nk (cats ++ ctss) ->
  p_a s = None -> p_a_all s = None -> Forall only_stationary cats ->
  gen_all s nl nk cats ctss k0 = Ok (qa, qs, cols) ->
  Forall2 (fun q y => accepts (fst q) y) (firstn (length cats) cols) xs ->
  exists x' xs', same_predictions nl nk cats x xs x' xs' /\
    Forall2 (fun q y => accepts (fst q) y) (firstn (length cats) cols) xs' /\
    accepts (clear_constraints true false qa) x'.
Proof. exact (attainable s nl nk cats ctss k0 qa qs cols x xs). Qed.
Print Assumptions C65_attainable.

(* Not whatever the columns: the loop stops at the first unconstrained interacting
   column, so that later columns' constraints go unnoticed and nothing is
   normalised.  The same columns in another order are normalised. *)
Theorem C65_order_refuted nl nk k0 : (k0 < nk)%nat -> (1 <= nl)%nat ->
  exists s cats cats', Permutation cats cats' /\ p_normalize s = true /\
    all_valid s nl nk cats /\ Forall (fun c => (1 <= gc_n c)%nat) cats /\ Forall stationary_all cats /\
    (exists qa qs cols x xs x' xs', gen_all s nl nk cats [] k0 = Ok (qa, qs, cols) /\
       accepts qa x /\ Forall2 (fun q y => accepts (fst q) y) cols xs /\
       accepts qa x' /\ Forall2 (fun q y => accepts (fst q) y) cols xs' /\
       same_predictions nl nk cats x xs x' xs' /\ ~ equal_effects nl nk x x') /\
    (forall qa qs cols x xs x' xs', gen_all s nl nk cats' [] k0 = Ok (qa, qs, cols) ->
       accepts qa x -> Forall2 (fun q y => accepts (fst q) y) cols xs ->
       accepts qa x' -> Forall2 (fun q y => accepts (fst q) y) cols xs' ->
       same_predictions nl nk cats' x xs x' xs' -> equal_effects nl nk x x').
Proof. exact (order_matters nl nk k0). Qed.
Print Assumptions C65_order_refuted.

(* normalize=False does not keep the estimates as constrained: the stored
   parameters are normalised all the same, and a bound that the estimates met is
   broken by the stored ones. *)
Theorem C65_normalize_false_refuted argsort nl nk k0 : (k0 < nk)%nat -> (1 <= nl)%nat ->
  exists s c p, p_normalize s = false /\ all_valid s nl nk [c] /\
    exists qa qs ca cs c1 c2, gen_all s nl nk [c] [] k0 = Ok (qa, qs, [(ca, cs)]) /\
      A1_cat p = [c1] /\ A2_cat p = [c2] /\
      (forall x, holds_arrays nl nk x (Inter (A1 p)) (Inter (A2 p)) -> accepts qa x) /\
      (forall y, holds_arrays nl (gc_n c) y c1 c2 -> accepts ca y) /\
      let p' := stored argsort s nl nk [c] p in
      exists c1' c2', A1_cat p' = [c1'] /\ A2_cat p' = [c2'] /\
        forall y, holds_arrays nl (gc_n c) y c1' c2' -> ~ accepts ca y.
Proof. exact (normalized_anyway argsort nl nk k0). Qed.
Print Assumptions C65_normalize_false_refuted.

(* A stationary interacting column and a time-varying one without interaction. *)
Example C65_case :
  all_valid (ex_set true) 2 2 ex_two /\ Forall (fun c => (1 <= gc_n c)%nat) ex_two /\
  Forall stationary_all ex_two /\ Forall only_stationary ex_two /\ reached ex_two /\
  has ex_two true true /\ has ex_two false false /\
  exists qa qs cols, gen_all (ex_set true) 2 2 ex_two [] 0 = Ok (qa, qs, cols) /\ accepts qa ex_slopes.
Proof. exact ex_two_case. Qed.
