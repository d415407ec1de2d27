(* What the constraints generated for models with control variables should say. *)
From Verif Require Import Base UtilModel ConsModel ConsSpec BLMModel BLMSpec BLMGenModel.
Local Open Scope R_scope.

(* x satisfies every constraint object of the list. *)
Definition imposed (nl nk : nat) (cs : list cobj) (x : nat -> R) : Prop :=
  forall o d, In o cs -> get_constraints o nl nk = Ok d -> sat d x.
Definition optl {A} (o : option (list A)) : list A := match o with Some l => l | None => [] end.

(* Every entry is at least lb. *)
Definition at_least (lb : R) (nl nk : nat) (x : nat -> R) : Prop :=
  forall t l k, (t < 2)%nat -> (l < nl)%nat -> (k < nk)%nat -> lb <= eff nl nk x t l k.
(* The same for all worker types. *)
Definition same_for_types (nl nk : nat) (x : nat -> R) : Prop :=
  forall t k l l', (t < 2)%nat -> (k < nk)%nat -> (l < nl)%nat -> (l' < nl)%nat ->
    eff nl nk x t l k = eff nl nk x t l' k.

(* Stationary is among the cons_a of the column. *)
Definition declared_stationary (c : gcol) : Prop :=
  exists nwt nt, In (CStationary nwt nt) (optl (gc_a c)).
(* There is a column that interacts with worker types (or not) and is declared
   stationary (or not). *)
Definition has (cats : list gcol) (wi stat : bool) : Prop :=
  exists c, In c cats /\ gc_wi c = wi /\ (if stat then declared_stationary c else ~ declared_stationary c).
(* The column comes with a constraint on its means. *)
Definition constrained (c : gcol) : Prop := gc_a c <> None \/ gc_wi c = false.
(* One such column is reached before, or is, the first column that interacts with
   worker types and is not stationary. *)
Definition reached (cats : list gcol) : Prop :=
  exists pre c post, cats = pre ++ c :: post /\ ~ has pre true false /\ constrained c.

(* The mean over the primary period(s); the secondary period. *)
Definition in_primary (pp : period) (f : nat -> R) : R :=
  match pp with PFirst => f 0%nat | PSecond => f 1%nat | PAll => (f 0%nat + f 1%nat) / 2 end.
Definition secondary (pp : period) : nat := match pp with PFirst => 1%nat | _ => 0%nat end.

(* The effects of the lowest firm type that are set to zero. *)
Definition normalised (pp : period) (nl nk : nat) (cats : list gcol) (k0 : nat) (x : nat -> R) : Prop :=
  let a t l := eff nl nk x t l k0 in
  (has cats true false -> forall t l, (t < 2)%nat -> (l < nl)%nat -> a t l = 0) /\
  (~ has cats true false -> has cats true true ->
     (forall l, (l < nl)%nat -> in_primary pp (fun t => a t l) = 0) /\
     (has cats false false -> a (secondary pp) 0%nat = 0)) /\
  (~ has cats true false -> ~ has cats true true -> has cats false false ->
     forall t, (t < 2)%nat -> a t 0%nat = 0) /\
  (~ has cats true false -> ~ has cats true true -> ~ has cats false false -> has cats false true ->
     in_primary pp (fun t => a t 0%nat) = 0).

(* Mean effects of worker types increase by md, in the primary period. *)
Definition types_ordered (pp : period) (md : R) (nl nk : nat) (x : nat -> R) : Prop :=
  forall l, (l + 1 < nl)%nat ->
    in_primary pp (fun t => mean nk (eff nl nk x t (l + 1))) >=
    in_primary pp (fun t => mean nk (eff nl nk x t l)) + md.
(* k0 has the lowest mean effect of firm types, by md. *)
Definition lowest_firm (pp : period) (md : R) (nl nk k0 : nat) (x : nat -> R) : Prop :=
  forall k, (k < nk)%nat -> k <> k0 ->
    in_primary pp (fun t => mean nl (fun l => eff nl nk x t l k0)) + md <=
    in_primary pp (fun t => mean nl (fun l => eff nl nk x t l k)).

(* The user's objects make sense for the sizes they are applied to. *)
Definition all_valid (s : gset) (nl nk : nat) (cols : list gcol) : Prop :=
  (forall o, In o (optl (p_a s) ++ optl (p_a_all s) ++ optl (p_s s) ++ optl (p_s_all s)) -> valid 2 nl nk o) /\
  (forall c o, In c cols ->
     In o (optl (gc_a c) ++ optl (p_a_all s) ++ optl (gc_s c) ++ optl (p_s_all s)) -> valid 2 nl (gc_n c) o).

(* ---- predicted wages ---- *)
(* The effects of the categories ns of the categorical controls; xs are the
   parameter vectors of the columns. *)
Fixpoint cats_effect (nl : nat) (cats : list gcol) (xs : list (nat -> R)) (t l : nat) (ns : list nat) : R :=
  match cats, xs, ns with
  | c :: cats', x :: xs', n :: ns' => eff nl (gc_n c) x t l n + cats_effect nl cats' xs' t l ns'
  | _, _, _ => 0
  end.
(* Every period, worker type, firm type and combination of categories has the same
   mean wage under both sets of parameters.  (Continuous controls at zero.) *)
Definition same_predictions (nl nk : nat) (cats : list gcol)
    (x : nat -> R) (xs : list (nat -> R)) (x' : nat -> R) (xs' : list (nat -> R)) : Prop :=
  forall t l k ns, (t < 2)%nat -> (l < nl)%nat -> (k < nk)%nat ->
    Forall2 (fun c n => n < gc_n c)%nat cats ns ->
    eff nl nk x t l k + cats_effect nl cats xs t l ns =
    eff nl nk x' t l k + cats_effect nl cats xs' t l ns.
Definition equal_effects (nl nk : nat) (x x' : nat -> R) : Prop :=
  forall t l k, (t < 2)%nat -> (l < nl)%nat -> (k < nk)%nat -> eff nl nk x t l k = eff nl nk x' t l k.

(* Stationary objects constrain all worker types. *)
Definition stationary_all (c : gcol) : Prop :=
  forall nwt nt, In (CStationary nwt nt) (optl (gc_a c)) -> nwt = (-1)%Z.
(* The only constraint on the means of the column, if any, is Stationary. *)
Definition only_stationary (c : gcol) : Prop :=
  forall o, In o (optl (gc_a c)) -> o = CStationary (-1) 2.

(* The parameter vector x holds the arrays c1 (first period) and c2 (second). *)
Definition holds_arrays (nl n : nat) (x : nat -> R) (c1 c2 : catpar) : Prop :=
  forall l k, (l < nl)%nat -> (k < n)%nat ->
    eff nl n x 0 l k = cat_at l k c1 /\ eff nl n x 1 l k = cat_at l k c2.
