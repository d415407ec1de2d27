(* Model of when the counts of movers and stayers are stored and used: the fits, the
   connectedness measure and plot_type_proportions of BLMModel (pytwoway/blm.py) and
   DynamicBLMModel (pytwoway/blm_dynamic.py), as calls on one object.  Data sets and counts are
   any types.  It is assumed that the estimation itself raises nothing, that return_qi=False,
   and that counts cover all firm types (see C121). *)
From Verif Require Import Base BLMRealModel.

Section Calls.
Variables data_m data_s counts_m counts_s : Type.
(* jdata.groupby('g1')['g2' or 'g4']... and sdata['g1'].value_counts... *)
Variable count_m : data_m -> counts_m.
Variable count_s : data_s -> counts_s.
Variable nl : nat.

(* Attributes NNm and NNs, None at first (blm.py:691-692, blm_dynamic.py:1281-1282), the data
   of the last fit of movers, and that data and the counts at the last computation of
   connectedness. *)
Record obj : Type := mkobj
  { NNm : option counts_m; NNs : option counts_s; fitted : option data_m; conn : option (data_m * counts_m) }.
Definition new : obj := mkobj None None None None.

(* How _fit_movers ends: it stores its results, or it is stuck in a cycle of lowest firm types
   and calls fit_movers with force_min_firm_type=True (blm.py:1445-1452, blm_dynamic.py:2155-2162). *)
Inductive ending : Type := Stores | Cycles.
(* A call of a fit of movers: the data, compute_NNm, the option force_min_firm_type. *)
Record mfit : Type := mkmfit { f_data : data_m; f_compute : bool; f_force : bool; f_end : ending }.
Inductive call : Type :=
| FitMovers (f : mfit) | FitA (f : mfit) | FitS (f : mfit) | FitPk (f : mfit)
| CstrUncstr (f : mfit) (pk1_nan : bool)
| FitStayers (d : data_s) (compute : bool)
| Plot (sub : subset_kind).

(* What the caller sees: the call ends; it raises a ValueError with the message that the model
   must be fitted for this subset first; it raises another exception. *)
Inductive seen : Type := Done | Told (sub : subset_kind) | Raises (e : exc).

Definition set_NNm (f : mfit) (o : obj) : obj :=
  mkobj (if f_compute f then Some (count_m (f_data f)) else NNm o) (NNs o) (fitted o) (conn o).
Definition set_fitted (f : mfit) (o : obj) : obj := mkobj (NNm o) (NNs o) (Some (f_data f)) (conn o).

(* fit_movers with force_min_firm_type (blm.py:1237-1275, blm_dynamic.py:1867-1902): the models
   of the loop are other objects *)
Definition fit_forced (f : mfit) (o : obj) : obj := set_NNm f (set_fitted f o).
(* _fit_movers (blm.py:1284-1948, blm_dynamic.py:1911-2904) *)
Definition _fit_movers (f : mfit) (o : obj) : obj :=
  match f_end f with
  | Stores => set_NNm f (set_fitted f o)
  | Cycles => fit_forced f o
  end.
(* fit_movers (blm.py:1226-1282, blm_dynamic.py:1856-1909) *)
Definition fit_movers (f : mfit) (o : obj) : obj :=
  if f_force f then fit_forced f o else _fit_movers f o.

(* compute_connectedness_measure (blm.py:2213-2241, blm_dynamic.py:3842-3870), which begins with
   self.NNm.T; that of None raises AttributeError.  The eigenvalues are left out. *)
Definition compute_connectedness (o : obj) : obj * seen :=
  match NNm o, fitted o with
  | Some c, Some d => (mkobj (NNm o) (NNs o) (fitted o) (Some (d, c)), Done)
  | _, _ => (o, Raises AttributeError)
  end.

(* fit_movers_cstr_uncstr (blm.py:2092-2148, blm_dynamic.py:3690-3777) *)
Definition without_counts (f : mfit) : mfit := mkmfit (f_data f) false (f_force f) (f_end f).
Definition fit_movers_cstr_uncstr (f : mfit) (pk1_nan : bool) (o : obj) : obj * seen :=
  let o := fit_movers (without_counts f) o in
  let o := if 1 <? nl then fit_movers (without_counts f) o else o in
  let o := if 1 <? nl then fit_movers (without_counts f) o else o in
  let o := fit_movers f o in
  if pk1_nan then (o, Done) else compute_connectedness o.

(* fit_stayers (blm.py:1950-2090, blm_dynamic.py:2906-3688) *)
Definition fit_stayers (d : data_s) (compute : bool) (o : obj) : obj :=
  mkobj (NNm o) (if compute then Some (count_s d) else NNs o) (fitted o) (conn o).

(* The values unpacked from _sort_parameters: it returns those of the n + m arguments that are
   not None (blm.py:958, blm_dynamic.py:1552); n of them never are *)
Definition unpacks {X} (a : option X) : seen := match a with Some _ => Done | None => Raises ValueError end.
(* plot_type_proportions of BLMModel, blm.py:2289-2300; the rest is in BLMRealModel *)
Definition plot_static (sub : subset_kind) (o : obj) : seen :=
  match sub with
  | SMovers => match NNm o with None => Told SMovers | a => unpacks a end
  | SStayers => match NNs o with None => Told SStayers | a => unpacks a end
  | SAll => match NNm o, NNs o with Some _, Some _ => Done | _, _ => Told SAll end
  end.
(* plot_type_proportions of DynamicBLMModel, blm_dynamic.py:3918-3929 *)
Definition plot_dynamic (sub : subset_kind) (o : obj) : seen :=
  match sub with
  | SMovers => match NNm o with None => Told SMovers | a => unpacks a end
  | SStayers => match NNm o with None => Told SStayers | Some _ => unpacks (NNs o) end
  | SAll => match NNm o, NNs o with Some _, Some _ => Done | _, _ => Told SAll end
  end.

(* A call on an object of one of the two classes.  fit_A, fit_S, fit_pk: blm.py:2150-2211,
   blm_dynamic.py:3779-3840. *)
Inductive class : Type := Static | Dynamic.
Definition step (k : class) (c : call) (o : obj) : obj * seen :=
  match c with
  | FitMovers f | FitA f | FitS f | FitPk f => (fit_movers f o, Done)
  | CstrUncstr f nan => fit_movers_cstr_uncstr f nan o
  | FitStayers d b => (fit_stayers d b o, Done)
  | Plot sub => (o, match k with Static => plot_static sub o | Dynamic => plot_dynamic sub o end)
  end.
(* The object after some calls; the caller catches exceptions and goes on. *)
Definition after (k : class) (calls : list call) : obj :=
  fold_left (fun o c => fst (step k c o)) calls new.
End Calls.

Arguments NNm {_ _ _}. Arguments NNs {_ _ _}. Arguments fitted {_ _ _}. Arguments conn {_ _ _}.
Arguments mkobj {_ _ _}. Arguments new {_ _ _}.
Arguments mkmfit {_}. Arguments f_data {_}. Arguments f_compute {_}. Arguments f_force {_}. Arguments f_end {_}.
Arguments FitMovers {_ _}. Arguments FitA {_ _}. Arguments FitS {_ _}. Arguments FitPk {_ _}.
Arguments CstrUncstr {_ _}. Arguments FitStayers {_ _}. Arguments Plot {_ _}.
Arguments fit_movers {_ _ _}. Arguments compute_connectedness {_ _ _}. Arguments fit_movers_cstr_uncstr {_ _ _}.
Arguments plot_static {_ _ _}. Arguments plot_dynamic {_ _ _}.
Arguments step {_ _ _ _}. Arguments after {_ _ _ _}.
