(* Model of BLMModel._gen_constraints with control variables (blm.py:718-850), and of
   what is done to the estimates before they are stored (blm.py:1925-1938).

   Columns are in the order of cat_cols and cts_cols (sorted names).  A constraint
   argument that is one object is a list of one; nnt=0 and nnt=range(2) are [0] and
   [0; 1] (to_list of bipartitepandas). *)
From Verif Require Import Base UtilModel ConsModel BLMModel.
Local Open Scope res_scope.
Local Open Scope R_scope.

(* controls_dict[col]: n (1 for a continuous control, blm.py:760-763),
   worker_type_interaction, cons_a, cons_s. *)
Record gcol : Type := mkgcol {
  gc_n : nat; gc_wi : bool; gc_a : option (list cobj); gc_s : option (list cobj) }.

(* The entries of params that are read. *)
Record gset : Type := mkgset {
  p_a : option (list cobj); p_a_all : option (list cobj);
  p_s : option (list cobj); p_s_all : option (list cobj);
  p_lb : R;                                        (* s_lower_bound *)
  p_md_worker : R; p_md_firm : R;                  (* d_mean_worker_effect, d_mean_firm_effect *)
  p_normalize : bool;
  p_force : bool; p_force_cons : bool;             (* force_min_firm_type, .._constraint *)
  p_primary : period }.

(* if cs is not None: cons.add_constraints(cs) *)
Definition add_opt (cs : option (list cobj)) (q : qp) : res qp :=
  match cs with Some l => add_constraints l q | None => Ok q end.

(* blm.py:752-779  constraints of one control variable: cons_a_dict[col],
   cons_s_dict[col]. *)
Definition col_constraints (s : gset) (nl : nat) (c : gcol) : res (qp * qp) :=
  qs <- add_constraints [CBoundedBelow (p_lb s) 2] (qp_init nl (gc_n c)) ;;
  ' (qa, qs) <-
    (if gc_wi c then Ok (qp_init nl (gc_n c), qs)
     else qa <- add_constraints [CNoWorkerTypeInteraction None 2] (qp_init nl (gc_n c)) ;;
          qs <- add_constraints [CNoWorkerTypeInteraction None 2] qs ;;
          Ok (qa, qs)) ;;
  qa <- add_opt (gc_a c) qa ;;
  qa <- add_opt (p_a_all s) qa ;;
  qs <- add_opt (gc_s c) qs ;;
  qs <- add_opt (p_s_all s) qs ;;
  Ok (qa, qs).

(* isinstance(subcons_a, cons.Stationary) for one of cons_a, blm.py:792-799. *)
Definition is_stationary (cs : option (list cobj)) : bool :=
  match cs with
  | Some l => existsb (fun c => match c with CStationary _ _ => true | _ => false end) l
  | None => false
  end.
Definition given {A} (o : option A) : bool := match o with Some _ => true | None => false end.

(* any_cat_constraints, any_tv_nwi, any_tnv_nwi, any_tv_wi, any_tnv_wi *)
Record gflags : Type := mkgflags {
  f_cons : bool; f_tv_nwi : bool; f_tnv_nwi : bool; f_tv_wi : bool; f_tnv_wi : bool }.

(* blm.py:790-815, with its break. *)
Fixpoint scan (cats : list gcol) (f : gflags) : gflags :=
  match cats with
  | [] => f
  | c :: cats' =>
      let stat := is_stationary (gc_a c) in
      let any := f_cons f || given (gc_a c) in
      if gc_wi c then
        if stat then scan cats' (mkgflags any (f_tv_nwi f) (f_tnv_nwi f) (f_tv_wi f) true)
        else mkgflags any (f_tv_nwi f) (f_tnv_nwi f) true (f_tnv_wi f)
      else if stat then scan cats' (mkgflags true (f_tv_nwi f) true (f_tv_wi f) (f_tnv_wi f))
      else scan cats' (mkgflags true true (f_tnv_nwi f) (f_tv_wi f) (f_tnv_wi f))
  end.

(* primary_period_dict, secondary_period_dict, blm.py:818-829. *)
Definition pper (p : period) : list nat :=
  match p with PFirst => [0] | PSecond => [1] | PAll => [0; 1] end%nat.
Definition sper (p : period) : list nat :=
  match p with PFirst => [1] | PSecond => [0] | PAll => [0] end%nat.

(* blm.py:825-848  the constraints added to cons_a, in order. *)
Definition norm_constraints (s : gset) (k0 : nat) (f : gflags) : list cobj :=
  let pp := Some (pper (p_primary s)) in
  let sp := Some (sper (p_primary s)) in
  CMonotonicMean (p_md_worker s) true true pp 2 ::
  if p_normalize s then
    (if p_force s && p_force_cons s then [CMinFirmType k0 (p_md_firm s) true true pp 2] else []) ++
    (if f_tv_wi f then [CNormalizeAll k0 false (Some [0; 1]%nat) 2]
     else if f_tnv_wi f then
       CNormalizeAll k0 true pp 2 :: (if f_tv_nwi f then [CNormalizeLowest k0 false sp 2] else [])
     else if f_tv_nwi f then [CNormalizeLowest k0 false (Some [0; 1]%nat) 2]
     else if f_tnv_nwi f then [CNormalizeLowest k0 true pp 2] else [])
  else [].

(* _gen_constraints, blm.py:718-850: cons_a, cons_s, and (cons_a_dict, cons_s_dict)
   for the categorical, then the continuous columns. *)
Definition gen_all (s : gset) (nl nk : nat) (cats ctss : list gcol) (k0 : nat)
  : res (qp * qp * list (qp * qp)) :=
  qs <- add_constraints [CBoundedBelow (p_lb s) 2] (qp_init nl nk) ;;
  qa <- add_opt (p_a s) (qp_init nl nk) ;;
  qa <- add_opt (p_a_all s) qa ;;
  qs <- add_opt (p_s s) qs ;;
  qs <- add_opt (p_s_all s) qs ;;
  cols <- traverse (col_constraints s nl) (cats ++ ctss) ;;
  qa <- (match cats with
         | [] => Ok qa
         | _ =>
             let f := scan cats (mkgflags (given (p_a_all s)) false false false false) in
             if f_cons f then add_constraints (norm_constraints s k0 f) qa else Ok qa
         end) ;;
  Ok (qa, qs, cols).

(* blm.py:1925-1938  the arrays stored in the model: normalised, sorted, normalised
   again; params['normalize'] is not read. *)
Definition cfg_of (c : gcol) : catcfg := mkcat (gc_wi c) (is_stationary (gc_a c)).
Section Store.
Variable argsort : list R -> list nat.
Definition norm_par (pp : period) (nl nk : nat) (cats : list gcol) (p : par) : par :=
  let '(B1, B2, B1c, B2c) := normalize argsort pp nl nk (map cfg_of cats) (A1 p, A2 p, A1_cat p, A2_cat p) in
  mkpar B1 B2 (S1 p) (S2 p) B1c B2c (S1_cat p) (S2_cat p)
        (A1_cts p) (A2_cts p) (S1_cts p) (S2_cts p) (pk1 p) (pk0 p) (NNm p) (NNs p).
Definition stored (s : gset) (nl nk : nat) (cats : list gcol) (p : par) : par :=
  let pp := p_primary s in
  let p := match cats with [] => p | _ => norm_par pp nl nk cats p end in
  let p := sort_parameters argsort pp nl nk false false p in
  match cats with [] => p | _ => norm_par pp nl nk cats p end.
End Store.
