(* Model of control variables in _simulate_types_wages, pytwoway/blm_dynamic.py: which columns
   and dictionary entries are read.  The numbers added to the wages are a parameter. *)
From Coq Require Import String.
From Verif Require Import Base BLMModel BLMRealModel BootModel DBLMModel DBootModel DCtlModel.
Local Open Scope string_scope.
Local Open Scope nat_scope.
Local Open Scope list_scope.
Local Open Scope res_scope.

(* Labels of columns: strings, or integers. *)
Inductive label : Type := Name (s : string) | Pos (n : nat).
Definition label_eqb (a b : label) : bool :=
  match a, b with
  | Name s, Name t => String.eqb s t
  | Pos n, Pos m => Nat.eqb n m
  | _, _ => false
  end.
(* A BipartiteDataFrame: its columns and col_reference_dict. *)
Record bframe : Type := mkbframe { b_cols : list label; b_refs : list (string * list string) }.

(* frame.loc[:, x] *)
Definition loc (f : bframe) (x : label) : res unit :=
  if existsb (label_eqb x) (b_cols f) then Ok tt else Err KeyError.

(* blm_dynamic.py:833-838 *)
Definition periods_movers : list string := ["12"; "43"; "2ma"; "3ma"; "2mb"; "3mb"].
Definition periods_stayers : list string := ["12"; "43"; "2ma"; "3ma"; "2s"; "3s"].
Definition first_periods : list string := ["12"; "2ma"; "3mb"; "2s"].
Definition period_number (p : string) : nat := if existsb (String.eqb p) first_periods then 0 else 1.

(* blm_dynamic.py:931-941 and 1026-1036; the list made here is not used again *)
Definition subcolumns (jd : bframe) (col : string) : res (list string) :=
  subcols <- lookup col (b_refs jd) ;;
  match subcols with
  | [a] => Ok [a; a]
  | [a; _; _; d] => Ok [a; d]
  | _ => Err NotImplementedError
  end.

(* One column: lines 942-977 (1037-1064).  [fr] is the frame whose column is read, jdata or
   sdata; subcol is the number of the period.  Indexing the arrays with the column is left
   out, it could only raise later. *)
Definition add_column (jd fr : bframe) (A S : table) (periods : list string) (c : ccol) : res unit :=
  _ <- subcolumns jd (c_name c) ;;
  each periods (fun p => let subcol := period_number p in
                         _ <- at_period A (c_name c) p ;;
                         _ <- loc fr (Pos subcol) ;;
                         _ <- at_period S (c_name c) p ;;
                         Ok tt).
Definition add_columns (jd fr : bframe) (t : ctl) (periods : list string) (cat cts : list ccol) : res unit :=
  _ <- each cat (add_column jd fr (k_Acat t) (k_Scat t) periods) ;;
  each cts (add_column jd fr (k_Acts t) (k_Scts t) periods).

Section Sim.
Variables nl nk : nat.
Variables (cat cts : list ccol).
Variable t : ctl.
Let result : Type := (list (quad R) * list (quad R) * list nat * list nat)%type.
(* The wages with the effects of control variables added. *)
Variable effects : result -> result.

(* _simulate_types_wages, blm_dynamic.py:806-1087.  The stayers' types are drawn after the
   movers' columns are read; drawing does not raise here. *)
Definition dsimulate_ctl (p : dpar) (realloc : option (bool * rperiod)) (g : drng)
    (jd sd : bframe) (gj : list (nat * nat)) (gs : list nat) : res result :=
  x <- dsimulate nl nk p realloc g gj gs ;;
  _ <- add_columns jd jd t periods_movers cat cts ;;
  match cat, cts with
  | [], [] => Ok x
  | _, _ => _ <- add_columns jd sd t periods_stayers cat cts ;; Ok (effects x)
  end.
End Sim.
