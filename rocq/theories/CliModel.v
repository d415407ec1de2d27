(* Model of pytwoway/command_line.py: str2bool, clear_dict, and how main turns
   options into the parameter dictionaries of the FE and CRE estimators. *)
From Coq Require Import List String Ascii Bool ZArith.
From Verif Require Base.
Import ListNotations.
Local Open Scope string_scope.

(* The values of parsed options and of parameters.  Strings are sequences of
   characters 0 to 255; the case conversion is that of the ASCII letters (no other
   character has one of the letters compared with below as its lower case). *)
Inductive pyval : Type :=
| VNone
| VBool (b : bool)
| VInt (z : Z)
| VStr (s : string).

(* str.lower *)
Definition lower_char (c : ascii) : ascii :=
  let n := nat_of_ascii c in
  if (Nat.leb 65 n && Nat.leb n 90)%bool then ascii_of_nat (n + 32) else c.
Fixpoint lower (s : string) : string :=
  match s with
  | EmptyString => EmptyString
  | String c s' => String (lower_char c) (lower s')
  end.

(* v in (s1, s2, ...) *)
Definition is_in (s : string) (l : list string) : bool := existsb (String.eqb s) l.

(* str2bool, command_line.py:31-44.  None stands for ArgumentTypeError.  Only
   booleans and strings are ever passed to it. *)
Definition str2bool (v : pyval) : option bool :=
  match v with
  | VBool b => Some b
  | VStr s =>
      if is_in (lower s) ["yes"; "true"; "t"; "y"; "1"] then Some true
      else if is_in (lower s) ["no"; "false"; "f"; "n"; "0"] then Some false
      else None
  | _ => None
  end.

(* Dictionaries in insertion order. *)
Definition dict : Type := list (string * pyval).
Fixpoint dset (d : dict) (k : string) (v : pyval) : dict :=
  match d with
  | [] => [(k, v)]
  | (k', v') :: d' => if String.eqb k' k then (k', v) :: d' else (k', v') :: dset d' k v
  end.
Fixpoint dget (d : dict) (k : string) : option pyval :=
  match d with
  | [] => None
  | (k', v) :: d' => if String.eqb k' k then Some v else dget d' k
  end.

(* clear_dict, command_line.py:14-29 *)
Definition clear_dict (d : dict) : dict :=
  fold_left (fun new_d kv => match snd kv with VNone => new_d | v => dset new_d (fst kv) v end) d [].

(* paramsdict.ParamsDict is not part of /repo.  It is modelled by what the
   declarations say: a value must have the declared type (and constraint), or be
   one of the declared options; an unknown key or another value is refused.  The
   exception is written ValueError. *)
Inductive ptype : Type :=
| TBool                              (* 'type', bool *)
| TInt1                              (* 'type_constrained', (int, _gteq1) *)
| TStrNone                           (* 'type_none', str *)
| TSet (l : list string).            (* 'set'; a set with None also takes it *)
Definition admissible (t : ptype) (v : pyval) : bool :=
  match t, v with
  | TBool, VBool _ => true
  | TInt1, VInt z => (1 <=? z)%Z
  | TStrNone, VStr _ => true
  | TStrNone, VNone => true
  | TSet l, VStr s => is_in s l
  | _, _ => false
  end.
Definition schema : Type := list (string * (pyval * ptype)).
Definition defaults (sc : schema) : dict := map (fun kd => (fst kd, fst (snd kd))) sc.
Fixpoint type_of (sc : schema) (k : string) : option ptype :=
  match sc with
  | [] => None
  | (k', (_, t)) :: sc' => if String.eqb k' k then Some t else type_of sc' k
  end.
(* params(update_dict): the defaults with the entries of update_dict set. *)
Definition params_update (sc : schema) (upd : dict) : Base.res dict :=
  Base.for_each upd (fun kv d =>
    match type_of sc (fst kv) with
    | Some t => if admissible t (snd kv) then Base.Ok (dset d (fst kv) (snd kv)) else Base.Err Base.ValueError
    | None => Base.Err Base.ValueError
    end) (defaults sc).

(* fe.py:49-160: the declarations of the parameters that main sets *)
Definition fe_schema : schema :=
  [("ho", (VBool true, TBool)); ("he", (VBool false, TBool));
   ("ndraw_trace_sigma_2", (VInt 5, TInt1)); ("ndraw_trace_ho", (VInt 5, TInt1));
   ("ndraw_trace_he", (VInt 5, TInt1)); ("ndraw_lev_he", (VInt 200, TInt1));
   ("ncore", (VInt 1, TInt1));
   ("solver", (VStr "minres", TSet ["bicg"; "bicgstab"; "cg"; "cgs"; "gmres"; "minres"; "qmr"; "amg"]));
   ("preconditioner", (VStr "ichol", TSet ["jacobi"; "vcycle"; "ichol"; "ilu"]));
   ("outputfile", (VNone, TStrNone))].
(* cre.py:26-51 ('ndp' is commented out) *)
Definition cre_schema : schema :=
  [("ncore", (VInt 1, TInt1)); ("posterior", (VBool false, TBool)); ("wo_btw", (VBool false, TBool));
   ("ndraw_trace", (VInt 5, TInt1)); ("outputfile", (VNone, TStrNone))].

(* What the user writes: for an option its text, or nothing.  configargparse
   stores the text, converted by str2bool where type=str2bool is given; options
   not given are None (command_line.py:46-150).  None: the parser stops with a
   usage error. *)
Definition given : Type := string -> option string.
Definition raw (g : given) (o : string) : pyval :=
  match g o with Some s => VStr s | None => VNone end.
Definition as_bool (g : given) (o : string) : option pyval :=
  match g o with
  | None => Some VNone
  | Some s => match str2bool (VStr s) with Some b => Some (VBool b) | None => None end
  end.

(* command_line.py:160-164 *)
Definition fe_dict (stata : bool) (ho he : pyval) (g : given) : dict :=
  let d := [("ho", ho); ("he", he); ("ndraw_trace_sigma_2", raw g "ndraw_trace_sigma_2");
            ("ndraw_trace_ho", raw g "ndraw_trace_ho"); ("ndraw_trace_he", raw g "ndraw_trace_he");
            ("ndraw_lev_he", raw g "ndraw_lev_he"); ("outputfile", raw g "outputfile_fe");
            ("ncore", raw g "ncore_fe"); ("solver", raw g "solver");
            ("preconditioner", raw g "preconditioner")] in
  if stata then dset d "outputfile" (VStr "res_fe.json") else d.
Definition fe_main (stata : bool) (g : given) : option (Base.res dict) :=
  match as_bool g "ho", as_bool g "he" with
  | Some ho, Some he => Some (params_update fe_schema (clear_dict (fe_dict stata ho he g)))
  | _, _ => None
  end.

(* command_line.py:217-220 *)
Definition cre_dict (stata : bool) (posterior : pyval) (g : given) : dict :=
  let d := [("ncore", raw g "ncore_cre"); ("ndraw_trace", raw g "ndraw_trace_cre");
            ("ndp", raw g "ndp"); ("outputfile", raw g "outputfile_cre");
            ("posterior", posterior); ("wo_btw", raw g "wo_btw")] in
  if stata then dset d "outputfile" (VStr "res_cre.json") else d.
Definition cre_main (stata : bool) (g : given) : option (Base.res dict) :=
  match as_bool g "posterior" with
  | Some p => Some (params_update cre_schema (clear_dict (cre_dict stata p g)))
  | None => None
  end.
