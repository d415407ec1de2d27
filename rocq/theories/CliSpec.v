(* What the command line promises, written without the functions of CliModel. *)
From Coq Require Import List String Ascii Bool ZArith.
From Verif Require Import CliModel.
Import ListNotations.
Local Open Scope string_scope.

(* Two characters are the same letter up to case, or the same character. *)
Definition same_char (a b : ascii) : Prop :=
  a = b \/
  exists i, i < 26 /\
    ((nat_of_ascii a = 65 + i /\ nat_of_ascii b = 97 + i) \/
     (nat_of_ascii a = 97 + i /\ nat_of_ascii b = 65 + i)).
(* Two strings spell the same word up to case. *)
Inductive same_word : string -> string -> Prop :=
| same_nil : same_word EmptyString EmptyString
| same_cons a b s t : same_char a b -> same_word s t -> same_word (String a s) (String b t).

Definition yes_words : list string := ["yes"; "true"; "t"; "y"; "1"].
Definition no_words : list string := ["no"; "false"; "f"; "n"; "0"].
Definition spells (l : list string) (s : string) : Prop := exists w, In w l /\ same_word s w.

(* Dictionaries: keys occur once. *)
Definition keys (d : dict) : list string := map fst d.
Definition is_dict (d : dict) : Prop := NoDup (keys d).
Definition entry (d : dict) (k : string) (v : pyval) : Prop := In (k, v) d.

(* The first list is the second with some members left out. *)
Inductive sublist {A : Type} : list A -> list A -> Prop :=
| sub_nil : sublist [] []
| sub_keep x l l' : sublist l l' -> sublist (x :: l) (x :: l')
| sub_drop x l l' : sublist l l' -> sublist l (x :: l').

(* The help texts of the options of the FE estimator (command_line.py:68-77):
   the four numbers of draws and the number of cores are integers. *)
Definition fe_int_options : list (string * string) :=
  [("ndraw_trace_sigma_2", "ndraw_trace_sigma_2"); ("ndraw_trace_ho", "ndraw_trace_ho");
   ("ndraw_trace_he", "ndraw_trace_he"); ("ndraw_lev_he", "ndraw_lev_he"); ("ncore_fe", "ncore")].
Definition fe_solvers : list string := ["bicg"; "bicgstab"; "cg"; "cgs"; "gmres"; "minres"; "qmr"; "amg"].
Definition fe_preconditioners : list string := ["jacobi"; "vcycle"; "ichol"; "ilu"].

(* A boolean option given as text has the value b, or is not given and has the
   default. *)
Definition bool_option (g : given) (o : string) (default : bool) (v : pyval) : Prop :=
  match g o with
  | None => v = VBool default
  | Some s => (spells yes_words s /\ v = VBool true) \/ (spells no_words s /\ v = VBool false)
  end.
Definition word_ok (g : given) (o : string) (l : list string) : Prop :=
  match g o with None => True | Some s => In s l end.
Definition bool_ok (g : given) (o : string) : Prop :=
  match g o with None => True | Some s => spells yes_words s \/ spells no_words s end.
Definition text_option (g : given) (o : string) (default : pyval) : pyval :=
  match g o with None => default | Some s => VStr s end.
Definition not_given (g : given) (o : string) : Prop := g o = None.
(* What the FE estimator is given when everything is accepted: the options of the
   user, and the documented default where nothing is given. *)
Definition fe_accepted (g : given) : Prop :=
  bool_ok g "ho" /\ bool_ok g "he" /\ word_ok g "solver" fe_solvers /\
  word_ok g "preconditioner" fe_preconditioners /\
  (forall o p, In (o, p) fe_int_options -> not_given g o).
Definition value (d : dict) (k : string) (v : pyval) : Prop :=
  entry d k v /\ forall v', entry d k v' -> v' = v.
Definition fe_values (stata : bool) (g : given) (d : dict) : Prop :=
  (exists v, value d "ho" v /\ bool_option g "ho" true v) /\
  (exists v, value d "he" v /\ bool_option g "he" false v) /\
  value d "solver" (text_option g "solver" (VStr "minres")) /\
  value d "preconditioner" (text_option g "preconditioner" (VStr "ichol")) /\
  value d "outputfile" (if stata then VStr "res_fe.json" else text_option g "outputfile_fe" VNone) /\
  value d "ndraw_trace_sigma_2" (VInt 5) /\ value d "ndraw_trace_ho" (VInt 5) /\
  value d "ndraw_trace_he" (VInt 5) /\ value d "ndraw_lev_he" (VInt 200) /\ value d "ncore" (VInt 1).

Definition cre_refused_options : list string := ["ncore_cre"; "ndraw_trace_cre"; "ndp"; "wo_btw"].
Definition cre_accepted (g : given) : Prop :=
  bool_ok g "posterior" /\ (forall o, In o cre_refused_options -> not_given g o).
Definition cre_values (stata : bool) (g : given) (d : dict) : Prop :=
  (exists v, value d "posterior" v /\ bool_option g "posterior" false v) /\
  value d "outputfile" (if stata then VStr "res_cre.json" else text_option g "outputfile_cre" VNone) /\
  value d "wo_btw" (VBool false) /\ value d "ncore" (VInt 1) /\ value d "ndraw_trace" (VInt 5).
