(* C51: the command line. *)
From Coq Require Import List String Ascii Bool ZArith.
From Verif Require Base.
From Verif Require Import CliModel CliSpec CliLemmas CliPropLemmas.
Import ListNotations.
Local Open Scope string_scope.

(* Exactly the spellings of yes give True, in upper or lower case. *)
Theorem C51_true s : str2bool (VStr s) = Some true <-> spells yes_words s.
Proof. exact (str2bool_true s). Qed.
Print Assumptions C51_true.

(* Exactly the spellings of no give False. *)
Theorem C51_false s : str2bool (VStr s) = Some false <-> spells no_words s.
Proof. exact (str2bool_false s). Qed.
Print Assumptions C51_false.

(* Every other string is refused. *)
Theorem C51_refused s : str2bool (VStr s) = None <-> ~ spells yes_words s /\ ~ spells no_words s.
Proof. exact (str2bool_refused s). Qed.
Print Assumptions C51_refused.

Example C51_case_words :
  str2bool (VStr "TrUe") = Some true /\ str2bool (VStr "NO") = Some false /\ str2bool (VStr "yes ") = None.
Proof. repeat split. Qed.

(* clear_dict keeps exactly the entries that are set. *)
Theorem C51_clear d k v : is_dict d -> (entry (clear_dict d) k v <-> entry d k v /\ v <> VNone).
Proof. exact (clear_dict_entry d k v). Qed.
Print Assumptions C51_clear.

(* Each key occurs once in the result, and the order is that of the argument. *)
Theorem C51_clear_order d : is_dict d -> is_dict (clear_dict d) /\ sublist (clear_dict d) d.
Proof. exact (fun H => conj (clear_dict_dict d H) (clear_dict_sublist d H)). Qed.
Print Assumptions C51_clear_order.

Example C51_case_clear :
  clear_dict [("ho", VBool false); ("he", VNone); ("ncore", VStr "")] = [("ho", VBool false); ("ncore", VStr "")].
Proof. reflexivity. Qed.

(* The options of the FE estimator.  If they are acceptable, the estimator gets what
   the user wrote and the defaults for the rest; otherwise no parameters are made.
   Acceptable includes that no integer option is given: see C51_integers_refuted. *)
Theorem C51_fe_options_partial stata g :
  (fe_accepted g -> exists d, fe_main stata g = Some (Base.Ok d) /\ fe_values stata g d) /\
  (~ fe_accepted g -> forall d, fe_main stata g <> Some (Base.Ok d)).
Proof. exact (fe_main_iff stata g). Qed.
Print Assumptions C51_fe_options_partial.

Example C51_case_options : exists d, fe_main false ex_given = Some (Base.Ok d) /\
  dget d "ho" = Some (VBool false) /\ dget d "he" = Some (VBool true) /\
  dget d "solver" = Some (VStr "amg") /\ dget d "ncore" = Some (VInt 1).
Proof. eexists. repeat split; reflexivity. Qed.

(* The options of the CRE estimator. *)
Theorem C51_cre_options_partial stata g :
  (cre_accepted g -> exists d, cre_main stata g = Some (Base.Ok d) /\ cre_values stata g d) /\
  (~ cre_accepted g -> forall d, cre_main stata g <> Some (Base.Ok d)).
Proof. exact (cre_main_iff stata g). Qed.
Print Assumptions C51_cre_options_partial.

(* The numbers of draws and of cores cannot be set on the command line: whatever is
   written for one of these options, there is no estimator. *)
Theorem C51_integers_refuted stata g o p : In (o, p) fe_int_options -> ~ not_given g o ->
  forall d, fe_main stata g <> Some (Base.Ok d).
Proof. exact (fe_int_refused stata g o p). Qed.
Print Assumptions C51_integers_refuted.

Example C51_case_integer : fe_main false ex_int = Some (Base.Err Base.ValueError).
Proof. reflexivity. Qed.
