(* Property C96. *)
From Verif Require Import Base DCtlModel DCtlSpec DCtlLemmas DCtlPropLemmas.
From Coq Require Import String Lia.
Local Open Scope string_scope.
Local Open Scope nat_scope.
Local Open Scope list_scope.

(* fit_movers_cstr_uncstr of a model with control variables, whatever their kind, their sizes, the
   data, the starting values and the quadratic programs, never returns. *)
Theorem C96_controls_refuted : forall nl nk endo state cat cts codes n_iters up_rho o,
  cat ++ cts <> [] -> names_ok cat cts -> 0 < nl -> 0 < n_iters ->
  exists e, movers_ctl nl nk endo state cat cts codes n_iters up_rho o = Err e.
Proof. exact controls_fail. Qed.

(* What is raised when nothing else goes wrong. *)
Theorem C96_errors : forall nl nk endo state cat cts codes n_iters up_rho o,
  names_ok cat cts -> codes_ok cat codes -> 0 < nl -> 0 < nk -> 0 < n_iters ->
  (forall c, In c cat -> 0 < c_n c) -> no_trouble (o 0) -> (forall i, o_cycle (o 0) i = false) ->
  let result := movers_ctl nl nk endo state cat cts codes n_iters up_rho o in
  (* categorical columns need both endogeneity and state dependence *)
  (cat <> [] -> endo && state = false -> result = Err KeyError) /\
  (* continuous columns fail in the first E-step *)
  (cts <> [] -> endo && state = true -> result = Err IndexError) /\
  (* categorical columns alone *)
  (cat <> [] -> cts = [] -> endo && state = true ->
    (* some column has not as many categories as there are firm types *)
    ((exists c, In c cat /\ c_n c <> nk) -> result = Err ValueError) /\
    (* all have, and some column interacts with worker types *)
    ((forall c, In c cat -> c_n c = nk) -> (exists c, In c cat /\ c_wi c = true) -> result = Err IndexError) /\
    (* all have, and none interacts *)
    ((forall c, In c cat -> c_n c = nk) -> (forall c, In c cat -> c_wi c = false) -> result = Err KeyError)).
Proof. exact controls_errors. Qed.

(* Without control variables the estimation ends. *)
Theorem C96_no_controls_partial : forall nl nk endo state codes n_iters up_rho o,
  (forall j, no_trouble (o j)) -> exists k, movers_ctl nl nk endo state [] [] codes n_iters up_rho o = Ok k.
Proof. exact without_controls. Qed.

Print Assumptions C96_controls_refuted.
Print Assumptions C96_errors.
Print Assumptions C96_no_controls_partial.

(* Two worker types, three firm types; an industry with three values and one with two;
   experience; three movers. *)
Definition q_cat (n : nat) (wi : bool) := mkccol "industry" n wi false.
Definition q_cts := mkccol "experience" 1 false false.
Definition q_codes (p c : string) : list nat := [0; 1; 1].
Definition q_num : numbers :=
  mknumbers true true (Ok tt) (fun _ => Ok tt) (fun i => 3 <? i) (fun _ => false) (fun _ => Ok tt) (fun i _ => Nat.even i).
Example C96_case :
  names_ok [q_cat 3 true] [q_cts] /\ codes_ok [q_cat 2 true] q_codes /\ no_trouble q_num /\
  movers_ctl 2 3 false true [q_cat 3 false] [] q_codes 10 true (fun _ => q_num) = Err KeyError /\
  movers_ctl 2 3 true true [] [q_cts] q_codes 10 true (fun _ => q_num) = Err IndexError /\
  movers_ctl 2 3 true true [q_cat 2 false] [] q_codes 10 true (fun _ => q_num) = Err ValueError /\
  movers_ctl 2 3 true true [q_cat 3 true] [] q_codes 10 true (fun _ => q_num) = Err IndexError /\
  movers_ctl 2 3 true true [q_cat 3 false] [] q_codes 10 true (fun _ => q_num) = Err KeyError /\
  movers_ctl 2 3 true true [] [] q_codes 10 true (fun _ => q_num) = Ok (mkctl [] [] [] []).
Proof.
  split; [|split; [|split; [|vm_compute; repeat split; reflexivity]]].
  - split; [repeat constructor; cbn; intuition discriminate|].
    intros c [<-|[<-|[]]]; cbn; intuition discriminate.
  - intros c p i [<-|[]]; cbn; lia.
  - repeat split.
Qed.
