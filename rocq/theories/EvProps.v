(* C116: event study plots. *)
From Verif Require Import Base EvModel EvSpec EvLemmas.
Local Open Scope nat_scope.
Local Open Scope list_scope.

(* C116.  With at least two classes and as many periods after as before the move: there is one
   subplot for each pair of classes; subplot (i, j) shows the earnings, period by period with
   the periods numbered from the move, of exactly the rows whose class is i right before and j
   right after the move, their number, means and standard errors. *)
Theorem C116_subplots k pre d : 2 <= k -> 1 <= pre -> Forall (shaped k pre pre) d ->
  exists ps, plot_es (Some k) pre pre (pre + pre) d = Ok ps /\
    length ps = k /\ Forall (fun row => length row = k) ps /\
    forall i j row q, nth_error ps i = Some row -> nth_error row j = Some q ->
      exists d', those (moves pre i j) d d' /\ shows_rows pre pre d' q.
Proof. exact (plot_lemma k pre d). Qed.
Print Assumptions C116_subplots.

(* Every row is in exactly one subplot. *)
Theorem C116_once k pre post r : 1 <= pre -> 1 <= post -> shaped k pre post r ->
  exists i j, i < k /\ j < k /\ moves pre i j r /\ forall i' j', moves pre i' j' r -> i' = i /\ j' = j.
Proof. exact (one_cell k pre post r). Qed.
Print Assumptions C116_once.

(* With different numbers of periods before and after the move the function raises: the
   positions after the move are counted with periods_pre. *)
Theorem C116_periods_refuted k pre post d : 2 <= k -> 1 <= pre -> 1 <= post -> pre <> post ->
  Forall (shaped k pre post) d -> plot_es (Some k) pre post (pre + post) d = Err ValueError.
Proof. exact (plot_asym k pre post d). Qed.
Print Assumptions C116_periods_refuted.

(* Data that are not clustered, which the documentation promises in a single figure, and data
   with a single class: the function raises. *)
Theorem C116_unclustered_refuted pre post ny d :
  plot_es None pre post ny d = Err ValueError /\ plot_es (Some 1) pre post ny d = Err TypeError.
Proof. exact (conj eq_refl eq_refl). Qed.
Print Assumptions C116_unclustered_refuted.

(* Three workers, two classes, two periods on each side. *)
Example C116_case : Forall (shaped 2 2 2)
  [mkerow [1; 2; 3; 4]%R [0; 0; 1; 1]; mkerow [2; 2; 5; 4]%R [0; 0; 1; 1]; mkerow [1; 1; 1; 0]%R [1; 1; 0; 0]].
Proof. repeat constructor. Qed.
