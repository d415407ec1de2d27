(* Properties of the fixed-point estimator of the slopes of the interacted model.
   Model: FixbModel.v.  Vocabulary: FixbSpec.v. *)
From Coq Require Import Permutation Sorted.
From Verif Require Import Base BaseLemmas FixbModel FixbSpec FixbPropLemmas.
Local Open Scope R_scope.

(* C80: on collapsed data without returns and without noise nothing is raised, and
   the true slopes are a fixed point of the matrix whose eigenvector is returned,
   for every split, estimator, weighting and set of pairs. *)
Theorem C80_fixed_point weighted how alternative weight_pairs sort nbrs draw eig nf jd A B alpha :
  clean weighted nf A B alpha jd -> order_ok weighted how sort jd ->
  exists es,
    entries weighted how alternative weight_pairs nbrs draw nf (in_order weighted how sort jd) = Ok es /\
    fit_b weighted how alternative weight_pairs sort nbrs draw eig true nf jd
    = Ok (fun j => eig (lhs alternative nf es) j / eig (lhs alternative nf es) 0%nat) /\
    ((forall a, (a < nf)%nat -> S0 alternative nf es a <> 0) -> fixed nf (lhs alternative nf es) B).
Proof. exact (fixed_point_all weighted how alternative weight_pairs sort nbrs draw eig nf jd A B alpha). Qed.
Print Assumptions C80_fixed_point.

(* C80: the alternative estimator recovers positive slopes exactly, relative to
   firm 0, when the pairs with equations link all firms and the group differences
   have one sign. *)
Theorem C80_recovered weighted how weight_pairs sort nbrs draw eig nf jd A B alpha es sg :
  clean weighted nf A B alpha jd -> order_ok weighted how sort jd ->
  entries weighted how true weight_pairs nbrs draw nf (in_order weighted how sort jd) = Ok es ->
  (2 <= nf)%nat -> (forall j, (j < nf)%nat -> 0 < B j) ->
  (forall a b v, In (a, b, v) es -> 0 < sg * v) ->
  (forall j, (j < nf)%nat -> linked es j) ->
  eig_ok nf eig (lhs true nf es) ->
  exists Bh, fit_b weighted how true weight_pairs sort nbrs draw eig true nf jd = Ok Bh /\
    forall j, (j < nf)%nat -> Bh j = B j / B 0%nat.
Proof.
  exact (fun Hc Ho => recovered_all weighted how true weight_pairs sort nbrs draw eig nf jd A B alpha
                        Hc Ho es sg eq_refl).
Qed.
Print Assumptions C80_recovered.

Theorem C80_returns_refused weighted how alternative weight_pairs sort nbrs draw eig nf jd :
  fit_b weighted how alternative weight_pairs sort nbrs draw eig false nf jd = Err ValueError.
Proof. exact (returns_refused weighted how alternative weight_pairs sort nbrs draw eig nf jd). Qed.
Print Assumptions C80_returns_refused.

(* C80 with weights that differ between the spells of a worker, as after
   collapsing, and the default options: the slopes are not recovered although
   wages are without noise. *)
Theorem C80_weights_refuted :
  exists (jd : list row) (A B alpha : nat -> R) (sort : (row -> R) -> list row -> list row),
    one_spell jd /\ noise_free A B alpha jd /\
    (forall r, In r jd -> 0 < r_w r /\ (r_j r < 2)%nat) /\
    order_ok true Income sort jd /\
    forall draw eig, (forall L, eig_ok 2 eig L) ->
    exists Bh, fit_b true Income true false sort nb2 draw eig true 2 jd = Ok Bh /\
      Bh 1%nat = 7 / 8 /\ B 1%nat / B 0%nat = 1.
Proof. exact weights_wrong. Qed.
Print Assumptions C80_weights_refuted.

(* C80 on the long format, which fit's documentation allows: spells of more than
   one period end in an IndexError under every option. *)
Theorem C80_long_refuted :
  exists jd, noise_free (fun _ => 0) (fun _ => 1) INR jd /\ grouped jd /\
    sorts (fun _ l => l) (mean_y false jd) jd /\ no_ties (mean_y false jd) jd /\
    forall how alternative weight_pairs draw eig,
      fit_b false how alternative weight_pairs (fun _ l => l) nb2 draw eig true 2 jd = Err IndexError.
Proof.
  exact (ex_intro _ jdl (conj (proj1 long_data) (conj (proj1 (proj2 long_data))
    (conj (proj1 (proj2 (proj2 long_data))) (conj (proj2 (proj2 (proj2 long_data))) long_fails))))).
Qed.
Print Assumptions C80_long_refuted.

(* Slopes 1, 2, 4 of three firms are found from eight rows. *)
Example C80_case draw :
  clean true 3 A3 B3 al3 jd3 /\ order_ok true EnterExit (fun _ l => l) jd3 /\
  entries true EnterExit true true nb3 draw 3 jd3 = Ok es3 /\
  (forall a b v, In (a, b, v) es3 -> 0 < -1 * v) /\
  (forall j, (j < 3)%nat -> linked es3 j) /\
  eig_ok 3 (fun _ j => 5 * B3 j) (lhs true 3 es3) /\
  exists Bh, fit_b true EnterExit true true (fun _ l => l) nb3 draw (fun _ j => 5 * B3 j) true 3 jd3
             = Ok Bh /\ forall j, (j < 3)%nat -> Bh j = B3 j / B3 0%nat.
Proof.
  assert (V : forall a b v, In (a, b, v) es3 -> 0 < -1 * v).
  { intros a b v H. simpl in H. repeat (destruct H as [H|H]; [injection H as _ _ <-; lra|]). destruct H. }
  split; [exact jd3_clean|]. split; [exact jd3_grouped|]. split; [apply entries3|].
  split; [exact V|]. split; [exact linked3|]. split; [exact eig3|].
  apply (C80_recovered true EnterExit true (fun _ l => l) nb3 draw _ 3 jd3 A3 B3 al3 es3 (-1)
           jd3_clean jd3_grouped (entries3 draw)); auto.
  - intros j Hj. destruct j as [|[|[|]]]; unfold B3; lra.
  - exact linked3.
  - exact eig3.
Qed.
