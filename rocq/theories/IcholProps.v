(* C49: the incomplete Cholesky preconditioner. *)
From Verif Require Import Base IcholModel IcholSpec IcholCases.
Local Open Scope nat_scope.

(* On a matrix in canonical format no read or write leaves its array, the walk along the
   linked list ends and nothing is divided by zero, whatever the thresholds, the limit on
   the number of elements, the shifts and the contents of the uninitialised arrays: the
   result is a triangular matrix in canonical format with a positive diagonal, or the
   documented ValueError. *)
Theorem C49_safe n A thr rel max keep c0 v0 r0 shifts :
  canonical n A -> alen c0 = n -> shifts <> [] ->
  (exists L, ichol n A thr rel max keep c0 v0 r0 shifts = Ok L /\ canonical n L /\ lower n (entry L)) \/
  ichol n A thr rel max keep c0 v0 r0 shifts = Err ValueError.
Proof. exact (safe n A thr rel max keep c0 v0 r0 shifts). Qed.
Print Assumptions C49_safe.

(* The result L is such that L L' is the matrix plus one of the shifts on the diagonal, up
   to elements E: where E is not zero the element of L was discarded, being below one of
   the two thresholds.  With diag_keep_discarded the discarded elements still lower the
   diagonal. *)
Theorem C49_factor n A thr rel max keep c0 v0 r0 shifts L :
  canonical n A -> diagonal_stored n A -> alen c0 = n ->
  ichol n A thr rel max keep c0 v0 r0 shifts = Ok L ->
  lower n (entry L) /\
  exists shift E, In shift shifts /\
    (forall i j, j < i -> i < n ->
       square n (entry L) i j = (entry A i j - E i j)%R /\
       (E i j <> 0%R -> entry L i j = 0%R /\
          ((Rabs (E i j) <= thr * entry L j j)%R \/ (Rabs (E i j) <= rel * column_size n (entry A) j)%R))) /\
    (forall j, j < n ->
       square n (entry L) j j =
       (entry A j j + shift - (if keep then sumn j (fun k => (E j k / entry L k k) ^ 2) else 0))%R).
Proof. exact (factor n A thr rel max keep c0 v0 r0 shifts L). Qed.
Print Assumptions C49_factor.

(* an element of 1/4 below the threshold of 1/2 *)
Example C49_factor_case c0 v0 r0 : alen c0 = 2 ->
  canonical 2 small /\ diagonal_stored 2 small /\
  exists L, ichol 2 small (/ 2) 0 3 true c0 v0 r0 [0%R] = Ok L /\
    entry L 1 0 = 0%R /\ entry L 0 0 = 1%R /\ (entry L 1 1 * entry L 1 1 = 15 / 16)%R.
Proof. intros H. exact (conj small_can (conj small_diag (small_result c0 v0 r0 H))). Qed.

(* The shift used is the first with which the decomposition succeeds on its own, and what
   the failed attempts left in the arrays does not matter. *)
Theorem C49_first n A thr rel max keep c0 v0 r0 shifts L :
  canonical n A -> alen c0 = n -> n * (n + 1) <= 2 * max ->
  ichol n A thr rel max keep c0 v0 r0 shifts = Ok L ->
  forall c0' v0' r0', alen c0' = n ->
  exists pre shift post L', shifts = pre ++ shift :: post /\
    (forall s, In s pre -> ichol n A thr rel max keep c0' v0' r0' [s] = Err ValueError) /\
    ichol n A thr rel max keep c0' v0' r0' [shift] = Ok L' /\
    forall i j, i < n -> j < n -> entry L' i j = entry L i j.
Proof. exact (first n A thr rel max keep c0 v0 r0 shifts L). Qed.
Print Assumptions C49_first.

(* With room for a full triangle, it is refused exactly when each shift fails. *)
Theorem C49_refused n A thr rel max keep c0 v0 r0 shifts :
  canonical n A -> alen c0 = n -> n * (n + 1) <= 2 * max -> shifts <> [] ->
  (forall shift, In shift shifts -> ichol n A thr rel max keep c0 v0 r0 [shift] = Err ValueError) <->
  ichol n A thr rel max keep c0 v0 r0 shifts = Err ValueError.
Proof. exact (refused n A thr rel max keep c0 v0 r0 shifts). Qed.
Print Assumptions C49_refused.

(* Calling the decomposition solves L L' x = b. *)
Theorem C49_apply n A thr rel max keep c0 v0 r0 shifts L b :
  canonical n A -> alen c0 = n -> ichol n A thr rel max keep c0 v0 r0 shifts = Ok L -> alen b = n ->
  exists x, apply L b = Ok x /\ alen x = n /\
    forall i, i < n -> mulv n (square n (entry L)) (aval x) i = aval b i.
Proof. exact (applies n A thr rel max keep c0 v0 r0 shifts L b). Qed.
Print Assumptions C49_apply.

(* So it is symmetric and positive definite, as preconditioned conjugate gradients need,
   whatever was discarded and shifted. *)
Theorem C49_preconditioner n A thr rel max keep c0 v0 r0 shifts L b c x y :
  canonical n A -> alen c0 = n -> ichol n A thr rel max keep c0 v0 r0 shifts = Ok L ->
  alen b = n -> alen c = n -> apply L b = Ok x -> apply L c = Ok y ->
  dot n (aval c) (aval x) = dot n (aval y) (aval b) /\
  (nonzero n (aval b) -> (0 < dot n (aval b) (aval x))%R).
Proof. exact (preconditioner n A thr rel max keep c0 v0 r0 shifts L b c x y). Qed.
Print Assumptions C49_preconditioner.

(* Without thresholds it is the Cholesky decomposition: on a positive definite matrix the
   shift zero succeeds and calling the result solves A x = b. *)
Theorem C49_exact n A thr rel max keep c0 v0 r0 shifts b :
  canonical n A -> positive_definite n (entry A) -> (thr <= 0)%R -> (rel <= 0)%R ->
  n * (n + 1) <= 2 * max -> alen c0 = n -> alen b = n ->
  exists L x, ichol n A thr rel max keep c0 v0 r0 (0%R :: shifts) = Ok L /\
    (forall i j, i < n -> j < n -> square n (entry L) i j = entry A i j) /\
    apply L b = Ok x /\ forall i, i < n -> mulv n (entry A) (aval x) i = aval b i.
Proof. exact (exact_solve n A thr rel max keep c0 v0 r0 shifts b). Qed.
Print Assumptions C49_exact.

(* the matrix and the right hand side of the docstring *)
Example C49_exact_case c0 v0 r0 : alen c0 = 2 ->
  canonical 2 doc /\ positive_definite 2 (entry doc) /\
  exists L x, ichol 2 doc 0 0 3 true c0 v0 r0 [0%R; 1%R] = Ok L /\
    apply L (Arr 2 (fun i => if i =? 0 then 1%R else 2%R)) = Ok x /\ aval x 0 = (-1)%R /\ aval x 1 = 1%R.
Proof.
  intros H. split; [exact doc_can|]. split; [exact doc_pd|].
  destruct (C49_exact 2 doc 0 0 3 true c0 v0 r0 [1%R] (Arr 2 (fun i => if i =? 0 then 1%R else 2%R)))
    as [L [x [E [_ [Ex Hx]]]]]; try exact doc_can; try exact doc_pd; try lra; try lia; try reflexivity.
  exists L, x. split; [exact E|]. split; [exact Ex|].
  pose proof (Hx 0 ltac:(lia)) as H0. pose proof (Hx 1 ltac:(lia)) as H1.
  unfold mulv, sumn, entry in H0, H1. cbn in H0, H1. lra.
Qed.

(* Finding: the shifts are meant to rescue a matrix that is not positive definite, but
   where a diagonal element is not stored (scipy stores no zeros) the elements of the
   earlier columns are read as if they were of this one: L L' has a one where the matrix
   has a zero, without any threshold. *)
Theorem C49_unstored_refuted :
  ~ (forall n A max c0 v0 r0 shifts L, canonical n A -> alen c0 = n ->
     ichol n A 0 0 max true c0 v0 r0 shifts = Ok L ->
     forall i j, j < i -> i < n -> square n (entry L) i j = entry A i j).
Proof.
  intros H.
  destruct (gap_result (full 3 0) (fun _ => 0%R) (fun _ => 0) eq_refl) as [L [E [E1 E2]]].
  pose proof (H 3 gap 6 (full 3 0) (fun _ => 0%R) (fun _ => 0) [1%R] L gap_can eq_refl E 2 1
                ltac:(lia) ltac:(lia)) as Q.
  rewrite E1, E2 in Q. exact (R1_neq_R0 Q).
Qed.
Print Assumptions C49_unstored_refuted.
