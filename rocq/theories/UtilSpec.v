(* Vocabulary of the properties of util.py, independent of the model's
   functions. *)
From Verif Require Import Base UtilModel.
From Coq Require Import Permutation Sorted.
Local Open Scope R_scope.

Definition positive (w : list R) : Prop := forall x, In x w -> 0 < x.

(* What np.argsort guarantees, whatever its tie-breaking: a permutation of the
   positions that lists the values in non-decreasing order. *)
Definition is_argsort (l : list R) (idx : list nat) : Prop :=
  Permutation idx (range (length l)) /\
  StronglySorted Rle (map (fun i => nth i l 0) idx).

(* The weights meant by the sample_weight argument. *)
Definition weights_of (values : list R) (sw : option (list R)) : list R :=
  match sw with None => map (fun _ => 1) values | Some w => w end.

(* The conditions under which weighted_quantile is used: non-empty sample, one
   positive weight per value, a correct sort (or values already sorted), and
   for old_style at least two values (numpy divides by zero otherwise). *)
Definition wq_pre (argsort : list R -> list nat) (values : list R)
    (sw : option (list R)) (values_sorted old_style : bool) : Prop :=
  values <> [] /\
  length (weights_of values sw) = length values /\
  positive (weights_of values sw) /\
  (if values_sorted then StronglySorted Rle values
   else is_argsort values (argsort values)) /\
  (old_style = true -> (2 <= length values)%nat).

(* The share of the total weight below the i-th value in the order [idx],
   counting half of its own weight. *)
Definition weight_share (w : list R) (idx : list nat) (i : nat) : R :=
  (rsum (map (fun j => nth j w 0) (firstn i idx)) + nth (nth i idx 0%nat) w 0 / 2)
  / rsum w.

(* Well-formed compressed sparse column layout (row indices may be unsorted
   and may repeat). *)
Definition csc_wf (sp : csc) : Prop :=
  length (s_data sp) = length (s_indices sp) /\
  length (s_indptr sp) = (s_nc sp + 1)%nat /\
  (forall i, In i (s_indices sp) -> (i < s_nr sp)%nat) /\
  (forall j, (j < s_nc sp)%nat ->
     (nth j (s_indptr sp) 0%nat <= nth (j + 1) (s_indptr sp) 0%nat
      <= length (s_data sp))%nat).

(* Matrix product and diagonal matrix. *)
Definition matmul (a b : dmat) : dmat :=
  mkmat (nr a) (nc b) (fun i j => sumn (nc a) (fun k => ent a i k * ent b k j)).
Definition diagm (d : list R) : dmat :=
  mkmat (length d) (length d) (fun i j => if (i =? j)%nat then nth i d 0 else 0).

(* Equality of matrices: same shape, same entries inside the shape. *)
Definition mat_eq (a b : dmat) : Prop :=
  nr a = nr b /\ nc a = nc b /\
  forall i j, (i < nr a)%nat -> (j < nc a)%nat -> ent a i j = ent b i j.

(* The normal density with mean mu and standard deviation sd. *)
Definition normal_density (x mu sd : R) : R :=
  / (sd * sqrt (2 * PI)) * exp (- (x - mu) ^ 2 / (2 * sd ^ 2)).
