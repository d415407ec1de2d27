(* Model of pytwoway/sorkin.py: the fixed-point iteration of SorkinEstimator.fit
   and the correlation of SorkinAttrition._attrition_interior. *)
From Verif Require Import Base.
Local Open Scope res_scope.
Local Open Scope R_scope.

(* A row of the event study: adata.get_worker_m() of the row, j1 and j2. *)
Record move : Type := mkmove { mv_m : bool; mv_from : nat; mv_to : nat }.

(* adata.loc[adata.get_worker_m(), :], sorkin.py:36 *)
Definition mover_rows (adata : list move) : list move := filter mv_m adata.

(* The entry (k, j) of M0, sorkin.py:36-39: the number of rows with j1 = j and
   j2 = k; groupby and count give one stored entry per pair that occurs. *)
Definition M0 (adata : list move) (k j : nat) : R :=
  INR (length (filter (fun r => (mv_from r =? j) && (mv_to r =? k))%nat (mover_rows adata))).

(* csc_matrix((M0, (row, col))) without a shape: one more than the largest row
   and column number.  Without any row scipy raises ValueError. *)
Definition bound (ids : list nat) : nat := fold_right (fun k m => Nat.max (S k) m) 0%nat ids.
Definition n_rows (adata : list move) : nat := bound (map mv_to (mover_rows adata)).
Definition n_cols (adata : list move) : nat := bound (map mv_from (mover_rows adata)).

(* M0.sum(axis=0), sorkin.py:43 *)
Definition S0 (adata : list move) (k : nat) : R := sumn (n_rows adata) (fun i => M0 adata i k).

(* DxSP(1 / S0, M0), sorkin.py:47 *)
Definition lhs (adata : list move) (k j : nat) : R := 1 / S0 adata k * M0 adata k j.

(* 1 / 0 is inf; it matters only for a row of M0 with stored entries *)
Definition has_inf (adata : list move) : bool :=
  existsb (fun r => if Req_EM_T (S0 adata (mv_to r)) 0 then true else false) (mover_rows adata).

(* One step, sorkin.py:54-55 *)
Definition next_guess (adata : list move) (nf : nat) (v : nat -> R) : nat -> R :=
  let g := fun k => Rabs (sumn nf (fun j => lhs adata k j * v j)) in
  fun k => g k / sumn nf g.

(* np.max(np.abs((new - prev) / prev)) <= threshold, sorkin.py:56: the maximum is
   at most the threshold when all entries are.  An entry of prev that is 0 gives
   nan or inf, and the comparison is False. *)
Definition small_change (nf : nat) (th : R) (new prev : nat -> R) : bool :=
  forallb (fun k => if Req_EM_T (prev k) 0 then false
                    else if Rle_dec (Rabs ((new k - prev k) / prev k)) th then true else false)
          (range nf).

(* The loop, sorkin.py:52-58.  new_guess is unbound if it never runs. *)
Fixpoint iterate (n : nat) (adata : list move) (nf : nat) (th : R)
    (new : option (nat -> R)) (prev : nat -> R) : res (nat -> R) :=
  match n with
  | O => match new with Some g => Ok g | None => Err UnboundLocalError end
  | S n' =>
      let g := next_guess adata nf prev in
      if small_change nf th g prev then Ok g else iterate n' adata nf th (Some g) g
  end.

(* np.log of an entry; log(0) is -inf, written None *)
Definition np_log (x : R) : option R := if Req_EM_T x 0 then None else Some (ln x).

(* SorkinEstimator.fit, sorkin.py:25-61: V_EE; None stands for an entry that is
   not finite.  With an infinite entry in lhs all entries are inf / inf or
   log(x / inf).  A matrix with more rows than columns makes np.take of DxSP
   raise IndexError, one with fewer makes lhs @ prev_guess raise ValueError. *)
Definition fit (adata : list move) (max_iters : nat) (th : R) : res (list (option R)) :=
  match mover_rows adata with
  | [] => Err ValueError
  | _ =>
    let nf := n_rows adata in
    if (n_cols adata <? nf)%nat then Err IndexError
    else if (nf <? n_cols adata)%nat
    then match max_iters with O => Err UnboundLocalError | _ => Err ValueError end
    else
      g <- iterate max_iters adata nf th None (fun _ => 1 / INR nf) ;;
      Ok (map (fun k => if has_inf adata then None else np_log (g k)) (range nf))
  end.

(* sorkin.py:132  np.concatenate([fe_estimator.psi_hat, np.array([0])]), where
   psi_hat has the effects of the firms 1, 2, ... (fe.py:443-447 drops firm 0) *)
Definition concat_psi (psi_hat : list R) : list R := psi_hat ++ [0].

(* np.corrcoef(a, b)[0, 1] of two vectors of equal length *)
Definition lmean (a : list R) : R := rsum a / INR (length a).
Definition np_cov (a b : list R) : R :=
  rsum (map2 (fun x y => (x - lmean a) * (y - lmean b)) a b) / (INR (length a) - 1).
Definition corrcoef (a b : list R) : R := np_cov a b / sqrt (np_cov a a * np_cov b b).

(* sorkin.py:132 and 143 *)
Definition attrition_corr (psi_hat V_EE : list R) : R := corrcoef V_EE (concat_psi psi_hat).
