(* Model of compute_connectedness_measure, pytwoway/blm.py:2213-2244, which is also
   pytwoway/blm_dynamic.py:3842-3873.

   np.linalg.eig is a parameter. *)
From Verif Require Import Base BLMModel BLMRealModel BLMRunModel.
Local Open Scope res_scope.
Local Open Scope R_scope.

(* np.sum(A, axis=1), blm.py:2230 *)
Definition degree (nk : nat) (W : mat) (a : nat) : R := sumn nk (fun b => W a b).

(* L = np.eye(nk) - D @ A @ D with D = np.diag(np.sum(A, axis=1) ** (-0.5)),
   blm.py:2230-2231 *)
Definition laplacian (nk : nat) (W : mat) : mat := fun a b =>
  (if Nat.eqb a b then 1 else 0) - / sqrt (degree nk W a) * W a b * / sqrt (degree nk W b).

(* What is stored in self.connectedness. *)
Inductive stored : Type := SVec (v : list R) | SVal (c : R).

Section Conn.
(* The eigenvalues np.linalg.eig returns for a matrix with n rows. *)
Variable eig : nat -> mat -> res (list R).

(* EV[kk], blm.py:2226-2237.  0 ** (-0.5) is inf, inf * 0 is nan, and eig refuses
   matrices with nan: LinAlgError.  (So it does if all weights of the worker type are
   0, where A / A.sum() is nan.) *)
Definition type_measure (nk : nat) (NN pk1 : mat) (l : nat) : res R :=
  let W := graph_weights nk NN pk1 l in
  if forallb (fun a => if Rlt_dec 0 (degree nk W a) then true else false) (range nk)
  then evals <- eig nk (laplacian nk W) ;;
       match nth_error (sorted_desc Ropp evals) 1 with
       | Some v => Ok v
       | None => Err IndexError
       end
  else Err LinAlgError.

(* np.abs(EV).min() *)
Definition abs_min (EV : list R) : res R :=
  match EV with
  | [] => Err ValueError
  | v :: r => Ok (fold_left Rmin (map Rabs r) (Rabs v))
  end.

Definition compute_connectedness (all : bool) (nl nk : nat) (NN pk1 : mat) : res stored :=
  EV <- traverse (type_measure nk NN pk1) (range nl) ;;
  let connectedness := if all then Some (SVec EV) else None in
  m <- abs_min EV ;;
  let connectedness := Some (SVal m) in
  match connectedness with Some c => Ok c | None => Err AttributeError end.
End Conn.
