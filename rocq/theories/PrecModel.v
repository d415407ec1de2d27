(* Model of pytwoway/preconditioners/jacobi.py and vcycle.py, over an arbitrary real
   field, and of their use in fe.py:519-530 and fecontrol.py:608-619. *)
Set Warnings "-notation-overridden,-ambiguous-paths".
From mathcomp Require Import all_ssreflect all_algebra.
From Verif Require Base.

Set Implicit Arguments.
Unset Strict Implicit.
Unset Printing Implicit Defensive.

Import GRing.Theory Num.Theory.
Local Open Scope ring_scope.

Section Prec.
Variable F : realFieldType.

(* jacobi.py:27-32.  isclose(x, 0) is |x| <= atol, with atol = 1e-8. *)
Definition inverse_diagonal (atol : F) n (A : 'M[F]_n) (i : 'I_n) : F :=
  if `|A i i| <= atol then 1 else (A i i)^-1.
(* jacobi.py:34-35 precondition. *)
Definition jacobi (atol : F) n (A : 'M[F]_n) (x : 'cV[F]_n) : 'cV[F]_n :=
  \col_i (x i 0 * inverse_diagonal atol A i).

(* vcycle.py:11 weights. *)
Definition weight9 (k : nat) : F := (nth 0%N [:: 1; 2; 1; 2; 4; 2; 1; 2; 1]%N k)%:R / 16%:R.
(* vcycle.py:5-28 make_P: downsample; n = h * w.  Column j is the cell x = j %% w,
   y = j %/ w, row i the coarse cell x2 = i %% w2, y2 = i %/ w2; entry k of the nine is
   at x = 2 * x2 + k %% 3 - 1 and y = 2 * y2 + k %/ 3 - 1.  (The test y <= h of line 19
   is always true.) *)
Definition downsample h w n : 'M[F]_((h %/ 2) * (w %/ 2), n) :=
  \matrix_(i, j) \sum_(k < 9)
    (if ((j %% w).+1 == 2 * (i %% (w %/ 2)) + k %% 3)%N
        && ((j %/ w).+1 == 2 * (i %/ (w %/ 2)) + k %/ 3)%N then weight9 k else 0).
Definition upsample h w n : 'M[F]_(n, (h %/ 2) * (w %/ 2)) := (downsample h w n)^T.

(* vcycle.py:31-42 jacobi_step; None is the Python None. *)
Section Step.
Variables (om : F) (n : nat) (A : 'M[F]_n) (b : 'cV[F]_n).
Definition sweep (x : 'cV[F]_n) : 'cV[F]_n := x + \col_i (om * (b - A *m x) i 0 / A i i).
Definition jacobi_step (x : option 'cV[F]_n) (k : nat) : 'cV[F]_n :=
  match x with
  | Some x => iter k sweep x
  | None => if k is k'.+1 then iter k' sweep (\col_i (om * b i 0 / A i i)) else 0
  end.
End Step.

(* vcycle.py:45-99 _vcycle_step; spsolve is a parameter.  A division by a zero on the
   diagonal gives 0 here and infinity in numpy.  The cache, which only keeps
   make_P and the coarse matrix of a shape, is left out.  The recursion ends since the
   shape is halved; here it has fuel. *)
Variable spsolve : forall n, 'M[F]_n -> 'cV[F]_n -> Base.res 'cV[F]_n.
Variables (npre npost : nat) (om : F) (direct : nat).
Fixpoint vcycle_step (fuel h w n : nat) (A : 'M[F]_n) (b : 'cV[F]_n) : Base.res 'cV[F]_n :=
  match fuel with
  | O => Base.Err Base.OutOfFuel
  | fuel'.+1 =>
      if (h * w <= direct)%N then spsolve A b else
      let down := downsample h w n in
      let up := upsample h w n in
      let coarse_A := down *m A *m up in
      let x := jacobi_step om A b None npre in
      let residual := b - A *m x in
      Base.bind (vcycle_step fuel' (h %/ 2) (w %/ 2) coarse_A (down *m residual))
        (fun coarse_x => Base.Ok (jacobi_step om A b (Some (x + up *m coarse_x)) npost))
  end.
End Prec.

(* fe.py:521-527 and fecontrol.py:610-616: shape (n, 1) and direct_solve_size 0. *)
Definition fe_vcycle (F : realFieldType) spsolve npre npost (om : F) fuel n (A : 'M[F]_n) (r : 'cV[F]_n) :=
  vcycle_step spsolve npre npost om 0 fuel n 1 A r.
