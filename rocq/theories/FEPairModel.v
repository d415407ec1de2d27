(* Model of CovPsiPrevPsiNext, pytwoway/Q/Q.py:226-339: the covariance of the
   firm effects of consecutive observations. *)
Set Warnings "-notation-overridden,-ambiguous-paths".
From mathcomp Require Import all_ssreflect all_algebra.
From Verif Require Base.
From Verif Require Import FEModel.

Set Implicit Arguments.
Unset Strict Implicit.
Unset Printing Implicit Defensive.

Import GRing.Theory Num.Theory.
Local Open Scope ring_scope.

(* bipartitepandas.util.fast_shift(arr, -1, fill) and fast_shift(arr, 1, fill):
   the array moved by one place, the free place filled.  bipartitepandas is not
   part of /repo; this is its documented meaning. *)
Definition shift_next (T : Type) (a : seq T) (fill : T) : seq T :=
  if a is _ :: a' then rcons a' fill else [::].
Definition shift_prev (T : Type) (a : seq T) (fill : T) : seq T :=
  if a is x :: a' then fill :: belast x a' else [::].

Section Pairs.
Variable F : realFieldType.
Variable sq : F -> F.                                     (* np.sqrt *)
Variables nn nf1 nw : nat.
Variable d : frame F nn nf1 nw.

(* Q/Q.py:260, 295  i_col = adata.loc[:, 'i'].to_numpy(). *)
Definition i_col : seq int := [seq (val (fi d r))%:Z | r <- enum 'I_nn].

(* Q/Q.py:261-263  keep_rows = (i_col == i_next);
   Q/Q.py:296-298  keep_rows = (i_col == i_prev). *)
Definition keep_l : seq bool :=
  [seq x.1 == x.2 | x <- zip i_col (shift_next i_col (- 2%:Z))].
Definition keep_r : seq bool :=
  [seq x.1 == x.2 | x <- zip i_col (shift_prev i_col (- 2%:Z))].

(* The rows adata.loc[keep_rows] and Dp[keep_rows]. *)
Definition rows_l : seq 'I_nn := mask keep_l (enum 'I_nn).
Definition rows_r : seq 'I_nn := mask keep_r (enum 'I_nn).

(* Q/Q.py:264-273, 299-308: indicator matrix of the firm of every kept row with
   the column of firm 0 dropped, and the kept weights. *)
Definition sel_mx q (t : q.-tuple 'I_nn) : 'M[F]_(q, nf1) :=
  \matrix_(k, c) (fj d (tnth t k) == lift ord0 c)%:R.
Definition sel_w q (t : q.-tuple 'I_nn) : wopt F q :=
  omap (fun w (k : 'I_q) => w (tnth t k)) (fw d).

(* The right selection, read as having as many rows as the left one. *)
Definition rows_r_as (e : size rows_r = size rows_l) : (size rows_l).-tuple 'I_nn :=
  tcast e (in_tuple rows_r).

Definition prev_half : half F nf1 nw (size rows_l) :=
  HPsi _ (sel_mx (in_tuple rows_l)).
Definition next_half (e : size rows_r = size rows_l) : half F nf1 nw (size rows_l) :=
  HPsi _ (sel_mx (rows_r_as e)).
Definition prev_w : wopt F (size rows_l) := sel_w (in_tuple rows_l).
Definition next_w (e : size rows_r = size rows_l) : wopt F (size rows_l) :=
  sel_w (rows_r_as e).

(* fe.py:685-693 with this option: the plug-in component.  NumPy raises
   ValueError when the two vectors have different lengths. *)
Definition prev_next_fe (pa : 'cV[F]_nf1 * 'cV[F]_nw) : Base.res F :=
  match eqVneq (size rows_r) (size rows_l) with
  | EqNotNeq e => Base.Ok (cov_fe sq prev_half (next_half e) prev_w (next_w e) pa)
  | NeqNotEq _ => Base.Err Base.ValueError
  end.

End Pairs.
