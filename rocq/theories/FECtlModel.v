(* Model of the column layout of pytwoway/fecontrol.py (FEControlEstimator) and
   of VarCovariate and CovCovariate in pytwoway/Q/Q.py, over an arbitrary real
   field.

   Rows are numbered 0, 1, ..., nn - 1; a matrix is a function from a row number
   to the list of its entries, a vector is a list.  Dictionaries are association
   lists; setting a key that exists replaces its value.  Column names are taken
   from any type with decidable equality.  Ids are contiguous (bipartitepandas),
   stated as [cwf] where a theorem needs it. *)
Set Warnings "-notation-overridden,-ambiguous-paths".
From mathcomp Require Import all_ssreflect all_algebra.
From Verif Require Base.
From Verif Require Import FEModel.

Set Implicit Arguments.
Unset Strict Implicit.
Unset Printing Implicit Defensive.

Import GRing.Theory Num.Theory.
Local Open Scope ring_scope.

Section Dict.
Variables (N : eqType) (T : Type).
(* Python's d[k] = v and d[k]. *)
Fixpoint dset (d : seq (N * T)) (k : N) (v : T) : seq (N * T) :=
  match d with
  | [::] => [:: (k, v)]
  | (k', v') :: d' => if k' == k then (k', v) :: d' else (k', v') :: dset d' k v
  end.
Fixpoint dget (d : seq (N * T)) (k : N) : Base.res T :=
  match d with
  | [::] => Base.Err Base.KeyError
  | (k', v) :: d' => if k' == k then Base.Ok v else dget d' k
  end.
End Dict.

Section Ctl.
Variable F : realFieldType.
Variable N : eqType.
Variables npsi nalpha : N.                        (* the names 'psi' and 'alpha' *)

(* A categorical control: name, number of subcolumns, n_unique_ids, ids by row. *)
Record catcol := CatCol { cat_name : N; cat_sub : nat; cat_n : nat; cat_id : nat -> nat }.
(* A subcolumn of a continuous control: name and values by row. *)
Record ctscol := CtsCol { cts_name : N; cts_val : nat -> F }.

(* What fecontrol.py reads from adata: numbers of rows, firms and workers, the
   id columns j and i, the categorical controls (self.cat_cols) and, for every
   continuous control of self.cts_cols, its list of subcolumns. *)
Record cdata := CData {
  c_nn : nat; c_nf : nat; c_nw : nat;
  c_j : nat -> nat; c_i : nat -> nat;
  c_cats : seq catcol; c_cts : seq (seq ctscol);
  c_w : option (nat -> F)                        (* the weight column, if weighted *)
}.
Variable d : cdata.

(* fecontrol.py:476-488  n_dict. *)
Definition n_dict : seq (N * nat) :=
  let d0 := [:: (npsi, (c_nf d - 1)%N)] in
  let d1 := dset d0 nalpha (c_nw d) in
  let d2 := foldl (fun a c => dset a (cat_name c) (cat_n c - 1)%N) d1 (c_cats d) in
  foldl (fun a col => foldl (fun a' s => dset a' (cts_name s) 1%N) a col) d2 (c_cts d).

(* fecontrol.py:490  n_cov = np.sum(list(self.n_dict.values())). *)
Definition n_cov : nat := sumn (map snd n_dict).

(* fecontrol.py:499-504  a categorical column may have only one subcolumn. *)
Definition prep_vars : Base.res nat :=
  if has (fun c => (1 < cat_sub c)%N) (c_cats d) then Base.Err Base.NotImplementedError
  else Base.Ok n_cov.

(* One row of csc_matrix((ones, (idx, ids)), shape=(nn, n)). *)
Definition onehot (n k : nat) : seq F := [seq (k == c)%:R | c <- iota 0 n].

Definition dval (dd : seq (N * nat)) (k : N) : nat :=
  if dget dd k is Base.Ok v then v else 0%N.

(* fecontrol.py:525-559  A: firms without the first, workers, every categorical
   control without its first category, every continuous subcolumn. *)
Definition A_row (r : nat) : seq F :=
  let a0 := behead (onehot (c_nf d) (c_j d r)) ++ onehot (c_nw d) (c_i d r) in
  let a1 := foldl (fun a c =>
    a ++ behead (onehot (dval n_dict (cat_name c) + 1) (cat_id c r))) a0 (c_cats d) in
  foldl (fun a col => foldl (fun a' s => a' ++ [:: cts_val s r]) a col) a1 (c_cts d).

(* A @ v for one row. *)
Fixpoint dotp (a b : seq F) : F :=
  match a, b with x :: a', y :: b' => x * y + dotp a' b' | _, _ => 0 end.
Definition A_mul (v : seq F) (r : nat) : F := dotp (A_row r) v.

(* gh[a: b]. *)
Definition slice (T : Type) (a b : nat) (v : seq T) : seq T := take (b - a) (drop a v).

(* The entries of gamma_hat_dict: an array or, for a continuous column, a number. *)
Inductive gval := Arr of seq F | Num of F.

(* fecontrol.py:675-709 _unpack_gamma_hat: gamma_hat_dict, cov_indices and the
   running column number.  A continuous entry gh[n_cov] out of range would be an
   IndexError; theorems assume gh has n_cov entries. *)
Definition unpack_state := (seq (N * gval) * seq (N * (nat * nat)) * nat)%type.
Definition unpack_cat (gh : seq F) (st : unpack_state) (c : catcol) : unpack_state :=
  let '(g, ci, n) := st in
  let k := dval n_dict (cat_name c) in
  (dset g (cat_name c) (Arr (0 :: slice n (n + k) gh)),
   dset ci (cat_name c) (n, (n + k)%N), (n + k)%N).
Definition unpack_cts (gh : seq F) (st : unpack_state) (s : ctscol) : unpack_state :=
  let '(g, ci, n) := st in
  (dset g (cts_name s) (Num (nth 0 gh n)), dset ci (cts_name s) (n, n.+1), n.+1).
Definition unpack_gamma_hat (gh : seq F) : unpack_state :=
  let nf1 := (c_nf d - 1)%N in
  let g0 := dset [:: (npsi, Arr (0 :: slice 0 nf1 gh))] nalpha (Arr (slice nf1 (nf1 + c_nw d) gh)) in
  let i0 := dset [:: (npsi, (0%N, nf1))] nalpha (nf1, (nf1 + c_nw d)%N) in
  let st1 := foldl (unpack_cat gh) (g0, i0, (nf1 + c_nw d)%N) (c_cats d) in
  foldl (fun st col => foldl (unpack_cts gh) st col) st1 (c_cts d).
Definition gamma_dict (gh : seq F) := (unpack_gamma_hat gh).1.1.
(* cov_indices does not depend on the coefficients. *)
Definition cov_indices : seq (N * (nat * nat)) := (unpack_gamma_hat [::]).1.2.

(* arr[ids] and number * column, fecontrol.py:764-778. *)
Definition g_index (g : Base.res gval) (k : nat) : F :=
  match g with Base.Ok (Arr a) => nth 0 a k | _ => 0 end.
Definition g_scale (g : Base.res gval) (x : F) : F :=
  match g with Base.Ok (Num c) => c * x | _ => 0 end.

(* fecontrol.py:753-778 _attach_fe_estimates with attach_fe_estimates='all': the
   attached columns, in order, as (name of the covariate, values by row). *)
Definition attach_all (gh : seq F) : seq (N * (nat -> F)) :=
  let g := gamma_dict gh in
  [:: (npsi, fun r => g_index (dget g npsi) (c_j d r));
      (nalpha, fun r => g_index (dget g nalpha) (c_i d r))]
  ++ [seq (cat_name c, fun r => g_index (dget g (cat_name c)) (cat_id c r)) | c <- c_cats d]
  ++ flatten [seq [seq (cts_name s, fun r => g_scale (dget g (cts_name s)) (cts_val s r))
                  | s <- col] | col <- c_cts d].

(* Q/Q.py:345-566.  VarCovariate(names) and each side of CovCovariate: duplicate
   names are refused. *)
Definition covariate_init (names : seq N) : Base.res (seq N) :=
  if size names != size (undup names) then Base.Err Base.ValueError else Base.Ok names.

(* np.arange over the range cov_indices[name]. *)
Definition name_indices (k : N) : Base.res (seq nat) :=
  match dget cov_indices k with
  | Base.Ok (a, b) => Base.Ok (iota a (b - a))
  | Base.Err e => Base.Err e
  end.
(* A_indices: the ranges of all names, concatenated.  cov_names[0] of an empty
   list is an IndexError. *)
Fixpoint cat_indices (acc : seq nat) (names : seq N) : Base.res (seq nat) :=
  match names with
  | [::] => Base.Ok acc
  | k :: names' =>
      match name_indices k with
      | Base.Ok l => cat_indices (acc ++ l) names'
      | Base.Err e => Base.Err e
      end
  end.
Definition A_indices (names : seq N) : Base.res (seq nat) :=
  match names with
  | [::] => Base.Err Base.IndexError
  | k :: names' =>
      match name_indices k with
      | Base.Ok l => cat_indices l names'
      | Base.Err e => Base.Err e
      end
  end.
(* _get_Q, _get_Ql, _get_Qr: A[:, A_indices]. *)
Definition ctl_get_Q (names : seq N) : Base.res (nat -> seq F) :=
  match A_indices names with
  | Base.Ok l => Base.Ok (fun r => [seq nth 0 (A_row r) k | k <- l])
  | Base.Err e => Base.Err e
  end.

(* _Q_mult, _Ql_mult, _Qr_mult: the slices of Z of all names, concatenated; then
   Q_matrix @ sub_Z. *)
Definition name_slice (Z : seq F) (k : N) : Base.res (seq F) :=
  match dget cov_indices k with
  | Base.Ok (a, b) => Base.Ok (slice a b Z)
  | Base.Err e => Base.Err e
  end.
Fixpoint cat_slices (Z : seq F) (acc : seq F) (names : seq N) : Base.res (seq F) :=
  match names with
  | [::] => Base.Ok acc
  | k :: names' =>
      match name_slice Z k with
      | Base.Ok l => cat_slices Z (acc ++ l) names'
      | Base.Err e => Base.Err e
      end
  end.
Definition sub_Z (Z : seq F) (names : seq N) : Base.res (seq F) :=
  match names with
  | [::] => Base.Err Base.IndexError
  | k :: names' =>
      match name_slice Z k with
      | Base.Ok l => cat_slices Z l names'
      | Base.Err e => Base.Err e
      end
  end.
Definition ctl_Q_mult (names : seq N) (Q : nat -> seq F) (Z : seq F) : Base.res (nat -> F) :=
  match sub_Z Z names with
  | Base.Ok z => Base.Ok (fun r => dotp (Q r) z)
  | Base.Err e => Base.Err e
  end.

(* The whole option: construct, build Q, multiply by the coefficients
   (fecontrol.py:862-897, 918, 929). *)
Definition covariate_effect (names : seq N) (Z : seq F) : Base.res (nat -> F) :=
  match covariate_init names with
  | Base.Err e => Base.Err e
  | Base.Ok names =>
      match ctl_get_Q names with
      | Base.Err e => Base.Err e
      | Base.Ok Q => ctl_Q_mult names Q Z
      end
  end.

(* fecontrol.py:899-935 _estimate_fe, one variance and one covariance. *)
Variable sq : F -> F.                             (* np.sqrt *)
Definition c_wopt : wopt F (c_nn d) := omap (fun w (r : 'I_(c_nn d)) => w (val r)) (c_w d).
Definition as_col (f : nat -> F) : 'cV[F]_(c_nn d) := \col_r f (val r).
Definition ctl_var_fe (names : seq N) (gh : seq F) : Base.res F :=
  match covariate_effect names gh with
  | Base.Err e => Base.Err e
  | Base.Ok f => Base.Ok (weighted_var (as_col f) c_wopt)
  end.
Definition ctl_cov_fe (names1 names2 : seq N) (gh : seq F) : Base.res F :=
  match covariate_effect names1 gh, covariate_effect names2 gh with
  | Base.Ok f1, Base.Ok f2 => Base.Ok (weighted_cov sq (as_col f1) (as_col f2) c_wopt c_wopt)
  | Base.Err e, _ => Base.Err e
  | _, Base.Err e => Base.Err e
  end.

(* fecontrol.py:789-800  the clustering columns, 'i' and 'j' renamed; None gives
   the default. *)
Definition se_clusters (ni nj : N) (clusters : option (seq N)) : seq N :=
  match clusters with
  | None => [:: npsi; nalpha]
  | Some l => [seq if k == ni then nalpha else if k == nj then npsi else k | k <- l]
  end.

(* fecontrol.py:821-831  S = A[:, S_indices] @ A[:, S_indices].T with every
   non-zero entry set to 1.  (The code writes over the stored entries of a sparse
   product; for rows of zeros and ones these are the non-zero entries.) *)
Definition S_entry (idx : seq nat) (r s : nat) : F :=
  if \sum_(k <- idx) nth 0 (A_row r) k * nth 0 (A_row s) k == 0 then 0 else 1.

(* fecontrol.py:833-842  the number under the square root for one column, where
   [E] are the residuals and [u] is A @ (A'DpA)^-1 @ v for the column's unit
   vector v. *)
Definition clustered_var (clusters : seq N) (E u : nat -> F) : Base.res F :=
  match A_indices clusters with
  | Base.Err e => Base.Err e
  | Base.Ok idx =>
      let e r := E r * u r in
      Base.Ok (\sum_(0 <= r < c_nn d) \sum_(0 <= s < c_nn d) e r * S_entry idx r s * e s)
  end.

End Ctl.
