(* Model of the parameters, the ordering of types and the normalisation of
   pytwoway/blm.py (class BLMModel).  An array is a function of its indices; it
   is read only inside its shape. *)
From Verif Require Import Base UtilModel.
Local Open Scope res_scope.
Local Open Scope R_scope.

Definition mat : Type := nat -> nat -> R.

(* params['primary_period'], blm.py:55-58 *)
Inductive period : Type := PFirst | PSecond | PAll.

(* A categorical control as configured: worker_type_interaction, and whether a
   Stationary constraint is among its cons_a (blm.py:993-1000). *)
Record catcfg : Type := mkcat { cc_inter : bool; cc_stat : bool }.

(* The array of a categorical control: shape (nl, n) if the column interacts
   with worker types, (n,) otherwise (blm.py:624-645). *)
Inductive catpar : Type :=
| Inter (m : mat)
| Shared (v : nat -> R).

(* The array of a continuous control: shape (nl,) or one number
   (blm.py:652-672). *)
Inductive ctspar : Type :=
| XInter (v : nat -> R)
| XShared (c : R).

(* The parameters of a model.  Dictionaries over cat_cols and cts_cols are
   lists in the order of these lists.  NNm and NNs are the counts. *)
Record par : Type := mkpar {
  A1 : mat; A2 : mat; S1 : mat; S2 : mat;
  A1_cat : list catpar; A2_cat : list catpar;
  S1_cat : list catpar; S2_cat : list catpar;
  A1_cts : list ctspar; A2_cts : list ctspar;
  S1_cts : list ctspar; S2_cts : list ctspar;
  pk1 : mat; pk0 : mat;
  NNm : mat; NNs : nat -> R
}.

(* np.mean(A, axis=1) and np.mean(A, axis=0) of an (nl, nk) array *)
Definition row_means (nl nk : nat) (A : mat) : list R :=
  map (fun l => sumn nk (fun k => A l k) / INR nk) (range nl).
Definition col_means (nl nk : nat) (A : mat) : list R :=
  map (fun k => sumn nl (fun l => A l k) / INR nl) (range nk).

(* A_mean, blm.py:707-713 and 885-891 *)
Definition A_mean (pp : period) (A1 A2 : mat) : mat :=
  match pp with
  | PFirst => A1
  | PSecond => A2
  | PAll => fun l k => (A1 l k + A2 l k) / 2
  end.

(* A[o, :], A[:, o] and v[o] for an index array o *)
Definition take_rows (o : list nat) (A : mat) : mat := fun i j => A (nth i o 0%nat) j.
Definition take_cols (o : list nat) (A : mat) : mat := fun i j => A i (nth j o 0%nat).
Definition take_vec (o : list nat) (v : nat -> R) : nat -> R := fun i => v (nth i o 0%nat).

(* control_dict[col] = control_array[worker_type_order, :] for interacting
   columns, blm.py:914-924 *)
Definition cat_take (o : list nat) (c : catpar) : catpar :=
  match c with Inter m => Inter (take_rows o m) | Shared v => Shared v end.
Definition cts_take (o : list nat) (c : ctspar) : ctspar :=
  match c with XInter v => XInter (take_vec o v) | XShared a => XShared a end.

(* np.tile(l, n) and np.repeat(l, n) *)
Definition np_tile (l : list nat) (n : nat) : list nat := flat_map (fun _ => l) (range n).
Definition np_repeat (l : list nat) (n : nat) : list nat :=
  flat_map (fun x => map (fun _ => x) (range n)) l.

(* np.any(order != np.arange(n)) *)
Definition out_of_order (o : list nat) (n : nat) : bool :=
  if list_eq_dec Nat.eq_dec o (range n) then false else true.

Section Sort.
(* np.argsort *)
Variable argsort : list R -> list nat.

(* _min_firm_type, blm.py:694-716 *)
Definition min_firm_type (pp : period) (nl nk : nat) (A1 A2 : mat) : nat :=
  nth 0 (argsort (col_means nl nk (A_mean pp A1 A2))) 0%nat.

(* blm.py:902-924 *)
Definition sort_workers (o : list nat) (p : par) : par :=
  mkpar (take_rows o (A1 p)) (take_rows o (A2 p)) (take_rows o (S1 p)) (take_rows o (S2 p))
    (map (cat_take o) (A1_cat p)) (map (cat_take o) (A2_cat p))
    (map (cat_take o) (S1_cat p)) (map (cat_take o) (S2_cat p))
    (map (cts_take o) (A1_cts p)) (map (cts_take o) (A2_cts p))
    (map (cts_take o) (S1_cts p)) (map (cts_take o) (S2_cts p))
    (take_cols o (pk1 p)) (take_cols o (pk0 p)) (NNm p) (NNs p).

(* blm.py:943-949: reordering within groups, then between groups *)
Definition pk1_order_1 (o : list nat) (nk : nat) : list nat :=
  map2 (fun a b => a + nk * b)%nat (np_tile o nk) (np_repeat (range nk) nk).
Definition pk1_order_2 (o : list nat) (nk : nat) : list nat :=
  map2 (fun a b => nk * a + b)%nat (np_repeat o nk) (np_tile (range nk) nk).

(* blm.py:931-956 *)
Definition sort_firms (nk : nat) (o : list nat) (p : par) : par :=
  mkpar (take_cols o (A1 p)) (take_cols o (A2 p)) (take_cols o (S1 p)) (take_cols o (S2 p))
    (A1_cat p) (A2_cat p) (S1_cat p) (S2_cat p)
    (A1_cts p) (A2_cts p) (S1_cts p) (S2_cts p)
    (take_rows (pk1_order_2 o nk) (take_rows (pk1_order_1 o nk) (pk1 p)))
    (take_rows o (pk0 p))
    (take_cols o (take_rows o (NNm p))) (take_vec o (NNs p)).

(* _sort_parameters, blm.py:852-963, with every argument given (an argument
   that is None is neither sorted nor returned).  The deep copy at the start
   makes the function pure. *)
Definition sort_parameters (pp : period) (nl nk : nat) (sort_firm_types reverse : bool)
    (p : par) : par :=
  let Am := A_mean pp (A1 p) (A2 p) in
  let worker_type_order := argsort (row_means nl nk Am) in
  let worker_type_order := if reverse then rev worker_type_order else worker_type_order in
  let p := if out_of_order worker_type_order nl
           then sort_workers worker_type_order p else p in
  if sort_firm_types
  then let firm_type_order := argsort (col_means nl nk Am) in
       let firm_type_order := if reverse then rev firm_type_order else firm_type_order in
       if out_of_order firm_type_order nk then sort_firms nk firm_type_order p else p
  else p.

(* ------------------------------------------------------------------ *)
(* The search for a column to normalise against, blm.py:986-1016: the last
   column seen of each kind; the loop stops at the first interacting column
   without Stationary. *)
Record flags : Type := mkflags {
  tv_nwi : option nat; tnv_nwi : option nat; tv_wi : option nat; tnv_wi : option nat }.

Fixpoint find_flags (cols : list catcfg) (c : nat) (f : flags) : flags :=
  match cols with
  | [] => f
  | col :: cols' =>
      if cc_inter col
      then if cc_stat col
           then find_flags cols' (S c) (mkflags (tv_nwi f) (tnv_nwi f) (tv_wi f) (Some c))
           else mkflags (tv_nwi f) (tnv_nwi f) (Some c) (tnv_wi f)
      else if cc_stat col
           then find_flags cols' (S c) (mkflags (tv_nwi f) (Some c) (tv_wi f) (tnv_wi f))
           else find_flags cols' (S c) (mkflags (Some c) (tnv_nwi f) (tv_wi f) (tnv_wi f))
  end.

(* A[l, :] += v and A += v *)
Definition row_add (l : nat) (v : R) (A : mat) : mat :=
  fun i j => if (i =? l)%nat then A i j + v else A i j.
Definition mat_add (v : R) (A : mat) : mat := fun i j => A i j + v.

(* A_cat[col][l, :] += v (the array of an interacting column has two axes) and
   A_cat[col] += v *)
Definition cat_row_add (l : nat) (v : R) (c : catpar) : catpar :=
  match c with Inter m => Inter (row_add l v m) | Shared u => Shared u end.
Definition cat_add (v : R) (c : catpar) : catpar :=
  match c with Inter m => Inter (mat_add v m) | Shared u => Shared (fun n => u n + v) end.

(* d[col] = f(d[col]) *)
Fixpoint upd {A} (c : nat) (f : A -> A) (l : list A) : list A :=
  match l, c with
  | [], _ => []
  | x :: l', O => f x :: l'
  | x :: l', S c' => x :: upd c' f l'
  end.

(* The arrays _normalize works on. *)
Definition nstate : Type := (mat * mat * list catpar * list catpar)%type.

(* Mean of the primary period's arrays at one cell, blm.py:1050-1053 and
   1079-1082 *)
Definition primary_at (pp : period) (A1 A2 : mat) (l k : nat) : R :=
  match pp with
  | PFirst => A1 l k / 1
  | PSecond => A2 l k / 1
  | PAll => (A1 l k + A2 l k) / 2
  end.

(* One period of the step on the secondary period(s), blm.py:1061-1064 *)
Definition secondary_step (c k0 : nat) (A : mat) (Ac : list catpar) : mat * list catpar :=
  let adj := A 0%nat k0 in (mat_add (- adj) A, upd c (cat_add adj) Ac).

(* _normalize, blm.py:965-1089.  The dictionaries are copied at the start. *)
Definition normalize (pp : period) (nl nk : nat) (cols : list catcfg) (st : nstate) : nstate :=
  let '(A1, A2, A1c, A2c) := st in
  match cols with
  | [] => st
  | _ =>
    let k0 := min_firm_type pp nl nk A1 A2 in
    let f := find_flags cols 0 (mkflags None None None None) in
    match tv_wi f with
    | Some c =>                                     (* blm.py:1019-1028 *)
        fold_left (fun (st : nstate) l =>
          let '(A1, A2, A1c, A2c) := st in
          let adj1 := A1 l k0 in
          let A1 := row_add l (- adj1) A1 in
          let A1c := upd c (cat_row_add l adj1) A1c in
          let adj2 := A2 l k0 in
          let A2 := row_add l (- adj2) A2 in
          let A2c := upd c (cat_row_add l adj2) A2c in
          (A1, A2, A1c, A2c)) (range nl) st
    | None =>
      match tnv_wi f with
      | Some c =>                                   (* blm.py:1046-1064 *)
          let '(A1, A2, A1c, A2c) :=
            fold_left (fun (st : nstate) l =>
              let '(A1, A2, A1c, A2c) := st in
              let adj := primary_at pp A1 A2 l k0 in
              (row_add l (- adj) A1, row_add l (- adj) A2,
               upd c (cat_row_add l adj) A1c, upd c (cat_row_add l adj) A2c)) (range nl) st in
          match tv_nwi f with
          | Some d =>
              let '(A1, A1c) := match pp with
                                | PFirst => (A1, A1c)
                                | PSecond | PAll => secondary_step d k0 A1 A1c
                                end in
              let '(A2, A2c) := match pp with
                                | PSecond => (A2, A2c)
                                | PFirst | PAll => secondary_step d k0 A2 A2c
                                end in
              (A1, A2, A1c, A2c)
          | None => (A1, A2, A1c, A2c)
          end
      | None =>
        match tv_nwi f with
        | Some d =>                                 (* blm.py:1066-1075 *)
            let adj1 := A1 0%nat k0 in
            let adj2 := A2 0%nat k0 in
            (mat_add (- adj1) A1, mat_add (- adj2) A2,
             upd d (cat_add adj1) A1c, upd d (cat_add adj2) A2c)
        | None =>
          match tnv_nwi f with
          | Some d =>                               (* blm.py:1076-1087 *)
              let adj := primary_at pp A1 A2 0%nat k0 in
              (mat_add (- adj) A1, mat_add (- adj) A2,
               upd d (cat_add adj) A1c, upd d (cat_add adj) A2c)
          | None => st
          end
        end
      end
    end
  end.
End Sort.
