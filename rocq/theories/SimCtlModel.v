(* Model of control variables in pytwoway/simblm.py: their part of _gen_params,
   _simulate_movers and _simulate_stayers, on top of SimModel.v.

   Columns are numbered in the order of cat_cols and cts_cols; the dictionaries of the
   code are keyed by name, so the order in which they are filled does not matter. *)
From Verif Require Import Base UtilModel BLMModel BLMEMModel SimModel.
Local Open Scope res_scope.
Local Open Scope R_scope.

(* controls_dict[col], simblm.py:121-226: the number of categories (continuous columns
   have none), worker_type_interaction, stationary_A, stationary_S and
   stationary_firm_type_variation. *)
Record scol : Type := mkscol { sc_n : nat; sc_wi : bool; sc_A : bool; sc_S : bool; sc_var : bool }.

(* What the generator returns for a column in _gen_params: arrays of shape (nl, n) for
   categorical and (nl,) for continuous columns.  Of an array of shape n (or 1) the rest
   is not read. *)
Record four (T : Type) : Type := mkfour { fA1 : T; fA2 : T; fS1 : T; fS2 : T }.
Arguments mkfour {T}. Arguments fA1 {T}. Arguments fA2 {T}. Arguments fS1 {T}. Arguments fS2 {T}.

Definition cat_arr (c : scol) (m : mat) : catpar := if sc_wi c then Inter m else Shared (m 0%nat).
Definition cts_arr (c : scol) (v : nat -> R) : ctspar := if sc_wi c then XInter v else XShared (v 0%nat).

(* np.mean(a[:n]) *)
Definition mean_of (n : nat) (v : nat -> R) : R := sumn n v / INR n.

(* simblm.py:397-400.  For columns that interact the means have shape (nl,) and are lined
   up with the categories, as in line 442.  The periods have the same shape, so the last
   case does not arise. *)
Definition cat_variation (nl : nat) (c : scol) (a1 a2 : catpar) : res catpar :=
  match a1, a2 with
  | Inter m1, Inter m2 => m <- firm_type_variation nl (sc_n c) m1 m2 ;; Ok (Inter m)
  | Shared v1, Shared v2 => Ok (Shared (fun i => mean_of (sc_n c) v2 + v1 i - mean_of (sc_n c) v1))
  | _, _ => Err ValueError
  end.

(* simblm.py:364-400, one categorical column *)
Definition gen_cat (nl : nat) (c : scol) (d : four mat) : res (four catpar) :=
  let a1 := cat_arr c (fA1 d) in
  let a2 := if sc_A c then a1 else cat_arr c (fA2 d) in
  let s1 := cat_arr c (fS1 d) in
  let s2 := if sc_S c then s1 else cat_arr c (fS2 d) in
  a2 <- (if sc_var c then cat_variation nl c a1 a2 else Ok a2) ;;
  Ok (mkfour a1 a2 s1 s2).

(* simblm.py:430; np.mean of an array of shape (1,) is its entry *)
Definition cts_variation (nl : nat) (a1 a2 : ctspar) : ctspar :=
  match a1, a2 with
  | XInter v1, XInter v2 => XInter (fun l => mean_of nl v2 + v1 l - mean_of nl v1)
  | XShared x1, XShared x2 => XShared (x2 + x1 - x1)
  | _, _ => a2
  end.

(* simblm.py:401-430, one continuous column *)
Definition gen_cts (nl : nat) (c : scol) (d : four (nat -> R)) : four ctspar :=
  let a1 := cts_arr c (fA1 d) in
  let a2 := if sc_A c then a1 else cts_arr c (fA2 d) in
  let s1 := cts_arr c (fS1 d) in
  let s2 := if sc_S c then s1 else cts_arr c (fS2 d) in
  mkfour a1 (if sc_var c then cts_variation nl a1 a2 else a2) s1 s2.

(* The options of _gen_params for firm and worker types. *)
Record topts : Type := mktopts { t_strict : bool; t_A : bool; t_S : bool; t_var : bool }.

Section Gen.
Variable argsort : list R -> list nat.
Variable sort : list R -> list R.
Variables nl nk : nat.
Variables cats ctss : list scol.

(* _gen_params, simblm.py:319-444.  [a] are the arrays of firm and worker types as drawn
   (lines 347-362, see SimModel.drawn), [dc] and [dx] those of the columns. *)
Definition gen_params (o : topts) (a : four mat) (q1 q0 : mat) (dc : nat -> four mat)
    (dx : nat -> four (nat -> R)) : res par :=
  cs <- traverse (fun jc => gen_cat nl (snd jc) (dc (fst jc))) (enumerate cats) ;;
  let xs := map (fun jc => gen_cts nl (snd jc) (dx (fst jc))) (enumerate ctss) in
  ' (a1, a2, s1, s2) <- finish argsort sort nl nk (t_strict o) (t_A o) (t_S o) (t_var o)
                          (fA1 a) (fA2 a) (fS1 a) (fS2 a) ;;
  Ok (mkpar a1 a2 s1 s2 (map fA1 cs) (map fA2 cs) (map fS1 cs) (map fS2 cs)
        (map fA1 xs) (map fA2 xs) (map fS1 xs) (map fS2 xs) q1 q0 (fun _ _ => 0) (fun _ => 0)).
End Gen.

(* What the generator returns for control variables: for each row and column the category
   or value in each period, and for each row the normal draws of lines 557-558 (676-677). *)
Record cdraws : Type := mkcdraws {
  d_c1 : nat -> nat -> nat; d_c2 : nat -> nat -> nat;
  d_x1 : nat -> nat -> R; d_x2 : nat -> nat -> R;
  d_z1 : nat -> R; d_z2 : nat -> R
}.

(* A row of the result with the columns of the control variables. *)
Record crow : Type := mkcrow { k_o : orow; k_c1 : list nat; k_c2 : list nat; k_x1 : list R; k_x2 : list R }.

(* A1_sum and S1_sum_sq of one row and one period, simblm.py:524-555 (643-674) *)
Definition ctl_sum (l : nat) (Ac : list catpar) (Ax : list ctspar) (c : list nat) (x : list R) : R :=
  let s := fold_left (fun s pn => match fst pn with
                                  | Inter m => s + m l (snd pn)
                                  | Shared v => s + v (snd pn)
                                  end) (combine Ac c) 0 in
  fold_left (fun s px => match fst px with
                         | XInter v => s + v l * snd px
                         | XShared a => s + a * snd px
                         end) (combine Ax x) s.
Definition ctl_sumsq (l : nat) (Sc : list catpar) (Sx : list ctspar) (c : list nat) : R :=
  let s := fold_left (fun s pn => match fst pn with
                                  | Inter m => s + m l (snd pn) ^ 2
                                  | Shared v => s + v (snd pn) ^ 2
                                  end) (combine Sc c) 0 in
  fold_left (fun s p => match p with
                        | XInter v => s + v l ^ 2
                        | XShared a => s + a ^ 2
                        end) Sx s.

Section Sim.
Variables nk : nat.
Variables cm : nat -> nat -> nat.
Variables cs : nat -> nat.
Variable p : par.
Variables ncat ncts : nat.                               (* len(cat_cols), len(cts_cols) *)

(* simblm.py:511-567 (630-686), row r.  o_row o has the wages of lines 506-507 (626-627). *)
Definition add_controls (d : cdraws) (r : nat) (o : orow) : crow :=
  if ((ncat =? 0) && (ncts =? 0))%nat then mkcrow o [] [] [] [] else
  let c1 := map (d_c1 d r) (range ncat) in
  let c2 := map (d_c2 d r) (range ncat) in
  let x1 := map (d_x1 d r) (range ncts) in
  let x2 := map (d_x2 d r) (range ncts) in
  let s := o_row o in
  let l := s_l s in
  let y1 := s_y1 s + (ctl_sum l (A1_cat p) (A1_cts p) c1 x1
                      + sqrt (ctl_sumsq l (S1_cat p) (S1_cts p) c1) * d_z1 d r) in
  let y2 := s_y2 s + (ctl_sum l (A2_cat p) (A2_cts p) c2 x2
                      + sqrt (ctl_sumsq l (S2_cat p) (S2_cts p) c2) * d_z2 d r) in
  mkcrow (mkorow (o_i o) (o_m o) (o_j1 o) (o_j2 o) (mksrow y1 y2 (s_g1 s) (s_g2 s) l)) c1 c2 x1 x2.

(* simulate, simblm.py:688-761.  Firms depend on the firm types of the rows only, so
   adding the control variables last is the same. *)
Definition simulate_ctl (g : draws) (dm ds : cdraws) (fuel : nat) : res (list crow * list crow) :=
  ' (jd, sd) <- simulate nk cm cs (A1 p) (A2 p) (S1 p) (S2 p) g fuel ;;
  Ok (map2 (add_controls dm) (range (length jd)) jd, map2 (add_controls ds) (range (length sd)) sd).
End Sim.
