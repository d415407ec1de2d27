(* Model of pytwoway/simblm.py: SimBLM._sort_A, _gen_params, _simulate_movers,
   _simulate_stayers and simulate, without control variables.

   What the random number generator returns is a parameter (the fields of [draws]).
   Wages are real numbers; rng.normal(loc, scale) is loc + scale * z for a drawn z. *)
From Verif Require Import Base UtilModel BLMModel.
Local Open Scope res_scope.
Local Open Scope R_scope.

(* ---- parameters ---------------------------------------------------------- *)

Section Params.
Variable argsort : list R -> list nat.                   (* np.argsort *)
Variable sort : list R -> list R.                        (* np.sort *)

(* simblm.py:296-324  _sort_A. *)
Definition sort_rows (nk : nat) (A : mat) : mat :=
  fun l k => nth k (sort (map (A l) (range nk))) 0.
Definition sort_A (nl nk : nat) (strictly_monotone_a : bool) (A1 A2 : mat) : mat * mat :=
  let A1 := if strictly_monotone_a then sort_rows nk A1 else A1 in
  let A2 := if strictly_monotone_a then sort_rows nk A2 else A2 in
  let o := argsort (row_means nl nk A1) in
  let A1 := take_rows o A1 in
  let A2 := take_rows o A2 in
  if strictly_monotone_a then (A1, A2)
  else let o := argsort (col_means nl nk A1) in (take_cols o A1, take_cols o A2).

(* np.mean(A2, axis=1) + A1 - np.mean(A1, axis=1), simblm.py:442: the means have
   shape (nl,) and are lined up with the second dimension of A1. *)
Definition firm_type_variation (nl nk : nat) (A1 A2 : mat) : res mat :=
  let m1 l := nth l (row_means nl nk A1) 0 in
  let m2 l := nth l (row_means nl nk A2) 0 in
  if (nl =? nk)%nat then Ok (fun l k => m2 k + A1 l k - m1 k)
  else if (nl =? 1)%nat then Ok (fun l k => m2 0%nat + A1 l k - m1 0%nat)
  else if (nk =? 1)%nat then Ok (fun l k => m2 k + A1 l 0%nat - m1 k)     (* shape (nl, nl) *)
  else Err ValueError.

(* simblm.py:349-371  A1 or A2 as drawn; [alpha] and [psi] are drawn when
   linear_additive is True and [A] otherwise. *)
Definition drawn (linear_additive : bool) (alpha psi : nat -> R) (A : mat) : mat :=
  if linear_additive then fun l k => alpha l + psi k else A.

(* simblm.py:432-442. *)
Definition finish (nl nk : nat) (strictly stat_A stat_S stat_var : bool)
    (A1 A2 S1 S2 : mat) : res (mat * mat * mat * mat) :=
  let (A1, A2) := sort_A nl nk strictly A1 A2 in
  let A2 := if stat_A then A1 else A2 in
  let S2 := if stat_S then S1 else S2 in
  if stat_var then A2 <- firm_type_variation nl nk A1 A2 ;; Ok (A1, A2, S1, S2)
  else Ok (A1, A2, S1, S2).
End Params.

(* ---- workers -------------------------------------------------------------- *)

(* A row of jdata or sdata before firms are drawn. *)
Record srow : Type := mksrow { s_y1 : R; s_y2 : R; s_g1 : nat; s_g2 : nat; s_l : nat }.

(* What the generator returns.  [mv_l k1 k2] and [st_l k] are the worker types of
   a block of workers, [.._z1], [.._z2] the normal draws of its rows.  [st_firm k]
   holds the raw firm ids of the stayers of type k; [mv_j1 k] and [mv_j2 t k] the
   firms drawn for movers whose first (second) firm has type k, t = 0 for the first
   draw and t > 0 for the t-th redraw. *)
Record draws : Type := mkdraws {
  mv_l : nat -> nat -> list nat; mv_z1 : nat -> nat -> nat -> R; mv_z2 : nat -> nat -> nat -> R;
  st_l : nat -> list nat; st_z1 : nat -> nat -> R; st_z2 : nat -> nat -> R;
  st_firm : nat -> list nat;
  mv_j1 : nat -> list nat; mv_j2 : nat -> nat -> list nat
}.

Section Sim.
Variables nl nk : nat.
Variables cm : nat -> nat -> nat.                        (* mmult * NNm *)
Variables cs : nat -> nat.                               (* smult * NNs *)
Variables A1 A2 S1 S2 : mat.
Variable g : draws.

(* simblm.py:492-512: the rows of each pair of firm types, one block after the
   other. *)
Definition mover_block (k1 k2 : nat) : list srow :=
  map (fun q => let l := nth q (mv_l g k1 k2) 0%nat in
         mksrow (A1 l k1 + S1 l k1 * mv_z1 g k1 k2 q) (A2 l k2 + S2 l k2 * mv_z2 g k1 k2 q) k1 k2 l)
      (range (cm k1 k2)).
Definition movers : list srow :=
  flat_map (fun k1 => flat_map (fun k2 => mover_block k1 k2) (range nk)) (range nk).

(* simblm.py:613-630. *)
Definition stayer_block (k : nat) : list srow :=
  map (fun q => let l := nth q (st_l g k) 0%nat in
         mksrow (A1 l k + S1 l k * st_z1 g k q) (A2 l k + S2 l k * st_z2 g k q) k k l)
      (range (cs k)).
Definition stayers : list srow := flat_map stayer_block (range nk).

(* np.hstack(df.groupby(col).apply(draw)): groups in increasing order, only those
   that occur; the result is a column in the order of the groups. *)
Definition maxn (l : list nat) : nat := fold_right Nat.max 0%nat l.
Definition groups (keys : list nat) : list nat :=
  filter (fun k => existsb (Nat.eqb k) keys) (range (S (maxn keys))).
Definition by_group {A} (keys : list nat) (draw : nat -> list A) : list A :=
  flat_map draw (groups keys).

(* simblm.py:709-713  sdata.groupby(['g1', 'j1']).ngroup(): the number of the pair
   among the pairs that occur, in lexicographic order. *)
Definition pair_eqb (p q : nat * nat) : bool := (fst p =? fst q)%nat && (snd p =? snd q)%nat.
Definition pairs_present (ps : list (nat * nat)) : list (nat * nat) :=
  filter (fun p => existsb (pair_eqb p) ps)
    (list_prod (range (S (maxn (map fst ps)))) (range (S (maxn (map snd ps))))).
Fixpoint position (p : nat * nat) (l : list (nat * nat)) : nat :=
  match l with
  | [] => 0%nat
  | q :: l' => if pair_eqb p q then 0%nat else S (position p l')
  end.
Definition ngroup (ps : list (nat * nat)) : list nat :=
  map (fun p => position p (pairs_present ps)) ps.

(* simblm.py:709-713  firms of stayers. *)
Definition stayer_firms : list nat :=
  let g1 := map s_g1 stayers in
  ngroup (combine g1 (by_group g1 (st_firm g))).

(* simblm.py:717  j_per_g_dict[k]: None if k is not a key. *)
Fixpoint unique (l : list nat) : list nat :=
  match l with
  | [] => []
  | x :: l' => x :: filter (fun y => negb (Nat.eqb x y)) (unique l')
  end.
Definition firms_of (k : nat) : option (list nat) :=
  match unique (map snd (filter (fun p => Nat.eqb (fst p) k) (combine (map s_g1 stayers) stayer_firms))) with
  | [] => None
  | l => Some l
  end.

(* simblm.py:718-721. *)
Definition check_firms : res unit :=
  for_each (groups (map s_g1 stayers))
    (fun k _ => match firms_of k with
                | Some [_] => Err ValueError
                | _ => Ok tt
                end) tt.

(* simblm.py:725-727, 734: the firms drawn for movers, column [col], KeyError for a
   type without stayers. *)
Definition mover_firms (keys : list nat) (draw : nat -> list nat) : res (list nat) :=
  _ <- for_each (groups keys)
         (fun k _ => match firms_of k with None => Err KeyError | Some _ => Ok tt end) tt ;;
  Ok (by_group keys draw).

(* simblm.py:731-735  the loop that makes movers move; [t] counts the redraws. *)
Fixpoint redraw (fuel t : nat) (j1 j2 : list nat) : res (list nat) :=
  if existsb (fun p => Nat.eqb (fst p) (snd p)) (combine j1 j2) then
    match fuel with
    | 0%nat => Err OutOfFuel
    | S fuel =>
        d <- mover_firms (map s_g2 movers) (mv_j2 g t) ;;
        redraw fuel (S t) j1
          (map (fun r => if Nat.eqb (nth r j1 0%nat) (nth r j2 0%nat) then nth r d 0%nat else nth r j2 0%nat)
               (range (length j2)))
    end
  else Ok j2.

(* A row of the result. *)
Record orow : Type := mkorow { o_i : nat; o_m : nat; o_j1 : nat; o_j2 : nat; o_row : srow }.

(* simblm.py:683-758  simulate.  An empty jdata or sdata is outside the model: an
   error. *)
Definition simulate (fuel : nat) : res (list orow * list orow) :=
  if (length movers =? 0)%nat || (length stayers =? 0)%nat then Err ValueError else
  _ <- check_firms ;;
  j1 <- mover_firms (map s_g1 movers) (mv_j1 g) ;;
  j2 <- mover_firms (map s_g2 movers) (mv_j2 g 0%nat) ;;
  j2 <- redraw fuel 1%nat j1 j2 ;;
  let nm := length movers in
  let out m off rows j1 j2 :=
    map (fun r => mkorow (off + r)%nat m (nth r j1 0%nat) (nth r j2 0%nat)
                         (nth r rows (mksrow 0 0 0 0 0))) (range (length rows)) in
  Ok (out 1%nat 0%nat movers j1 j2, out 0%nat nm stayers stayer_firms stayer_firms).
End Sim.
