(* Model of the counts of movers and stayers stored by fit_movers and fit_stayers,
   pytwoway/blm.py and pytwoway/blm_dynamic.py.  pandas is modelled by what its functions
   return on a column of integers. *)
From Verif Require Import Base.
Local Open Scope nat_scope.

(* The distinct values of a column in ascending order: the index of value_counts after
   sort_index, and the rows and columns of unstack. *)
Definition index_of (l : list nat) : list nat :=
  filter (fun k => existsb (Nat.eqb k) l) (range (S (list_max l))).

(* NNs, blm.py:2086-2090 and blm_dynamic.py:3684-3688: sdata['g1'].value_counts(sort=False),
   sort_index, to_numpy *)
Definition NNs_of (g1 : list nat) : list nat :=
  map (fun k => length (filter (Nat.eqb k) g1)) (index_of g1).

(* NNm, blm.py:1275 and 1948, blm_dynamic.py:1902 and 2904: groupby('g1')['g2'].value_counts(),
   unstack(fill_value=0), to_numpy.  The rows of the array as lists; a mover is the pair of
   the types of the firms left and joined. *)
Definition NNm_of (movers : list (nat * nat)) : list (list nat) :=
  map (fun a => map (fun b => length (filter (fun m => (a =? fst m) && (b =? snd m)) movers))
                  (index_of (map snd movers)))
    (index_of (map fst movers)).

(* How NNs is combined with pk0 in plot_type_proportions, subset='all' (blm.py:2300, 2320):
   _sort_parameters takes NNs[firm_type_order] if the firm types are out of order
   (blm.py:925-956), then NNs is multiplied with the nk columns of pk0.T by the rules of
   broadcasting.  The number of stayers used for each firm type. *)
Definition take (a : list nat) (i : nat) : res nat :=
  match nth_error a i with Some x => Ok x | None => Err IndexError end.
Definition broadcast_to (nk : nat) (a : list nat) : res (list nat) :=
  if length a =? nk then Ok a
  else match a with [x] => Ok (repeat x nk) | _ => Err ValueError end.
Definition stayers_used (nk : nat) (order : list nat) (in_order : bool) (NNs : list nat) : res (list nat) :=
  bind (if in_order then Ok NNs else traverse (take NNs) order) (broadcast_to nk).

(* How NNm is combined with the proportions in compute_connectedness_measure (blm.py:2223,
   blm_dynamic.py:3852): NNm.T times pk1.T, of shape (nl, nk, nk), by the rules of broadcasting.
   The counts as they are used, for at least one mover; which proportions they meet is in C43. *)
Definition movers_used (nk : nat) (movers : list (nat * nat)) : res (list (list nat)) :=
  bind (traverse (broadcast_to nk) (NNm_of movers)) (fun rows =>
    if length rows =? nk then Ok rows
    else match rows with [r] => Ok (repeat r nk) | _ => Err ValueError end).
