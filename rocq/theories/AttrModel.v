(* Model of pytwoway/attrition_utils/attrition_utils.py and of the job handling of
   pytwoway/attrition.py.

   Simplifications.  Shares and products are exact rationals (Python: floats).
   Sets of ids are duplicate-free lists; the order of list(set) does not matter
   because the pool of a draw is only ever read as a set.  Data frames are lists
   of observations in the long format (worker, firm, weight).  Functions of the
   package bipartitepandas are modelled by what they do on such lists: drop_ids
   and keep_ids filter observations, the mover column m is positive for the
   observations of a worker seen at two or more firms, unique_ids lists ids.
   Cleaning of the first subset is a parameter.  Warnings are left out. *)
Set Warnings "-notation-overridden,-ambiguous-paths".
From Coq Require Import ZArith QArith Qround.
From mathcomp Require Import all_ssreflect.
From Verif Require Base.
From Verif Require UtilModel.

Set Implicit Arguments.
Unset Strict Implicit.
Unset Printing Implicit Defensive.
Local Open Scope nat_scope.

(* int(np.round(x)): to the nearest integer, halves to the even one. *)
Definition np_round (x : Q) : Z :=
  let f := Qfloor x in
  match Qcompare (Qminus x (inject_Z f)) (Qmake 1 2) with
  | Lt => f
  | Gt => (f + 1)%Z
  | Eq => if Z.even f then f else (f + 1)%Z
  end.

Record obs := Obs { ob_i : nat; ob_j : nat; ob_w : Q }.

Section Frame.
Variable weighted : bool.                  (* bdf._col_included('w') *)

Implicit Types rows : seq obs.
Definition wids rows : seq nat := undup (map ob_i rows).          (* unique_ids('i') *)
Definition fids rows : seq nat := undup (map ob_j rows).          (* unique_ids('j') *)
Definition of_worker (i : nat) rows := [seq r <- rows | ob_i r == i].
Definition is_mover rows (i : nat) : bool := (1 < size (fids (of_worker i rows)))%N.
Definition movers rows : seq nat := [seq i <- wids rows | is_mover rows i].

Definition drop_i (s : seq nat) rows := [seq r <- rows | ob_i r \notin s].
Definition drop_j (s : seq nat) rows := [seq r <- rows | ob_j r \notin s].
Definition keep_j (s : seq nat) rows := [seq r <- rows | ob_j r \in s].

(* attrition_utils.py:103-112 and 159-165  the stayers with weight at most 1;
   without weights, with at most one observation. *)
Definition qsum (l : seq Q) : Q := foldr Qplus (inject_Z 0) l.
Definition worker_weight rows (i : nat) : Q :=
  if weighted then qsum (map ob_w (of_worker i rows))
  else inject_Z (Z.of_nat (size (of_worker i rows))).
Definition single_stayers rows : seq nat :=
  [seq i <- wids rows | ~~ is_mover rows i && Qle_bool (worker_weight rows i) (inject_Z 1)].

(* rng.choice(pool, size=k, replace=False) for a given outcome of the generator.
   A negative size or one larger than the pool is a ValueError. *)
Definition rng_choice (draw : seq nat -> nat -> seq nat) (pool : seq nat) (k : Z) : Base.res (seq nat) :=
  if (Z.ltb k 0 || Z.ltb (Z.of_nat (size pool)) k)%Z then Base.Err Base.ValueError
  else Base.Ok (draw pool (Z.to_nat k)).

(* (fids_to_drop, wids_to_drop), None when empty. *)
Definition subset := (option (seq nat) * option (seq nat))%type.
Definition opt (s : seq nat) : option (seq nat) := if s is [::] then None else Some s.

(* np.diff and the checks in the two constructors, 25-26 and 227-228.  np.min and
   np.max of an empty array are a ValueError, so a single share is refused. *)
Fixpoint diffs (l : seq Q) : seq Q :=
  match l with
  | x :: ((y :: _) as l') => Qminus y x :: diffs l'
  | _ => [::]
  end.
Definition init_increasing (shares : seq Q) : Base.res (seq Q) :=
  if diffs shares is [::] then Base.Err Base.ValueError
  else if all (fun x => Qle_bool (inject_Z 0) x) (diffs shares) then Base.Ok shares
  else Base.Err Base.ValueError.
Definition init_decreasing (shares : seq Q) : Base.res (seq Q) :=
  if diffs shares is [::] then Base.Err Base.ValueError
  else if all (fun x => Qle_bool x (inject_Z 0)) (diffs shares) then Base.Ok shares
  else Base.Err Base.ValueError.

Section Increasing.
Variable drop_single_stayers : bool.       (* clean_params['drop_single_stayers'] *)
Variable min_firms : nat.                  (* self.subsample_min_firms *)
Variable n_draws : nat.                    (* self.n_subsample_draws *)
(* .clean(clean_params) with drop_single_stayers off *)
Variable clean : seq obs -> Base.res (seq obs).
(* outcomes of the generator: one per attempt, one per later subset *)
Variable draw1 : nat -> seq nat -> nat -> seq nat.
Variable draw2 : nat -> seq nat -> nat -> seq nat.

(* 77-96  up to n_subsample_draws attempts to draw a valid first subset. *)
Fixpoint first_subset (left t : nat) (frac : Q) rows : Base.res (seq nat * seq obs) :=
  match left with
  | 0 => Base.Err Base.UnboundLocalError
  | left'.+1 =>
      let pool := movers rows in
      let n := np_round (Qmult frac (inject_Z (Z.of_nat (size pool)))) in
      match rng_choice (draw1 t) pool n with
      | Base.Err e => Base.Err e
      | Base.Ok drops =>
          let again := if left' is 0 then Base.Err Base.ValueError
                       else first_subset left' t.+1 frac rows in
          match clean (drop_i drops rows) with
          | Base.Ok s1 => if (min_firms <= size (fids s1))%N then Base.Ok (drops, s1) else again
          | Base.Err Base.ValueError => again
          | Base.Err e => Base.Err e
          end
      end
  end.

(* 171-191  the later subsets, each dropping fewer workers. *)
Fixpoint later_subsets (t : nat) (n_valid : nat) (stayers : seq nat) (f : option (seq nat))
    (to_drop : seq nat) (fracs : seq Q) : Base.res (seq subset) :=
  match fracs with
  | [::] => Base.Ok [::]
  | frac :: fracs' =>
      let n := Z.min (np_round (Qmult frac (inject_Z (Z.of_nat n_valid)))) (Z.of_nat (size to_drop)) in
      let next :=
        if Z.eqb n 0 then Base.Ok [::]
        else if (Z.ltb 0 n && Z.ltb n (Z.of_nat (size to_drop)))%Z
             then rng_choice (draw2 t) to_drop n
        else Base.Ok to_drop in
      match next with
      | Base.Err e => Base.Err e
      | Base.Ok to_drop' =>
          let full := if drop_single_stayers then undup (to_drop' ++ stayers) else to_drop' in
          match later_subsets t.+1 n_valid stayers f to_drop' fracs' with
          | Base.Err e => Base.Err e
          | Base.Ok l => Base.Ok ((f, opt full) :: l)
          end
      end
  end.

(* 33-197 AttritionIncreasing._gen_subsets. *)
Definition gen_increasing (shares : seq Q) rows : Base.res (seq subset) :=
  if (size (fids rows) < min_firms)%N then Base.Err Base.ValueError
  else
    let fracs := [seq Qminus (inject_Z 1) x | x <- shares] in
    match fracs with
    | [::] => Base.Err Base.IndexError
    | frac :: fracs' =>
        match first_subset n_draws 0 frac rows with
        | Base.Err e => Base.Err e
        | Base.Ok (drops, s1) =>
            let drops1 := if drop_single_stayers then undup (drops ++ single_stayers s1) else drops in
            let valid_firms := fids s1 in
            let f := opt [seq j <- fids rows | j \notin valid_firms] in
            let s2 := keep_j valid_firms rows in
            let valid_wids := movers s2 in
            let to_drop := [seq i <- valid_wids | i \notin movers s1] in
            match later_subsets 0 (size valid_wids) (single_stayers s2) f to_drop fracs' with
            | Base.Err e => Base.Err e
            | Base.Ok l => Base.Ok ((f, opt drops1) :: l)
            end
        end
    end.

End Increasing.

(* The same with the caller's dictionary: [flag] is clean_params['drop_single_stayers']
   before the call, the second component its value afterwards.  It is switched off
   at 61-63, [clean] sees the value of the moment, and it is switched on at 193-195. *)
Definition gen_increasing_state (flag : bool) (min_firms n_draws : nat)
    (clean : bool -> seq obs -> Base.res (seq obs)) (draw1 draw2 : nat -> seq nat -> nat -> seq nat)
    (shares : seq Q) rows : Base.res (seq subset) * bool :=
  if (size (fids rows) < min_firms)%N then (Base.Err Base.ValueError, flag)
  else
    let drop_single_stayers := flag in
    let flag := if drop_single_stayers then false else flag in
    match gen_increasing drop_single_stayers min_firms n_draws (clean flag) draw1 draw2 shares rows with
    | Base.Err e => (Base.Err e, flag)
    | Base.Ok l =>
        let flag := if drop_single_stayers then true else flag in
        (Base.Ok l, flag)
    end.

Section Decreasing.
Variable draw : nat -> seq nat -> nat -> seq nat.

(* 255  1 - shares / append(1, shares)[:-1].  None stands for nan (0 / 0); a
   non-zero share after 0 is not modelled (the constructor refuses it unless it
   is negative). *)
Fixpoint relative_drops (prev : Q) (shares : seq Q) : seq (option Q) :=
  match shares with
  | [::] => [::]
  | x :: l => (if Qeq_bool prev (inject_Z 0) then None
               else Some (Qminus (inject_Z 1) (Qdiv x prev))) :: relative_drops x l
  end.

(* 258-272. *)
Fixpoint decreasing_steps (t : nat) (left_movers dropped : seq nat) (fracs : seq (option Q))
    : Base.res (seq subset) :=
  match fracs with
  | [::] => Base.Ok [::]
  | frac :: fracs' =>
      let stay := Base.Ok (left_movers, dropped) in
      let next :=
        match frac with
        | None => stay
        | Some x =>
            if Qle_bool x (inject_Z 0) then stay
            else
              let n := Z.min (np_round (Qmult x (inject_Z (Z.of_nat (size left_movers)))))
                             (Z.of_nat (size left_movers)) in
              if Z.ltb 0 n then
                match rng_choice (draw t) left_movers n with
                | Base.Err e => Base.Err e
                | Base.Ok s => Base.Ok ([seq i <- left_movers | i \notin s], undup (dropped ++ s))
                end
              else stay
        end in
      match next with
      | Base.Err e => Base.Err e
      | Base.Ok (left', dropped') =>
          match decreasing_steps t.+1 left' dropped' fracs' with
          | Base.Err e => Base.Err e
          | Base.Ok l => Base.Ok ((None, opt dropped') :: l)
          end
      end
  end.

(* 233-274 AttritionDecreasing._gen_subsets. *)
Definition gen_decreasing (shares : seq Q) rows : Base.res (seq subset) :=
  decreasing_steps 0 (movers rows) [::] (relative_drops (inject_Z 1) shares).
End Decreasing.

(* attrition.py:140-144 _attrition_interior: the observations left after dropping
   the firms, then the workers. *)
Definition kept (s : subset) rows : seq obs :=
  let r1 := if s.1 is Some f then drop_j f rows else rows in
  if s.2 is Some w then drop_i w r1 else r1.

(* attrition.py:145 with connectedness=None (_update_clean_params): of the
   remaining steps of cleaning only the dropping of single stayers is modelled. *)
Definition used_increasing (dss : bool) (s : subset) rows : seq obs :=
  let k := kept s rows in if dss then drop_i (single_stayers k) k else k.
End Frame.

(* The connected sets of firms, and bipartitepandas' cleaning with
   connectedness='connected': the observations of the component with most firms.
   Reach: firms linked to firm j by workers, by repeated closure. *)
Definition step_firms (rows : seq obs) (js : seq nat) : seq nat :=
  let ws := [seq ob_i r | r <- rows & ob_j r \in js] in
  undup (js ++ [seq ob_j r | r <- rows & ob_i r \in ws]).
Definition component (rows : seq obs) (j : nat) : seq nat :=
  iter (size (fids rows)) (step_firms rows) [:: j].
Definition largest (rows : seq obs) : seq nat :=
  foldl (fun best j => if (size best < size (component rows j))%N then component rows j else best)
        [::] (fids rows).
Definition clean_connected (rows : seq obs) : Base.res (seq obs) :=
  if rows is [::] then Base.Err Base.ValueError
  else Base.Ok (keep_j (largest rows) rows).
Definition used_decreasing (s : subset) (rows : seq obs) : Base.res (seq obs) :=
  clean_connected (kept s rows).

(* attrition.py:197-281 _attrition_single, the part after _gen_subsets: one job
   per subset with its own seed, on one core or on a pool.  [interior] is
   _attrition_interior for the given bdf and parameters. *)
Section Jobs.
Variables (Seed Res : Type).
Variable interior : subset -> Seed -> Res.

(* pool.starmap: workers finish in any order; every result is stored in the slot
   of its job and the slots are returned in order.  [finish] lists job numbers in
   the order of completion; a job that never finishes leaves its slot empty. *)
Definition starmap (J : Type) (f : J -> Res) (finish : seq nat) (jobs : seq J) : seq (option Res) :=
  foldl (fun slots k => set_nth None slots k (omap f (nth None (map Some jobs) k)))
        (nseq (size jobs) None) finish.
Definition collect (slots : seq (option Res)) : Base.res (seq Res) :=
  if has (fun x => ~~ isSome x) slots then Base.Err Base.OutOfFuel
  else Base.Ok (pmap id slots).

(* seeds = seed_seq.spawn(N): child number c + k for the k-th job, when c
   children were spawned before. *)
Variable spawn : nat -> Seed.
Definition job_list (c : nat) (subsets : seq subset) : seq (subset * Seed) :=
  zip subsets [seq spawn k | k <- iota c (size subsets)].

Definition run_jobs (ncore : nat) (finish : seq nat) (c : nat) (subsets : seq subset) : Base.res (seq Res) :=
  let jobs := job_list c subsets in
  let f := fun job : subset * Seed => interior job.1 job.2 in
  if (1 < ncore)%N then
    match UtilModel.scramble jobs with
    | Base.Err e => Base.Err e
    | Base.Ok sj => Base.rmap UtilModel.unscramble (collect (starmap f finish sj))
    end
  else Base.Ok (foldl (fun V job => rcons V (f job)) [::] jobs).
End Jobs.
