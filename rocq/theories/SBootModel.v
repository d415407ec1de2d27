(* Model of BLMBootstrap.fit and DynamicBLMBootstrap.fit with method='standard'. *)
From Verif Require Import Base.
Local Open Scope nat_scope.
Local Open Scope list_scope.
Local Open Scope res_scope.

Section Boot.
(* X: the columns of a row that are not changed; M: models; G: states of the generator. *)
Context {X M G : Type}.

(* Firms and classes of a row by period; a class that is not a number (NaN) is None. *)
Record srow : Type := mksrow { s_j : list nat; s_g : list (option nat); s_x : X }.

(* DataFrame.sample(frac, replace=True, weights, random_state): positions of the rows drawn from
   a frame of the given length *)
Variable sample : R -> option (list R) -> nat -> G -> res (list nat * G).
(* concat, clean, to_long and cluster of bipartitepandas: the columns j and g of the result *)
Variable cluster : list srow -> G -> res (list (nat * nat) * G).
(* estimator.fit and its model *)
Variable fit : list srow -> list srow -> G -> res (M * G).
(* w1 + w2 *)
Variable weight : srow -> R.

Definition take_rows (d : list srow) (pos : list nat) : res (list srow) :=
  traverse (fun i => match nth_error d i with Some r => Ok r | None => Err IndexError end) pos.

(* groupby('j')['g'].first().to_dict() and Series.map: the first class of firm f, or NaN *)
Fixpoint class_of (out : list (nat * nat)) (f : nat) : option nat :=
  match out with
  | [] => None
  | (f', c) :: out => if f =? f' then Some c else class_of out f
  end.

(* blm.py:2628-2634.  Firms [j1; j2], classes [g1; g2]. *)
Definition reclass_m (out : list (nat * nat)) (r : srow) : srow :=
  mksrow (s_j r) (map (class_of out) (s_j r)) (s_x r).
Definition reclass_s (out : list (nat * nat)) (r : srow) : srow :=
  mksrow (s_j r) (match s_j r with [] => [] | f :: rest => map (fun _ => class_of out f) (f :: rest) end) (s_x r).
(* blm_dynamic.py:4261-4268.  Firms [j1; j2; j3; j4], classes [g1; g2; g3; g4]: g2 is g1, g3 is g4. *)
Definition dreclass_m (out : list (nat * nat)) (r : srow) : res srow :=
  match s_j r with
  | [j1; _; _; j4] => Ok (mksrow (s_j r) [class_of out j1; class_of out j1; class_of out j4; class_of out j4] (s_x r))
  | _ => Err KeyError
  end.

(* blm.py:2604-2641: one sample; weights only if the parameter weighted is set and the frame has
   weights.  use_w is both. *)
Definition one_sample (dynamic use_wj use_ws : bool) (fj fs : R) (jd sd : list srow) (g : G) : res (M * G) :=
  ' (pj, g) <- sample fj (if use_wj then Some (map weight jd) else None) (length jd) g ;;
  ji <- take_rows jd pj ;;
  ' (ps, g) <- sample fs (if use_ws then Some (map weight sd) else None) (length sd) g ;;
  si <- take_rows sd ps ;;
  ' (out, g) <- cluster (ji ++ si) g ;;
  ji <- (if dynamic then traverse (dreclass_m out) ji else Ok (map (reclass_m out) ji)) ;;
  let si := map (reclass_s out) si in
  fit ji si g.

(* blm.py:2603-2643 and blm_dynamic.py:4248-4277: self.models.  The dynamic version draws without
   weights. *)
Fixpoint samples (n : nat) (dynamic use_wj use_ws : bool) (fj fs : R) (jd sd : list srow) (g : G) : res (list M * G) :=
  match n with
  | 0 => Ok ([], g)
  | S n =>
      ' (m, g) <- one_sample dynamic use_wj use_ws fj fs jd sd g ;;
      ' (ms, g) <- samples n dynamic use_wj use_ws fj fs jd sd g ;;
      Ok (m :: ms, g)
  end.
Definition standard (n : nat) (dynamic use_wj use_ws : bool) (fj fs : R) (jd sd : list srow) (g : G) : res (list M) :=
  ' (ms, _) <- samples n dynamic (use_wj && negb dynamic) (use_ws && negb dynamic) fj fs jd sd g ;; Ok ms.
End Boot.
Arguments srow : clear implicits.
Arguments srow X : assert.
