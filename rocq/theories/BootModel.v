(* Model of pytwoway/blm.py: _simulate_types_wages, BLMBootstrap.fit (parametric) and
   BLMVarianceDecomposition.fit.

   What the generator returns, the BLM estimator, the clustering and the regression
   are parameters.  A data frame is a list of rows. *)
From Verif Require Import Base BLMModel BLMEMModel BLMRealModel.
Local Open Scope res_scope.
Local Open Scope R_scope.

(* The generator in one call of _simulate_types_wages: rng.choice(worker_types,
   size=n, p=row) for each block of rows, and standard normal draws for the rows
   (rng.normal(loc, scale) is loc + scale * z). *)
Record rng : Type := mkrng {
  ch_m : nat -> nat -> (nat -> R) -> nat -> list nat;
  ch_s : nat -> (nat -> R) -> nat -> list nat;
  zm1 : nat -> R; zm2 : nat -> R; zs : nat -> R
}.

(* L[rows] = vals *)
Fixpoint set_at (i v : nat) (l : list nat) : list nat :=
  match l, i with
  | [], _ => []
  | _ :: l', 0%nat => v :: l'
  | x :: l', S i' => x :: set_at i' v l'
  end.
Definition assign (L rows vals : list nat) : list nat :=
  fold_left (fun L rv => set_at (fst rv) (snd rv) L) (combine rows vals) L.

(* np.where(mask)[0] *)
Definition where_ {A} (f : A -> bool) (l : list A) : list nat :=
  map fst (filter (fun ix => f (snd ix)) (combine (range (length l)) l)).

(* blm.py:401-412  types of movers. *)
Definition draw_movers (nk : nat) (pk1 : mat) (g : rng) (gj : list (nat * nat)) : list nat :=
  fold_left (fun L kk =>
      let rows := where_ (fun q => Nat.eqb (fst q) (fst kk) && Nat.eqb (snd q) (snd kk)) gj in
      assign L rows (ch_m g (fst kk) (snd kk) (draw_row nk pk1 (fst kk) (snd kk)) (length rows)))
    (list_prod (range nk) (range nk)) (map (fun _ => 0%nat) gj).

(* blm.py:477-486  types of stayers. *)
Definition draw_stayers (nk : nat) (pk0 : mat) (g : rng) (gs : list nat) : list nat :=
  fold_left (fun L k =>
      let rows := where_ (fun q => Nat.eqb q k) gs in
      assign L rows (ch_s g k (pk0 k) (length rows)))
    (range nk) (map (fun _ => 0%nat) gs).

(* A1_sum and S1_sum_sq, blm.py:414-463 and 488-513: the effect of the firm type,
   then of each categorical control, then of each continuous control. *)
Definition a_sum (l k : nat) (A : mat) (Ac : list catpar) (Ax : list ctspar)
    (c : list nat) (x : list R) : R :=
  let s := fold_left (fun s pn => match fst pn with
                                  | Inter m => s + m l (snd pn)
                                  | Shared v => s + v (snd pn)
                                  end) (combine Ac c) (A l k) in
  fold_left (fun s px => match fst px with
                         | XInter v => s + v l * snd px
                         | XShared a => s + a * snd px
                         end) (combine Ax x) s.
Definition s_sum_sq (l k : nat) (S : mat) (Sc : list catpar) (Sx : list ctspar)
    (c : list nat) : R :=
  let s := fold_left (fun s pn => match fst pn with
                                  | Inter m => s + m l (snd pn) ^ 2
                                  | Shared v => s + v (snd pn) ^ 2
                                  end) (combine Sc c) (S l k ^ 2) in
  fold_left (fun s p => match p with
                        | XInter v => s + v l ^ 2
                        | XShared a => s + a ^ 2
                        end) Sx s.

(* blm.py:465-473 and 515-519: one row, one period. *)
Definition draw_wage1 (p : par) (l k : nat) (o : obs) (z : R) : R :=
  if any_controls p
  then a_sum l k (A1 p) (A1_cat p) (A1_cts p) (c1 o) (x1 o)
       + sqrt (s_sum_sq l k (S1 p) (S1_cat p) (S1_cts p) (c1 o)) / w1 o * z
  else A1 p l k + S1 p l k / w1 o * z.
Definition draw_wage2 (p : par) (l k : nat) (o : obs) (z : R) : R :=
  if any_controls p
  then a_sum l k (A2 p) (A2_cat p) (A2_cts p) (c2 o) (x2 o)
       + sqrt (s_sum_sq l k (S2 p) (S2_cat p) (S2_cts p) (c2 o)) / w2 o * z
  else A2 p l k + S2 p l k / w2 o * z.

(* _simulate_types_wages, blm.py:303-523.  [realloc] is None for reallocate=False,
   else (reallocate_jointly, reallocate_period).  The weights of a row are those of
   the data, 1 if the data have no weights (not: if params['weighted'] is False).
   Only the controls and weights of jd and sd are read; firm types come from gj and
   gs, and must be below nk. *)
Definition simulate_types_wages (nl nk : nat) (p : par) (realloc : option (bool * rperiod))
    (g : rng) (jd sd : list obs) (gj : list (nat * nat)) (gs : list nat)
  : res ((list R * list R) * list R * list nat * list nat) :=
  ' (q1, q0) <- (match realloc with
                 | None => Ok (pk1 p, pk0 p)
                 | Some (jointly, per) => reallocate nl nk jointly per (NNm p) (NNs p) (pk1 p) (pk0 p)
                 end) ;;
  if negb (forallb (fun q => Nat.ltb (fst q) nk && Nat.ltb (snd q) nk) gj
           && forallb (fun k => Nat.ltb k nk) gs) then Err IndexError else
  let Lm := draw_movers nk q1 g gj in
  let Ls := draw_stayers nk q0 g gs in
  let o0 := mkobs 0 0 0 0 0 0 [] [] [] [] in
  let y1 := map (fun r => draw_wage1 p (nth r Lm 0%nat) (fst (nth r gj (0, 0)%nat)) (nth r jd o0) (zm1 g r))
                (range (length jd)) in
  let y2 := map (fun r => draw_wage2 p (nth r Lm 0%nat) (snd (nth r gj (0, 0)%nat)) (nth r jd o0) (zm2 g r))
                (range (length jd)) in
  let ys := map (fun r => draw_wage1 p (nth r Ls 0%nat) (nth r gs 0%nat) (nth r sd o0) (zs g r))
                (range (length sd)) in
  Ok ((y1, y2), ys, Lm, Ls).

(* ---- data frames ------------------------------------------------------------ *)

(* Worker id, firm ids, and the other columns. *)
Record frow : Type := mkfrow { f_i : nat; f_j1 : nat; f_j2 : nat; f_o : obs }.

Definition with_y (a b : R) (f : frow) : frow :=
  let o := f_o f in
  mkfrow (f_i f) (f_j1 f) (f_j2 f) (mkobs a b (g1 o) (g2 o) (w1 o) (w2 o) (c1 o) (c2 o) (x1 o) (x2 o)).
Definition with_g (a b : nat) (f : frow) : frow :=
  let o := f_o f in
  mkfrow (f_i f) (f_j1 f) (f_j2 f) (mkobs (y1 o) (y2 o) a b (w1 o) (w2 o) (c1 o) (c2 o) (x1 o) (x2 o)).
Definition with_j (a b : nat) (f : frow) : frow := mkfrow (f_i f) a b (f_o f).
Definition with_i (a : nat) (f : frow) : frow := mkfrow a (f_j1 f) (f_j2 f) (f_o f).

(* df.loc[:, col] = values, row by row. *)
Definition set_col {A} (upd : A -> frow -> frow) (vals : list A) (df : list frow) : list frow :=
  map2 upd vals df.

Section Boot.
Variables nl nk : nat.
Variable realloc : option (bool * rperiod).
(* The t-th run of the estimator, and of the clustering (the type of each firm). *)
Variable estimator : nat -> list frow -> list frow -> res par.
Variable cluster : nat -> list frow -> list frow -> res (nat -> nat).
Variable gen : nat -> rng.

(* ---- BLMBootstrap.fit, method='parametric', blm.py:2570-2612 ---- *)

(* One round of the loop, 2584-2607: the frames it leaves and the estimated model. *)
Definition boot_round (p : par) (gj : list (nat * nat)) (gs : list nat) (t : nat)
    (jd sd : list frow) : (list frow * list frow) * res par :=
  match simulate_types_wages nl nk p realloc (gen t) (map f_o jd) (map f_o sd) gj gs with
  | Err e => ((jd, sd), Err e)
  | Ok (yj, ys, _, _) =>
      let jd := set_col (fun ab => with_y (fst ab) (snd ab)) (combine (fst yj) (snd yj)) jd in
      let sd := set_col (fun a => with_y a a) ys sd in
      match cluster t jd sd with
      | Err e => ((jd, sd), Err e)
      | Ok c =>
          let jd := map (fun f => with_g (c (f_j1 f)) (c (f_j2 f)) f) jd in
          let sd := map (fun f => with_g (c (f_j1 f)) (c (f_j1 f)) f) sd in
          ((jd, sd), estimator (S t) jd sd)
      end
  end.

Fixpoint boot_loop (p : par) (gj : list (nat * nat)) (gs : list nat) (n t : nat)
    (jd sd : list frow) (models : list par) : (list frow * list frow) * res (list par) :=
  match n with
  | 0%nat => ((jd, sd), Ok models)
  | S n' =>
      match boot_round p gj gs t jd sd with
      | (fr, Err e) => (fr, Err e)
      | ((jd, sd), Ok m) => boot_loop p gj gs n' (S t) jd sd (models ++ [m])
      end
  end.

Definition boot_fit (blm_model : option par) (n_samples : nat) (jd sd : list frow)
  : (list frow * list frow) * res (list par) :=
  let yj := map (fun f => (y1 (f_o f), y2 (f_o f))) jd in
  let ys := map (fun f => (y1 (f_o f), y2 (f_o f))) sd in
  let gj := map (fun f => (g1 (f_o f), g2 (f_o f))) jd in
  let gs := map (fun f => g1 (f_o f)) sd in
  match (match blm_model with Some p => Ok p | None => estimator 0 jd sd end) with
  | Err e => ((jd, sd), Err e)
  | Ok p =>
      match boot_loop p gj gs n_samples 0 jd sd [] with
      | (fr, Err e) => (fr, Err e)
      | ((jd, sd), Ok models) =>
          let jd := set_col (fun ab => with_y (fst ab) (snd ab)) yj jd in
          let sd := set_col (fun ab => with_y (fst ab) (snd ab)) ys sd in
          let jd := set_col (fun ab => with_g (fst ab) (snd ab)) gj jd in
          let sd := set_col (fun a => with_g a a) gs sd in
          ((jd, sd), Ok models)
      end
  end.

(* ---- BLMVarianceDecomposition.fit, blm.py:2822-2911 ---- *)

(* FEEstimator or FEControlEstimator on the long data: the values of its summary. *)
Variable fe : nat -> list frow -> list frow -> res (list R).

Definition vd_round (types_as_ids : bool) (p : par) (gj : list (nat * nat)) (gs : list nat) (t : nat)
    (jd sd : list frow) : (list frow * list frow) * res (list R) :=
  match simulate_types_wages nl nk p realloc (gen t) (map f_o jd) (map f_o sd) gj gs with
  | Err e => ((jd, sd), Err e)
  | Ok (yj, ys, Lm, Ls) =>
      let jd := if types_as_ids then set_col with_i Lm jd else jd in
      let sd := if types_as_ids then set_col with_i Ls sd else sd in
      let jd := set_col (fun ab => with_y (fst ab) (snd ab)) (combine (fst yj) (snd yj)) jd in
      let sd := set_col (fun a => with_y a a) ys sd in
      ((jd, sd), fe t jd sd)
  end.

Fixpoint vd_loop (types_as_ids : bool) (p : par) (gj : list (nat * nat)) (gs : list nat) (n t : nat)
    (jd sd : list frow) (out : list (list R)) : (list frow * list frow) * res (list (list R)) :=
  match n with
  | 0%nat => ((jd, sd), Ok out)
  | S n' =>
      match vd_round types_as_ids p gj gs t jd sd with
      | (fr, Err e) => (fr, Err e)
      | ((jd, sd), Ok m) => vd_loop types_as_ids p gj gs n' (S t) jd sd (out ++ [m])
      end
  end.

(* A frame and whether it has the column t. *)
Record tframe : Type := mktframe { tf_rows : list frow; tf_t : bool }.

(* The frames it leaves and res[k][i], by sample.  construct_artificial_time(copy =
   False) adds the column to the caller's frame. *)
Definition vd_fit (clusters_as_ids types_as_ids : bool) (blm_model : option par) (n_samples : nat)
    (J S : tframe) : (tframe * tframe) * res (list (list R)) :=
  let jd := tf_rows J in
  let sd := tf_rows S in
  let yj := map (fun f => (y1 (f_o f), y2 (f_o f))) jd in
  let ys := map (fun f => (y1 (f_o f), y2 (f_o f))) sd in
  let gj := map (fun f => (g1 (f_o f), g2 (f_o f))) jd in
  let gs := map (fun f => g1 (f_o f)) sd in
  let jj := map (fun f => (f_j1 f, f_j2 f)) jd in
  let js := map f_j1 sd in
  let ij := map f_i jd in
  let is_ := map f_i sd in
  let jd := if clusters_as_ids then set_col (fun ab => with_j (fst ab) (snd ab)) gj jd else jd in
  let sd := if clusters_as_ids then set_col (fun a => with_j a a) gs sd else sd in
  let pack (fr : list frow * list frow) (b : bool) :=
    (mktframe (fst fr) (tf_t J || b), mktframe (snd fr) (tf_t S || b)) in
  match (match blm_model with Some p => Ok p | None => estimator 0 jd sd end) with
  | Err e => (pack (jd, sd) true, Err e)
  | Ok p =>
      match vd_loop types_as_ids p gj gs n_samples 0 jd sd [] with
      | (fr, Err e) => (pack fr true, Err e)
      | ((jd, sd), Ok out) =>
          let jd := set_col (fun ab => with_y (fst ab) (snd ab)) yj jd in
          let sd := set_col (fun ab => with_y (fst ab) (snd ab)) ys sd in
          let jd := if clusters_as_ids then set_col (fun ab => with_j (fst ab) (snd ab)) jj jd else jd in
          let sd := if clusters_as_ids then set_col (fun a => with_j a a) js sd else sd in
          let jd := if types_as_ids then set_col with_i ij jd else jd in
          let sd := if types_as_ids then set_col with_i is_ sd else sd in
          match out with
          | [] => (pack (jd, sd) true, Err IndexError)          (* res_lst[0] *)
          | _ => (pack (jd, sd) false, Ok out)
          end
      end
  end.
End Boot.
