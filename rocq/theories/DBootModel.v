(* Model of pytwoway/blm_dynamic.py: _simulate_types_wages, DynamicBLMBootstrap.fit
   (parametric) and DynamicBLMVarianceDecomposition.fit, without control variables.

   What the generator returns, the estimator, the clustering and the regression are
   parameters.  A data frame is a list of rows. *)
From Verif Require Import Base BLMModel BLMRealModel BootModel DBLMModel.
Local Open Scope res_scope.
Local Open Scope R_scope.

(* One value per period. *)
Record quad (A : Type) : Type := Q4 { at1 : A; at2 : A; at3 : A; at4 : A }.
Arguments Q4 {A}. Arguments at1 {A}. Arguments at2 {A}. Arguments at3 {A}. Arguments at4 {A}.

(* The generator in one call of _simulate_types_wages: rng.choice(worker_types,
   size=n, p=row) for each block of rows, and standard normal draws for each row and
   period (rng.normal(loc, scale) is loc + scale * z). *)
Record drng : Type := mkdrng {
  dch_m : nat -> nat -> (nat -> R) -> nat -> list nat;
  dch_s : nat -> (nat -> R) -> nat -> list nat;
  dzm : nat -> quad R; dzs : nat -> quad R
}.

(* blm_dynamic.py:905-916 and 1001-1010: the loops of blm.py:401-412 and 477-486 *)
Definition choices (g : drng) : rng := mkrng (dch_m g) (dch_s g) (fun _ => 0) (fun _ => 0) (fun _ => 0).
Definition ddraw_movers (nk : nat) (pk1 : mat) (g : drng) : list (nat * nat) -> list nat :=
  draw_movers nk pk1 (choices g).
Definition ddraw_stayers (nk : nat) (pk0 : mat) (g : drng) : list nat -> list nat :=
  draw_stayers nk pk0 (choices g).

(* blm_dynamic.py:918-927 and 979-998: the wages of a mover of type l between firm
   types k1 and k2 *)
Definition mover_wages (p : dpar) (l k1 k2 : nat) (z : quad R) : quad R :=
  let Y1 := dA p T12 l k1 - R12 p * dA p T2ma l k1
            + sqrt (dS p T12 l k1 ^ 2 + R12 p ^ 2 * dS p T2ma l k1 ^ 2) * at1 z in
  let Y2 := dA p T2ma l k1 + dAb p T2mb k2
            + sqrt (dS p T2ma l k1 ^ 2 + dSb p T2mb k2 ^ 2) * at2 z in
  let Y1 := Y1 + R12 p * Y2 in
  let Y3 := dA p T3ma l k2 + dAb p T3mb k1 - R32m p * (dA p T2ma l k1 + dAb p T2mb k2)
            + sqrt (dS p T3ma l k2 ^ 2 + dSb p T3mb k1 ^ 2
                    + R32m p ^ 2 * (dS p T2ma l k1 ^ 2 + dSb p T2mb k2 ^ 2)) * at3 z in
  let Y3 := Y3 + R32m p * Y2 in
  let Y4 := dA p T43 l k2 - R43 p * dA p T3ma l k2
            + sqrt (dS p T43 l k2 ^ 2 + R43 p ^ 2 * dS p T3ma l k2 ^ 2) * at4 z in
  let Y4 := Y4 + R43 p * Y3 in
  Q4 Y1 Y2 Y3 Y4.

(* blm_dynamic.py:1012-1021 and 1066-1085: the wages of a stayer *)
Definition stayer_wages (p : dpar) (l k : nat) (z : quad R) : quad R :=
  let Y1 := dA p T12 l k - R12 p * dA p T2ma l k
            + sqrt (dS p T12 l k ^ 2 + R12 p ^ 2 * dS p T2ma l k ^ 2) * at1 z in
  let Y2 := dA p T2s l k + sqrt (dS p T2s l k ^ 2) * at2 z in
  let Y1 := Y1 + R12 p * Y2 in
  let Y3 := dA p T3s l k - R32s p * dA p T2s l k
            + sqrt (dS p T3s l k ^ 2 + R32s p ^ 2 * dS p T2s l k ^ 2) * at3 z in
  let Y3 := Y3 + R32s p * Y2 in
  let Y4 := dA p T43 l k - R43 p * dA p T3ma l k
            + sqrt (dS p T43 l k ^ 2 + R43 p ^ 2 * dS p T3ma l k ^ 2) * at4 z in
  let Y4 := Y4 + R43 p * Y3 in
  Q4 Y1 Y2 Y3 Y4.

(* _simulate_types_wages, blm_dynamic.py:806-1087.  [realloc] is None for
   reallocate=False, else (reallocate_jointly, reallocate_period); lines 847-903 are
   lines 342-399 of blm.py.  Firm types below nk only: others raise. *)
Definition dsimulate (nl nk : nat) (p : dpar) (realloc : option (bool * rperiod)) (g : drng)
    (gj : list (nat * nat)) (gs : list nat)
  : res (list (quad R) * list (quad R) * list nat * list nat) :=
  ' (q1, q0) <- (match realloc with
                 | None => Ok (dpk1 p, dpk0 p)
                 | Some (jointly, per) =>
                     reallocate nl nk jointly per (dNNm p) (dNNs p) (dpk1 p) (dpk0 p)
                 end) ;;
  if negb (forallb (fun q => Nat.ltb (fst q) nk && Nat.ltb (snd q) nk) gj
           && forallb (fun k => Nat.ltb k nk) gs) then Err IndexError else
  let Lm := ddraw_movers nk q1 g gj in
  let Ls := ddraw_stayers nk q0 g gs in
  let yj := map (fun r => let q := nth r gj (0, 0)%nat in
                          mover_wages p (nth r Lm 0%nat) (fst q) (snd q) (dzm g r))
                (range (length gj)) in
  let ys := map (fun r => stayer_wages p (nth r Ls 0%nat) (nth r gs 0%nat) (dzs g r))
                (range (length gs)) in
  Ok (yj, ys, Lm, Ls).

(* ---- data frames ---- *)

(* Worker id, firm ids, firm types and wages. *)
Record erow : Type := mkerow { e_i : nat; e_j : quad nat; e_g : quad nat; e_y : quad R }.

Definition set_y (y : quad R) (f : erow) : erow := mkerow (e_i f) (e_j f) (e_g f) y.
Definition set_g (a b c d : nat) (f : erow) : erow := mkerow (e_i f) (e_j f) (Q4 a b c d) (e_y f).
Definition set_j14 (a b : nat) (f : erow) : erow :=
  mkerow (e_i f) (Q4 a (at2 (e_j f)) (at3 (e_j f)) b) (e_g f) (e_y f).
Definition set_j4 (b : nat) (f : erow) : erow :=
  mkerow (e_i f) (Q4 (at1 (e_j f)) (at2 (e_j f)) (at3 (e_j f)) b) (e_g f) (e_y f).
Definition set_i (a : nat) (f : erow) : erow := mkerow a (e_j f) (e_g f) (e_y f).

(* jdata.loc[:, ['g1', 'g4']] and sdata.loc[:, 'g1'] *)
Definition g14 (f : erow) : nat * nat := (at1 (e_g f), at4 (e_g f)).
Definition g1_of (f : erow) : nat := at1 (e_g f).
Definition j14 (f : erow) : nat * nat := (at1 (e_j f), at4 (e_j f)).
Definition j1_of (f : erow) : nat := at1 (e_j f).

Section DBoot.
Variables nl nk : nat.
Variable realloc : option (bool * rperiod).
(* The t-th run of the estimator (0: on the data as given), and of the clustering
   (the type of each firm). *)
Variable estimator : nat -> list erow -> list erow -> res dpar.
Variable cluster : nat -> list erow -> list erow -> res (nat -> nat).
Variable gen : nat -> drng.

(* ---- DynamicBLMBootstrap.fit, method='parametric', blm_dynamic.py:4195-4246 ---- *)

(* One round of the loop: the frames it leaves and the estimated model. *)
Definition dboot_round (p : dpar) (gj : list (nat * nat)) (gs : list nat) (t : nat)
    (jd sd : list erow) : (list erow * list erow) * res dpar :=
  match dsimulate nl nk p realloc (gen t) gj gs with
  | Err e => ((jd, sd), Err e)
  | Ok (yj, ys, _, _) =>
      let jd := map2 set_y yj jd in
      let sd := map2 set_y ys sd in
      match cluster t jd sd with
      | Err e => ((jd, sd), Err e)
      | Ok c =>
          let jd := map (fun f => let a := c (at1 (e_j f)) in let b := c (at4 (e_j f)) in
                                  set_g a a b b f) jd in
          let sd := map (fun f => let a := c (at1 (e_j f)) in set_g a a a a f) sd in
          ((jd, sd), estimator (S t) jd sd)
      end
  end.

Fixpoint dboot_loop (p : dpar) (gj : list (nat * nat)) (gs : list nat) (n t : nat)
    (jd sd : list erow) (models : list dpar) : (list erow * list erow) * res (list dpar) :=
  match n with
  | 0%nat => ((jd, sd), Ok models)
  | S n' =>
      match dboot_round p gj gs t jd sd with
      | (fr, Err e) => (fr, Err e)
      | ((jd, sd), Ok m) => dboot_loop p gj gs n' (S t) jd sd (models ++ [m])
      end
  end.

Definition dboot_fit (model : option dpar) (n_samples : nat) (jd sd : list erow)
  : (list erow * list erow) * res (list dpar) :=
  let yj := map e_y jd in
  let ys := map e_y sd in
  let gj := map g14 jd in
  let gs := map g1_of sd in
  match (match model with Some p => Ok p | None => estimator 0 jd sd end) with
  | Err e => ((jd, sd), Err e)
  | Ok p =>
      match dboot_loop p gj gs n_samples 0 jd sd [] with
      | (fr, Err e) => (fr, Err e)
      | ((jd, sd), Ok models) =>
          let jd := map2 set_y yj jd in
          let sd := map2 set_y ys sd in
          let jd := map2 (fun q => set_g (fst q) (fst q) (snd q) (snd q)) gj jd in
          let sd := map2 (fun k => set_g k k k k) gs sd in
          ((jd, sd), Ok models)
      end
  end.

(* ---- DynamicBLMVarianceDecomposition.fit, blm_dynamic.py:4455-4534 ---- *)

(* FEEstimator on the long data: the values of its summary. *)
Variable fe : nat -> list erow -> list erow -> res (list R).

Definition dvd_round (types_as_ids : bool) (p : dpar) (gj : list (nat * nat)) (gs : list nat)
    (t : nat) (jd sd : list erow) : (list erow * list erow) * res (list R) :=
  match dsimulate nl nk p realloc (gen t) gj gs with
  | Err e => ((jd, sd), Err e)
  | Ok (yj, ys, Lm, Ls) =>
      let jd := if types_as_ids then map2 set_i Lm jd else jd in
      let sd := if types_as_ids then map2 set_i Ls sd else sd in
      let jd := map2 set_y yj jd in
      let sd := map2 set_y ys sd in
      ((jd, sd), fe t jd sd)
  end.

Fixpoint dvd_loop (types_as_ids : bool) (p : dpar) (gj : list (nat * nat)) (gs : list nat)
    (n t : nat) (jd sd : list erow) (out : list (list R))
  : (list erow * list erow) * res (list (list R)) :=
  match n with
  | 0%nat => ((jd, sd), Ok out)
  | S n' =>
      match dvd_round types_as_ids p gj gs t jd sd with
      | (fr, Err e) => (fr, Err e)
      | ((jd, sd), Ok m) => dvd_loop types_as_ids p gj gs n' (S t) jd sd (out ++ [m])
      end
  end.

(* The frames it leaves and res[k][i], by sample.  The column t, added to data
   without one and dropped at the end, is left out.  Line 4514 assigns
   sdata.loc[:, 'j4'] twice. *)
Definition dvd_fit (clusters_as_ids types_as_ids : bool) (model : option dpar) (n_samples : nat)
    (jd sd : list erow) : (list erow * list erow) * res (list (list R)) :=
  let yj := map e_y jd in
  let ys := map e_y sd in
  let gj := map g14 jd in
  let gs := map g1_of sd in
  let jj := map j14 jd in
  let js := map j1_of sd in
  let ij := map e_i jd in
  let is_ := map e_i sd in
  let jd := if clusters_as_ids then map2 (fun q => set_j14 (fst q) (snd q)) gj jd else jd in
  let sd := if clusters_as_ids then map2 (fun k => set_j14 k k) gs sd else sd in
  match (match model with Some p => Ok p | None => estimator 0 jd sd end) with
  | Err e => ((jd, sd), Err e)
  | Ok p =>
      match dvd_loop types_as_ids p gj gs n_samples 0 jd sd [] with
      | (fr, Err e) => (fr, Err e)
      | ((jd, sd), Ok out) =>
          let jd := map2 set_y yj jd in
          let sd := map2 set_y ys sd in
          let jd := if clusters_as_ids then map2 (fun q => set_j14 (fst q) (snd q)) jj jd else jd in
          let sd := if clusters_as_ids then map2 set_j4 js (map2 set_j4 js sd) else sd in
          let jd := if types_as_ids then map2 set_i ij jd else jd in
          let sd := if types_as_ids then map2 set_i is_ sd else sd in
          match out with
          | [] => ((jd, sd), Err IndexError)          (* res_lst[0] *)
          | _ => ((jd, sd), Ok out)
          end
      end
  end.
End DBoot.
