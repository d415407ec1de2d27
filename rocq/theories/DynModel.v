(* The variance fit on stayers of the dynamic BLM estimator: _var_stayers,
   pytwoway/blm_dynamic.py, lines 629-782.  rho_init (784-804) minimises the
   reported eps_sq over the three rhos with SciPy's BFGS and is not modelled. *)
From Verif Require Import Base.
Local Open Scope R_scope.

(* A row of sdata: firm type g1 and the wages y1, ..., y4 (dy 0, ..., dy 3). *)
Record drow := mkdrow { dg : nat; dy : nat -> R }.

(* The rows of one group of sdata.groupby('g1') (651). *)
Definition group (sdata : list drow) (g : nat) : list drow := filter (fun r => dg r =? g)%nat sdata.

(* df[a].cov(df[b], ddof=0); .var(ddof=0) is the case a = b (655-656). *)
Definition mean0 (f : drow -> R) (l : list drow) : R := rsum (map f l) / INR (length l).
Definition cov0 (f h : drow -> R) (l : list drow) : R :=
  rsum (map (fun r => (f r - mean0 f l) * (h r - mean0 h l)) l) / INR (length l).

(* The order of YY_lst: four variances, then the covariances with t2 > t1 (658-666). *)
Definition period_pairs : list (nat * nat) :=
  map (fun t => (t, t)) (range 4) ++
  flat_map (fun t1 => map (fun t2 => (t1, t2)) (filter (fun t2 => t1 <? t2)%nat (range 4))) (range 4).

Definition YY (sdata : list drow) (e g : nat) : R :=
  let '(t1, t2) := nth e period_pairs (0, 0)%nat in
  cov0 (fun r => dy r t1) (fun r => dy r t2) (group sdata g).

(* Assignments XX_lst[e][g1, Gs + g1] = v in program order; a later assignment to
   the same cell replaces an earlier one; the cells start at 0 (669). *)
Definition assigned (l : list (nat * R)) (e : nat) : R :=
  fold_left (fun v p => if (fst p =? e)%nat then snd p else v) l 0.

(* The five blocks of columns (671-710). *)
Definition block (rho_1 rho_4 rho_t : R) (b : nat) : list (nat * R) :=
  match b with
  | 0%nat => map (fun e => (e, 1)) (range 10)
  | 1%nat => [(0%nat, 1)]
  | 2%nat => [(0%nat, rho_1 ^ 2);
              (1%nat, 1);
              (2%nat, rho_t ^ 2);
              (3%nat, rho_4 ^ 2 + rho_t ^ 2);
              (4%nat, rho_1);
              (5%nat, rho_1 * rho_t);
              (6%nat, rho_1 * rho_t * rho_4);
              (7%nat, rho_t);
              (8%nat, rho_t * rho_4);
              (0%nat, rho_t ^ 2 * rho_4)]
  | 3%nat => [(2%nat, 1); (3%nat, rho_4 ^ 2); (9%nat, rho_4)]
  | 4%nat => [(3%nat, 1)]
  | _ => []
  end.

(* XX_lst[e][g, c] for c < 5 nk: column c is column c mod nk of block c / nk. *)
Definition XX (rho_1 rho_4 rho_t : R) (nk e g c : nat) : R :=
  if (c mod nk =? g)%nat then assigned (block rho_1 rho_4 rho_t (c / nk)) e else 0.

(* The stacked system in levels (744-751): equation e of group g is row e nk + g. *)
Definition XXs rho_1 rho_4 rho_t nk (r c : nat) : R := XX rho_1 rho_4 rho_t nk (r / nk) (r mod nk) c.
Definition YYs sdata nk (r : nat) : R := YY sdata (r / nk) (r mod nk).

(* np.repeat(W, k): every element k times in a row. *)
Definition np_repeat (W : nat -> R) (k r : nat) : R := W (r / k)%nat.
(* W = groupby_g1['i'].size() (652). *)
Definition W (sdata : list drow) (g : nat) : R := INR (length (group sdata g)).

(* The system in differences (714-742): D, np.kron(D, D) and np.kron(_, np.eye(8)). *)
Definition D (i j : nat) : R := if (j =? i)%nat then -1 else if (j =? S i)%nat then 1 else 0.
Definition DD (r c : nat) : R :=
  if (r mod 8 =? c mod 8)%nat
  then D (r / 8 / 3) (c / 8 / 4) * D ((r / 8) mod 3) ((c / 8) mod 4) else 0.
Definition rho_order : list nat := [0; 4; 5; 6; 4; 1; 7; 8; 5; 7; 2; 9; 6; 8; 9; 3]%nat.
Definition XXo rho_1 rho_4 rho_t nk (r c : nat) : R :=
  XX rho_1 rho_4 rho_t nk (nth (r / nk) rho_order 0%nat) (r mod nk) c.
Definition YYo sdata nk (r : nat) : R := YY sdata (nth (r / nk) rho_order 0%nat) (r mod nk).

(* A linear system with weights: numbers of rows and columns, X, Y, weights. *)
Record system := mksys { srows : nat; scols : nat; sX : nat -> nat -> R; sY : nat -> R; sw : nat -> R }.

(* DD has 9 * 8 rows and 16 * 8 columns; DD @ XX needs 16 nk = 128 (738). *)
Definition system_diff rho_1 rho_4 rho_t nk sdata : res system :=
  if (16 * nk =? 128)%nat then
    Ok (mksys 72 (5 * nk - 10)
      (fun r c => sumn 128 (fun k => DD r k * XXo rho_1 rho_4 rho_t nk k (c + 10)))
      (fun r => sumn 128 (fun k => DD r k * YYo sdata nk k))
      (np_repeat (W sdata) 9))
  else Err ValueError.

Definition system_levels rho_1 rho_4 rho_t nk sdata (weights : option (nat -> R)) : res system :=
  Ok (mksys (10 * nk) (5 * nk) (XXs rho_1 rho_4 rho_t nk) (YYs sdata nk)
    (match weights with None => np_repeat (W sdata) 10 | Some w => w end)).

Definition XXb (s : system) (b : nat -> R) (r : nat) : R := sumn (scols s) (fun c => sX s r c * b c).
Definition eps (s : system) (b : nat -> R) (r : nat) : R := sY s r - XXb s b r.
Definition eps_sq (s : system) (b : nat -> R) : R := sumn (srows s) (fun r => eps s b r * sw s r * eps s b r).

(* The quadratic program handed to quadprog with the constraint b >= 0 (753-757). *)
Definition qpP (s : system) (c c' : nat) : R := sumn (srows s) (fun r => sw s r * sX s r c * sX s r c').
Definition qpq (s : system) (c : nat) : R := - sumn (srows s) (fun r => sw s r * sX s r c * sY s r).

Record var_result := mkvr { o_beta : nat -> R; o_BE_sd : nat -> R; o_nu_sd : nat -> nat -> R; o_eps_sq : R }.

Section Fit.
(* cons_lm.solve: number of variables, P, q; None when the solver gave up. *)
Variable quadprog : nat -> (nat -> nat -> R) -> (nat -> R) -> option (nat -> R).

(* 753-782; None stands for the result {'eps_sq': np.inf} (761).  Only the part of the
   dictionary that is used in the properties is kept; nu_sd t is nu(t+1)_sd.
   The group sizes must cover all nk groups, otherwise the shapes of weights, YY and
   XX disagree. *)
Definition var_stayers rho_1 rho_4 rho_t nk sdata weights (diff : bool) : res (option var_result) :=
  if forallb (fun g => negb (length (group sdata g) =? 0)%nat) (range nk) then
    bind (if diff then system_diff rho_1 rho_4 rho_t nk sdata
          else system_levels rho_1 rho_4 rho_t nk sdata weights) (fun s =>
      Ok (match quadprog (scols s) (qpP s) (qpq s) with
          | None => None
          | Some b =>
              let full := if diff then (fun c => if (c <? 10)%nat then 0 else b (c - 10)%nat) else b in
              Some (mkvr b (fun g => sqrt (Rmax (full g) 0))
                (fun t g => sqrt (Rmax (full ((t + 1) * nk + g)%nat) 0))
                (eps_sq s b))
          end))
  else Err ValueError.
End Fit.
