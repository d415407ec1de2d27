(* Model of _fit_movers of pytwoway/blm.py (1284-1948) for a model without
   control variables: the EM loop with the updates of pk1, A and S. *)
From Verif Require Import Base UtilModel ConsModel BLMModel BLMEMModel BLMRunModel.
Local Open Scope res_scope.
Local Open Scope R_scope.

(* The parameters read by _fit_movers besides update_a, update_s, update_pk1 and
   cons_a_all; None constraints are []. *)
Record settings : Type := mkset {
  n_iters : nat; threshold : R; d_prior : R; s_lower_bound : R;
  force_min_firm_type : bool;
  cons_a : list cobj; cons_s : list cobj; cons_s_all : list cobj
}.

Definition opt_list {A} (o : option (list A)) : list A := match o with Some l => l | None => [] end.

(* _gen_constraints, blm.py:718-750, without control variables: cons_a and
   cons_s *)
Definition gen_constraints (nl nk : nat) (c : cfg settings) : res (qp * qp) :=
  qs <- add_constraints [CBoundedBelow (s_lower_bound (other c)) 2] (qp_init nl nk) ;;
  qa <- add_constraints (cons_a (other c)) (qp_init nl nk) ;;
  qa <- add_constraints (opt_list (cons_a_all c)) qa ;;
  qs <- add_constraints (cons_s (other c)) qs ;;
  qs <- add_constraints (cons_s_all (other c)) qs ;;
  Ok (qa, qs).

(* What cons.solve(P, q, solver='quadprog') leaves in cons.res, or the ValueError
   it raises (constraints.py:166-197).  Other exceptions of the solver are not
   modelled. *)
Inductive qpres : Type :=
| QSol (x : list R)
| QNone
| QValueError.

(* arr[l_index: r_index] = v for a slice of nk entries: v of length nk, or of
   length 1 (repeated); other lengths raise ValueError. *)
Definition slice_assign (nk : nat) (v : list R) : res (list R) :=
  if (length v =? nk)%nat then Ok v
  else match v with [a] => Ok (map (fun _ => a) (range nk)) | _ => Err ValueError end.

(* For each l, arr[l * nk: (l + 1) * nk] = np.bincount(g, weights=ws l), blm.py:1520
   and similar: one half (period) of the array. *)
Definition group_sums (nl nk : nat) (g : list nat) (ws : nat -> list R) : res (list R) :=
  bs <- traverse (fun l => slice_assign nk (bincount g (ws l))) (range nl) ;;
  Ok (concat bs).

(* weights_1 and weights_2, blm.py:1512-1513 *)
Definition wts1 (p : par) (data : list obs) (qi : list (list R)) (l : nat) : list R :=
  map2 (fun o row => w1 o * nth l row 0 / (S1 p l (g1 o) ^ 2)) data qi.
Definition wts2 (p : par) (data : list obs) (qi : list (list R)) (l : nat) : list R :=
  map2 (fun o row => w2 o * nth l row 0 / (S2 p l (g2 o) ^ 2)) data qi.

(* An array of both periods. *)
Definition both (nl nk : nat) (data : list obs) (ws1 ws2 : nat -> list R) : res (list R) :=
  a <- group_sums nl nk (map g1 data) ws1 ;;
  b <- group_sums nl nk (map g2 data) ws2 ;;
  Ok (a ++ b).

(* XwX (its diagonal), XwY and XwS, blm.py:1504-1540 and 1762-1788 *)
Definition XwX (nl nk : nat) (p : par) (data : list obs) (qi : list (list R)) : res (list R) :=
  both nl nk data (wts1 p data qi) (wts2 p data qi).
Definition XwY (nl nk : nat) (p : par) (data : list obs) (qi : list (list R)) : res (list R) :=
  both nl nk data
    (fun l => map2 (fun o w => w * y1 o) data (wts1 p data qi l))
    (fun l => map2 (fun o w => w * y2 o) data (wts2 p data qi l)).
(* weights of p (the parameters before the A update), residuals of A1 and A2 *)
Definition XwS (nl nk : nat) (p : par) (B1 B2 : mat) (data : list obs) (qi : list (list R))
  : res (list R) :=
  both nl nk data
    (fun l => map2 (fun o w => w * (y1 o - B1 l (g1 o)) ^ 2) data (wts1 p data qi l))
    (fun l => map2 (fun o w => w * (y2 o - B2 l (g2 o)) ^ 2) data (wts2 p data qi l)).

(* np.split(res, 2) and np.reshape(_, (nl, nk)) *)
Definition half1 (nk : nat) (x : list R) : mat := fun l k => nth (l * nk + k) x 0.
Definition half2 (nl nk : nat) (x : list R) : mat := fun l k => nth (nl * nk + l * nk + k) x 0.

Definition set_A (B1 B2 : mat) (p : par) : par :=
  mkpar B1 B2 (S1 p) (S2 p) (A1_cat p) (A2_cat p) (S1_cat p) (S2_cat p)
    (A1_cts p) (A2_cts p) (S1_cts p) (S2_cts p) (pk1 p) (pk0 p) (NNm p) (NNs p).
Definition set_S (B1 B2 : mat) (p : par) : par :=
  mkpar (A1 p) (A2 p) B1 B2 (A1_cat p) (A2_cat p) (S1_cat p) (S2_cat p)
    (A1_cts p) (A2_cts p) (S1_cts p) (S2_cts p) (pk1 p) (pk0 p) (NNm p) (NNs p).
Definition set_pk1 (pk : mat) (p : par) : par :=
  mkpar (A1 p) (A2 p) (S1 p) (S2 p) (A1_cat p) (A2_cat p) (S1_cat p) (S2_cat p)
    (A1_cts p) (A2_cts p) (S1_cts p) (S2_cts p) pk (pk0 p) (NNm p) (NNs p).
Definition set_NNm (NN : mat) (p : par) : par :=
  mkpar (A1 p) (A2 p) (S1 p) (S2 p) (A1_cat p) (A2_cat p) (S1_cat p) (S2_cat p)
    (A1_cts p) (A2_cts p) (S1_cts p) (S2_cts p) (pk1 p) (pk0 p) NN (NNs p).

Section Fit.
(* argsort, and the quadratic programming solver: the diagonal of P, q and the
   constraints. *)
Variable argsort : list R -> list nat.
Variable qp_solver : list R -> list R -> problem -> qpres.
Variable pp : period.
Variables nl nk : nat.

Definition solve_qp (P q : list R) (s : qp) : qpres :=
  qp_solver P q (snd (solve false (length P) s)).

(* The M-step, blm.py:1465-1899, without control variables.  weights1 and
   weights2 exist only with update_s; the del at 1895 needs them. *)
Definition update_A (c : cfg settings) (qa : qp) (data : list obs) (qi : list (list R))
    (P : list R) (p : par) : res par :=
  if do_a c
  then q <- XwY nl nk p data qi ;;
       match solve_qp P (map Ropp q) qa with
       | QSol x => Ok (set_A (half1 nk x) (half2 nl nk x) p)
       | _ => Ok p
       end
  else Ok p.
Definition update_S (c : cfg settings) (qs : qp) (data : list obs) (qi : list (list R))
    (P : list R) (p pA : par) : res par :=
  if do_s c
  then q <- XwS nl nk p (A1 pA) (A2 pA) data qi ;;
       match solve_qp P (map Ropp q) qs with
       | QSol x => Ok (set_S (fun l k => sqrt (half1 nk x l k))
                             (fun l k => sqrt (half2 nl nk x l k)) pA)
       | _ => Ok pA
       end
  else Err UnboundLocalError.
Definition m_step (c : cfg settings) (cons : qp * qp) (data : list obs)
    (qi : list (list R)) (p : par) : res par :=
  if do_a c || do_s c
  then P <- XwX nl nk p data qi ;;
       pA <- update_A c (fst cons) data qi P p ;;
       update_S c (snd cons) data qi P p pA
  else Ok p.

(* The update of pk1 and the M-step of an iteration, blm.py:1453-1899.  After the
   first iteration the constraints are generated anew if A is updated (1569);
   without control variables they do not depend on the lowest firm type. *)
Definition em_update (c : cfg settings) (iter : nat) (cons : qp * qp) (data : list obs)
    (qi : list (list R)) (p : par) : res (par * (qp * qp)) :=
  p <- (if do_pk1 c
        then pk <- update_pk1 nl nk (d_prior (other c)) data qi ;; Ok (set_pk1 pk p)
        else Ok p) ;;
  cons <- (if do_a c && (0 <? iter)%nat
           then gen_constraints nl nk c else Ok cons) ;;
  p <- m_step c cons data qi p ;;
  Ok (p, cons).

(* lik1 of an iteration, blm.py:1417-1424 *)
Definition iter_lik (c : cfg settings) (iter : nat) (p : par) (m : R) : R :=
  if (0 <? iter)%nat && do_pk1 c
  then m + lik_prior (d_prior (other c)) (nk * nk) nl (pk1 p) else m.

(* abs(lik1 - prev_lik) < threshold, prev_lik starts at inf (None) *)
Definition converged (th : R) (lik : R) (prev : option R) : bool :=
  match prev with
  | None => false
  | Some b => if Rlt_dec (Rabs (lik - b)) th then true else false
  end.

(* The loop, blm.py:1389-1899.  Without categorical controls there is no check
   for cycles of the lowest firm type (1441).  The lowest firm type is
   recomputed unless it is forced. *)
Fixpoint movers_loop (n : nat) (c : cfg settings) (data : list obs) (iter : nat)
    (cons : qp * qp) (p : par) (prev : option R) (prev_min : nat)
    (lik : option R) (liks : list R) : res (par * option R * list R) :=
  match n with
  | O => Ok (p, lik, liks)
  | S n' =>
      lp <- lp_movers nl nk p data ;;
      m <- mean_lse lp ;;
      qi <- posteriors lp ;;
      let lik1 := iter_lik c iter p m in
      let liks := liks ++ [lik1] in
      let min := if force_min_firm_type (other c) then prev_min
                 else min_firm_type argsort pp nl nk (A1 p) (A2 p) in
      if converged (threshold (other c)) lik1 prev && (min =? prev_min)%nat
      then Ok (p, Some lik1, liks)
      else
        ' (p, cons) <- em_update c iter cons data qi p ;;
        movers_loop n' c data (S iter) cons p (Some lik1) min (Some lik1) liks
  end.

(* NNm, blm.py:1948: entry (a, b) counts the movers from type a to type b.
   (unstack leaves out types without movers; all nk types are kept here.) *)
Definition mover_counts (data : list obs) : mat :=
  fun a b => INR (length (filter (fun o => (g1 o =? a) && (g2 o =? b))%nat data)).

(* _fit_movers: the parameters, lik1 and liks1 stored in the object. *)
Definition fit_movers_ (c : cfg settings) (compute_NNm : bool) (min : nat) (data : list obs)
    (p : par) : res (par * option R * list R) :=
  let p := sort_parameters argsort pp nl nk false false p in
  let min := if force_min_firm_type (other c) then min
             else min_firm_type argsort pp nl nk (A1 p) (A2 p) in
  cons <- gen_constraints nl nk c ;;
  ' (p, lik, liks) <- movers_loop (n_iters (other c)) c data 0 cons p None min None [] ;;
  let p := sort_parameters argsort pp nl nk false false p in
  let p := if compute_NNm then set_NNm (mover_counts data) p else p in
  Ok (p, lik, liks).

(* fit_movers without force_min_firm_type (1277-1282) as a method of the object
   of BLMRunModel: on an exception only pk0 has been changed (1377). *)
Record state : Type := mkstate { st_par : par; st_lik : option R; st_liks : list R }.
Definition set_pk0 (pk : mat) (p : par) : par :=
  mkpar (A1 p) (A2 p) (S1 p) (S2 p) (A1_cat p) (A2_cat p) (S1_cat p) (S2_cat p)
    (A1_cts p) (A2_cts p) (S1_cts p) (S2_cts p) (pk1 p) pk (NNm p) (NNs p).
Definition fit_movers_obj (data : list obs) (compute_NNm : bool)
    (s : obj settings state) : obj settings state * option exc :=
  let p := st_par (rest s) in
  match fit_movers_ (params s) compute_NNm 0 data p with
  | Ok (p', lik, liks) => (mkobj (params s) (mkstate p' lik liks), None)
  | Err e => (mkobj (params s)
                (mkstate (set_pk0 (pk0 (sort_parameters argsort pp nl nk false false p)) p)
                         (st_lik (rest s)) (st_liks (rest s))), Some e)
  end.
End Fit.
