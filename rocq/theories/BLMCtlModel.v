(* Model of fit_movers and _fit_movers of pytwoway/blm.py (1226-1948) with control
   variables: the E-step with its running sums, the updates of all effects and
   standard deviations, the check for cycles of the lowest firm type, and what is
   stored.  The two periods, which the code spells out, are t = false and t = true.

   Columns are numbered in the order of cat_cols and cts_cols.  The array of a column
   has the shape that worker_type_interaction asks for (blm.py:624-672): it is Inter
   (XInter) or Shared (XShared).  return_qi=False. *)
From Verif Require Import Base UtilModel ConsModel BLMModel BLMEMModel BLMRunModel BLMFitModel BLMGenModel.
Local Open Scope res_scope.
Local Open Scope R_scope.

(* What _fit_movers reads of params besides the entries of gset. *)
Record cset : Type := mkcset {
  cs_a : bool; cs_s : bool; cs_pk1 : bool;              (* update_a, update_s, update_pk1 *)
  cs_iters : nat; cs_threshold : R; cs_prior : R;       (* n_iters_movers, threshold_movers, d_prior_movers *)
  cs_start : nat; cs_obs : nat;                         (* start_cycle_check_threshold, cycle_check_n_obs *)
  cs_gen : gset
}.
(* self.params['force_min_firm_type'] = True, blm.py:1451 *)
Definition forced (s : gset) : gset :=
  mkgset (p_a s) (p_a_all s) (p_s s) (p_s_all s) (p_lb s) (p_md_worker s) (p_md_firm s) (p_normalize s)
         true (p_force_cons s) (p_primary s).
Definition cforced (c : cset) : cset :=
  mkcset (cs_a c) (cs_s c) (cs_pk1 c) (cs_iters c) (cs_threshold c) (cs_prior c) (cs_start c) (cs_obs c)
         (forced (cs_gen c)).

(* ---- the two periods ---- *)
Definition yp (t : bool) : obs -> R := if t then y2 else y1.
Definition gp (t : bool) : obs -> nat := if t then g2 else g1.
Definition wp (t : bool) : obs -> R := if t then w2 else w1.
Definition cp (t : bool) : obs -> list nat := if t then c2 else c1.
Definition xp (t : bool) : obs -> list R := if t then x2 else x1.
Definition Ap (t : bool) : par -> mat := if t then A2 else A1.
Definition Sp (t : bool) : par -> mat := if t then S2 else S1.
Definition Acatp (t : bool) : par -> list catpar := if t then A2_cat else A1_cat.
Definition Scatp (t : bool) : par -> list catpar := if t then S2_cat else S1_cat.
Definition Actsp (t : bool) : par -> list ctspar := if t then A2_cts else A1_cts.
Definition Sctsp (t : bool) : par -> list ctspar := if t then S2_cts else S1_cts.

(* Column j: its array, the category and the value of a row. *)
Definition cat_of (j : nat) (cs : list catpar) : catpar := nth j cs (Shared (fun _ => 0)).
Definition cts_of (j : nat) (cs : list ctspar) : ctspar := nth j cs (XShared 0).
Definition code (t : bool) (j : nat) (o : obs) : nat := nth j (cp t o) 0%nat.
Definition xval (t : bool) (j : nat) (o : obs) : R := nth j (xp t o) 0.
(* arr[l, n] or arr[n]; arr[l] or arr *)
Definition cat_read (l n : nat) (c : catpar) : R := match c with Inter m => m l n | Shared v => v n end.
Definition cts_read (l : nat) (c : ctspar) : R := match c with XInter v => v l | XShared a => a end.

(* replace entry j of a list *)
Definition lput {A} (j : nat) (v : A) (l : list A) : list A := firstn j l ++ v :: skipn (S j) l.

Definition set_A_cat (j : nat) (a1 a2 : catpar) (p : par) : par :=
  mkpar (A1 p) (A2 p) (S1 p) (S2 p) (lput j a1 (A1_cat p)) (lput j a2 (A2_cat p)) (S1_cat p) (S2_cat p)
    (A1_cts p) (A2_cts p) (S1_cts p) (S2_cts p) (pk1 p) (pk0 p) (NNm p) (NNs p).
Definition set_S_cat (j : nat) (a1 a2 : catpar) (p : par) : par :=
  mkpar (A1 p) (A2 p) (S1 p) (S2 p) (A1_cat p) (A2_cat p) (lput j a1 (S1_cat p)) (lput j a2 (S2_cat p))
    (A1_cts p) (A2_cts p) (S1_cts p) (S2_cts p) (pk1 p) (pk0 p) (NNm p) (NNs p).
Definition set_A_cts (j : nat) (a1 a2 : ctspar) (p : par) : par :=
  mkpar (A1 p) (A2 p) (S1 p) (S2 p) (A1_cat p) (A2_cat p) (S1_cat p) (S2_cat p)
    (lput j a1 (A1_cts p)) (lput j a2 (A2_cts p)) (S1_cts p) (S2_cts p) (pk1 p) (pk0 p) (NNm p) (NNs p).
Definition set_S_cts (j : nat) (a1 a2 : ctspar) (p : par) : par :=
  mkpar (A1 p) (A2 p) (S1 p) (S2 p) (A1_cat p) (A2_cat p) (S1_cat p) (S2_cat p)
    (A1_cts p) (A2_cts p) (lput j a1 (S1_cts p)) (lput j a2 (S2_cts p)) (pk1 p) (pk0 p) (NNm p) (NNs p).

Section Fit.
Variable argsort : list R -> list nat.
Variable qp_solver : list R -> list R -> problem -> qpres.
Variables nl nk : nat.
Variables cats ctss : list gcol.
Variable data : list obs.

(* any_non_worker_type_interactions, blm.py:603 *)
Definition any_non : bool := existsb (fun c => negb (gc_wi c)) (cats ++ ctss).

(* A1_sum and A2_sum of the first iteration (blm.py:1391-1393): _sum_by_non_nl *)
Definition start_sums (p : par) (t : bool) : list R :=
  map (fun o => sum_non_nl (Acatp t p) (Actsp t p) (cp t o) (xp t o)) data.

(* The E-step, blm.py:1386-1411.  A1_sum and A2_sum (As) are carried from iteration to
   iteration, the variances are summed anew. *)
Definition lp_part (p : par) (As : bool -> list R) (t : bool) (l : nat) : res (list R) :=
  if any_controls p
  then traverse (fun oa =>
         let '(o, a) := oa in
         lognormpdf (yp t o)
           (Ap t p l (gp t o) + a + sum_nl l (Acatp t p) (Actsp t p) (cp t o) (xp t o))
           None
           (Some (Sp t p l (gp t o) ^ 2 + sumsq_non_nl (Scatp t p) (Sctsp t p) (cp t o)
              + sumsq_nl l (Scatp t p) (Sctsp t p) (cp t o)))) (combine data (As t))
  else fast_lognormpdf (map (yp t) data) (map (Ap t p l) (range nk)) (map (Sp t p l) (range nk))
         (map (gp t) data).
Definition lp_row (p : par) (As : bool -> list R) (l : nat) : res (list R) :=
  lp1 <- lp_part p As false l ;;
  lp2 <- lp_part p As true l ;;
  Ok (map2 (fun o lps => ln (pk1 p (KK nk o) l) + w1 o * fst lps + w2 o * snd lps)
        data (combine lp1 lp2)).
Definition e_step (p : par) (As : bool -> list R) : res (list (list R)) :=
  cols <- traverse (lp_row p As) (range nl) ;;
  Ok (rows_of (length data) cols).

(* An array of both periods: for each l, arr[l * n: (l + 1) * n] = np.bincount(...). *)
Definition both_cols (n : nat) (key : bool -> obs -> nat) (ws : bool -> nat -> list R) : res (list R) :=
  a <- group_sums nl n (map (key false) data) (ws false) ;;
  b <- group_sums nl n (map (key true) data) (ws true) ;;
  Ok (a ++ b).

(* weights_1 and weights_2, blm.py:1512-1513, 1613-1614, and Xw1_cts_l, Xw2_cts_l,
   1699-1700 *)
Definition wts (p : par) (qi : list (list R)) (t : bool) (l : nat) : list R :=
  map2 (fun o row => wp t o * nth l row 0 / (Sp t p l (gp t o) ^ 2)) data qi.
Definition wts_cat (j : nat) (p : par) (qi : list (list R)) (t : bool) (l : nat) : list R :=
  map2 (fun o row => wp t o * nth l row 0 / (cat_read l (code t j o) (cat_of j (Scatp t p)) ^ 2)) data qi.
Definition xw_cts (j : nat) (p : par) (qi : list (list R)) (t : bool) (l : nat) : list R :=
  map2 (fun o row => xval t j o * (wp t o * nth l row 0 / (cts_read l (cts_of j (Sctsp t p)) ^ 2))) data qi.
Definition dot (a b : list R) : R := rsum (map2 Rmult a b).
(* XwX_cts[col][l], XwX_cts[col][l + nl], and similar *)
Definition both_cts (f : bool -> nat -> R) : list R := map (f false) (range nl) ++ map (f true) (range nl).

(* Y_adj - A_sum_l, the wages net of the effects of control variables; [own] is what is
   added back for the column in question (1628-1631, 1714-1716), [A] the firm effects. *)
Definition net (p : par) (ya : bool -> list R) (own : bool -> nat -> obs -> R) (A : bool -> nat -> obs -> R)
    (t : bool) (l : nat) : list R :=
  map2 (fun o y => y - (sum_nl l (Acatp t p) (Actsp t p) (cp t o) (xp t o) - own t l o) - A t l o)
       data (ya t).
Definition none (t : bool) (l : nat) (o : obs) : R := 0.
Definition firm (p : par) (t : bool) (l : nat) (o : obs) : R := Ap t p l (gp t o).
(* Y1_adj += f, Y1_adj -= f *)
Definition yplus (f : bool -> obs -> R) (ya : bool -> list R) (t : bool) : list R :=
  map2 (fun o y => y + f t o) data (ya t).
Definition yminus (f : bool -> obs -> R) (ya : bool -> list R) (t : bool) : list R :=
  map2 (fun o y => y - f t o) data (ya t).

Definition solved (P q : list R) (s : qp) : qpres := qp_solver P q (snd (solve false (length P) s)).

Section Step.
Variable c : cset.
Variable qi : list (list R).

(* 1508-1588 *)
Definition firm_A (qa : qp) (p : par) (ya : bool -> list R) : res (par * list R) :=
  P <- both_cols nk gp (wts p qi) ;;
  p' <- (if cs_a c
         then q <- both_cols nk gp (fun t l => map2 Rmult (wts p qi t l) (net p ya none none t l)) ;;
              match solved P (map Ropp q) qa with
              | QSol x => Ok (set_A (half1 nk x) (half2 nl nk x) p)
              | _ => Ok p
              end
         else Ok p) ;;
  Ok (p', P).

(* 1590-1676, one column *)
Definition cat_A (j : nat) (col : gcol) (qa : qp) (st : par * (bool -> list R))
  : res (par * (bool -> list R) * list R) :=
  let '(p, ya) := st in
  let own (p : par) (t : bool) (o : obs) := cat_read 0 (code t j o) (cat_of j (Acatp t p)) in
  let ya := if gc_wi col then ya else yplus (own p) ya in
  P <- both_cols (gc_n col) (fun t => code t j) (wts_cat j p qi) ;;
  p' <- (if cs_a c
         then q <- both_cols (gc_n col) (fun t => code t j)
                     (fun t l => map2 Rmult (wts_cat j p qi t l)
                        (net p ya (fun t l o => if gc_wi col
                                                then cat_read l (code t j o) (cat_of j (Acatp t p)) else 0)
                             (firm p) t l)) ;;
              match solved P (map Ropp q) qa with
              | QSol x =>
                  Ok (if gc_wi col
                      then set_A_cat j (Inter (half1 (gc_n col) x)) (Inter (half2 nl (gc_n col) x)) p
                      else set_A_cat j (Shared (half1 (gc_n col) x 0%nat)) (Shared (half2 nl (gc_n col) x 0%nat)) p)
              | _ => Ok p
              end
         else Ok p) ;;
  let ya := if gc_wi col then ya else yminus (own p') ya in
  Ok (p', ya, P).

(* 1678-1753, one column *)
Definition cts_A (j : nat) (col : gcol) (qa : qp) (st : par * (bool -> list R))
  : res (par * (bool -> list R) * list R) :=
  let '(p, ya) := st in
  let own (p : par) (t : bool) (o : obs) := cts_read 0 (cts_of j (Actsp t p)) * xval t j o in
  let ya := if gc_wi col then ya else yplus (own p) ya in
  let P := both_cts (fun t l => dot (xw_cts j p qi t l) (map (xval t j) data)) in
  p' <- (if cs_a c
         then let q := both_cts (fun t l => dot (xw_cts j p qi t l)
                        (net p ya (fun t l o => if gc_wi col
                                                then cts_read l (cts_of j (Actsp t p)) * xval t j o else 0)
                             (firm p) t l)) in
              match solved P (map Ropp q) qa with
              | QSol x =>
                  Ok (if gc_wi col
                      then set_A_cts j (XInter (fun l => nth l x 0)) (XInter (fun l => nth (nl + l) x 0)) p
                      else set_A_cts j (XShared (nth 0 x 0)) (XShared (nth nl x 0)) p)
              | _ => Ok p
              end
         else Ok p) ;;
  let ya := if gc_wi col then ya else yminus (own p') ya in
  Ok (p', ya, P).

(* All columns: the constraints cons_a_dict are in the order of cats ++ ctss; the P of
   each column is kept. *)
Definition all_A (cols : list (qp * qp)) (p : par) (ya : bool -> list R)
  : res (par * (bool -> list R) * list (list R) * list (list R)) :=
  ' (p, ya, Pc) <- for_each (combine (enumerate cats) (firstn (length cats) cols)) (fun jc st =>
       let '(j, col, q) := jc in
       let '(p, ya, Ps) := st in
       ' (p, ya, P) <- cat_A j col (fst q) (p, ya) ;;
       Ok (p, ya, Ps ++ [P])) (p, ya, []) ;;
  ' (p, ya, Px) <- for_each (combine (enumerate ctss) (skipn (length cats) cols)) (fun jc st =>
       let '(j, col, q) := jc in
       let '(p, ya, Ps) := st in
       ' (p, ya, P) <- cts_A j col (fst q) (p, ya) ;;
       Ok (p, ya, Ps ++ [P])) (p, ya, []) ;;
  Ok (p, ya, Pc, Px).

(* 1760-1893.  p has the new effects and the old standard deviations; eps^2 *)
Definition eps_sq (p : par) (ya : bool -> list R) (t : bool) (l : nat) : list R :=
  map (fun e => e ^ 2) (net p ya none (firm p) t l).
Definition firm_S (qs : qp) (P : list R) (p : par) (ya : bool -> list R) : res (par -> par) :=
  q <- both_cols nk gp (fun t l => map2 Rmult (wts p qi t l) (eps_sq p ya t l)) ;;
  Ok (match solved P (map Ropp q) qs with
      | QSol x => set_S (fun l k => sqrt (half1 nk x l k)) (fun l k => sqrt (half2 nl nk x l k))
      | _ => fun p => p
      end).
Definition cat_S (j : nat) (col : gcol) (qs : qp) (P : list R) (p : par) (ya : bool -> list R) : res (par -> par) :=
  q <- both_cols (gc_n col) (fun t => code t j)
         (fun t l => map2 Rmult (wts_cat j p qi t l) (eps_sq p ya t l)) ;;
  Ok (match solved P (map Ropp q) qs with
      | QSol x =>
          if gc_wi col
          then set_S_cat j (Inter (fun l n => sqrt (half1 (gc_n col) x l n)))
                           (Inter (fun l n => sqrt (half2 nl (gc_n col) x l n)))
          else set_S_cat j (Shared (fun n => sqrt (half1 (gc_n col) x 0%nat n)))
                           (Shared (fun n => sqrt (half2 nl (gc_n col) x 0%nat n)))
      | _ => fun p => p
      end).
(* np.abs at 1815-1816 *)
Definition cts_S (j : nat) (col : gcol) (qs : qp) (P : list R) (p : par) (ya : bool -> list R) : par -> par :=
  let q := both_cts (fun t l => Rabs (dot (xw_cts j p qi t l) (eps_sq p ya t l))) in
  match solved P (map Ropp q) qs with
  | QSol x =>
      if gc_wi col
      then set_S_cts j (XInter (fun l => sqrt (nth l x 0))) (XInter (fun l => sqrt (nth (nl + l) x 0)))
      else set_S_cts j (XShared (sqrt (nth 0 x 0))) (XShared (sqrt (nth nl x 0)))
  | _ => fun p => p
  end.
Definition all_S (qs : qp) (cols : list (qp * qp)) (P : list R) (Pc Px : list (list R)) (p : par)
    (ya : bool -> list R) : res par :=
  f <- firm_S qs P p ya ;;
  fc <- traverse (fun jcqP => let '(j, col, q, P) := jcqP in cat_S j col (snd q) P p ya)
          (combine (combine (enumerate cats) (firstn (length cats) cols)) Pc) ;;
  let fx := map (fun jcqP => let '(j, col, q, P) := jcqP in cts_S j col (snd q) P p ya)
          (combine (combine (enumerate ctss) (skipn (length cats) cols)) Px) in
  Ok (fold_left (fun p f => f p) (f :: fc ++ fx) p).

(* The M-step, 1465-1899.  Without update_s the del at 1895 raises. *)
Definition m_step_ctl (cons : qp * qp * list (qp * qp)) (p : par) (ya As : bool -> list R)
  : res (par * (bool -> list R) * (bool -> list R)) :=
  let '(qa, qs, cols) := cons in
  if cs_a c || cs_s c
  then ' (p, P) <- firm_A qa p ya ;;
       ' (p, ya, Pc, Px) <- all_A cols p ya ;;
       let As := if any_non then (fun t => map2 (fun o y => yp t o - y) data (ya t)) else As in
       if cs_s c
       then p <- all_S qs cols P Pc Px p ya ;; Ok (p, ya, As)
       else Err UnboundLocalError
  else Ok (p, ya, As).
End Step.

(* np.all(min_firm_types[1:] != min_firm_types[:-1]) *)
Fixpoint all_change (l : list nat) : bool :=
  match l with
  | a :: (b :: _) as r => negb (a =? b)%nat && all_change r
  | _ => true
  end.
(* 1434-1454: the lowest firm types seen, and whether the estimator is stuck *)
Definition cycle_check (c : cset) (iter min : nat) (seen : list nat) : list nat * bool :=
  if (0 <? length cats)%nat && (cs_start c <=? iter)%nat && negb (p_force (cs_gen c))
  then let seen := seen ++ [min] in
       if (cs_obs c <=? length seen)%nat
       then let seen := if (cs_obs c <? length seen)%nat then tl seen else seen in
            (seen, all_change seen)
       else (seen, false)
  else (seen, false).

Inductive outcome : Type :=
| Finished (p : par) (lik : option R) (liks : list R)
| Stuck.

(* The loop, 1386-1899.  The constraints are generated anew after the first iteration
   if update_a (1564-1566). *)
Fixpoint ctl_loop (n : nat) (c : cset) (iter : nat) (cons : qp * qp * list (qp * qp)) (p : par)
    (ya As : bool -> list R) (prev : option R) (prev_min : nat) (seen : list nat)
    (lik : option R) (liks : list R) : res outcome :=
  match n with
  | O => Ok (Finished p lik liks)
  | S n' =>
      lp <- e_step p As ;;
      m <- mean_lse lp ;;
      qi <- posteriors lp ;;
      let lik1 := if (0 <? iter)%nat && cs_pk1 c
                  then m + lik_prior (cs_prior c) (nk * nk) nl (pk1 p) else m in
      let liks := liks ++ [lik1] in
      let min := if p_force (cs_gen c) then prev_min
                 else min_firm_type argsort (p_primary (cs_gen c)) nl nk (A1 p) (A2 p) in
      if converged (cs_threshold c) lik1 prev && (min =? prev_min)%nat
      then Ok (Finished p (Some lik1) liks)
      else
        let '(seen, stuck) := cycle_check c iter min seen in
        if stuck then Ok Stuck else
        p <- (if cs_pk1 c
              then pk <- update_pk1 nl nk (cs_prior c) data qi ;; Ok (set_pk1 pk p)
              else Ok p) ;;
        cons <- (if cs_a c && (0 <? iter)%nat
                 then gen_all (cs_gen c) nl nk cats ctss min else Ok cons) ;;
        ' (p, ya, As) <- m_step_ctl c qi cons p ya As ;;
        ctl_loop n' c (S iter) cons p ya As (Some lik1) min seen (Some lik1) liks
  end.

(* csc_matrix of CC1 and CC2 (1345-1346) refuses a category outside 0..n-1 *)
Definition codes_ok : bool :=
  forallb (fun jc => forallb (fun o => (code false (fst jc) o <? gc_n (snd jc))%nat
                                    && (code true (fst jc) o <? gc_n (snd jc))%nat) data)
    (enumerate cats).

(* _fit_movers, 1284-1948.  Y1_adj of the first M-step is Y1 - A1_sum (1496-1503). *)
Definition fit_ctl (c : cset) (compute_NNm : bool) (min : nat) (p : par) : res outcome :=
  if negb codes_ok then Err ValueError else
  let s := cs_gen c in
  let p := sort_parameters argsort (p_primary s) nl nk false false p in
  let min := if p_force s then min else min_firm_type argsort (p_primary s) nl nk (A1 p) (A2 p) in
  cons <- gen_all s nl nk cats ctss min ;;
  let As := start_sums p in
  let ya := fun t => if any_non then map2 (fun o a => yp t o - a) data (As t) else map (yp t) data in
  r <- ctl_loop (cs_iters c) c 0 cons p ya As None min [] None [] ;;
  match r with
  | Finished p lik liks =>
      let p := stored argsort s nl nk cats p in
      Ok (Finished (if compute_NNm then set_NNm (mover_counts data) p else p) lik liks)
  | Stuck => Ok Stuck
  end.

(* fit_movers, 1226-1282: with force_min_firm_type, or when stuck in a cycle, the most
   likely of the fits with each firm type as lowest, all from the same start.  lik1 is
   None, here 0, only without iterations.  pk0 and NNs of self are kept, except that
   _fit_movers has sorted self.pk0 (1377) when it finds that it is stuck. *)
Definition lik_of (r : par * option R * list R) : R := match snd (fst r) with Some v => v | None => 0 end.
Definition forced_fit (c : cset) (compute_NNm : bool) (p : par) : res (par * option R * list R) :=
  ' (p', lik, liks) <- force_min lik_of (fun k =>
      r <- fit_ctl (cforced c) false k p ;;
      match r with Finished p lik liks => Ok (p, lik, liks) | Stuck => Err AssertionError end) nk ;;
  let p' := mkpar (A1 p') (A2 p') (S1 p') (S2 p') (A1_cat p') (A2_cat p') (S1_cat p') (S2_cat p')
              (A1_cts p') (A2_cts p') (S1_cts p') (S2_cts p') (pk1 p') (pk0 p) (NNm p) (NNs p) in
  Ok (if compute_NNm then set_NNm (mover_counts data) p' else p', lik, liks).
Definition fit_movers_ctl (c : cset) (compute_NNm : bool) (p : par) : res (par * option R * list R) :=
  if p_force (cs_gen c) then forced_fit c compute_NNm p
  else r <- fit_ctl c compute_NNm 0 p ;;
       match r with
       | Finished p lik liks => Ok (p, lik, liks)
       | Stuck => forced_fit c compute_NNm (set_pk0 (pk0 (sort_parameters argsort (p_primary (cs_gen c)) nl nk false false p)) p)
       end.
End Fit.
