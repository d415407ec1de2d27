(* Model of the EM algorithm of pytwoway/blm.py: likelihood and posterior
   probabilities, the update of the type proportions, and fit_stayers. *)
From Verif Require Import Base UtilModel BLMModel.
Local Open Scope res_scope.
Local Open Scope R_scope.

(* One row of the event study: wages, firm types, weights (1 unless
   params['weighted'] and the data have weights) and control variables of both
   periods, blm.py:1304-1345.  A control constant over time has the same entry
   in both periods. *)
Record obs : Type := mkobs {
  y1 : R; y2 : R; g1 : nat; g2 : nat; w1 : R; w2 : R;
  c1 : list nat; c2 : list nat; x1 : list R; x2 : list R
}.

(* _sum_by_non_nl, blm.py:1091-1156, one row and one period: means and variances
   of the controls that do not interact with worker types. *)
Definition sum_non_nl (Ac : list catpar) (Ax : list ctspar) (c : list nat) (x : list R) : R :=
  let s := fold_left (fun s pn => match fst pn with
                                  | Shared v => s + v (snd pn)
                                  | Inter _ => s
                                  end) (combine Ac c) 0 in
  fold_left (fun s px => match fst px with
                         | XShared a => s + a * snd px
                         | XInter _ => s
                         end) (combine Ax x) s.
Definition sumsq_non_nl (Sc : list catpar) (Sx : list ctspar) (c : list nat) : R :=
  let s := fold_left (fun s pn => match fst pn with
                                  | Shared v => s + v (snd pn) ^ 2
                                  | Inter _ => s
                                  end) (combine Sc c) 0 in
  fold_left (fun s p => match p with
                        | XShared a => s + a ^ 2
                        | XInter _ => s
                        end) Sx s.

(* _sum_by_nl_l, blm.py:1158-1224: the controls that interact, for worker type
   l. *)
Definition sum_nl (l : nat) (Ac : list catpar) (Ax : list ctspar) (c : list nat) (x : list R) : R :=
  let s := fold_left (fun s pn => match fst pn with
                                  | Inter m => s + m l (snd pn)
                                  | Shared _ => s
                                  end) (combine Ac c) 0 in
  fold_left (fun s px => match fst px with
                         | XInter v => s + v l * snd px
                         | XShared _ => s
                         end) (combine Ax x) s.
Definition sumsq_nl (l : nat) (Sc : list catpar) (Sx : list ctspar) (c : list nat) : R :=
  let s := fold_left (fun s pn => match fst pn with
                                  | Inter m => s + m l (snd pn) ^ 2
                                  | Shared _ => s
                                  end) (combine Sc c) 0 in
  fold_left (fun s p => match p with
                        | XInter v => s + v l ^ 2
                        | XShared _ => s
                        end) Sx s.

(* any_controls, blm.py:599 *)
Definition any_controls (p : par) : bool :=
  match A1_cat p, A1_cts p with [], [] => false | _, _ => true end.

(* lp1 and lp2 of worker type l for all rows, blm.py:1401-1410 *)
Definition lp1_col (nk : nat) (p : par) (data : list obs) (l : nat) : res (list R) :=
  if any_controls p
  then traverse (fun o =>
         lognormpdf (y1 o)
           (A1 p l (g1 o) + sum_non_nl (A1_cat p) (A1_cts p) (c1 o) (x1 o)
              + sum_nl l (A1_cat p) (A1_cts p) (c1 o) (x1 o))
           None
           (Some (S1 p l (g1 o) ^ 2 + sumsq_non_nl (S1_cat p) (S1_cts p) (c1 o)
              + sumsq_nl l (S1_cat p) (S1_cts p) (c1 o)))) data
  else fast_lognormpdf (map y1 data) (map (A1 p l) (range nk)) (map (S1 p l) (range nk))
         (map g1 data).
Definition lp2_col (nk : nat) (p : par) (data : list obs) (l : nat) : res (list R) :=
  if any_controls p
  then traverse (fun o =>
         lognormpdf (y2 o)
           (A2 p l (g2 o) + sum_non_nl (A2_cat p) (A2_cts p) (c2 o) (x2 o)
              + sum_nl l (A2_cat p) (A2_cts p) (c2 o) (x2 o))
           None
           (Some (S2 p l (g2 o) ^ 2 + sumsq_non_nl (S2_cat p) (S2_cts p) (c2 o)
              + sumsq_nl l (S2_cat p) (S2_cts p) (c2 o)))) data
  else fast_lognormpdf (map y2 data) (map (A2 p l) (range nk)) (map (S2 p l) (range nk))
         (map g2 data).

(* KK = G1 + nk * G2, blm.py:1349 *)
Definition KK (nk : nat) (o : obs) : nat := (g1 o + nk * g2 o)%nat.

(* lp[:, l] = log_pk1[KK, l] + W1 * lp1 + W2 * lp2, blm.py:1406 and 1411.  np.log
   of 0 is -inf; here ln is Coq's, so theorems assume positive proportions. *)
Definition lp_col (nk : nat) (p : par) (data : list obs) (l : nat) : res (list R) :=
  lp1 <- lp1_col nk p data l ;;
  lp2 <- lp2_col nk p data l ;;
  Ok (map2 (fun o lps => ln (pk1 p (KK nk o) l) + w1 o * fst lps + w2 o * snd lps)
        data (combine lp1 lp2)).

(* The rows of an array given by its columns. *)
Definition rows_of (n : nat) (cols : list (list R)) : list (list R) :=
  map (fun i => map (fun c => nth i c 0) cols) (range n).

(* The E-step, blm.py:1390-1420 without the branch return_qi: lp by rows, and
   from it lse_lp and qi. *)
Definition lp_movers (nl nk : nat) (p : par) (data : list obs) : res (list (list R)) :=
  cols <- traverse (lp_col nk p data) (range nl) ;;
  Ok (rows_of (length data) cols).

(* lse_lp.mean(); the mean of no rows is nan, theorems assume data. *)
Definition mean_lse (lp : list (list R)) : res R :=
  lse <- traverse logsumexp lp ;;
  Ok (rsum lse / INR (length lse)).
Definition posteriors (lp : list (list R)) : res (list (list R)) := traverse posterior lp.

(* lik_prior = (d_prior - 1) * np.sum(np.log(pk1)), blm.py:1423 and 2066 *)
Definition lik_prior (d_prior : R) (n nl : nat) (pk : mat) : R :=
  (d_prior - 1) * sumn n (fun k => sumn nl (fun l => ln (pk k l))).

(* ------------------------------------------------------------------ *)
(* np.bincount(keys, weights): one bin per value up to the largest key. *)
Definition list_max1 (l : list nat) : nat := fold_right (fun k m => Nat.max (S k) m) 0%nat l.
Definition bincount (keys : list nat) (ws : list R) : list R :=
  map (fun b => rsum (map (fun kw => if (fst kw =? b)%nat then snd kw else 0)
                          (combine keys ws)))
      (range (list_max1 keys)).

(* KK2 = (np.tile(KK, (nl, 1)).T + n * np.arange(nl)).flatten(), blm.py:1350-1352
   and 2008-2010 *)
Definition tiled_keys (n nl : nat) (keys : list nat) : list nat :=
  flat_map (fun k => map (fun l => k + n * l)%nat (range nl)) keys.

(* (W * (qi.T + d_prior - 1)).T.flatten() *)
Definition tiled_weights (d_prior : R) (W : list R) (qi : list (list R)) : list R :=
  flat_map (fun wq => map (fun q => fst wq * (q + d_prior - 1)) (snd wq)) (combine W qi).

(* np.bincount(...).reshape(nl, n).T: reshape raises unless the number of bins
   is nl * n. *)
Definition pk_counts (n nl : nat) (d_prior : R) (keys : list nat) (W : list R)
    (qi : list (list R)) : res mat :=
  let bc := bincount (tiled_keys n nl keys) (tiled_weights d_prior W qi) in
  if (length bc =? nl * n)%nat
  then Ok (fun k l => nth (l * n + k) bc 0)
  else Err ValueError.

(* DxM(1 / np.sum(pk, axis=1), pk).  A row that sums to 0 becomes nan, here
   None. *)
Definition norm_rows (nl : nat) (pk : mat) : nat -> nat -> option R :=
  fun k l => let s := sumn nl (pk k) in
             if Req_EM_T s 0 then None else Some (1 / s * pk k l).

(* The update of pk1, blm.py:1455-1463: nan entries raise. *)
Definition is_none {A} (o : option A) : bool := match o with None => true | _ => false end.
Definition any_nan (n nl : nat) (pk : nat -> nat -> option R) : bool :=
  existsb (fun k => existsb (fun l => is_none (pk k l)) (range nl)) (range n).
Definition from_nan (pk : nat -> nat -> option R) : mat :=
  fun k l => match pk k l with Some v => v | None => 0 end.

Definition update_pk1 (nl nk : nat) (d_prior : R) (data : list obs) (qi : list (list R))
  : res mat :=
  pk <- pk_counts (nk * nk) nl d_prior (map (KK nk) data)
          (map (fun o => sqrt (w1 o * w2 o)) data) qi ;;
  let pk := norm_rows nl pk in
  if any_nan (nk * nk) nl pk then Err ValueError else Ok (from_nan pk).

(* The update of pk0, blm.py:2079-2081: nan rows stay. *)
Definition update_pk0 (nl nk : nat) (d_prior : R) (data : list obs) (qi : list (list R))
  : res (nat -> nat -> option R) :=
  pk <- pk_counts nk nl d_prior (map g1 data) (map w1 data) qi ;;
  Ok (norm_rows nl pk).

(* ------------------------------------------------------------------ *)
(* fit_stayers, blm.py:1950-2090.  lp_stable[:, l] = W1 * lp1 (2031-2046) *)
Definition stable_col (nk : nat) (p : par) (data : list obs) (l : nat) : res (list R) :=
  lp1 <- lp1_col nk p data l ;;
  Ok (map2 (fun o v => w1 o * v) data lp1).
Definition lp_stable (nl nk : nat) (p : par) (data : list obs) : res (list (list R)) :=
  cols <- traverse (stable_col nk p data) (range nl) ;;
  Ok (rows_of (length data) cols).

(* lp[:, l] = lp_stable[:, l] + np.log(pk0)[G1, l], blm.py:2054-2055.  Reading a
   nan proportion would spread nan; it is an error value here (it does not
   happen for the firm type of a row, whose count is positive). *)
Definition stayer_row (nl : nat) (pk0 : nat -> nat -> option R) (o : obs) (stable : list R)
  : res (list R) :=
  traverse (fun l => match pk0 (g1 o) l with
                     | Some v => Ok (nth l stable 0 + ln v)
                     | None => Err AssertionError
                     end) (range nl).

(* The likelihood of an iteration, blm.py:2062-2067.  None is nan: after the
   first iteration nan proportions make the prior term nan. *)
Definition stayer_lik (nl nk : nat) (d_prior : R) (iter : nat)
    (pk0 : nat -> nat -> option R) (mean : R) : option R :=
  if (iter =? 0)%nat then Some mean
  else if any_nan nk nl pk0 then None
  else Some (mean + lik_prior d_prior nk nl (from_nan pk0)).

(* abs(lik0 - prev_lik) < threshold, blm.py:2072; prev_lik starts at inf (None).
   Comparisons with inf or nan are False. *)
Definition close (threshold : R) (lik : option R) (prev : option (option R)) : bool :=
  match lik, prev with
  | Some a, Some (Some b) => if Rlt_dec (Rabs (a - b)) threshold then true else false
  | _, _ => false
  end.

(* The loop, blm.py:2048-2084: pk0, lik0 and liks0 at the end. *)
Fixpoint stayers_loop (n : nat) (nl nk : nat) (d_prior threshold : R) (data : list obs)
    (stable : list (list R)) (iter : nat) (pk0 : nat -> nat -> option R)
    (prev : option (option R)) (lik : option (option R)) (liks : list (option R))
  : res ((nat -> nat -> option R) * option (option R) * list (option R)) :=
  match n with
  | O => Ok (pk0, lik, liks)
  | S n' =>
      lp <- traverse (fun os => stayer_row nl pk0 (fst os) (snd os)) (combine data stable) ;;
      m <- mean_lse lp ;;
      qi <- posteriors lp ;;
      let lik0 := stayer_lik nl nk d_prior iter pk0 m in
      let liks := liks ++ [lik0] in
      if close threshold lik0 prev then Ok (pk0, Some lik0, liks)
      else
        pk0 <- update_pk0 nl nk d_prior data qi ;;
        stayers_loop n' nl nk d_prior threshold data stable (S iter) pk0
          (Some lik0) (Some lik0) liks
  end.

Definition fit_stayers (n_iters nl nk : nat) (d_prior threshold : R) (p : par)
    (sdata : list obs)
  : res ((nat -> nat -> option R) * option (option R) * list (option R)) :=
  stable <- lp_stable nl nk p sdata ;;
  stayers_loop n_iters nl nk d_prior threshold sdata stable 0
    (fun k l => Some (pk0 p k l)) None None [].
