(* Model of pytwoway/cre.py: the between-cluster step, the leave-out means and
   moments of the within-cluster step, the within parameters and the totals. *)
From Verif Require Import Base.
Local Open Scope R_scope.

(* A row of jdata (movers in the cross section) and of sdata (stayers). *)
Record mover : Type := mkmv { m_y1 : R; m_y2 : R; m_g1 : nat; m_g2 : nat; m_j1 : nat; m_j2 : nat }.
Record stayer : Type := mkst { s_y1 : R; s_g1 : nat; s_j1 : nat }.

(* groupby(...).agg('mean') and agg('count') for the rows selected by [sel]. *)
Definition count_of {A} (sel : A -> bool) (l : list A) : R := INR (length (filter sel l)).
Definition mean_of {A} (sel : A -> bool) (f : A -> R) (l : list A) : R :=
  rsum (map f (filter sel l)) / count_of sel l.

Definition ind (b : bool) : R := if b then 1 else 0.

Section Between.
(* scipy.sparse.linalg.spsolve of an n by n system, outside /repo. *)
Variable spsolve : nat -> (nat -> nat -> R) -> (nat -> R) -> nat -> R.

(* Jc, cre.py:262-265; the last cluster has no column *)
Definition Jc (r : mover) (k : nat) : R := ind (m_g2 r =? k)%nat - ind (m_g1 r =? k)%nat.
(* Yc, cre.py:266 *)
Definition Yc (r : mover) : R := m_y2 r - m_y1 r.
(* Mc and Jc' Yc, cre.py:271-272 *)
Definition Mc (jd : list mover) (a b : nat) : R := rsum (map (fun r => Jc r a * Jc r b) jd).
Definition JY (jd : list mover) (a : nat) : R := rsum (map (fun r => Jc r a * Yc r) jd).

(* pb['Afill'], cre.py:272-275 *)
Definition Afill (nc : nat) (wo_btw : bool) (jd : list mover) (k : nat) : R :=
  if (k <? nc - 1)%nat then
    let A := spsolve (nc - 1) (Mc jd) (JY jd) k in
    if wo_btw then A * 0 else A
  else 0.

(* mx before averaging, cre.py:280 and 290 *)
Definition m_half (A : nat -> R) (r : mover) : R :=
  1 / 2 * (m_y2 r - A (m_g2 r) + m_y1 r - A (m_g1 r)).
Definition s_rest (A : nat -> R) (r : stayer) : R := s_y1 r - A (s_g1 r).

(* EEm and Em merged back into the rows, cre.py:280-283 and 290-293 *)
Definition m_mx (wo_btw : bool) (A : nat -> R) (jd : list mover) (r : mover) : R :=
  let m := mean_of (fun r' => (m_g1 r' =? m_g1 r) && (m_g2 r' =? m_g2 r))%nat (m_half A) jd in
  if wo_btw then m * 0 else m.
Definition s_mx (wo_btw : bool) (A : nat -> R) (sd : list stayer) (r : stayer) : R :=
  let m := mean_of (fun r' => s_g1 r' =? s_g1 r)%nat (s_rest A) sd in
  if wo_btw then m * 0 else m.

(* dm and ds, cre.py:317-320: the wages net of the cluster means, in the same
   record type *)
Definition net_movers (wo_btw : bool) (A : nat -> R) (jd : list mover) : list mover :=
  map (fun r => mkmv (m_y1 r - A (m_g1 r) - m_mx wo_btw A jd r)
                     (m_y2 r - A (m_g2 r) - m_mx wo_btw A jd r)
                     (m_g1 r) (m_g2 r) (m_j1 r) (m_j2 r)) jd.
Definition net_stayers (wo_btw : bool) (A : nat -> R) (sd : list stayer) : list stayer :=
  map (fun r => mkst (s_y1 r - A (s_g1 r) - s_mx wo_btw A sd r) (s_g1 r) (s_j1 r)) sd.
End Between.

(* np.cov(v1, v2)[0][1] and Series.var(): divided by n - 1 (with fewer than two
   values numpy gives nan). *)
Definition mean (l : list R) : R := rsum l / INR (length l).
Definition cov1 (l m : list R) : R :=
  rsum (map2 (fun x y => (x - mean l) * (y - mean m)) l m) / (INR (length l) - 1).
Definition var1 (l : list R) : R := cov1 l l.
(* np.var: divided by n *)
Definition var0 (l : list R) : R :=
  rsum (map (fun x => (x - mean l) * (x - mean l)) l) / INR (length l).

(* The averages of dm1f, dm2f, dm1c and dm2c seen from a row, cre.py:323-347.  The
   row itself is in its groups, so no row of dm is lost in the merges. *)
Definition leaves_same (r r' : mover) : bool := (m_j1 r' =? m_j1 r)%nat.
Definition joins_same (r r' : mover) : bool := (m_j2 r' =? m_j2 r)%nat.
Definition leaves_same_c (r r' : mover) : bool := ((m_j1 r' =? m_j1 r) && (m_g2 r' =? m_g2 r))%nat.
Definition joins_same_c (r r' : mover) : bool := ((m_j2 r' =? m_j2 r) && (m_g1 r' =? m_g1 r))%nat.

Definition nm1j dm r := count_of (leaves_same r) dm.
Definition nm2j dm r := count_of (joins_same r) dm.
Definition nm1c dm r := count_of (leaves_same_c r) dm.
Definition nm2c dm r := count_of (joins_same_c r) dm.

(* The leave-out means of movers, cre.py:355-358, for f one of y1n and y2n *)
Definition m1j_lo (f : mover -> R) (dm : list mover) (r : mover) : R :=
  (nm1j dm r * mean_of (leaves_same r) f dm - nm1c dm r * mean_of (leaves_same_c r) f dm)
  / (nm1j dm r - nm1c dm r).
Definition m2j_lo (f : mover -> R) (dm : list mover) (r : mover) : R :=
  (nm2j dm r * mean_of (joins_same r) f dm - nm2c dm r * mean_of (joins_same_c r) f dm)
  / (nm2j dm r - nm2c dm r).

(* Stayers: dsf, and the inner merges with dm1f and dm2f, which keep the stayers of
   firms that somebody leaves and somebody joins, cre.py:338-340 *)
Definition nsj (ds : list stayer) (r : stayer) : R := count_of (fun r' => s_j1 r' =? s_j1 r)%nat ds.
Definition y1sj (ds : list stayer) (r : stayer) : R := mean_of (fun r' => s_j1 r' =? s_j1 r)%nat s_y1 ds.
Definition y1s_lo (ds : list stayer) (r : stayer) : R := (nsj ds r * y1sj ds r - s_y1 r) / (nsj ds r - 1).
Definition merged (dm : list mover) (ds : list stayer) : list stayer :=
  filter (fun r => existsb (fun r' => m_j1 r' =? s_j1 r)%nat dm && existsb (fun r' => m_j2 r' =? s_j1 r)%nat dm) ds.
(* y1m1j, y2m1j, y1m2j, y2m2j of a stayer's firm *)
Definition s_m1 (f : mover -> R) (dm : list mover) (r : stayer) : R := mean_of (fun r' => m_j1 r' =? s_j1 r)%nat f dm.
Definition s_m2 (f : mover -> R) (dm : list mover) (r : stayer) : R := mean_of (fun r' => m_j2 r' =? s_j1 r)%nat f dm.

Definition gtb (x y : R) : bool := if Rlt_dec y x then true else false.

(* moments_within, cre.py:361-404; the counts are left out *)
Record moments : Type := mkmom {
  y1s_y1s : R; y1s_var : R; y1m_var : R; y2m_var : R;
  y1s_y1m1 : R; y1s_y2m1 : R; y1m1_y1m1 : R; y2m1_y1m1 : R; y2m1_y2m1 : R;
  y1s_y1m2 : R; y1s_y2m2 : R; y1m2_y1m2 : R; y2m2_y1m2 : R; y2m2_y2m2 : R;
  dym_dym : R; y1m_y2m : R }.

Definition qcov {A} (f g : A -> R) (l : list A) : R := cov1 (map f l) (map g l).

Definition within_moments (dm : list mover) (ds0 : list stayer) : moments :=
  let ds := merged dm ds0 in
  let nm1 := fun r => count_of (fun r' => m_j1 r' =? s_j1 r)%nat dm in
  let nm2 := fun r => count_of (fun r' => m_j2 r' =? s_j1 r)%nat dm in
  let coworker := filter (fun r => gtb (nsj ds0 r) 1) ds in
  let left := filter (fun r => gtb (nm1 r) 0) ds in
  let joined := filter (fun r => gtb (nm2 r) 0) ds in
  let out1 := filter (fun r => gtb (nm1j dm r) (nm1c dm r)) dm in
  let out2 := filter (fun r => gtb (nm2j dm r) (nm2c dm r)) dm in
  let differ := filter (fun r => negb (m_g1 r =? m_g2 r)%nat) dm in
  mkmom
    (qcov s_y1 (y1s_lo ds0) coworker) (var1 (map s_y1 ds)) (var1 (map m_y1 dm)) (var1 (map m_y2 dm))
    (qcov s_y1 (s_m1 m_y1 dm) left) (qcov s_y1 (s_m1 m_y2 dm) left)
    (qcov m_y1 (m1j_lo m_y1 dm) out1) (qcov m_y2 (m1j_lo m_y1 dm) out1) (qcov m_y2 (m1j_lo m_y2 dm) out1)
    (qcov s_y1 (s_m2 m_y1 dm) joined) (qcov s_y1 (s_m2 m_y2 dm) joined)
    (qcov m_y1 (m2j_lo m_y1 dm) out2) (qcov m_y2 (m2j_lo m_y1 dm) out2) (qcov m_y2 (m2j_lo m_y2 dm) out2)
    (var1 (map (fun r => m_y2 r - m_y1 r) differ)) (qcov m_y1 m_y2 differ).

(* within_params, cre.py:409-439 *)
Record wparams : Type := mkwp {
  cov_Am1Am1 : R; cov_Am1Psi1 : R; var_psi_m1 : R;
  cov_Am2Am2 : R; cov_Am2Psi2 : R; var_psi_m2 : R;
  cov_AsAm1 : R; cov_AsAm2 : R; psi_plus_cov1 : R; psi_plus_cov2 : R;
  var_psi : R; cov_AsPsi1 : R; cov_AsAs : R; var_eps : R }.

Definition within_params (m : moments) : wparams :=
  let a1 := y2m1_y2m1 m in
  let c1 := y2m1_y1m1 m - a1 in
  let v1 := y1m1_y1m1 m - a1 - 2 * c1 in
  let a2 := y1m2_y1m2 m in
  let c2 := y2m2_y1m2 m - a2 in
  let v2 := y2m2_y2m2 m - a2 - 2 * c2 in
  let p1 := y1s_y1m1 m - y1s_y2m1 m in
  let p2 := y1s_y2m2 m - y1s_y1m2 m in
  let v := (v2 + v1) / 2 in
  let cs := p1 + p2 - v in
  mkwp a1 c1 v1 a2 c2 v2 (y1s_y2m1 m - c1) (y1s_y1m2 m - c2) p1 p2
       v cs (y1s_y1s m - v - 2 * cs) (Rmax 0 (dym_dym m - 2 * v)).

(* __collect_res, cre.py:477-504.  cdata has the stayers first; Yq is y1 of the rows
   with cs = 1, which are those of jdata and sdata, in the order of adata. *)
Record totals : Type := mktot {
  var_y : R; var_bw : R; cov_bw : R; var_wt : R; cov_wt : R; tot_var : R; tot_cov : R }.

Definition collect (pw : wparams) (ns mn : nat) (psi mx Yq : list R) : totals :=
  let vb := var1 psi in
  let cb := cov1 psi mx in
  let vw := var_psi pw in
  let cw := (INR ns * cov_AsPsi1 pw + INR mn * cov_Am1Psi1 pw) / INR (ns + mn) in
  mktot (var0 Yq) vb cb vw cw (vb + vw) (cb + cw).

(* fit without the posterior, cre.py:136-176: [Yq] is any order of the wages of the
   cross section.  ns is nw minus the number of movers; one row per stayer. *)
Definition fit (spsolve : nat -> (nat -> nat -> R) -> (nat -> R) -> nat -> R)
    (nc : nat) (wo_btw : bool) (jd : list mover) (sd : list stayer) : totals * wparams * moments :=
  let A := Afill spsolve nc wo_btw jd in
  let mom := within_moments (net_movers wo_btw A jd) (net_stayers wo_btw A sd) in
  let pw := within_params mom in
  let psi := map (fun r => A (s_g1 r)) sd ++ map (fun r => A (m_g1 r)) jd in
  let mx := map (s_mx wo_btw A sd) sd ++ map (m_mx wo_btw A jd) jd in
  let Yq := map s_y1 sd ++ map m_y1 jd in
  (collect pw (length sd) (length jd) psi mx Yq, pw, mom).

(* __prior_in_diff, cre.py:511-514: Jf has a one for each different pair of a firm
   and its cluster among the rows of jdata; firms without a mover have a row of
   zeros. *)
Definition drop_duplicates (l : list (nat * nat)) : list (nat * nat) :=
  fold_left (fun acc p => if existsb (fun q => (fst q =? fst p) && (snd q =? snd p))%nat acc then acc
                          else acc ++ [p]) l [].
Definition pairs (jd : list mover) : list (nat * nat) :=
  drop_duplicates (map (fun r => (m_j1 r, m_g1 r)) jd ++ map (fun r => (m_j2 r, m_g2 r)) jd).
Definition Mud (A : nat -> R) (jd : list mover) (j : nat) : R :=
  rsum (map (fun p => A (snd p)) (filter (fun p => fst p =? j)%nat (pairs jd))).
