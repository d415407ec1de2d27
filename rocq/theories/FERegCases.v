(* The regression with controls: the link to the estimator without controls, and
   example data. *)
Set Warnings "-notation-overridden,-ambiguous-paths".
From Coq Require Import ZArith QArith.
From mathcomp Require Import all_ssreflect all_algebra.
From Verif Require Base.
From Verif Require Import FieldTac QRat FEModel FESpec FEPropLemmas FEMxLemmas FECases
  FECtlModel FECtlSpec FECtlLemmas FECtlNameLemmas FECtlPropLemmas
  FERegModel FERegSpec FERegLemmas FERegPropLemmas FERegSeLemmas.

Set Implicit Arguments.
Unset Strict Implicit.
Unset Printing Implicit Defensive.

Import GRing.Theory Num.Theory Order.POrderTheory.
Local Open Scope ring_scope.

Section Plain.
Variable F : realFieldType.
Variable sq : F -> F.
Variable N : eqType.
Variables npsi nalpha : N.
Variables nn nf1 nw : nat.
Variable fr : frame F nn nf1 nw.
Local Notation d := (plain N fr).
Hypothesis ne : npsi != nalpha.

Lemma plain_names : names_ok npsi nalpha d.
Proof. by rewrite /names_ok /= inE ne. Qed.
Lemma plain_ids : ids_ok npsi nalpha d.
Proof.
by move=> r lt /=; rewrite /in_range /=; case: insubP => [i _ _|]; [rewrite !ltn_ord|rewrite lt].
Qed.
Lemma plain_j (r : 'I_nn) : c_j d r = fj fr r.
Proof. by rewrite /= valK. Qed.
Lemma plain_i (r : 'I_nn) : c_i d r = fi fr r.
Proof. by rewrite /= valK. Qed.
Lemma plain_w (r : 'I_nn) : @cwgt F N d r = wgt fr r.
Proof. by rewrite /cwgt /wgt /=; case: (fw fr) => //= w; rewrite valK. Qed.

Definition psi_of (g : seq F) (j : 'I_nf1.+1) : F := nth 0 (0 :: g) j.
Definition alpha_of (g : seq F) (i : 'I_nw) : F := nth 0 g (nf1 + i).

Lemma plain_fit g (r : 'I_nn) : row_fit npsi nalpha d g r = fitted fr (psi_of g) (alpha_of g) r.
Proof.
rewrite /row_fit /effects /= !big_cons big_nil addr0 /= !valK /fitted /psi_of /alpha_of.
congr (_ + _); last by rewrite nth_take ?ltn_ord // nth_drop.
have := ltn_ord (fj fr r); case: (nat_of_ord (fj fr r)) => //= k lt.
by rewrite nth_take.
Qed.

Lemma plain_ssr Y g : rssr npsi nalpha (d := d) Y g = ssr fr Y (psi_of g) (alpha_of g).
Proof. by apply: eq_bigr => r _; rewrite plain_fit plain_w. Qed.

Lemma no_controls (solver : 'M[F]_nf1 -> 'cV[F]_nf1 -> 'cV[F]_nf1)
    (csolver : 'M[F]_(n_cov npsi nalpha d) -> 'cV[F]_(n_cov npsi nalpha d) -> 'cV[F]_(n_cov npsi nalpha d)) Y :
  positive_weights fr -> workers_observed fr -> connected fr ->
  exact_solver solver (Minv sq fr) -> consistent csolver (AtDpA sq npsi nalpha d) ->
  let g := vlist (gamma_hat sq csolver Y) in
  let est := estimate_ols sq fr solver Y in
  (forall j : 'I_nf1.+1, nth 0 (0 :: g) j = firm_eff est.1 j)
  /\ (forall i : 'I_nw, nth 0 g (nf1 + i) = est.2 i 0).
Proof.
move=> pw ob cn ex cs g est.
have pc : c_positive d by move=> r; rewrite plain_w.
set h := [seq est.1 k 0 | k <- enum 'I_nf1] ++ [seq est.2 i 0 | i <- enum 'I_nw].
have sh : coefs npsi nalpha d h.
  by rewrite /coefs /h size_cat 2!size_map !size_enum_ord /first_col /= addn0.
have hp j : psi_of h j = firm_eff est.1 j.
  rewrite /psi_of /firm_eff; case: unliftP => [k ->|->] //=.
  rewrite /h nth_cat size_map size_enum_ord ltn_ord.
  by rewrite (nth_map k) ?size_enum_ord // nth_ord_enum.
have ha i : alpha_of h i = est.2 i 0.
  rewrite /alpha_of /h nth_cat size_map size_enum_ord ltnNge leq_addr /= addKn.
  by rewrite (nth_map i) ?size_enum_ord // nth_ord_enum.
have := r_min plain_names plain_ids pc cs Y sh; rewrite !plain_ssr.
have -> : ssr fr Y (psi_of h) (alpha_of h) = ssr fr Y (firm_eff est.1) (fun i => est.2 i 0).
  by apply: eq_bigr => r _; rewrite /fitted hp ha.
move=> le.
by apply: (p_unique pw ob ex cn le).
Qed.
End Plain.

(* ---- data where the number under the root is negative ------------------------- *)
Local Notation rQ := rat_realFieldType.
Local Notation nN := nat_eqType.
Definition j6 (r : nat) : nat := nth 0%N [:: 1; 1; 1; 0; 0; 0]%N r.
Definition i6 (r : nat) : nat := nth 0%N [:: 1; 0; 1; 1; 0; 0]%N r.
Definition x6 (r : nat) : rat := nth 0 [:: q (-1) 1; q (-1) 1; 0; 0; q (-1) 1; q (-1) 1] r.
Definition d6 : cdata rQ nN :=
  @CData rQ nN 6 2 2 j6 i6 [::] [:: [:: @CtsCol rQ nN 2%N x6]] None.
Definition y6 : 'cV[rat]_6 := \col_r nth 0 [:: q 7 1; q 7 1; q 7 1; q 7 1; q (-14) 1; q (-14) 1] r.

Lemma d6_names : names_ok (0%N : nN) 1%N d6. Proof. by []. Qed.
Lemma d6_ids : ids_ok (0%N : nN) 1%N d6.
Proof. by case=> [|[|[|[|[|[|]]]]]]. Qed.
Lemma d6_pos : c_positive d6.
Proof. by move=> r; rewrite /cwgt. Qed.

Lemma d6_fit a b c e (r : 'I_6) : row_fit (0%N : nN) 1%N d6 [:: a; b; c; e] r
  = (if j6 r == 1%N then a else 0) + (if i6 r == 1%N then c else b) + e * x6 r.
Proof.
rewrite /row_fit /effects /= !big_cons big_nil addr0 /= addrA.
by case: r => [[|[|[|[|[|[|]]]]]] lt].
Qed.

Lemma d6_id : identified (0%N : nN) 1%N d6.
Proof.
move=> g h; rewrite /coefs /first_col /=.
case: g => [|a [|b [|c [|e []]]]] // _; case: h => [|a' [|b' [|c' [|e' []]]]] // _ eq.
have f r := eq r; have {}eq r : _ := etrans (esym (d6_fit a b c e r)) (etrans (eq r) (d6_fit a' b' c' e' r)).
have e0 := eq (@Ordinal 6 0 isT); have e1 := eq (@Ordinal 6 1 isT).
have e2 := eq (@Ordinal 6 2 isT); have e3 := eq (@Ordinal 6 3 isT).
move: e0 e1 e2 e3; rewrite /= /x6 /= !mulr0 !addr0 !add0r => e0 e1 e2 e3.
have q1 : q (-1) 1 = -1 by rewrite /q; qrat.
rewrite q1 in e0 e1.
subst c'.
have ea : a = a' by exact: (addIr _ e2).
subst a'.
have ee : e = e' by move/addrI: e0; rewrite !mulrN1 => /oppr_inj.
by subst e'; move/addIr/addrI: e1 => ->.
Qed.

Definition dsolve (d : cdata rQ nN) := @direct (n_cov (0%N : nN) 1%N d).
Lemma direct_cons (d : cdata rQ nN) sq : names_ok (0%N : nN) 1%N d -> ids_ok (0%N : nN) 1%N d ->
  c_positive d -> identified (0%N : nN) 1%N d -> consistent (@dsolve d) (AtDpA sq (0%N : nN) 1%N d).
Proof.
move=> nok iok pw id b _; apply: direct_exact; rewrite AtDpAE; exact: identified_unit.
Qed.

Lemma d6_cons sq : consistent (@dsolve d6) (AtDpA sq (0%N : nN) 1%N d6).
Proof. by apply: direct_cons; [exact: d6_names|exact: d6_ids|exact: d6_pos|exact: d6_id]. Qed.

(* The columns: firm 1, workers 0 and 1, the control. *)
Local Notation A6 := (A_mx (0%N : nN) 1%N d6).
Definition T6 : seq (seq rat) :=
  [:: [:: 1; 0; 1; q (-1) 1]; [:: 1; 1; 0; q (-1) 1]; [:: 1; 0; 1; 0];
      [:: 0; 0; 1; 0]; [:: 0; 1; 0; q (-1) 1]; [:: 0; 1; 0; q (-1) 1]].
Lemma A6E (r : 'I_6) (c : 'I_4) : A6 r c = nth 0 (nth [::] T6 r) c.
Proof. by rewrite mxE; case: r => [[|[|[|[|[|[|]]]]]] ?]; case: c => [[|[|[|[|]]]] ?]. Qed.

Definition g6 : 'cV[rat]_4 := \col_i nth 0 [:: q 12 1; q (-5) 1; q 1 1; q 6 1] i.
Definition v6 : 'cV[rat]_4 := \col_i nth 0 [:: q 3 7; q 11 7; q 2 7; q 12 7] i.
Definition E6 : seq rat := [:: 0; q 6 1; q (-6) 1; q 6 1; q (-3) 1; q (-3) 1].
Definition u6 : seq rat := [:: q (-1) 1; q 2 7; q 5 7; q 2 7; q (-1) 7; q (-1) 7].

Lemma A6mul (x : 'cV[rat]_4) (r : 'I_6) : (A6 *m x) r 0
  = nth 0 (nth [::] T6 r) 0 * x 0 0 + nth 0 (nth [::] T6 r) 1 * x 1 0
    + nth 0 (nth [::] T6 r) 2 * x (inord 2) 0 + nth 0 (nth [::] T6 r) 3 * x (inord 3) 0.
Proof.
rewrite mxE !big_ord_recl big_ord0 addr0 !A6E /= !addrA.
congr (_ * x _ 0 + _ * x _ 0 + _ * x _ 0 + _ * x _ 0); apply/val_inj => //=; by rewrite inordK.
Qed.

Lemma A6tr (x y : 'cV[rat]_6) :
  (forall c : 'I_4, let a r := nth 0 (nth [::] T6 r) c in
     a 0%N * x 0 0 + a 1%N * x 1 0 + a 2%N * x (inord 2) 0 + a 3%N * x (inord 3) 0
       + a 4%N * x (inord 4) 0 + a 5%N * x (inord 5) 0
     = a 0%N * y 0 0 + a 1%N * y 1 0 + a 2%N * y (inord 2) 0 + a 3%N * y (inord 3) 0
       + a 4%N * y (inord 4) 0 + a 5%N * y (inord 5) 0) -> A6^T *m x = A6^T *m y.
Proof.
move=> h; apply/colP => c.
have e (z : 'cV[rat]_6) : (A6^T *m z) c 0
  = nth 0 (nth [::] T6 0) c * z 0 0 + nth 0 (nth [::] T6 1) c * z 1 0
    + nth 0 (nth [::] T6 2) c * z (inord 2) 0 + nth 0 (nth [::] T6 3) c * z (inord 3) 0
    + nth 0 (nth [::] T6 4) c * z (inord 4) 0 + nth 0 (nth [::] T6 5) c * z (inord 5) 0.
  transitivity (\sum_(r < 6) nth 0 (nth [::] T6 r) c * z r 0).
    by rewrite mxE; apply: eq_bigr => r _; rewrite mxE A6E.
  rewrite !big_ord_recl big_ord0 addr0 !addrA.
  by congr (_ * z _ 0 + _ * z _ 0 + _ * z _ 0 + _ * z _ 0 + _ * z _ 0 + _ * z _ 0); apply/val_inj => //=; rewrite inordK.
by rewrite !e; exact: h.
Qed.

Lemma D6 : diag_mx (\row_r @cwgt rQ nN d6 r) = 1%:M :> 'M[rat]_6.
Proof. by rewrite -diag_one; congr diag_mx; apply/rowP => r; rewrite !mxE. Qed.

Lemma i2 n : (2 < n.+1)%N -> nat_of_ord (@inord n 2) = 2%N. Proof. exact: inordK. Qed.
Lemma i3 n : (3 < n.+1)%N -> nat_of_ord (@inord n 3) = 3%N. Proof. exact: inordK. Qed.
Lemma i4 n : (4 < n.+1)%N -> nat_of_ord (@inord n 4) = 4%N. Proof. exact: inordK. Qed.
Lemma i5 n : (5 < n.+1)%N -> nat_of_ord (@inord n 5) = 5%N. Proof. exact: inordK. Qed.
Local Arguments q : simpl never.

Lemma gh6 sq : gamma_hat sq (@dsolve d6) y6 = g6.
Proof.
apply: (@gh_char rQ sq nN 0%N 1%N d6 (@dsolve d6) d6_names d6_ids d6_pos (@d6_cons sq) d6_id).
rewrite D6 mulmx1 -mulmxA; apply: A6tr => c a.
rewrite !A6mul !mxE /= ?(i2, i3, i4, i5) //= /a /=.
by case: c @a => [[|[|[|[|]]]] ?] //= a; rewrite /q; qrat.
Qed.

Lemma v6E sq : r_AAinv sq (@dsolve d6) (unit_vec (0%N : nN) 1%N d6 3) = v6.
Proof.
apply: (@AAinv_char rQ sq nN 0%N 1%N d6 (@dsolve d6) d6_names d6_ids d6_pos (@d6_cons sq) d6_id).
rewrite D6 mulmx1 -mulmxA; apply/colP => c.
have -> : A6 *m v6 = \col_r nth 0 u6 r.
  apply/colP => r; rewrite A6mul !mxE /= ?(i2, i3) //.
  by case: r => [[|[|[|[|[|[|]]]]]] ?] //=; rewrite /q; qrat.
transitivity (\sum_(r < 6) nth 0 (nth [::] T6 r) c * nth 0 u6 r).
  by rewrite mxE; apply: eq_bigr => r _; rewrite mxE A6E mxE.
rewrite mxE !big_ord_recl big_ord0 /=.
by case: c => [[|[|[|[|]]]] ?] //=; rewrite /q; qrat.
Qed.

Lemma r6 sq (r : 'I_6) : r_resid sq (@dsolve d6) y6 r 0 = nth 0 E6 r.
Proof.
rewrite (residE sq (@dsolve d6)) addmE oppmE gh6 A6mul !mxE /= ?(i2, i3) //.
by case: r => [[|[|[|[|[|[|]]]]]] ?] //=; rewrite /q; qrat.
Qed.

Lemma u6E sq (r : 'I_6) :
  (A6 *m r_AAinv sq (@dsolve d6) (unit_vec (0%N : nN) 1%N d6 3)) r 0 = nth 0 u6 r.
Proof.
rewrite v6E A6mul !mxE /= ?(i2, i3) //.
by case: r => [[|[|[|[|[|[|]]]]]] ?] //=; rewrite /q; qrat.
Qed.

Definition z6 : seq rat := [:: 0; q 12 7; q (-30) 7; q 12 7; q 3 7; q 3 7].

Lemma prod6 sq r : on_rows (d := d6) (r_resid sq (@dsolve d6) y6) r
  * on_rows (d := d6) (A6 *m r_AAinv sq (@dsolve d6) (unit_vec (0%N : nN) 1%N d6 3)) r = nth 0 z6 r.
Proof.
rewrite /on_rows; case: insubP => [i lt <-|]; last first.
  by rewrite -leqNgt => h; rewrite mul0r nth_default.
rewrite r6 u6E.
by case: i lt => [[|[|[|[|[|[|]]]]]] ?] lt //=; rewrite /q; qrat.
Qed.

Definition sum6 (same : nat -> nat -> bool) : rat :=
  \sum_(0 <= r < 6) \sum_(0 <= s < 6 | same r s) nth 0 z6 r * nth 0 z6 s.

Lemma sum6E same : sum6 same
  = \sum_(r < 6) \sum_(s < 6) if same r s then nth 0 z6 r * nth 0 z6 s else 0.
Proof.
by rewrite /sum6 big_mkord; apply: eq_bigr => r _; rewrite big_mkord big_mkcond.
Qed.

Lemma se6_full : sum6 (fun r s => (j6 r == j6 s) || (i6 r == i6 s)) = q 72 49.
Proof. by rewrite sum6E !big_ord_recl !big_ord0 /= /q; qrat. Qed.

Lemma se6 sq : se_square sq (@dsolve d6) 2%N [:: 0; 1]%N y6 = Base.Ok (q (-72) 49).
Proof.
have c : se_col (0%N : nN) 1%N d6 2%N = Base.Ok 3%N.
  have e : blocks (0%N : nN) 1%N d6 = [:: (0%N, Normalised rQ 2 j6); (1%N, Free rQ 2 i6)] ++ (2%N, Slope x6) :: [::].
    by [].
  by rewrite (se_colE d6_names e).
rewrite /se_square c.
rewrite (p_cluster (same := fun r s => ((j6 r == j6 s) && (j6 r != 0%N)) || (i6 r == i6 s)) d6_names d6_ids) //.
transitivity (Base.Ok (sum6 (fun r s => ((j6 r == j6 s) && (j6 r != 0%N)) || (i6 r == i6 s)))).
  by congr (Base.Ok _); apply: eq_bigr => r _; apply: eq_bigr => s _; rewrite !prod6.
congr (Base.Ok _); rewrite sum6E !big_ord_recl !big_ord0 /=.
by rewrite /q; qrat.
Qed.

(* ---- one firm, one worker, two rows with different error variances -------------- *)
Add Field rF2 : (field_th rat_realFieldType).
Definition d2 : cdata rQ nN := @CData rQ nN 2 1 1 (fun _ => 0%N) (fun _ => 0%N) [::] [::] None.
Lemma d2_names : names_ok (0%N : nN) 1%N d2. Proof. by []. Qed.
Lemma d2_ids : ids_ok (0%N : nN) 1%N d2. Proof. by []. Qed.
Lemma d2_pos : c_positive d2. Proof. by move=> r; rewrite /cwgt. Qed.
Lemma d2_fit a (r : 'I_2) : row_fit (0%N : nN) 1%N d2 [:: a] r = a.
Proof. by rewrite /row_fit /effects /= !big_cons big_nil addr0 add0r. Qed.
Lemma d2_id : identified (0%N : nN) 1%N d2.
Proof.
by move=> [|a []] // [|b []] // _ _ /(_ ord0); rewrite !d2_fit => ->.
Qed.
Lemma d2_cons sq : consistent (@dsolve d2) (AtDpA sq (0%N : nN) 1%N d2).
Proof. by apply: direct_cons; [exact: d2_names|exact: d2_ids|exact: d2_pos|exact: d2_id]. Qed.

Lemma d2_mean sq Y (r : 'I_2) :
  row_fit (0%N : nN) 1%N d2 (vlist (gamma_hat sq (@dsolve d2) Y)) r = (Y 0 0 + Y 1 0) / 2%:R.
Proof.
have := resid_sum0 d2_names d2_ids d2_pos (@d2_cons sq) Y.
have := @r_coefs rQ sq nN 0%N 1%N d2 (@dsolve d2) d2_names Y.
have f := @r_fit rQ sq nN 0%N 1%N d2 (@dsolve d2) d2_names d2_ids Y.
rewrite !big_ord_recl big_ord0 !f /coefs.
case: (vlist _) => [|a []] // _; rewrite !d2_fit /cwgt /= !mul1r addr0.
have -> : lift ord0 ord0 = 1 :> 'I_2 by apply: val_inj.
move=> e; apply: (mulIf (x := 2%:R)) => //; rewrite divfK //.
rewrite mulr_natr mulr2n; apply/eqP; rewrite -subr_eq0 -oppr_eq0 -e; apply/eqP.
have -> : (0 : 'I_2) = ord0 by apply: val_inj.
move: (Y ord0 0) (Y 1 0) => y0 y1.
by fring rQ.
Qed.

Lemma d2_resp sq (r s : 'I_2) :
  @response_of rQ nN d2 (fun Y (r : 'I_2) => row_fit (0%N : nN) 1%N d2 (vlist (gamma_hat sq (@dsolve d2) Y)) r) r s (1 / 2%:R).
Proof.
move=> Y t; rewrite !d2_mean !mxE.
by case: s => [[|[|]] ?] //=; rewrite ?mulr1 ?mulr0 ?addr0; ffield rQ.
Qed.

Definition c2 (r : 'I_2) : rat := if r == 0 then 1 else 2%:R.
Lemma d2_sii sq g : coefs (0%N : nN) 1%N d2 g ->
  Ex (@pn 2) (fun o => r_Sii_term sq (@dsolve d2) (fun _ => 1 / 2%:R)
     (c_outcome (0%N : nN) 1%N (d := d2) g (epsn c2 o)) 0) = 5%:R / 2%:R.
Proof.
move=> cg.
rewrite (r_sii_resp d2_names d2_ids d2_pos (@d2_cons sq) d2_id (pn_dist 2) (epsn_unc c2) cg
  (H := fun _ => 1 / 2%:R) (r := 0)) //; last by move=> s; exact: d2_resp.
by rewrite !big_ord_recl !big_ord0 /cwgt /c2 /=; ffield rQ.
Qed.

(* ---- a control that is constant for every worker ---------------------------------- *)
Definition dk : cdata rQ nN := @CData rQ nN 4 1 2 (fun _ => 0%N) (fun r => r./2) [::]
  [:: [:: @CtsCol rQ nN 2%N (fun r => (r./2)%:R)]] None.
Lemma dk_names : names_ok (0%N : nN) 1%N dk. Proof. by []. Qed.
Lemma dk_ids : ids_ok (0%N : nN) 1%N dk. Proof. by case=> [|[|[|[|]]]]. Qed.
Lemma dk_pos : c_positive dk. Proof. by move=> r; rewrite /cwgt. Qed.
Lemma dk_not : ~ identified (0%N : nN) 1%N dk.
Proof.
move=> /(_ [:: 0; 1; 0] [:: 0; 0; 1] erefl erefl) h.
suff // : [:: 0; 1; 0] = [:: 0; 0; 1] :> seq rat by [].
apply: h => r; rewrite /row_fit /effects /= !big_cons !big_nil /=.
by case: r => [[|[|[|[|]]]] ?].
Qed.
(* A solver that is exact whenever there is a solution. *)
Definition lsolve n (M : 'M[rat]_n) (b : 'cV[rat]_n) : 'cV[rat]_n := (b^T *m pinvmx M^T)^T.
Lemma lsolve_cons n (M : 'M[rat]_n) : @consistent rQ n (@lsolve n) M.
Proof.
move=> b [x e]; rewrite /lsolve -[LHS]trmxK trmx_mul trmxK mulmxKpV ?trmxK //.
by rewrite -e trmx_mul submxMl.
Qed.

Lemma dk_case sq :
  names_ok (0%N : nN) 1%N dk /\ ids_ok (0%N : nN) 1%N dk /\ c_positive dk
  /\ consistent (@lsolve _) (AtDpA sq (0%N : nN) 1%N dk)
  /\ ~ identified (0%N : nN) 1%N dk /\ (n_cov (0%N : nN) 1%N dk < c_nn dk)%N
  /\ uncorrelated (@pn 4) (epsn (fun _ => 1)) (fun _ => 1 * 1).
Proof.
split; first exact: dk_names.
split; first exact: dk_ids.
split; first exact: dk_pos.
split; first exact: lsolve_cons.
split; first exact: dk_not.
by split=> //; exact: epsn_unc.
Qed.

Lemma d6_case sq :
  names_ok (0%N : nN) 1%N d6 /\ ids_ok (0%N : nN) 1%N d6 /\ c_positive d6
  /\ consistent (@dsolve d6) (AtDpA sq (0%N : nN) 1%N d6)
  /\ identified (0%N : nN) 1%N d6 /\ (n_cov (0%N : nN) 1%N d6 < c_nn d6)%N
  /\ gamma_hat sq (@dsolve d6) y6 = g6.
Proof.
split; first exact: d6_names.
split; first exact: d6_ids.
split; first exact: d6_pos.
split; first exact: d6_cons.
split; first exact: d6_id.
by split=> //; exact: gh6.
Qed.

Lemma d6_case_names :
  good_names (0%N : nN) 1%N d6 [:: 0%N; 2%N] /\ good_names (0%N : nN) 1%N d6 [:: 1%N]
  /\ coefs (0%N : nN) 1%N d6 [:: 5%:R; 1; 2%:R; 3%:R]
  /\ uncorrelated (@pn 6) (epsn (fun _ => 1)) (fun _ => 1 * 1).
Proof. by do 3 split=> //; exact: epsn_unc. Qed.

Lemma d2_wrong sq g : coefs (0%N : nN) 1%N d2 g ->
  uncorrelated (@pn 2) (epsn c2) (fun r => if r == 0 then 1 else 4%:R)
  /\ leverage_of (d := d2) (fun Y r => row_fit (0%N : nN) 1%N d2
       (vlist (gamma_hat sq (@dsolve d2) Y)) r) 0 (1 / 2%:R)
  /\ Ex (@pn 2) (fun o => r_Sii_term sq (@dsolve d2) (fun _ => 1 / 2%:R)
       (c_outcome (0%N : nN) 1%N (d := d2) g (epsn c2 o)) 0) = 5%:R / 2%:R.
Proof.
move=> cg; split; last by split; [exact: d2_resp|exact: d2_sii].
have [h1 h2] := epsn_unc c2; split=> // r s; rewrite h2; case: eqP => // _.
by rewrite /c2; case: ifP.
Qed.

Lemma d6_negative sq :
  se_square sq (@dsolve d6) 2%N [:: 0%N; 1%N] y6 = Base.Ok (- (72%:R / 49%:R))
  /\ \sum_(0 <= r < 6) \sum_(0 <= s < 6 | (c_j d6 r == c_j d6 s) || (c_i d6 r == c_i d6 s))
       (nth 0 E6 r * nth 0 u6 r) * (nth 0 E6 s * nth 0 u6 s) = 72%:R / 49%:R
  /\ (forall r : 'I_6, r_resid sq (@dsolve d6) y6 r 0 = nth 0 E6 r)
  /\ (forall r : 'I_6, (A_mx (0%N : nN) 1%N d6
       *m r_AAinv sq (@dsolve d6) (unit_vec (0%N : nN) 1%N d6 3)) r 0 = nth 0 u6 r).
Proof.
have q72 : q 72 49 = 72%:R / 49%:R by rewrite /q; qrat.
have m72 : q (-72) 49 = - (72%:R / 49%:R) by rewrite /q; qrat.
have e t : nth 0 E6 t * nth 0 u6 t = nth 0 z6 t.
  case: (ltnP t 6) => h; last first.
    rewrite (@nth_default _ 0 E6 t h) mul0r (@nth_default _ 0 z6 t h); reflexivity.
  case: t h => [|[|[|[|[|[|t]]]]]] h; last by [].
  - by rewrite /= mul0r.
  - by rewrite /= /q; qrat.
  - by rewrite /= /q; qrat.
  - by rewrite /= /q; qrat.
  - by rewrite /= /q; qrat.
  - by rewrite /= /q; qrat.
split; first by rewrite se6 m72.
split; last by split=> r; [exact: r6|exact: u6E].
rewrite -[RHS]q72 -[RHS]se6_full; apply: eq_bigr => r _.
by apply: eq_bigr => s _; rewrite !e.
Qed.
