(* Standard errors of the regression with controls: proofs for C59. *)
Set Warnings "-notation-overridden,-ambiguous-paths".
From mathcomp Require Import all_ssreflect all_algebra.
From Verif Require Base.
From Verif Require Import FieldTac FEModel FESpec FEMxLemmas FECovLemmas FEExpLemmas FETraceLemmas
  FEGramLemmas FECtlModel FECtlSpec FECtlLemmas FECtlNameLemmas FECtlPropLemmas
  FERegModel FERegSpec FERegLemmas FERegPropLemmas.

Set Implicit Arguments.
Unset Strict Implicit.
Unset Printing Implicit Defensive.

Import GRing.Theory Num.Theory Order.POrderTheory.
Local Open Scope ring_scope.

Section Se.
Variable F : realFieldType.
Add Field Ff : (field_th F).
Variable sq : F -> F.
Variable N : eqType.
Variables npsi nalpha : N.

Lemma unit_gap n k (A : 'M[F]_(n, k)) (H : 'M[F]_k) (c : nat) :
  H *m (A^T *m A) = 1%:M -> H^T = H ->
  \sum_(r < n) (A *m (H *m (\col_(i < k) (val i == c)%:R))) r 0 ^+ 2
  = \sum_(i < k | val i == c) (H *m (\col_(i < k) (val i == c)%:R)) i 0.
Proof.
move=> GM Gs.
case: (ltnP c k) => lt; last first.
  have z : \col_(i < k) (val i == c)%:R = 0 :> 'cV[F]_k.
    by apply/colP => i; rewrite !mxE; case: eqP => // e; move: (ltn_ord i); rewrite e ltnNge lt.
  rewrite z !mulmx0 big1 => [|r _]; last by rewrite mxE expr0n.
  by rewrite big1 // => i _; rewrite mxE.
rewrite [in RHS](bigD1 (Ordinal lt)) //= [X in _ = _ + X]big1 => [|i /andP [/eqP ei /eqP ne]]; last first.
  by case: ne; apply: val_inj.
rewrite addr0.
have -> : \col_(i < k) (val i == c)%:R = delta_mx (Ordinal lt) 0 :> 'cV[F]_k.
  by apply/colP => i; rewrite !mxE andbT.
rewrite mulmxA -!colE.
have e : (A *m H)^T *m (A *m H) = H by rewrite trmx_mul Gs -mulmxA [A^T *m _]mulmxA mulmxA GM mul1mx.
rewrite -{2}e [in RHS]mxE mxE; apply: eq_bigr => r _.
by move: (A *m H) => X; rewrite !mxE expr2.
Qed.

Section One.
Variable d : cdata F N.
Local Notation nn := (c_nn d).
Local Notation k := (n_cov npsi nalpha d).
Variable solver : 'M[F]_k -> 'cV[F]_k -> 'cV[F]_k.
Local Notation A := (A_mx npsi nalpha d).
Local Notation W := (@cwgt F N d).
Local Notation D := (diag_mx (\row_r W r)).
Local Notation gh := (gamma_hat sq solver).
Hypothesis nok : names_ok npsi nalpha d.
Hypothesis iok : ids_ok npsi nalpha d.
Hypothesis pw : c_positive d.
Hypothesis cs : consistent solver (AtDpA sq npsi nalpha d).
Hypothesis id : identified npsi nalpha d.
Local Notation M := (A^T *m D *m A).
Local Notation G := (invmx M).

Lemma se_colE b1 b b2 : blocks npsi nalpha d = b1 ++ b :: b2 ->
  se_col npsi nalpha d b.1 = Base.Ok (first_col b1).
Proof. by move=> e; rewrite /se_col (c_layout nok e). Qed.

Lemma unit_vecE (c : 'I_k) : unit_vec npsi nalpha d c = delta_mx c 0.
Proof. by apply/colP => i; rewrite !mxE andbT. Qed.

Lemma std_unw b1 b b2 Y (c : 'I_k) : c_w d = None -> blocks npsi nalpha d = b1 ++ b :: b2 ->
  val c = first_col b1 ->
  se_square sq solver b.1 [::] Y = Base.Ok (r_mean_E2 sq solver Y * G c c).
Proof.
move=> ew e ec; rewrite /se_square (se_colE e) -ec ew; congr (Base.Ok _).
rewrite sigma_fe_unw //; congr (_ * _).
rewrite (bigD1 c) //= big1 => [|i /andP [/eqP ei /eqP ne]]; last by case: ne; apply: val_inj.
by rewrite addr0 (AAinvE nok iok pw cs id) unit_vecE -colE [col _ _ _ _]mxE.
Qed.

Lemma std_w b1 b b2 Y (c : 'I_k) w : c_w d = Some w -> blocks npsi nalpha d = b1 ++ b :: b2 ->
  val c = first_col b1 ->
  se_square sq solver b.1 [::] Y = Base.Ok (r_mean_E2 sq solver Y * (G *m A^T *m A *m G) c c).
Proof.
move=> ew e ec; rewrite /se_square (se_colE e) -ec ew; congr (Base.Ok (_ * _)).
rewrite (AAinvE nok iok pw cs id) unit_vecE mulmxA -colE.
have -> : G *m A^T *m A *m G = (A *m G)^T *m (A *m G) by rewrite trmx_mul (Gs npsi nalpha d) !mulmxA.
by rewrite [in RHS]mxE; apply: eq_bigr => r _; move: (A *m G) => X; rewrite !mxE expr2.
Qed.

(* Unweighted data: what the squared standard error estimates. *)
Lemma se_dof (Om : finType) (p : Om -> F) (eps : Om -> 'I_nn -> F) g s2 b1 b b2 :
  is_dist p -> uncorrelated p eps (fun _ => s2) -> coefs npsi nalpha d g -> c_w d = None ->
  (0 < nn)%N -> blocks npsi nalpha d = b1 ++ b :: b2 -> (0 < width b.2)%N ->
  let c := first_col b1 in
  exists Se : 'cV[F]_nn -> F,
    (forall Y, se_square sq solver b.1 [::] Y = Base.Ok (Se Y))
    /\ nn%:R * Ex p (fun o => Se (c_outcome npsi nalpha g (eps o)))
       = (nn%:R - k%:R) * Ex p (fun o =>
            (nth 0 (vlist (gh (c_outcome npsi nalpha g (eps o)))) c - nth 0 g c) ^+ 2).
Proof.
move=> dist unc cg ew n0 e wd /=.
have lk : (first_col b1 < k)%N.
  by rewrite n_covE // e map_cat sumn_cat /= -[X in (X < _)%N]addn0 ltn_add2l ltn_addr.
have W1 r : W r = 1 by rewrite /cwgt ew.
have D1 : D = 1%:M by rewrite -diag_one; congr diag_mx; apply/rowP => r; rewrite !mxE W1.
have sg : size g = k by apply/(coefsE nok).
have V1 : diag_mx (\row_(r < nn) s2) = s2 *: 1%:M.
  by apply/matrixP => r s; rewrite !mxE; case: eqP => _; rewrite ?mulr1n ?mulr0n ?mulr0 ?mulr1.
exists (fun Y => r_mean_E2 sq solver Y * G (Ordinal lk) (Ordinal lk)); split.
  by move=> Y; rewrite (std_unw Y (c := Ordinal lk) ew e).
rewrite Ex_mulr mulrA -Ex_mull.
have -> : Ex p (fun o => nn%:R * r_mean_E2 sq solver (c_outcome npsi nalpha g (eps o)))
   = s2 * (nn%:R - k%:R).
  rewrite (eq_Ex p (fun o => mean_E2 sq solver (c_outcome npsi nalpha g (eps o)) n0)).
  rewrite (n_ssr nok iok pw cs id unc sg) V1 -scalemxAr -scalemxAl mxtraceZ mulmx1; congr (_ * _).
  have VV : diag_mx (\row_r (W r)^-1) = 1%:M.
    by rewrite -diag_one; congr diag_mx; apply/rowP => r; rewrite !mxE W1 invr1.
  have := RVR nok iok pw id; rewrite VV mulmx1 => ->.
  rewrite mxtraceB mxtrace1; congr (_ - _).
  have -> : A *m G *m A^T = A *m Lm npsi nalpha d by rewrite /Lm D1 mulmx1 mulmxA.
  by rewrite (proj_trace pw (LmE nok iok pw id)) rank_A.
have nv : Ex p (fun o => (nth 0 (vlist (gh (c_outcome npsi nalpha g (eps o)))) (first_col b1)
              - nth 0 g (first_col b1)) ^+ 2) = s2 * G (Ordinal lk) (Ordinal lk).
  have := n_coef nok iok pw cs id unc sg (Ordinal lk).
  have VV : diag_mx (\row_r (W r)^-1) = 1%:M.
    by rewrite -diag_one; congr diag_mx; apply/rowP => r; rewrite !mxE W1 invr1.
  have := LVL nok iok pw id; rewrite VV mulmx1 => lvl.
  rewrite V1 -scalemxAr -scalemxAl mulmx1 lvl scalemE => <-.
  by apply: eq_Ex => o; rewrite -nth_vl.
by rewrite nv; fring F.
Qed.

(* A solution of the normal equations is the estimate. *)
Lemma gh_char Y x : M *m x = A^T *m D *m Y -> gh Y = x.
Proof.
move=> e; rewrite (ghL nok iok pw cs id) /Lm -[RHS](mulKmx (identified_unit nok iok pw id)) e.
by rewrite !mulmxA.
Qed.
Lemma AAinv_char b x : M *m x = b -> r_AAinv sq solver b = x.
Proof. by move=> <-; rewrite (AAinvE nok iok pw cs id) mulKmx // identified_unit. Qed.
End One.

(* ---- two sets of weights --------------------------------------------------- *)
Section Two.
Variable d : cdata F N.
Local Notation nn := (c_nn d).
Local Notation k := (n_cov npsi nalpha d).
Variable solver : 'M[F]_k -> 'cV[F]_k -> 'cV[F]_k.
Hypothesis nok : names_ok npsi nalpha d.
Hypothesis iok : ids_ok npsi nalpha d.
Hypothesis id : identified npsi nalpha d.
Local Notation du := (with_w d None).
Local Notation d1 := (with_w d (Some (fun _ => 1))).
Local Notation A := (A_mx npsi nalpha d).

Lemma AtDpA_unit : AtDpA sq npsi nalpha d1 = AtDpA sq npsi nalpha du.
Proof.
rewrite !AtDpAE; congr (_ *m _ *m _); congr diag_mx.
Qed.

Lemma gh_unit Y : @gamma_hat F sq N npsi nalpha d1 solver Y = @gamma_hat F sq N npsi nalpha du solver Y.
Proof.
rewrite /gamma_hat /r_solve /r_AAinv AtDpA_unit !At_yes.
by congr (solver _ (_ *m _ *m _)); congr diag_mx.
Qed.

Lemma resid_unit Y :
  @r_resid F sq N npsi nalpha d1 solver Y = @r_resid F sq N npsi nalpha du solver Y.
Proof. by rewrite !residE gh_unit. Qed.

Lemma se_unit col cl Y : consistent solver (AtDpA sq npsi nalpha du) ->
  @se_square F sq N npsi nalpha d1 solver col cl Y = @se_square F sq N npsi nalpha du solver col cl Y.
Proof.
move=> cs.
have pu : c_positive du by move=> r; rewrite /cwgt /= ltr01.
have AI v : @r_AAinv F sq N npsi nalpha d1 solver v = @r_AAinv F sq N npsi nalpha du solver v.
  by rewrite /r_AAinv AtDpA_unit.
rewrite /se_square.
have -> : se_col npsi nalpha d1 col = se_col npsi nalpha du col by [].
case: (se_col npsi nalpha du col) => // c.
case: cl => [|x l]; last first.
  by rewrite AI resid_unit.
congr (Base.Ok _) => /=.
have -> : r_sigma_2_fe sq (d := du) solver Y = r_mean_E2 sq (d := du) solver Y by exact: sigma_fe_unw.
have -> : r_mean_E2 sq (d := d1) solver Y = r_mean_E2 sq (d := du) solver Y.
  by rewrite /r_mean_E2 resid_unit.
congr (_ * _).
have := @AAinvE F sq N npsi nalpha du solver nok iok pu cs id.
have GM := @GM F N npsi nalpha du nok iok pu id.
have Gs := @Gs F N npsi nalpha du.
have D1 : diag_mx (\row_r @cwgt F N du r) = 1%:M by exact: diag_one.
rewrite D1 mulmx1 in GM Gs *.
move: GM Gs; set H := invmx _ => GM Gs AE.
rewrite AI AE.
exact: (unit_gap c GM Gs).
Qed.

Variable w : nat -> F.
Variable c : F.
Hypothesis pw : forall r, (r < nn)%N -> 0 < w r.
Hypothesis pc : 0 < c.
Local Notation dw := (with_w d (Some w)).
Local Notation dc := (with_w d (Some (fun r => c * w r))).
Hypothesis csw : consistent solver (AtDpA sq npsi nalpha dw).
Hypothesis csc : consistent solver (AtDpA sq npsi nalpha dc).

Let pwd : c_positive dw.
Proof. by move=> r; rewrite /cwgt /= pw. Qed.
Let pcd : c_positive dc.
Proof. by move=> r; rewrite /cwgt /= mulr_gt0 ?pw. Qed.
Local Notation Dw := (diag_mx (\row_r @cwgt F N dw r)).
Local Notation Dc := (diag_mx (\row_r @cwgt F N dc r)).

Lemma DcE : Dc = c *: Dw.
Proof. by apply/matrixP => r s; rewrite !mxE /cwgt /= mulrnAr. Qed.

Lemma AtDpA_c : A^T *m Dc *m A = c *: (A^T *m Dw *m A).
Proof. by rewrite DcE -scalemxAr -scalemxAl. Qed.

Lemma gh_c Y : @gamma_hat F sq N npsi nalpha dc solver Y = @gamma_hat F sq N npsi nalpha dw solver Y.
Proof.
apply: (@gh_char dc solver nok iok pcd csc id).
by rewrite AtDpA_c -scalemxAl (normal_eq pwd csw Y) DcE -scalemxAr -scalemxAl.
Qed.

Lemma AAinv_c b : @r_AAinv F sq N npsi nalpha dc solver b = c^-1 *: @r_AAinv F sq N npsi nalpha dw solver b.
Proof.
have c0 : c != 0 by rewrite gt_eqF.
apply: (@AAinv_char dc solver nok iok pcd csc id).
rewrite AtDpA_c -scalemxAl -scalemxAr scalerA mulfV // scale1r.
by rewrite (@AAinvE F sq N npsi nalpha dw solver nok iok pwd csw id) mulKVmx // (@identified_unit F N npsi nalpha dw nok iok pwd id).
Qed.

Lemma se_c col cl Y :
  @se_square F sq N npsi nalpha dc solver col cl Y
  = Base.rmap (fun x => x / c ^+ 2) (@se_square F sq N npsi nalpha dw solver col cl Y).
Proof.
have c0 : c != 0 by rewrite gt_eqF.
have rE : @r_resid F sq N npsi nalpha dc solver Y = @r_resid F sq N npsi nalpha dw solver Y.
  by rewrite !residE gh_c.
rewrite /se_square.
have -> : se_col npsi nalpha dc col = se_col npsi nalpha dw col by [].
case: (se_col npsi nalpha dw col) => // j.
case: cl => [|x l] /=.
  congr (Base.Ok _).
  have -> : r_mean_E2 sq (d := dc) solver Y = r_mean_E2 sq (d := dw) solver Y.
    by rewrite /r_mean_E2 rE.
  rewrite -[RHS]mulrA; congr (_ * _); rewrite big_distrl /=; apply: eq_bigr => r _.
  rewrite AAinv_c -scalemxAr scalemE exprMn exprVn mulrC; congr (_ / _).
rewrite rE AAinv_c -scalemxAr /clustered_var.
have -> : A_indices npsi nalpha dc (x :: l) = A_indices npsi nalpha dw (x :: l) by [].
case: (A_indices npsi nalpha dw (x :: l)) => //= idx; congr (Base.Ok _).
have on v r : on_rows (d := dc) (c^-1 *: v) r = on_rows (d := dw) v r / c.
  by rewrite /on_rows; case: insubP => [i _ _|_]; rewrite ?mul0r // scalemE mulrC.
rewrite mulr_suml; apply: eq_bigr => r _; rewrite mulr_suml; apply: eq_bigr => s _.
rewrite !on.
have -> : S_entry npsi nalpha dc idx r s = S_entry npsi nalpha dw idx r s by [].
have -> : on_rows (d := dc) (@r_resid F sq N npsi nalpha dw solver Y)
        = on_rows (d := dw) (@r_resid F sq N npsi nalpha dw solver Y) by [].
move: (on_rows _ r) (on_rows _ s) (on_rows (d := dw) (A_mx _ _ _ *m _) r)
  (on_rows (d := dw) (A_mx _ _ _ *m _) s) (S_entry _ _ _ _ _ _) => x1 x2 x3 x4 x5.
by ffield F; apply/eqP.
Qed.
End Two.
End Se.
