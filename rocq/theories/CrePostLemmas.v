(* Lemmas for the posterior variance of the CRE estimator. *)
Set Warnings "-notation-overridden,-ambiguous-paths".
From mathcomp Require Import all_ssreflect all_algebra.
From Verif Require Base.
From Verif Require Import FieldTac FEModel FESpec FEMxLemmas FEExpLemmas FETraceLemmas CrePostModel CrePostSpec.

Set Implicit Arguments.
Unset Strict Implicit.
Unset Printing Implicit Defensive.

Import GRing.Theory Num.Theory Order.POrderTheory.
Local Open Scope ring_scope.

Section Post.
Variable F : realFieldType.
Add Field Ff : (field_th F).
Variables nf mn nnq : nat.
Variable d : post_data F nf mn nnq.

Lemma selE n (col : 'I_n -> 'I_nf) (x : 'cV[F]_nf) r : (selector F col *m x) r 0 = x (col r) 0.
Proof.
rewrite mxE (bigD1 (col r)) //= mxE eqxx mul1r big1 ?addr0 // => k /negbTE ne.
by rewrite mxE eq_sym ne mul0r.
Qed.

Lemma JdE (x : 'cV[F]_nf) r : (Jd d *m x) r 0 = x (pj2 d r) 0 - x (pj1 d r) 0.
Proof. by rewrite /Jd mulmxBl addmE oppmE !selE. Qed.

Lemma JqE (x : 'cV[F]_nf) r : (Jq d *m x) r 0 = x (pjq d r) 0.
Proof. exact: selE. Qed.

(* Quadratic forms. *)
Lemma dotE n (x y : 'cV[F]_n) : (x^T *m y) 0 0 = \sum_r x r 0 * y r 0.
Proof. by rewrite mxE; apply: eq_bigr => r _; rewrite mxE. Qed.

Lemma tr11 (A : 'M[F]_1) : A^T = A.
Proof. by apply/matrixP => i j; rewrite !ord1 mxE. Qed.

Variables vp ve : F.
Hypotheses (vp0 : 0 < vp) (ve0 : 0 < ve).
Local Notation MM := (M d vp ve).
Let vpn : vp != 0. Proof. exact: lt0r_neq0. Qed.
Let ven : ve != 0. Proof. exact: lt0r_neq0. Qed.

Lemma M_sym : MM^T = MM.
Proof. by rewrite /M linearD /= !linearZ /= trmx1 trmx_mul trmxK. Qed.

Lemma M_form (x y : 'cV[F]_nf) : (x^T *m MM *m y) 0 0 =
  \sum_j x j 0 * y j 0 / vp + \sum_r (x (pj2 d r) 0 - x (pj1 d r) 0) * (y (pj2 d r) 0 - y (pj1 d r) 0) / ve.
Proof.
rewrite /M mulmxDr mulmxDl addmE -!scalemxAr -!scalemxAl mulmx1 !scalemE dotE.
have -> : x^T *m ((Jd d)^T *m Jd d) *m y = (Jd d *m x)^T *m (Jd d *m y) by rewrite trmx_mul !mulmxA.
rewrite dotE !mulr_sumr; congr (_ + _); apply: eq_bigr => k _; rewrite ?JdE; by ffield F; apply/eqP.
Qed.

Lemma M_curv (x : 'cV[F]_nf) : (x^T *m MM *m x) 0 0 = curvature d vp ve (fun j => x j 0).
Proof. by rewrite M_form. Qed.

Lemma curv_ge0 (x : 'I_nf -> F) : 0 <= curvature d vp ve x.
Proof.
by rewrite /curvature addr_ge0 // sumr_ge0 // => k _; rewrite divr_ge0 ?sqr_ge0 // ltW.
Qed.

Lemma curv_eq0 (x : 'I_nf -> F) : curvature d vp ve x = 0 -> forall j, x j = 0.
Proof.
move=> c0 j; apply/eqP.
have a0 : 0 <= \sum_j x j ^+ 2 / vp by rewrite sumr_ge0 // => k _; rewrite divr_ge0 ?sqr_ge0 // ltW.
have b0 : 0 <= \sum_r (x (pj2 d r) - x (pj1 d r)) ^+ 2 / ve
  by rewrite sumr_ge0 // => k _; rewrite divr_ge0 ?sqr_ge0 // ltW.
move/eqP: c0; rewrite /curvature paddr_eq0 // => /andP[s0 _].
have := s0; rewrite psumr_eq0; last by move=> k _; rewrite divr_ge0 ?sqr_ge0 // ltW.
move/allP/(_ j); rewrite mem_index_enum => /(_ isT) /=.
by rewrite mulf_eq0 invr_eq0 (gt_eqF vp0) orbF sqrf_eq0.
Qed.

Lemma M_unit : MM \in unitmx.
Proof.
rewrite -row_free_unit -kermx_eq0; apply/eqP/row_matrixP => i.
rewrite row0; apply/rowP => j; rewrite [RHS]mxE.
set u := row i (kermx MM).
have u0 : u *m MM = 0 by rewrite /u -row_mul mulmx_ker row0.
have : curvature d vp ve (fun j => (u^T) j 0) = 0.
  by rewrite -M_curv trmxK u0 mul0mx mxE.
by move/curv_eq0/(_ j); rewrite mxE.
Qed.

(* Completing the square. *)
Lemma pen_shift (mu0 mu h : 'cV[F]_nf) :
  penalised d vp ve (fun j => mu0 j 0) (fun j => (mu + h) j 0)
  = penalised d vp ve (fun j => mu0 j 0) (fun j => mu j 0) + curvature d vp ve (fun j => h j 0)
    + 2%:R * (h^T *m (MM *m mu - v1 d vp ve mu0)) 0 0.
Proof.
have -> : (h^T *m (MM *m mu - v1 d vp ve mu0)) 0 0
   = \sum_j h j 0 * (mu j 0 - mu0 j 0) / vp
     + \sum_r (h (pj2 d r) 0 - h (pj1 d r) 0)
        * ((mu (pj2 d r) 0 - mu (pj1 d r) 0) - (py2 d r - py1 d r)) / ve.
  rewrite mulmxBr mulmxA addmE oppmE M_form /v1 mulmxDr -!scalemxAr.
  rewrite addmE !scalemE dotE.
  have -> : h^T *m ((Jd d)^T *m Yd d) = (Jd d *m h)^T *m Yd d by rewrite trmx_mul !mulmxA.
  rewrite dotE !mulr_sumr opprD addrACA -!sumrB; congr (_ + _); apply: eq_bigr => k _;
    rewrite ?JdE ?mxE; by ffield F; apply/eqP.
rewrite /penalised /curvature mulrDr !mulr_sumr.
rewrite -!addrA.
rewrite [RHS](_ : _ = (\sum_j (mu j 0 - mu0 j 0) ^+ 2 / vp + \sum_j h j 0 ^+ 2 / vp
     + \sum_j 2%:R * (h j 0 * (mu j 0 - mu0 j 0) / vp))
   + (\sum_r (py2 d r - py1 d r - (mu (pj2 d r) 0 - mu (pj1 d r) 0)) ^+ 2 / ve
     + \sum_r (h (pj2 d r) 0 - h (pj1 d r) 0) ^+ 2 / ve
     + \sum_r 2%:R * ((h (pj2 d r) 0 - h (pj1 d r) 0)
        * ((mu (pj2 d r) 0 - mu (pj1 d r) 0) - (py2 d r - py1 d r)) / ve))); last by fring F.
rewrite -!big_split /=; congr (_ + _); apply: eq_bigr => k _; rewrite !mxE;
  by ffield F; apply/eqP.
Qed.

Variable solve : 'M[F]_nf -> 'cV[F]_nf -> 'cV[F]_nf.
Hypothesis ok : exact_solver solve MM.

Lemma solveE b : solve MM b = invmx MM *m b.
Proof. by rewrite -[in RHS](ok b) mulKmx // M_unit. Qed.

Lemma penalised_ext (m0 m0' x x' : 'I_nf -> F) : m0 =1 m0' -> x =1 x' ->
  penalised d vp ve m0 x = penalised d vp ve m0' x'.
Proof.
by move=> e e'; rewrite /penalised; congr (_ + _); apply: eq_bigr => k _; rewrite ?e !e'.
Qed.

Lemma curv_ext x x' : x =1 x' -> curvature d vp ve x = curvature d vp ve x'.
Proof. by move=> e; rewrite /curvature; congr (_ + _); apply: eq_bigr => k _; rewrite !e. Qed.

Lemma pen_at (mu0 : 'cV[F]_nf) (x : 'I_nf -> F) :
  penalised d vp ve (fun j => mu0 j 0) x
  = penalised d vp ve (fun j => mu0 j 0) (fun j => post_psi solve d vp ve mu0 j 0)
    + curvature d vp ve (fun j => x j - post_psi solve d vp ve mu0 j 0).
Proof.
pose mu := post_psi solve d vp ve mu0.
pose h : 'cV[F]_nf := \col_j x j - mu.
have e : MM *m mu = v1 d vp ve mu0 by exact: ok.
have := pen_shift mu0 mu h; rewrite e subrr mulmx0 (_ : (0 : 'M[F]_1) 0 0 = 0) ?mxE // mulr0 addr0.
have -> : curvature d vp ve (fun j => h j 0) = curvature d vp ve (fun j => x j - mu j 0).
  by apply: curv_ext => j; rewrite /h !mxE.
move=> <-; apply: penalised_ext => // j.
by rewrite /h addrC subrK mxE.
Qed.

Lemma post_minimises (mu0 : 'cV[F]_nf) (x : 'I_nf -> F) :
  penalised d vp ve (fun j => mu0 j 0) (fun j => post_psi solve d vp ve mu0 j 0)
  <= penalised d vp ve (fun j => mu0 j 0) x.
Proof. by rewrite (pen_at mu0 x) ler_addl curv_ge0. Qed.

Lemma post_unique (mu0 : 'cV[F]_nf) (x : 'I_nf -> F) :
  penalised d vp ve (fun j => mu0 j 0) x
  <= penalised d vp ve (fun j => mu0 j 0) (fun j => post_psi solve d vp ve mu0 j 0) ->
  forall j, x j = post_psi solve d vp ve mu0 j 0.
Proof.
rewrite (pen_at mu0 x) ger_addl => c j.
have c0 : curvature d vp ve (fun j => x j - post_psi solve d vp ve mu0 j 0) = 0.
  by apply/eqP; rewrite eq_le c curv_ge0.
by apply/eqP; rewrite -subr_eq0; apply/eqP; exact: (curv_eq0 c0).
Qed.

(* The matrix of the quadratic part is M. *)
Lemma form_delta (Q : 'M[F]_nf) i j :
  ((delta_mx i 0 : 'cV[F]_nf)^T *m Q *m (delta_mx j 0 : 'cV[F]_nf)) 0 0 = Q i j.
Proof. by rewrite trmx_delta -rowE -colE !mxE. Qed.

Lemma form_unique (Q : 'M[F]_nf) : Q^T = Q ->
  (forall x : 'cV[F]_nf, (x^T *m Q *m x) 0 0 = curvature d vp ve (fun j => x j 0)) -> Q = MM.
Proof.
move=> sQ q; apply/matrixP => i j.
pose D := Q - MM.
have sD a b : D b a = D a b by rewrite -[in LHS](trmxK D) mxE /D linearB /= sQ M_sym.
have D0 (x : 'cV[F]_nf) : (x^T *m D *m x) 0 0 = 0.
  by rewrite /D mulmxBr mulmxBl addmE oppmE q M_curv subrr.
have := D0 (delta_mx i 0 + delta_mx j 0).
rewrite (linearD (@trmx_linear F nf 1)) /= mulmxDl mulmxDr !mulmxDl.
rewrite !addmE !form_delta.
have dd k : D k k = 0 by rewrite -form_delta D0.
rewrite !dd add0r addr0 sD -mulr2n => /eqP; rewrite mulrn_eq0 /= => /eqP h.
by apply/eqP; rewrite -subr_eq0 -h /D !mxE.
Qed.

(* Centring. *)
Definition CC : 'M[F]_nnq := 1%:M - nnq%:R^-1 *: const_mx 1.

Lemma CCE (x : 'cV[F]_nnq) r : (CC *m x) r 0 = x r 0 - np_mean x.
Proof.
rewrite /CC mulmxBl mul1mx addmE oppmE -scalemxAl scalemE; congr (_ - _).
rewrite /np_mean mulrC mxE; congr (_ / _); apply: eq_bigr => k _; by rewrite mxE mul1r.
Qed.

Definition SS : 'M[F]_nf := (CC *m Jq d)^T *m (CC *m Jq d).

Lemma SS_form (x y : 'cV[F]_nf) : (x^T *m SS *m y) 0 0 =
  \sum_r ((Jq d *m x) r 0 - np_mean (Jq d *m x)) * ((Jq d *m y) r 0 - np_mean (Jq d *m y)).
Proof.
rewrite /SS.
have -> : x^T *m ((CC *m Jq d)^T *m (CC *m Jq d)) *m y = (CC *m (Jq d *m x))^T *m (CC *m (Jq d *m y)).
  by rewrite !trmx_mul !mulmxA.
by rewrite dotE; apply: eq_bigr => r _; rewrite !CCE.
Qed.

Lemma cs_varE (x : 'cV[F]_nf) : cs_var d (fun j => x j 0) = (x^T *m SS *m x) 0 0 / nnq%:R.
Proof.
rewrite SS_form /cs_var; congr (_ / _).
have -> : np_mean (Jq d *m x) = cs_mean d (fun j => x j 0).
  by rewrite /np_mean /cs_mean; congr (_ / _); apply: eq_bigr => r _; rewrite JqE.
by apply: eq_bigr => r _; rewrite JqE expr2.
Qed.

Lemma t1E mu0 : t1 solve d vp ve mu0 = cs_var d (fun j => post_psi solve d vp ve mu0 j 0).
Proof.
rewrite cs_varE SS_form /t1 /np_var; congr (_ / _).
Qed.

Lemma tr_drawE z : tr_draw solve d vp ve z = (z^T *m (SS *m invmx MM) *m z) 0 0 / (nnq%:R - 1).
Proof. by rewrite /tr_draw /np_cov -SS_form solveE !mulmxA. Qed.

Lemma tr_uniform :
  uniform (fun b : {ffun 'I_nf -> bool} => tr_draw solve d vp ve (signs F b)) = \tr (SS *m invmx MM) / (nnq%:R - 1).
Proof.
rewrite -uniform_quad1 /uniform.
rewrite (eq_bigr (fun b : {ffun 'I_nf -> bool} => ((signs F b)^T *m (SS *m invmx MM) *m signs F b) 0 0 / (nnq%:R - 1))).
  by rewrite -mulr_suml mulrAC.
by move=> b _; rewrite tr_drawE.
Qed.

Lemma post_uniform mu0 k : (0 < k)%N ->
  uniform (fun zs : {ffun 'I_k -> {ffun 'I_nf -> bool}} =>
    posterior_var solve d vp ve mu0 (fun t => signs F (zs t)))
  = cs_var d (fun j => post_psi solve d vp ve mu0 j 0) + \tr (SS *m invmx MM) / (nnq%:R - 1).
Proof.
move=> k0.
have c0 : (0 < #|{ffun 'I_nf -> bool}|)%N by rewrite card_ff.
have c1 : (0 < #|{ffun 'I_k -> {ffun 'I_nf -> bool}}|)%N by rewrite card_ffun expn_gt0 c0.
rewrite -tr_uniform -(uniform_mean_draws _ c0 k0) /posterior_var t1E /uniform big_split /= sumr_const mulrDl.
congr (_ + _); set a := cs_var _ _; have -> : a *+ #|xpredT : pred {ffun 'I_k -> {ffun 'I_nf -> bool}}| = a * #|{ffun 'I_k -> {ffun 'I_nf -> bool}}|%:R by rewrite mulr_natr.
by rewrite mulfK // pnatr_eq0 -lt0n.
Qed.

Lemma post_expect (Om : finType) (p : Om -> F) psi (mu0 : 'cV[F]_nf) mu :
  posterior d p psi vp ve (fun j => mu0 j 0) mu ->
  (forall j, mu j = post_psi solve d vp ve mu0 j 0) /\
  Ex p (fun o => cs_var d (psi o)) = cs_var d mu + \tr (SS *m invmx MM) / nnq%:R.
Proof.
move=> [[p0 p1] [m1 [mn1 [Q [V [sQ [q [QV cV]]]]]]]].
have muE := post_unique (mn1 (fun j => post_psi solve d vp ve mu0 j 0)).
split=> //.
have EV : V = invmx MM.
  have e := form_unique sQ q; rewrite e in QV.
  by rewrite -[V](mulKmx M_unit) QV mulmx1.
pose x : 'cV[F]_nf := \col_j mu j.
pose e o : 'cV[F]_nf := \col_j (psi o j - mu j).
have e0 : EM p e = 0.
  apply/matrixP => j k; rewrite EM_entry [RHS]mxE.
  rewrite (eq_Ex _ (g := fun o => psi o j - mu j)); last by move=> o; rewrite mxE.
  by rewrite Ex_sub m1 Ex_const // subrr.
have eS : EM p (fun o => e o *m (e o)^T) = V.
  apply/matrixP => j k; rewrite EM_entry -cV; apply: eq_Ex => o.
  by rewrite mxE big_ord1 !mxE.
have main := Ex_quad (conj p0 p1) x SS e0 eS.
rewrite (eq_Ex _ (g := fun o => ((x + e o)^T *m SS *m (x + e o)) 0 0 * nnq%:R^-1)); last first.
  move=> o; rewrite -cs_varE /cs_var /cs_mean.
  have xe j : (x + e o) j 0 = psi o j by rewrite !mxE addrC subrK.
  congr (_ / _); apply: eq_bigr => r _; rewrite xe; congr ((_ - _ / _) ^+ 2).
  by apply: eq_bigr => s _; rewrite xe.
rewrite Ex_mulr main mulrDl EV; congr (_ + _).
rewrite -cs_varE /cs_var /cs_mean; congr (_ / _); apply: eq_bigr => r _; rewrite mxE; congr ((_ - _ / _) ^+ 2).
by apply: eq_bigr => s _; rewrite mxE.
Qed.

End Post.
