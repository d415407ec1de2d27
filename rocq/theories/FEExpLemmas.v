(* Expectations of the plug-in components and of the residual variance:
   proofs for C25-C28. *)
Set Warnings "-notation-overridden,-ambiguous-paths".
From mathcomp Require Import all_ssreflect all_algebra.
From Verif Require Base.
From Verif Require Import FieldTac FEModel FESpec FEMxLemmas FESolveLemmas FELsLemmas
  FELevLemmas FECovLemmas.

Set Implicit Arguments.
Unset Strict Implicit.
Unset Printing Implicit Defensive.

Import GRing.Theory Num.Theory Order.POrderTheory.
Local Open Scope ring_scope.

Section Expect.
Variable F : realFieldType.
Add Field Ff : (field_th F).
Variable Om : finType.
Variable p : Om -> F.

Definition EM a b (f : Om -> 'M[F]_(a, b)) : 'M[F]_(a, b) := \sum_o p o *: f o.

Lemma EM_entry a b (f : Om -> 'M[F]_(a, b)) i j :
  EM f i j = Ex p (fun o => f o i j).
Proof. by rewrite /EM summxE; apply: eq_bigr => o _; rewrite mxE. Qed.

Lemma eq_Ex (f g : Om -> F) : f =1 g -> Ex p f = Ex p g.
Proof. by move=> e; apply: eq_bigr => o _; rewrite e. Qed.

Lemma eq_EM a b (f g : Om -> 'M[F]_(a, b)) : f =1 g -> EM f = EM g.
Proof. by move=> e; apply: eq_bigr => o _; rewrite e. Qed.

Lemma EM_mull a b c (A : 'M[F]_(a, b)) (f : Om -> 'M[F]_(b, c)) :
  EM (fun o => A *m f o) = A *m EM f.
Proof. by rewrite /EM mulmx_sumr; apply: eq_bigr => o _; rewrite -scalemxAr. Qed.

Lemma EM_mulr a b c (f : Om -> 'M[F]_(a, b)) (B : 'M[F]_(b, c)) :
  EM (fun o => f o *m B) = EM f *m B.
Proof. by rewrite /EM mulmx_suml; apply: eq_bigr => o _; rewrite -scalemxAl. Qed.

Lemma EM_add a b (f g : Om -> 'M[F]_(a, b)) :
  EM (fun o => f o + g o) = EM f + EM g.
Proof. by rewrite /EM -big_split; apply: eq_bigr => o _; rewrite scalerDr. Qed.

Lemma EM_tr a b (f : Om -> 'M[F]_(a, b)) : EM (fun o => (f o)^T) = (EM f)^T.
Proof. by apply/matrixP => i j; rewrite [RHS]mxE !EM_entry; apply: eq_Ex => o; rewrite mxE. Qed.

Lemma Ex_add (f g : Om -> F) : Ex p (fun o => f o + g o) = Ex p f + Ex p g.
Proof. by rewrite /Ex -big_split; apply: eq_bigr => o _; rewrite mulrDr. Qed.

Lemma Ex_sub (f g : Om -> F) : Ex p (fun o => f o - g o) = Ex p f - Ex p g.
Proof. by rewrite /Ex -sumrB; apply: eq_bigr => o _; rewrite mulrBr. Qed.

Lemma Ex_mulr (f : Om -> F) c : Ex p (fun o => f o * c) = Ex p f * c.
Proof. by rewrite /Ex mulr_suml; apply: eq_bigr => o _; rewrite mulrA. Qed.

Lemma Ex_mull (f : Om -> F) c : Ex p (fun o => c * f o) = c * Ex p f.
Proof. by rewrite /Ex mulr_sumr; apply: eq_bigr => o _; rewrite mulrCA. Qed.

Lemma Ex_sum (I : finType) (f : I -> Om -> F) :
  Ex p (fun o => \sum_i f i o) = \sum_i Ex p (f i).
Proof.
rewrite /Ex exchange_big /=; apply: eq_bigr => o _; by rewrite mulr_sumr.
Qed.

Lemma Ex_trace a (f : Om -> 'M[F]_a) : Ex p (fun o => \tr (f o)) = \tr (EM f).
Proof.
rewrite /mxtrace Ex_sum; apply: eq_bigr => i _.
by rewrite EM_entry.
Qed.

Hypothesis dist : is_dist p.

Lemma EM_const a b (A : 'M[F]_(a, b)) : EM (fun _ => A) = A.
Proof. by case: dist => _ h; rewrite /EM -scaler_suml h scale1r. Qed.

Lemma Ex_const c : Ex p (fun _ => c) = c.
Proof. by case: dist => _ h; rewrite /Ex -mulr_suml h mul1r. Qed.

(* E (x + e)' Q (x + e) for mean-zero e. *)
Lemma Ex_quad a (x : 'cV[F]_a) (e : Om -> 'cV[F]_a) (Q : 'M[F]_a) (S : 'M[F]_a) :
  EM e = 0 -> EM (fun o => e o *m (e o)^T) = S ->
  Ex p (fun o => ((x + e o)^T *m Q *m (x + e o)) 0 0) = (x^T *m Q *m x) 0 0 + \tr (Q *m S).
Proof.
move=> e0 eS.
have tr11 (M : 'M[F]_1) : M 0 0 = \tr M by rewrite /mxtrace big_ord1.
rewrite (eq_Ex (g := fun o => \tr (Q *m (x *m x^T)) + \tr (Q *m (e o *m x^T))
   + \tr (Q *m (x *m (e o)^T)) + \tr (Q *m (e o *m (e o)^T)))); last first.
  move=> o; rewrite -!mxtraceD -!mulmxDr tr11 -mulmxA mxtrace_mulC -mulmxA.
  congr (\tr (_ *m _)).
  rewrite linearD /= mulmxDr !mulmxDl -!addrA; congr (_ + (_ + _)).
rewrite !Ex_add Ex_const Ex_trace Ex_trace Ex_trace.
rewrite !EM_mull EM_mulr e0 EM_tr e0 eS mul0mx trmx0 !mulmx0 !mxtrace0 !addr0.
congr (_ + _); rewrite tr11 -[in RHS]mulmxA [RHS]mxtrace_mulC.
by rewrite mulmxA.
Qed.

(* The same for a product of two linear forms. *)
Lemma Ex_prod a (u v : 'rV[F]_a) (e : Om -> 'cV[F]_a) (S : 'M[F]_a) :
  EM (fun o => e o *m (e o)^T) = S ->
  Ex p (fun o => (u *m e o) 0 0 * (v *m e o) 0 0) = (u *m S *m v^T) 0 0.
Proof.
move=> eS.
rewrite -eS -EM_mull -EM_mulr EM_entry; apply: eq_Ex => o.
have -> : u *m (e o *m (e o)^T) *m v^T = (u *m e o) *m (v *m e o)^T.
  by rewrite trmx_mul !mulmxA.
have gen (a1 b1 : 'M[F]_1) : (a1 *m b1^T) 0 0 = a1 0 0 * b1 0 0.
  by rewrite mxE big_ord1 mxE.
by rewrite gen.
Qed.

End Expect.

Section FEExp.
Variable F : realFieldType.
Variable sq : F -> F.
Variables nn nf1 nw : nat.
Variable d : frame F nn nf1 nw.
Add Field Ff2 : (field_th F).

Local Notation DD := (diag_mx (\row_r wgt d r)).
Local Notation A := (design d).
Local Notation G := (invmx (normal_mx d)).

Definition beta0 (psi : 'I_nf1.+1 -> F) (alpha : 'I_nw -> F) : 'cV[F]_(nf1 + nw) :=
  col_mx (\col_k (psi (lift ord0 k) - psi ord0)) (\col_i (alpha i + psi ord0)).

Lemma firm_eff_norm (psi : 'I_nf1.+1 -> F) j :
  firm_eff (\col_k (psi (lift ord0 k) - psi ord0)) j = psi j - psi ord0.
Proof.
rewrite /firm_eff; case: unliftP => [k ->|->]; first by rewrite mxE.
by rewrite subrr.
Qed.

Lemma design_beta0 psi alpha : A *m beta0 psi alpha = \col_r fitted d psi alpha r.
Proof.
apply/colP => r; rewrite (design_mul sq) mult_A_no mxE /fitted firm_eff_norm mxE.
by rewrite addrACA [- _ + _]addrC subrr addr0.
Qed.

Lemma outcomeE psi alpha eps :
  outcome d psi alpha eps = A *m beta0 psi alpha + \col_r eps r.
Proof. by rewrite design_beta0; apply/colP => r; rewrite !mxE. Qed.

Hypothesis pw : positive_weights d.
Hypothesis ob : workers_observed d.
Hypothesis cn : connected d.
Variable solver : 'M[F]_nf1 -> 'cV[F]_nf1 -> 'cV[F]_nf1.
Hypothesis ex : exact_solver solver (Minv sq d).

Let wne := wsum_neq0 pw ob.
Let uM : Minv sq d \in unitmx := Minv_unit sq pw ob cn.
Let uN : normal_mx d \in unitmx := normal_unit wne uM.

Definition Lmx : 'M[F]_(nf1 + nw, nn) := G *m A^T *m DD.

Lemma LA : Lmx *m A = 1%:M.
Proof. by rewrite /Lmx -!mulmxA (mulmxA A^T) mulVmx. Qed.

Lemma Gsym : G^T = G.
Proof. by rewrite trmx_inv normal_sym. Qed.

Lemma solve_yes Y : let o := estimate_ols sq d solver Y in col_mx o.1 o.2 = Lmx *m Y.
Proof.
rewrite /= (mult_AAinvE wne _ _ uM ex) /Lmx -!mulmxA; congr (_ *m _).
by rewrite wJ_yes wW_yes !trmx_mul tr_diag_mx designE tr_row_mx mul_col_mx !mulmxA.
Qed.

Lemma solve_no Y : let o := solve sq d solver Y Wno in col_mx o.1 o.2 = G *m A^T *m Y.
Proof.
rewrite /= (mult_AAinvE wne _ _ uM ex) -!mulmxA; congr (_ *m _).
by rewrite wJ_no wW_no designE tr_row_mx mul_col_mx.
Qed.

Lemma gamma_hat psi alpha eps :
  let o := estimate_ols sq d solver (outcome d psi alpha eps) in
  col_mx o.1 o.2 = beta0 psi alpha + Lmx *m \col_r eps r.
Proof.
by cbv zeta; rewrite solve_yes outcomeE mulmxDr mulmxA LA mul1mx.
Qed.

Definition Mmx : 'M[F]_nn := 1%:M - A *m Lmx.

Lemma residE Y : resid sq d solver Y = Y - A *m (Lmx *m Y).
Proof.
rewrite /resid -(solve_yes Y) (design_mul sq).
by case: (estimate_ols _ _ _ _).
Qed.

Lemma resid_eps psi alpha eps :
  resid sq d solver (outcome d psi alpha eps) = Mmx *m \col_r eps r.
Proof.
rewrite residE outcomeE /Mmx mulmxBl mul1mx -mulmxA !mulmxDr (mulmxA Lmx) LA mul1mx.
by rewrite opprD addrACA subrr add0r.
Qed.

Lemma AL_diag r : (A *m Lmx) r r = hat d (row_root d sq) r r ->
  Mmx r r = 1 - hat d (row_root d sq) r r.
Proof. by move=> e; rewrite /Mmx addmE oppmE e !mxE eqxx. Qed.

(* The leverage is the diagonal of A (A'DA)^-1 A' D. *)
Lemma ALE r s : (A *m Lmx) r s = (A *m G *m A^T) r s * wgt d s.
Proof. by rewrite /Lmx !mulmxA mul_mx_diag !mxE. Qed.

Lemma hat_entry r s : hat d (row_root d sq) r s
  = row_root d sq r * (A *m G *m A^T) r s * row_root d sq s.
Proof.
rewrite /hat -!mulmxA mul_diag_mx mxE !mulmxA mul_mx_diag !mxE.
by rewrite mulrA.
Qed.

Hypothesis rok : root_ok d sq.

Lemma AL_hat r : (A *m Lmx) r r = hat d (row_root d sq) r r.
Proof.
rewrite ALE hat_entry mulrAC row_root_sq // mulrC //.
Qed.

Lemma Mmx_diag r : Mmx r r = 1 - hat d (row_root d sq) r r.
Proof. exact/AL_diag/AL_hat. Qed.

End FEExp.
