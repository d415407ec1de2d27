(* Residual variance, exact traces and corrected components: proofs for
   C25-C27. *)
Set Warnings "-notation-overridden,-ambiguous-paths".
From mathcomp Require Import all_ssreflect all_algebra.
From Verif Require Base.
From Verif Require Import FieldTac FEModel FESpec FEMxLemmas FESolveLemmas FELsLemmas
  FELevLemmas FECovLemmas FEExpLemmas.

Set Implicit Arguments.
Unset Strict Implicit.
Unset Printing Implicit Defensive.

Import GRing.Theory Num.Theory Order.POrderTheory.
Local Open Scope ring_scope.

Section Bias.
Variable F : realFieldType.
Variable sq : F -> F.
Variables nn nf1 nw : nat.
Variable d : frame F nn nf1 nw.
Add Field Ff : (field_th F).

Local Notation J := (J_mx d).
Local Notation W := (W_mx d).
Local Notation DD := (diag_mx (\row_r wgt d r)).
Local Notation DI := (diag_mx (\row_r (wgt d r)^-1)).
Local Notation A := (design d).
Local Notation G := (invmx (normal_mx d)).

Hypothesis pw : positive_weights d.
Hypothesis ob : workers_observed d.
Hypothesis cn : connected d.
Variable solver : 'M[F]_nf1 -> 'cV[F]_nf1 -> 'cV[F]_nf1.
Hypothesis ex : exact_solver solver (Minv sq d).
Hypothesis rok : root_ok d sq.

Let wne := wsum_neq0 pw ob.
Let uM : Minv sq d \in unitmx := Minv_unit sq pw ob cn.
Let uN : normal_mx d \in unitmx := normal_unit wne uM.
Local Notation L := (Lmx d).
Local Notation M := (Mmx d).

Lemma wgt_ne r : wgt d r != 0.
Proof. exact/lt0r_neq0/pw. Qed.

Lemma DDI : DD *m DI = 1%:M.
Proof.
rewrite mul_diag_mx; apply/matrixP => i j; rewrite !mxE.
by case: (i =P j) => [->|_]; rewrite ?mulr0 // !mulr1n mulfV ?wgt_ne.
Qed.

Lemma DID : DI *m DD = 1%:M.
Proof. by apply: mulmx1C; exact: DDI. Qed.

Lemma LDI : L *m DI = G *m A^T.
Proof. by rewrite /Lmx -!mulmxA DDI mulmx1. Qed.

Lemma Ltr : L^T = DD *m A *m G.
Proof. by rewrite /Lmx !trmx_mul trmxK tr_diag_mx trmx_inv normal_sym mulmxA. Qed.

(* Covariance of the estimates under homoskedastic errors. *)
Lemma LDL : L *m DI *m L^T = G.
Proof. by rewrite LDI Ltr -!mulmxA (mulmxA A^T) -/(normal_mx d) (mulmxA (A^T *m DD)) mulmxV // mulmx1. Qed.

Lemma MDM : M *m DI *m M^T = DI - A *m G *m A^T.
Proof.
rewrite /Mmx linearB /= trmx1 trmx_mul mulmxBl mul1mx -mulmxA LDI mulmxBr mulmx1.
have -> : (DI - A *m (G *m A^T)) *m (L^T *m A^T) = 0; last by rewrite subr0 mulmxA.
rewrite Ltr mulmxBl -!mulmxA (mulmxA DI) DID mul1mx.
rewrite (mulmxA DD) (mulmxA A^T (DD *m A)) (mulmxA A^T DD) -/(normal_mx d).
by rewrite (mulmxA G (normal_mx d)) mulVmx // mul1mx subrr.
Qed.

Lemma tr_AGA_exact : exact_trace_sigma_2 sq d = \tr (A *m G *m A^T).
Proof.
have -> : A *m G *m A^T =
  (J *m AA_inv_A sq d + W *m AA_inv_C sq d) *m J^T
  + (J *m AA_inv_B sq d + W *m D_true sq d) *m W^T.
  rewrite (normal_inverse wne uM) designE tr_row_mx mul_row_block.
  by rewrite mul_row_col.
rewrite /exact_trace_sigma_2 /mxtrace; apply: eq_bigr => r _.
rewrite addmE !diag_prodE; congr (_ + _).
- by rewrite diag_trC.
- rewrite diag_trC !mulmxDl !addmE; congr (_ + _).
  have Wd (X : 'M[F]_nw) : (W *m X *m W^T) r r = X (fi d r) (fi d r).
    rewrite quad_row.
    have -> : (row r W)^T = delta_mx (fi d r) 0.
      by apply/colP => k; rewrite !mxE andbT eq_sym.
    have -> : row r W = delta_mx 0 (fi d r).
      by apply/rowP => k; rewrite !mxE eq_sym.
    by rewrite -rowE -colE !mxE.
  by rewrite !Wd AA_inv_DE // eqxx addr0.
Qed.

Section Noise.
Variable Om : finType.
Variable p : Om -> F.
Hypothesis dist : is_dist p.
Variable eps : Om -> 'I_nn -> F.
Variable v : 'I_nn -> F.
Hypothesis unc : uncorrelated p eps v.
Local Notation e_ o := (\col_r eps o r).

Lemma EM_eps : EM p (fun o => e_ o) = 0.
Proof.
case: unc => h _; apply/colP => r; rewrite EM_entry [RHS]mxE -(h r).
by apply: eq_Ex => o; rewrite mxE.
Qed.

Lemma EM_eps2 : EM p (fun o => e_ o *m (e_ o)^T) = diag_mx (\row_r v r).
Proof.
case: unc => _ h; apply/matrixP => r s; rewrite EM_entry !mxE.
rewrite (eq_Ex p (g := fun o => eps o r * eps o s)).
  by rewrite h; case: eqP => _; rewrite ?mulr1n.
by move=> o; rewrite mxE big_ord1 !mxE.
Qed.

Variable psi : 'I_nf1.+1 -> F.
Variable alpha : 'I_nw -> F.
Local Notation Y_ o := (outcome d psi alpha (eps o)).
Local Notation V_ := (diag_mx (\row_r v r)).

Lemma EM_res2 : EM p (fun o => resid sq d solver (Y_ o) *m (resid sq d solver (Y_ o))^T)
  = M *m V_ *m M^T.
Proof.
rewrite -EM_eps2 -EM_mull -EM_mulr; apply: eq_EM => o.
by rewrite (resid_eps pw ob cn ex) trmx_mul !mulmxA.
Qed.

Lemma Ex_ssr : Ex p (fun o => \sum_r resid sq d solver (Y_ o) r 0 ^+ 2) = \tr (M *m V_ *m M^T).
Proof.
rewrite -EM_res2 -Ex_trace; apply: eq_Ex => o; apply: eq_bigr => r _.
by move: (resid _ _ _ _) => x; rewrite mxE big_ord1 mxE expr2.
Qed.

(* Expectation of a plug-in component. *)
Lemma Ex_cov_fe q (hl hr : half F nf1 nw q) wl wr :
  Ex p (fun o => cov_fe sq hl hr wl wr (estimate_ols sq d solver (Y_ o)))
  = weighted_cov sq (full hl *m beta0 psi alpha) (full hr *m beta0 psi alpha) wl wr
    + \tr ((full hl)^T *m C_mx sq wl wr *m full hr *m (L *m V_ *m L^T)).
Proof.
rewrite weighted_covE trmx_mul.
have e0 : EM p (fun o => L *m e_ o) = 0 by rewrite EM_mull EM_eps mulmx0.
have e2 : EM p (fun o => (L *m e_ o) *m (L *m e_ o)^T) = L *m V_ *m L^T.
  by rewrite -EM_eps2 -EM_mull -EM_mulr; apply: eq_EM => o; rewrite trmx_mul !mulmxA.
have := @Ex_quad _ _ p dist _ (beta0 psi alpha) _
  ((full hl)^T *m C_mx sq wl wr *m full hr) _ e0 e2.
rewrite !mulmxA => <-; apply: eq_Ex => o.
rewrite /cov_fe weighted_covE !half_full (gamma_hat pw ob cn ex) trmx_mul.
by rewrite !mulmxA.
Qed.

End Noise.
End Bias.
