(* Matrix lemmas for the fixed-effects proofs. *)
Set Warnings "-notation-overridden,-ambiguous-paths".
From mathcomp Require Import all_ssreflect all_algebra.
From Verif Require Import FEModel FESpec.

Set Implicit Arguments.
Unset Strict Implicit.
Unset Printing Implicit Defensive.

Import GRing.Theory Num.Theory.
Local Open Scope ring_scope.

Section Mx.
Variable F : realFieldType.

Lemma dxmE p q (v : 'I_p -> F) (M : 'M[F]_(p, q)) :
  dxm v M = diag_mx (\row_r v r) *m M.
Proof. by rewrite mul_diag_mx; apply/matrixP => i k; rewrite !mxE. Qed.

Lemma mxdE p q (M : 'M[F]_(p, q)) (v : 'I_q -> F) :
  mxd M v = M *m diag_mx (\row_r v r).
Proof. by rewrite mul_mx_diag; apply/matrixP => i k; rewrite !mxE. Qed.

Lemma dxm_one p q (M : 'M[F]_(p, q)) : dxm (fun _ => 1) M = M.
Proof. by apply/matrixP => i k; rewrite !mxE mul1r. Qed.

Lemma diag_one p : diag_mx (\row_(r < p) (1 : F)) = 1%:M.
Proof. by apply/matrixP => i k; rewrite !mxE. Qed.

Lemma diag_prodE p q (A : 'M[F]_(p, q)) (B : 'M[F]_(q, p)) r :
  diag_prod A B r = (A *m B) r r.
Proof. by rewrite !mxE; apply: eq_bigr => k _; rewrite mxE. Qed.

Lemma sum_diag_prodE p q (A : 'M[F]_(p, q)) (B : 'M[F]_(q, p)) :
  sum_diag_prod A B = \tr (A *m B).
Proof. by apply: eq_bigr => r _; rewrite diag_prodE. Qed.

Lemma dotE q (u v : 'cV[F]_q) : dot u v = (u^T *m v) 0 0.
Proof. by rewrite !mxE; apply: eq_bigr => k _; rewrite mxE. Qed.

Lemma dot_tr q (u v : 'cV[F]_q) : dot u v = \tr (v *m u^T).
Proof. by rewrite dotE mxtrace_mulC /mxtrace big_ord1. Qed.

Lemma diag_trK p (v : 'rV[F]_p) : (diag_mx v)^T = diag_mx v.
Proof. exact: tr_diag_mx. Qed.

Lemma addmE p q (A B : 'M[F]_(p, q)) i j : (A + B) i j = A i j + B i j.
Proof. by rewrite mxE. Qed.

Lemma oppmE p q (A : 'M[F]_(p, q)) i j : (- A) i j = - A i j.
Proof. by rewrite mxE. Qed.

Lemma scalemE p q c (A : 'M[F]_(p, q)) i j : (c *: A) i j = c * A i j.
Proof. by rewrite mxE. Qed.

Lemma quad_row n p (X : 'M[F]_(n, p)) (G : 'M[F]_p) r :
  (X *m G *m X^T) r r = (row r X *m G *m (row r X)^T) 0 0.
Proof.
rewrite -row_mul [LHS]mxE [RHS]mxE; apply: eq_bigr => k _.
by rewrite [row _ _ _ _]mxE [X^T _ _]mxE [(row r X)^T _ _]mxE [row _ _ _ _]mxE.
Qed.

Lemma diag_trC n p (X Y : 'M[F]_(n, p)) r : (X *m Y^T) r r = (Y *m X^T) r r.
Proof. by rewrite !mxE; apply: eq_bigr => k _; rewrite !mxE mulrC. Qed.

End Mx.
