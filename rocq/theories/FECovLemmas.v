(* Plug-in components as quadratic forms, and the Q options: proofs for
   C29, C30. *)
Set Warnings "-notation-overridden,-ambiguous-paths".
From mathcomp Require Import all_ssreflect all_algebra.
From Verif Require Import FieldTac FEModel FESpec FEMxLemmas FESolveLemmas FELsLemmas.

Set Implicit Arguments.
Unset Strict Implicit.
Unset Printing Implicit Defensive.

Import GRing.Theory Num.Theory Order.POrderTheory.
Local Open Scope ring_scope.

Section Cov.
Variable F : realFieldType.
Variable sq : F -> F.
Add Field Ff : (field_th F).

(* The weights entering the products of a covariance. *)
Definition w3 q (w1 w2 : wopt F q) (r : 'I_q) : F :=
  match w1, w2 with
  | None, None => 1
  | Some w1, None => sq (w1 r)
  | None, Some w2 => sq (w2 r)
  | Some w1, Some w2 => sq (w1 r * w2 r)
  end.

Definition C_mx q (w1 w2 : wopt F q) : 'M[F]_q :=
  (\sum_r w3 w1 w2 r)^-1 *:
    ((demean (wvec w1))^T *m diag_mx (\row_r w3 w1 w2 r) *m demean (wvec w2)).

Lemma sum_ones q : \sum_(r < q) (1 : F) = q%:R.
Proof. by rewrite sumr_const card_ord. Qed.

Lemma weighted_meanE q (v : 'cV[F]_q) (w : wopt F q) :
  weighted_mean v w = avg_w (wvec w) (fun r => v r 0).
Proof.
rewrite /weighted_mean /avg_w; case: w => [w //|] /=.
by rewrite sum_ones; congr (_ / _); apply: eq_bigr => r _; rewrite mul1r.
Qed.

Lemma demeanE q (w : 'I_q -> F) (v : 'cV[F]_q) r :
  (demean w *m v) r 0 = v r 0 - avg_w w (fun r => v r 0).
Proof.
rewrite /demean mulmxBl mul1mx addmE oppmE -scalemxAl scalemE; congr (_ - _).
rewrite mxE mul1r /avg_w mulrC; congr (_ / _); apply: eq_bigr => k _.
by rewrite mxE.
Qed.

Lemma weighted_covE q (u v : 'cV[F]_q) (w1 w2 : wopt F q) :
  weighted_cov sq u v w1 w2 = (u^T *m C_mx w1 w2 *m v) 0 0.
Proof.
have -> : u^T *m C_mx w1 w2 *m v = (\sum_r w3 w1 w2 r)^-1 *:
  ((demean (wvec w1) *m u)^T *m (diag_mx (\row_r w3 w1 w2 r) *m (demean (wvec w2) *m v))).
  by rewrite /C_mx -scalemxAr -scalemxAl trmx_mul !mulmxA.
rewrite mxE mulrC mxE.
have -> : \sum_j (demean (wvec w1) *m u)^T 0 j *
    (diag_mx (\row_r w3 w1 w2 r) *m (demean (wvec w2) *m v)) j 0
  = \sum_r w3 w1 w2 r * (u r 0 - avg_w (wvec w1) (fun r => u r 0))
      * (v r 0 - avg_w (wvec w2) (fun r => v r 0)).
  apply: eq_bigr => r _; rewrite mul_diag_mx [_^T _ _]mxE [X in _ * X]mxE.
  by rewrite !demeanE [(\row__ _) _ _]mxE; fring F.
rewrite /weighted_cov !weighted_meanE /w3.
case: w1 => [w1|]; case: w2 => [w2|] //=.
by rewrite sum_ones; congr (_ / _); apply: eq_bigr => r _; rewrite mul1r.
Qed.

Lemma weighted_varE q (v : 'cV[F]_q) (w : wopt F q) :
  weighted_var v w = var_w (wvec w) (fun r => v r 0).
Proof.
rewrite /weighted_var weighted_meanE /var_w /cov_w.
case: w => [w|] /=; last rewrite sum_ones.
- by congr (_ / _); apply: eq_bigr => r _; rewrite expr2 mulrA.
- by congr (_ / _); apply: eq_bigr => r _; rewrite expr2 mul1r.
Qed.

(* np.sqrt on a weight vector and its square. *)
Definition sq_same q (w : wopt F q) : Prop :=
  forall r, match w with Some w => sq (w r * w r) = w r | None => True end.

Lemma w3_same q (w : wopt F q) r : sq_same w -> w3 w w r = wvec w r.
Proof. by move=> /(_ r); rewrite /w3 /wvec; case: w. Qed.

Lemma weighted_cov_same q (u v : 'cV[F]_q) (w : wopt F q) : sq_same w ->
  weighted_cov sq u v w w = cov_w (wvec w) (fun r => u r 0) (fun r => v r 0).
Proof.
move=> sqs; rewrite /weighted_cov !weighted_meanE /cov_w.
case: w sqs => [w|] /= sqs; last first.
  by rewrite sum_ones; congr (_ / _); apply: eq_bigr => r _; rewrite mul1r.
have -> : \sum_r sq (w r * w r) = \sum_r w r by apply: eq_bigr => r _; exact: sqs.
by congr (_ / _); apply: eq_bigr => r _; rewrite sqs.
Qed.

(* ---- algebra of weighted covariances ----------------------------------- *)

Lemma avg_wD (I : finType) (w x y : I -> F) :
  avg_w w (fun r => x r + y r) = avg_w w x + avg_w w y.
Proof.
by rewrite /avg_w -mulrDl -big_split /=; congr (_ / _); apply: eq_bigr => r _; rewrite mulrDr.
Qed.

Lemma avg_w_const (I : finType) (w : I -> F) c :
  \sum_r w r != 0 -> avg_w w (fun _ => c) = c.
Proof. by move=> h; rewrite /avg_w -mulr_suml mulrAC mulfV // mul1r. Qed.

Lemma cov_w_shift (I : finType) (w x y : I -> F) a b :
  \sum_r w r != 0 ->
  cov_w w (fun r => x r + a) (fun r => y r + b) = cov_w w x y.
Proof.
move=> h; rewrite /cov_w !avg_wD !avg_w_const //; congr (_ / _).
apply: eq_bigr => r _; fring F.
Qed.

Lemma cov_w_sym (I : finType) (w x y : I -> F) : cov_w w x y = cov_w w y x.
Proof. by rewrite /cov_w; congr (_ / _); apply: eq_bigr => r _; fring F. Qed.

Lemma cov_wDl (I : finType) (w x y z : I -> F) :
  cov_w w (fun r => x r + y r) z = cov_w w x z + cov_w w y z.
Proof.
rewrite /cov_w avg_wD -[RHS]mulrDl -[in RHS]big_split /=; congr (_ / _).
by apply: eq_bigr => r _; fring F.
Qed.

Lemma cov_wDr (I : finType) (w x y z : I -> F) :
  cov_w w x (fun r => y r + z r) = cov_w w x y + cov_w w x z.
Proof. by rewrite cov_w_sym cov_wDl cov_w_sym [X in _ + X]cov_w_sym. Qed.

Lemma var_w_sum (I : finType) (w x y : I -> F) :
  var_w w (fun r => x r + y r) = var_w w x + var_w w y + 2%:R * cov_w w x y.
Proof.
rewrite /var_w cov_wDl !cov_wDr (cov_w_sym w y x).
move: (cov_w w x x) (cov_w w x y) (cov_w w y y) => a b c; fring F.
Qed.

Lemma eq_avg_w (I : finType) (w w' x x' : I -> F) :
  w =1 w' -> x =1 x' -> avg_w w x = avg_w w' x'.
Proof.
move=> hw hx; rewrite /avg_w; congr (_ / _); apply: eq_bigr => r _; by rewrite ?hw ?hx.
Qed.

Lemma eq_cov_w (I : finType) (w w' x x' y y' : I -> F) :
  w =1 w' -> x =1 x' -> y =1 y' -> cov_w w x y = cov_w w' x' y'.
Proof.
move=> hw hx hy; rewrite /cov_w (eq_avg_w hw hx) (eq_avg_w hw hy).
by congr (_ / _); apply: eq_bigr => r _; rewrite ?hw ?hx ?hy.
Qed.

(* ---- the Q options ----------------------------------------------------- *)

Variables nn nf1 nw : nat.
Variable d : frame F nn nf1 nw.

Lemma wvec_wgt r : wvec (fw d) r = wgt d r.
Proof. by rewrite /wvec /wgt; case: (fw d). Qed.

Lemma sum_wgt_gt0 : positive_weights d -> (0 < nn)%N -> 0 < \sum_r wgt d r.
Proof.
move=> pw n0; rewrite (bigD1 (Ordinal n0)) //=.
by apply: ltr_paddr; rewrite ?pw // sumr_ge0 // => s _; apply/ltW/pw.
Qed.

Lemma root_sq_same : root_sq_ok d sq -> sq_same (fw d).
Proof. by move=> h r; have := h r; rewrite /wgt; case: (fw d). Qed.

Lemma half_psi psi alpha r :
  half_mult (get_Q d VarPsi) psi alpha r 0 = firm_eff psi (fj d r).
Proof. by rewrite /= J_mul. Qed.
Lemma half_alpha psi alpha r :
  half_mult (get_Q d VarAlpha) psi alpha r 0 = alpha (fi d r) 0.
Proof. by rewrite /= W_mul. Qed.
Lemma half_sum psi alpha r :
  half_mult (get_Q d VarPsiPlusAlpha) psi alpha r 0
  = firm_eff psi (fj d r) + alpha (fi d r) 0.
Proof. by rewrite /= mul_row_col addmE J_mul W_mul. Qed.

(* Any option as a matrix acting on the stacked coefficients. *)
Definition full q (h : half F nf1 nw q) : 'M[F]_(q, nf1 + nw) :=
  match h with
  | HPsi M => row_mx M 0
  | HAlpha M => row_mx 0 M
  | HGamma M => M
  end.

Lemma half_full q (h : half F nf1 nw q) psi alpha :
  half_mult h psi alpha = full h *m col_mx psi alpha.
Proof.
by case: h => M //=; rewrite mul_row_col mul0mx ?addr0 ?add0r.
Qed.

End Cov.
