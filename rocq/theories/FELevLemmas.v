(* Leverages: proofs for C24. *)
Set Warnings "-notation-overridden,-ambiguous-paths".
From mathcomp Require Import all_ssreflect all_algebra.
From Verif Require Base.
From Verif Require Import FieldTac FEModel FESpec FEMxLemmas FESolveLemmas FELsLemmas.

Set Implicit Arguments.
Unset Strict Implicit.
Unset Printing Implicit Defensive.

Import GRing.Theory Num.Theory Order.POrderTheory.
Local Open Scope ring_scope.

Section Lev.
Variable F : realFieldType.
Variable sq : F -> F.
Variables nn nf1 nw : nat.
Variable d : frame F nn nf1 nw.
Add Field Ff : (field_th F).

Local Notation J := (J_mx d).
Local Notation W := (W_mx d).
Local Notation DD := (diag_mx (\row_r wgt d r)).
Local Notation RR := (diag_mx (\row_r row_root d sq r)).
Local Notation V := (invmx (Minv sq d)).

Lemma quad_block a b (A : 'M[F]_a) (B : 'M[F]_(a, b)) (C : 'M[F]_(b, a)) (D : 'M[F]_b) u v :
  dot u (A *m u) + dot u (B *m v) + dot v (C *m u) + dot v (D *m v)
  = ((col_mx u v)^T *m block_mx A B C D *m col_mx u v) 0 0.
Proof.
rewrite -mulmxA mul_block_col tr_col_mx mul_row_col !dotE.
by rewrite !mulmxDr !addmE !addrA !mulmxA.
Qed.

Local Notation u_ r := ((row r (wJ sq d Wsqrt))^T).
Local Notation v_ r := ((row r (wW sq d Wsqrt))^T).

Lemma rows_design r : col_mx (u_ r) (v_ r) = (row r (RR *m design d))^T.
Proof.
rewrite wJ_sqrt wW_sqrt designE mul_mx_row -tr_row_mx; congr trmx.
by apply/rowP => k; rewrite !mxE; case: splitP => l _; rewrite !mxE.
Qed.

Lemma hat_quad r :
  hat d (row_root d sq) r r
  = ((col_mx (u_ r) (v_ r))^T *m invmx (normal_mx d) *m col_mx (u_ r) (v_ r)) 0 0.
Proof.
rewrite rows_design trmxK -quad_row trmx_mul tr_diag_mx /hat.
by rewrite !mulmxA.
Qed.

Lemma wW_row r k : v_ r k 0 = row_root d sq r * (fi d r == k)%:R.
Proof. by rewrite wW_sqrt mul_diag_mx !mxE. Qed.

Lemma dot_v r (x : 'cV[F]_nw) : dot (v_ r) x = row_root d sq r * x (fi d r) 0.
Proof.
rewrite /dot (bigD1 (fi d r)) //= wW_row eqxx mulr1 big1 ?addr0 // => k ne.
by rewrite wW_row eq_sym (negbTE ne) mulr0 mul0r.
Qed.

Lemma mul_v r (X : 'M[F]_nw) k : (X *m v_ r) k 0 = X k (fi d r) * row_root d sq r.
Proof.
rewrite mxE (bigD1 (fi d r)) //= wW_row eqxx mulr1 big1 ?addr0 // => l ne.
by rewrite wW_row eq_sym (negbTE ne) !mulr0.
Qed.

Hypothesis wne : forall k, wsum d k != 0.
Hypothesis uM : Minv sq d \in unitmx.

Lemma pii_explicit solver r :
  compute_Pii sq d solver true (u_ r) (v_ r) = hat d (row_root d sq) r r.
Proof.
rewrite /compute_Pii hat_quad (normal_inverse wne uM) -quad_block.
congr (_ + _); rewrite !dot_v !mul_v AA_inv_DE eqxx addr0 //.
Qed.

Lemma solverE solver b : exact_solver solver (Minv sq d) ->
  solver (Minv sq d) b = V *m b.
Proof. by move=> ex; rewrite -[in RHS](ex b) mulKmx. Qed.

Lemma B_partE : AA_inv_B sq d = V *m AA_inv_B_part sq d.
Proof. by rewrite /AA_inv_B /AA_inv_B_part /AA_inv_A !mulNmx mulmxN mulmxA. Qed.

Lemma pii_solver solver r : exact_solver solver (Minv sq d) ->
  compute_Pii sq d solver false (u_ r) (v_ r) = hat d (row_root d sq) r r.
Proof.
move=> ex; rewrite /compute_Pii hat_quad (normal_inverse wne uM) -quad_block.
rewrite /= !(solverE _ ex) B_partE /AA_inv_A.
have -> : AA_inv_C sq d = AA_inv_C_part sq d *m V.
  by rewrite /AA_inv_C B_partE trmx_mul invM_sym.
congr (_ + _ + _ + _).
- by rewrite mulmxA.
- by rewrite mulmxA.
- rewrite !dot_v; congr (_ * _).
  have -> : D_true sq d *m v_ r = diag_mx (\row_k (wsum d k)^-1) *m v_ r
      + AA_inv_C_part sq d *m (V *m (AA_inv_B_part sq d *m v_ r)).
    rewrite /D_true mulmxDl B_partE /AA_inv_C B_partE trmx_mul invM_sym.
    congr (_ + _).
    by rewrite -(mulmxA _ V (Minv sq d)) mulVmx // mulmx1 !mulmxA.
  rewrite !addmE; congr (_ + _).
  rewrite mul_diag_mx mxE /dot (bigD1 (fi d r)) //= big1 ?addr0; last first.
    by move=> k ne; rewrite wW_row eq_sym (negbTE ne) !mulr0.
  by rewrite !mxE DwinvE.
Qed.

(* Properties of the hat matrix. *)
Hypothesis rok : root_ok d sq.

Lemma row_root_sq r : row_root d sq r * row_root d sq r = wgt d r.
Proof.
have := rok r; rewrite /row_root /wgt; case: (fw d) => [w //|_].
by rewrite mulr1.
Qed.

Lemma RRRR : RR *m RR = DD.
Proof.
rewrite mul_diag_mx; apply/matrixP => i j; rewrite !mxE.
by case: (i =P j) => [->|_]; rewrite ?mulr0 // !mulr1n row_root_sq.
Qed.

Local Notation H := (hat d (row_root d sq)).

Lemma hat_sym : H^T = H.
Proof.
rewrite /hat !trmx_mul !tr_diag_mx trmxK trmx_inv normal_sym.
by rewrite !mulmxA.
Qed.

Lemma hat_idem : H *m H = H.
Proof.
rewrite /hat.
have e : (design d)^T *m RR *m (RR *m design d) = normal_mx d.
  by rewrite /normal_mx -!mulmxA (mulmxA RR) RRRR.
rewrite !mulmxA -(mulmxA _ RR RR) -(mulmxA _ (design d)^T (RR *m RR)).
rewrite -(mulmxA _ _ (design d)) (mulmxA (design d)^T) -/(normal_mx d).
by rewrite -(mulmxA _ RR RR) RRRR -/(normal_mx d) mulmxKV // (normal_unit wne uM).
Qed.

Lemma hat_diag_sq r : H r r = \sum_s H r s ^+ 2.
Proof.
rewrite -{1}hat_idem mxE; apply: eq_bigr => s _; rewrite expr2; congr (_ * _).
by rewrite -{1}hat_sym mxE.
Qed.

Lemma hat_ge0 r : 0 <= H r r.
Proof. by rewrite hat_diag_sq sumr_ge0 // => s _; rewrite sqr_ge0. Qed.

Lemma hat_le1 r : H r r <= 1.
Proof.
have : H r r ^+ 2 <= H r r.
  rewrite [X in _ <= X]hat_diag_sq (bigD1 r) //= ler_addl.
  by rewrite sumr_ge0 // => s _; rewrite sqr_ge0.
rewrite le_eqVlt => /orP [/eqP e|lt].
  have : H r r * (H r r - 1) == 0 by rewrite mulrBr mulr1 -expr2 e subrr.
  rewrite mulf_eq0 subr_eq0 => /orP [/eqP ->|/eqP -> //].
  exact: ler01.
have gt : 0 < H r r by apply: le_lt_trans lt; exact: sqr_ge0.
by rewrite -(ler_pmul2l gt) mulr1 -expr2 ltW.
Qed.

Lemma hat_trace : \sum_r H r r = (nf1 + nw)%:R.
Proof.
rewrite -/(mxtrace H) /hat -!mulmxA mxtrace_mulC -!mulmxA.
rewrite (_ : design d *m (invmx (normal_mx d) *m ((design d)^T *m (RR *m RR)))
  = design d *m (invmx (normal_mx d) *m ((design d)^T *m DD))); last by rewrite RRRR.
rewrite mxtrace_mulC -!mulmxA (mulmxA _ DD) -/(normal_mx d).
by rewrite mulVmx ?(normal_unit wne uM) // mxtrace1.
Qed.

End Lev.
