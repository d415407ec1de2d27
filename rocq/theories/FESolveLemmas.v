(* The solver, the inverse blocks and the leverages: proofs for C21-C24. *)
Set Warnings "-notation-overridden,-ambiguous-paths".
From mathcomp Require Import all_ssreflect all_algebra.
From Verif Require Import FEModel FESpec FEMxLemmas.

Set Implicit Arguments.
Unset Strict Implicit.
Unset Printing Implicit Defensive.

Import GRing.Theory Num.Theory.
Local Open Scope ring_scope.

Section Basics.
Variable F : realFieldType.
Variable sq : F -> F.
Variables nn nf1 nw : nat.
Variable d : frame F nn nf1 nw.

Local Notation J := (J_mx d).
Local Notation W := (W_mx d).
Local Notation DD := (diag_mx (\row_r wgt d r)).

(* Total weight of a worker. *)
Definition wsum (k : 'I_nw) : F := \sum_(r | fi d r == k) wgt d r.

Lemma DpE r : Dp d r = wgt d r.
Proof. by rewrite /Dp /wgt; case: (fw d). Qed.

Lemma wJ_yes : wJ sq d Wyes = DD *m J.
Proof.
rewrite /wJ /wgt; case: (fw d) => [w|]; first by rewrite dxmE.
by rewrite diag_one mul1mx.
Qed.

Lemma wW_yes : wW sq d Wyes = DD *m W.
Proof.
rewrite /wW /wgt; case: (fw d) => [w|]; first by rewrite dxmE.
by rewrite diag_one mul1mx.
Qed.

Lemma wJ_no : wJ sq d Wno = J.
Proof. by rewrite /wJ; case: (fw d). Qed.

Lemma wW_no : wW sq d Wno = W.
Proof. by rewrite /wW; case: (fw d). Qed.

Lemma wJ_sqrt : wJ sq d Wsqrt = diag_mx (\row_r row_root d sq r) *m J.
Proof.
rewrite /wJ /row_root; case: (fw d) => [w|]; first by rewrite dxmE.
by rewrite diag_one mul1mx.
Qed.

Lemma wW_sqrt : wW sq d Wsqrt = diag_mx (\row_r row_root d sq r) *m W.
Proof.
rewrite /wW /row_root; case: (fw d) => [w|]; first by rewrite dxmE.
by rewrite diag_one mul1mx.
Qed.

Lemma designE : design d = row_mx J W.
Proof.
by rewrite /design; congr row_mx; apply/matrixP => r k; rewrite !mxE.
Qed.

Lemma WDW : W^T *m DD *m W = diag_mx (\row_k wsum k).
Proof.
apply/matrixP => k l; rewrite -mulmxA mul_diag_mx !mxE.
under eq_bigr do rewrite !mxE.
rewrite /wsum; case: eqP => [<-|ne].
  rewrite mulr1n [RHS]big_mkcond; apply: eq_bigr => r _.
  by case: (fi d r == k); rewrite ?mul0r ?mul1r ?mulr1.
rewrite big1 // => r _.
case: (fi d r =P k) => [e|]; last by rewrite mul0r.
by case: (fi d r =P l) => [e'|]; rewrite ?mulr0 //; case: ne; rewrite -e -e'.
Qed.

Lemma DwinvE k : Dwinv sq d k = (wsum k)^-1.
Proof. by rewrite /Dwinv diag_prodE wW_yes mulmxA WDW !mxE eqxx. Qed.

Local Notation DWI := (diag_mx (\row_k (wsum k)^-1)).

Lemma WtDpJE : WtDpJ sq d = W^T *m DD *m J.
Proof. by rewrite /WtDpJ wJ_yes mulmxA. Qed.

Lemma DwinvWtDpJE : DwinvWtDpJ sq d = DWI *m (W^T *m DD *m J).
Proof.
rewrite /DwinvWtDpJ dxmE WtDpJE; congr (diag_mx _ *m _).
by apply/rowP => k; rewrite !mxE DwinvE.
Qed.

Lemma MinvE : Minv sq d = J^T *m DD *m J - (J^T *m DD *m W) *m DWI *m (W^T *m DD *m J).
Proof.
rewrite /Minv WtDpJE DwinvWtDpJE wJ_yes !trmx_mul !trmxK tr_diag_mx.
by rewrite !mulmxA.
Qed.

Lemma Minv_sym : (Minv sq d)^T = Minv sq d.
Proof.
rewrite MinvE linearB /= !trmx_mul !trmxK !tr_diag_mx.
by rewrite !mulmxA.
Qed.

Lemma normalE : normal_mx d =
  block_mx (J^T *m DD *m J) (J^T *m DD *m W) (W^T *m DD *m J) (W^T *m DD *m W).
Proof.
by rewrite /normal_mx designE tr_row_mx mul_col_mx mul_col_row.
Qed.

Lemma normal_sym : (normal_mx d)^T = normal_mx d.
Proof. by rewrite /normal_mx !trmx_mul trmxK tr_diag_mx mulmxA. Qed.

Hypothesis wsum_ne : forall k, wsum k != 0.

Lemma WDW_DWI : diag_mx (\row_k wsum k) *m DWI = 1%:M.
Proof.
rewrite mul_diag_mx; apply/matrixP => k l; rewrite !mxE.
by case: (k =P l) => [->|]; rewrite ?mulr0 ?mulr1n // mulfV.
Qed.

Lemma DWI_WDW : DWI *m diag_mx (\row_k wsum k) = 1%:M.
Proof. by apply: mulmx1C; exact: WDW_DWI. Qed.

(* What _mult_AAinv returns, for any solver: the worker equations hold
   exactly, and the firm equations up to the solver's own residual. *)
Lemma mult_AAinv_normal solver psi alpha :
  let b := psi - (DwinvWtDpJ sq d)^T *m alpha in
  let e := b - Minv sq d *m solver (Minv sq d) b in
  let out := mult_AAinv sq d solver psi alpha in
  normal_mx d *m col_mx out.1 out.2 = col_mx (psi - e) alpha.
Proof.
move=> b e; rewrite /mult_AAinv /= -/b; set p := solver _ b in e *.
rewrite normalE mul_block_col; congr col_mx.
- have -> : psi - e = Minv sq d *m p + (DwinvWtDpJ sq d)^T *m alpha.
    by rewrite /e opprB /b opprB addrCA [psi + _]addrCA subrr addr0.
  rewrite DwinvWtDpJE MinvE dxmE mulmxBr mulmxBl addrA.
  have -> : diag_mx (\row_r Dwinv sq d r) = DWI.
    by congr diag_mx; apply/rowP => k; rewrite !mxE DwinvE.
  rewrite !trmx_mul !trmxK !tr_diag_mx !mulmxA.
  by rewrite [RHS]addrAC.
- rewrite DwinvWtDpJE dxmE mulmxBr WDW.
  have -> : diag_mx (\row_r Dwinv sq d r) = DWI.
    by congr diag_mx; apply/rowP => k; rewrite !mxE DwinvE.
  by rewrite !mulmxA WDW_DWI !mul1mx addrC subrK.
Qed.

Lemma mult_AAinv_exact solver psi alpha :
  exact_solver solver (Minv sq d) ->
  let out := mult_AAinv sq d solver psi alpha in
  normal_mx d *m col_mx out.1 out.2 = col_mx psi alpha.
Proof.
by move=> ex; rewrite /= mult_AAinv_normal /= ex subrr subr0.
Qed.

(* If the reduced system is invertible, so is the normal matrix. *)
Lemma normal_unit : Minv sq d \in unitmx -> normal_mx d \in unitmx.
Proof.
move=> uM.
pose X : 'M[F]_(nf1 + nw) := \matrix_(i, k)
  (let o := mult_AAinv sq d (fun M b => invmx M *m b)
     (usubmx (col k (1%:M : 'M[F]_(nf1 + nw)))) (dsubmx (col k 1%:M)) in
   col_mx o.1 o.2 i 0).
have ex : exact_solver (fun M b => invmx M *m b) (Minv sq d).
  by move=> b; rewrite mulKVmx.
suff e : normal_mx d *m X = 1%:M by case/mulmx1_unit: e.
apply/matrixP => i k.
have -> : (normal_mx d *m X) i k = (normal_mx d *m col k X) i 0.
  by rewrite !mxE; apply: eq_bigr => l _; rewrite !mxE.
have -> : col k X = (let o := mult_AAinv sq d (fun M b => invmx M *m b)
     (usubmx (col k (1%:M : 'M[F]_(nf1 + nw)))) (dsubmx (col k 1%:M)) in
   col_mx o.1 o.2).
  by apply/colP => l; rewrite [LHS]mxE [LHS]mxE.
have := mult_AAinv_exact (usubmx (col k (1%:M : 'M[F]_(nf1 + nw))))
  (dsubmx (col k 1%:M)) ex.
by rewrite /= => ->; rewrite vsubmxK !mxE.
Qed.

Lemma mult_AAinvE solver psi alpha :
  Minv sq d \in unitmx -> exact_solver solver (Minv sq d) ->
  let out := mult_AAinv sq d solver psi alpha in
  col_mx out.1 out.2 = invmx (normal_mx d) *m col_mx psi alpha.
Proof.
move=> uM ex /=; apply: (canRL (mulKmx (normal_unit uM))).
exact: mult_AAinv_exact.
Qed.

(* The true inverse, block by block. *)
Definition D_true : 'M[F]_nw :=
  DWI + AA_inv_C sq d *m Minv sq d *m AA_inv_B sq d.

Lemma AA_inv_BE : AA_inv_B sq d = - (invmx (Minv sq d) *m (J^T *m DD *m W) *m DWI).
Proof.
rewrite /AA_inv_B /AA_inv_A mxdE wW_yes !mulNmx !mulmxA; congr (- (_ *m diag_mx _)).
by apply/rowP => k; rewrite !mxE DwinvE.
Qed.

Lemma invM_sym : (invmx (Minv sq d))^T = invmx (Minv sq d).
Proof. by rewrite trmx_inv Minv_sym. Qed.

Lemma AA_inv_CE : AA_inv_C sq d = - (DWI *m (W^T *m DD *m J) *m invmx (Minv sq d)).
Proof.
rewrite /AA_inv_C AA_inv_BE linearN /= !trmx_mul invM_sym !trmxK !tr_diag_mx.
by rewrite !mulmxA.
Qed.

Lemma normal_inverse : Minv sq d \in unitmx ->
  invmx (normal_mx d) =
  block_mx (AA_inv_A sq d) (AA_inv_B sq d) (AA_inv_C sq d) D_true.
Proof.
move=> uM.
suff e : normal_mx d *m block_mx (AA_inv_A sq d) (AA_inv_B sq d) (AA_inv_C sq d) D_true = 1%:M.
  by rewrite -[LHS]mulmx1 -e mulKmx // normal_unit.
rewrite normalE mulmx_block /D_true AA_inv_BE AA_inv_CE /AA_inv_A.
set V := invmx (Minv sq d).
have eM : (J^T *m DD *m J) = Minv sq d + (J^T *m DD *m W) *m DWI *m (W^T *m DD *m J).
  by rewrite MinvE subrK.
have MV : Minv sq d *m V = 1%:M by rewrite mulmxV.
have VM : V *m Minv sq d = 1%:M by rewrite mulVmx.
clearbody V.
rewrite eM {eM} WDW.
move: (J^T *m DD *m W) (W^T *m DD *m J) => P Q.
have e1 : (Minv sq d + P *m DWI *m Q) *m V + P *m - (DWI *m Q *m V) = 1%:M.
  by rewrite mulmxDl MV mulmxN !mulmxA addrK.
have e2 : Q *m V + diag_mx (\row_k wsum k) *m - (DWI *m Q *m V) = 0.
  by rewrite mulmxN !mulmxA WDW_DWI mul1mx subrr.
have e0 : - (DWI *m Q *m V) *m Minv sq d *m - (V *m P *m DWI)
          = DWI *m Q *m V *m P *m DWI.
  by rewrite mulNmx -(mulmxA _ V) VM mulmx1 mulNmx mulmxN opprK !mulmxA.
have e3 : (Minv sq d + P *m DWI *m Q) *m - (V *m P *m DWI)
  + P *m (DWI + - (DWI *m Q *m V) *m Minv sq d *m - (V *m P *m DWI)) = 0.
  rewrite e0 mulmxN mulmxDl mulmxDr !mulmxA MV mul1mx opprD.
  by rewrite addrACA addNr add0r addNr.
have e4 : Q *m - (V *m P *m DWI) + diag_mx (\row_k wsum k) *m
   (DWI + - (DWI *m Q *m V) *m Minv sq d *m - (V *m P *m DWI)) = 1%:M.
  rewrite e0 mulmxN mulmxDr !mulmxA WDW_DWI mul1mx.
  by rewrite addrCA addNr addr0.
by rewrite e1 e2 e3 e4 -scalar_mx_block.
Qed.

Lemma AA_inv_DE l k :
  AA_inv_D sq d l k = D_true l k + (if l == k then 0 else (wsum k)^-1).
Proof.
rewrite /AA_inv_D /D_true !mxE DwinvE.
by case: eqP => [->|_]; rewrite ?mulr1n ?mulr0n ?addr0 ?add0r // addrC.
Qed.

End Basics.
