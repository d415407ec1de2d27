(* Leverage draws and Hutch++: proofs for C28, C31, C56. *)
Set Warnings "-notation-overridden,-ambiguous-paths".
From mathcomp Require Import all_ssreflect all_algebra.
From Verif Require Base.
From Verif Require Import FieldTac FEModel FESpec FEMxLemmas FESolveLemmas FELsLemmas
  FELevLemmas FECovLemmas FEExpLemmas FEBiasLemmas FETraceLemmas FEFinLemmas.

Set Implicit Arguments.
Unset Strict Implicit.
Unset Printing Implicit Defensive.

Import GRing.Theory Num.Theory Order.POrderTheory.
Local Open Scope ring_scope.

Section Fold.
Variable F : realFieldType.
Lemma foldl_sum (T : Type) (g : T -> F) (s : seq T) a :
  foldl (fun t x => t + g x) a s = a + \sum_(x <- s) g x.
Proof.
elim: s a => [|x s IH] a /=; first by rewrite big_nil addr0.
by rewrite IH big_cons addrA.
Qed.

Lemma mean_batches (T : Type) (g : T -> F) (bs : seq (seq T)) b :
  (forall x, x \in map size bs -> x = b) -> (0 < b)%N ->
  (\sum_(x <- bs) ((\sum_(y <- x) g y) / (size x)%:R)) / (size bs)%:R
  = (\sum_(y <- flatten bs) g y) / (size (flatten bs))%:R.
Proof.
move=> hb b0.
have b1 : b%:R != 0 :> F by rewrite pnatr_eq0 -lt0n.
have sz : size (flatten bs) = (size bs * b)%N.
  elim: bs hb => //= x bs IH hb; rewrite size_cat IH ?mulSn; last first.
    by move=> y yin; apply: hb; rewrite inE yin orbT.
  by congr (_ + _)%N; apply: hb; rewrite inE eqxx.
have -> : \sum_(x <- bs) ((\sum_(y <- x) g y) / (size x)%:R)
   = (\sum_(y <- flatten bs) g y) / b%:R.
  clear sz; elim: bs hb => [|x bs IH] hb; first by rewrite !big_nil mul0r.
  rewrite big_cons /= big_cat /= mulrDl IH; last first.
    by move=> y yin; apply: hb; rewrite inE yin orbT.
  congr (_ / _%:R + _); apply: hb; by rewrite inE eqxx.
rewrite sz natrM -mulrA; congr (_ * _); case: (size bs) => [|k].
  by rewrite mul0r invr0 mulr0.
have k1 : k.+1%:R != 0 :> F by rewrite pnatr_eq0.
by rewrite invfM mulrC.
Qed.
End Fold.

Section Draw.
Variable F : realFieldType.
Variable sq : F -> F.
Variables nn nf1 nw : nat.
Variable d : frame F nn nf1 nw.
Add Field Ff : (field_th F).

Local Notation A := (design d).
Local Notation G := (invmx (normal_mx d)).
Local Notation RR := (diag_mx (\row_r row_root d sq r)).
Local Notation H := (hat d (row_root d sq)).

Variable solver : 'M[F]_nf1 -> 'cV[F]_nf1 -> 'cV[F]_nf1.

Lemma combine_long bs b : (forall x, x \in map size bs -> x = b) -> (0 < b)%N ->
  let st := lev_combine sq d solver bs in
  let st' := leverage_approx sq d solver (flatten bs) in
  forall r, st_P st r = st_P st' r /\ st_P2 st r = st_P2 st' r /\ st_M st r = st_M st' r
    /\ st_M2 st r = st_M2 st' r /\ st_PM st r = st_PM st' r.
Proof.
move=> hb b0 /= r; rewrite /lev_combine.
have mb (g : 'cV[F]_nn -> F) : foldl (fun (t : F) x => t +
     (foldl (fun t R2 => t + g R2) 0 x / (size x)%:R)) 0 bs / (size bs)%:R
  = foldl (fun t R2 => t + g R2) 0 (flatten bs) / (size (flatten bs))%:R.
  rewrite (foldl_sum (fun x => foldl (fun t R2 => t + g R2) 0 x / (size x)%:R)).
  rewrite (foldl_sum g) !add0r -(mean_batches _ hb b0); congr (_ / _).
  by apply: eq_bigr => x _; rewrite foldl_sum add0r.
case e : bs => [|b1 [|b2 bs']]; rewrite -?e /=.
- by rewrite e /= !mul0r.
- by rewrite e /= cats0.
- split; [|split; [|split; [|split]]]; exact: mb.
Qed.

Lemma batch_sizes ndraw ncore b :
  batchsize_he true ndraw ncore = Base.Ok b <-> (ncore %| ndraw)%N /\ b = (ndraw %/ ncore)%N.
Proof.
rewrite /batchsize_he /dvdn /=; case: eqP => [e|ne] /=; split=> //.
- by case.
- by case=> _ ->.
- by case.
Qed.

Hypothesis pw : positive_weights d.
Hypothesis ob : workers_observed d.
Hypothesis cn : connected d.
Hypothesis ex : exact_solver solver (Minv sq d).
Hypothesis rok : root_ok d sq.

Let wne := wsum_neq0 pw ob.
Let uM : Minv sq d \in unitmx := Minv_unit sq pw ob cn.

Lemma proj_hat (R2 : 'cV[F]_nn) : proj sq d solver R2 Wsqrt Wsqrt = H *m R2.
Proof.
rewrite /proj /solve /mult_Atranspose.
have := mult_AAinvE wne ((wJ sq d Wsqrt)^T *m R2) ((wW sq d Wsqrt)^T *m R2) uM ex.
case: (mult_AAinv _ _ _ _ _) => p a /= e.
rewrite /mult_A -mul_row_col e -mul_col_mx -tr_row_mx wJ_sqrt wW_sqrt -mul_mx_row -designE.
by rewrite /hat trmx_mul tr_diag_mx !mulmxA.
Qed.

Lemma uniform_sq (X : 'M[F]_nn) r :
  uniform (fun b => (X *m signs F b) r 0 ^+ 2) = (X *m X^T) r r.
Proof.
have e (z : 'cV[F]_nn) : (X *m z) r 0 ^+ 2 = (z^T *m ((row r X)^T *m row r X) *m z) 0 0.
  have -> : (X *m z) r 0 = (row r X *m z) 0 0 by rewrite -row_mul [RHS]mxE.
  rewrite mulmxA -trmx_mul -mulmxA.
  by move: (row r X *m z) => x; rewrite mxE big_ord1 mxE expr2.
have -> : uniform (fun b => (X *m signs F b) r 0 ^+ 2) = \tr ((row r X)^T *m row r X).
  by rewrite -uniform_quad1 /uniform; congr (_ / _); apply: eq_bigr => b _; rewrite e.
rewrite mxtrace_mulC /mxtrace big_ord1 [LHS]mxE [RHS]mxE; apply: eq_bigr => s _.
by rewrite !mxE.
Qed.

Lemma draw_P r : uniform (fun b => (lev_draw sq d solver (signs F b)).1 r) = H r r.
Proof.
have -> : uniform (fun b => (lev_draw sq d solver (signs F b)).1 r)
  = uniform (fun b => (H *m signs F b) r 0 ^+ 2).
  by rewrite /uniform; congr (_ / _); apply: eq_bigr => b _; rewrite /= proj_hat.
by rewrite uniform_sq hat_sym hat_idem.
Qed.

Lemma draw_M r : uniform (fun b => (lev_draw sq d solver (signs F b)).2 r) = 1 - H r r.
Proof.
have -> : uniform (fun b => (lev_draw sq d solver (signs F b)).2 r)
  = uniform (fun b => ((1%:M - H) *m signs F b) r 0 ^+ 2).
  rewrite /uniform; congr (_ / _); apply: eq_bigr => b _.
  by rewrite /= proj_hat mulmxBl mul1mx addmE oppmE.
rewrite uniform_sq linearB /= trmx1 hat_sym // mulmxBl mul1mx mulmxBr mulmx1 hat_idem //.
by rewrite subrr subr0 addmE oppmE !mxE eqxx.
Qed.

(* One draw of signs never gives 0/0, and normalised leverages are in [0, 1]. *)
Lemma draw_pos (R2 : 'cV[F]_nn) r : R2 r 0 ^+ 2 = 1 ->
  0 <= (lev_draw sq d solver R2).1 r /\ 0 <= (lev_draw sq d solver R2).2 r
  /\ 0 < (lev_draw sq d solver R2).1 r + (lev_draw sq d solver R2).2 r.
Proof.
rewrite /=; move: (proj _ _ _ _ _ _ r 0) (R2 r 0) => q x x1.
split; first exact: sqr_ge0.
split; first exact: sqr_ge0.
rewrite lt_neqAle addr_ge0 ?sqr_ge0 // andbT eq_sym paddr_eq0 ?sqr_ge0 //.
rewrite !sqrf_eq0; apply/negP => /andP [/eqP q0]; rewrite q0 subr0 => /eqP x0.
by move: x1; rewrite x0 expr0n /= => /eqP; rewrite eq_sym oner_eq0.
Qed.

Lemma means_pos (draws : seq 'cV[F]_nn) r :
  draws != [::] -> (forall R2, R2 \in draws -> R2 r 0 ^+ 2 = 1) ->
  let st := leverage_approx sq d solver draws in
  0 <= st_P st r /\ 0 <= st_M st r /\ 0 < st_P st r + st_M st r.
Proof.
move=> nz hs /=; rewrite !foldl_sum !add0r.
have s0 : 0 < (size draws)%:R :> F by rewrite ltr0n; case: draws nz {hs}.
have p1 : 0 <= \sum_(R2 <- draws) (proj sq d solver R2 Wsqrt Wsqrt) r 0 ^+ 2.
  by rewrite sumr_ge0 // => x _; exact: sqr_ge0.
have p2 : 0 <= \sum_(R2 <- draws) (R2 r 0 - proj sq d solver R2 Wsqrt Wsqrt r 0) ^+ 2.
  by rewrite sumr_ge0 // => x _; exact: sqr_ge0.
split; first by rewrite divr_ge0 // ltW.
split; first by rewrite divr_ge0 // ltW.
rewrite -mulrDl divr_gt0 // -big_split /=.
case: draws nz hs {s0 p1 p2} => // x s _ hs; rewrite big_cons.
apply: ltr_paddr.
  by rewrite sumr_ge0 // => y _; rewrite addr_ge0 // sqr_ge0.
by have [_ [_]] := draw_pos (hs x (mem_head _ _)).
Qed.

Lemma normalised_range (draws : seq 'cV[F]_nn) so r :
  draws != [::] -> (forall R2, R2 \in draws -> R2 r 0 ^+ 2 = 1) -> check_rows d so r ->
  0 <= lev_normalise d so (leverage_approx sq d solver draws) r <= 1.
Proof.
move=> nz hs cr; rewrite /lev_normalise cr.
have := means_pos nz hs; cbv zeta.
move: (st_P _ _) (st_M _ _) => a b [a0 [b0 ab]].
by rewrite divr_ge0 ?(ltW ab) //= ler_pdivr_mulr // mul1r ler_addl.
Qed.

(* Hutch++. *)
Local Notation B := (A *m G *m A^T).
Lemma prodsE k (X : 'M[F]_(nn, k)) :
  \matrix_(r, c) (let '(p, a) := solve sq d solver (col c X) Wno in
     mult_A sq d p a Wno) r 0 = B *m X.
Proof.
apply/matrixP => r c; rewrite [LHS]mxE.
have := solve_no pw ob cn ex (col c X); case: (solve _ _ _ _ _) => p a /= e.
rewrite -(design_mul sq) e [RHS]mxE.
rewrite mulmxA [LHS]mxE !mulmxA; apply: eq_bigr => s _; congr (_ * _).
by rewrite mxE.
Qed.

Lemma colM a b c (X : 'M[F]_(a, b)) (Y : 'M[F]_(b, c)) k : col k (X *m Y) = X *m col k Y.
Proof. by rewrite !colE mulmxA. Qed.

Lemma hutch_uniform k (Q : 'M[F]_(nn, k)) : (0 < k)%N -> Q^T *m Q = 1%:M ->
  uniform (fun t : {ffun 'I_k -> {ffun 'I_nn -> bool}} =>
    hutchpp_sigma_2 sq d solver Q (\matrix_(r, c) signs F (t c) r 0)) = \tr B.
Proof.
move=> k0 oQ; pose P := 1%:M - Q *m Q^T.
have PP : P *m P = P.
  rewrite /P mulmxBl mul1mx mulmxBr mulmx1 mulmxA -(mulmxA Q) oQ mulmx1.
  by rewrite subrr subr0.
have Pt : P^T = P by rewrite /P linearB /= trmx1 trmx_mul trmxK.
have e (t : {ffun 'I_k -> {ffun 'I_nn -> bool}}) :
  hutchpp_sigma_2 sq d solver Q (\matrix_(r, c) signs F (t c) r 0)
  = \tr (B *m (Q *m Q^T)) + mean_draws (fun c => ((signs F (t c))^T *m (P *m B *m P) *m signs F (t c)) 0 0).
  rewrite /hutchpp_sigma_2 !prodsE !sum_diag_prodE; move: B => B0; congr (_ + _).
    by rewrite [LHS]mxtrace_mulC -mulmxA.
  rewrite /mean_draws mulrC div1r; congr (_ / _).
  set G0 := \matrix_(_, _) _.
  have -> : G0 - Q *m (Q^T *m G0) = P *m G0 by rewrite /P mulmxBl mul1mx mulmxA.
  rewrite trmx_mul Pt.
  apply: eq_bigr => c _.
  have cX : col c G0 = signs F (t c) by apply/colP => r; rewrite mxE mxE.
  rewrite -cX tr_col -!mulmxA.
  have -> : P *m (B0 *m (P *m col c G0)) = col c (P *m (B0 *m (P *m G0))).
    by rewrite !colM.
  rewrite [LHS]mxE [RHS]mxE; apply: eq_bigr => s _.
  by rewrite [row _ _ _ _]mxE [col _ _ _ _]mxE.
rewrite /uniform (eq_bigr _ (fun t _ => e t)) big_split /= mulrDl.
have u := @uniform_mean_draws F k _ (fun b => ((signs F b)^T *m (P *m B *m P) *m signs F b) 0 0)
  (card_ff nn) k0.
rewrite /uniform in u; rewrite u -/(uniform _) uniform_quad1.
rewrite sumr_const -[\tr _ *+ _]mulr_natr mulfK; last first.
  by rewrite pnatr_eq0 -lt0n card_ffun expn_gt0 card_ff.
clear u e; move: B => B0.
have -> : \tr (P *m B0 *m P) = \tr (B0 *m P) by rewrite mxtrace_mulC mulmxA PP mxtrace_mulC.
by rewrite -mxtraceD -mulmxDr /P addrC subrK mulmx1.
Qed.

End Draw.
