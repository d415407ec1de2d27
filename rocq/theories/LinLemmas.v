(* Lemmas about the linear estimator of the interacted model. *)
Set Warnings "-notation-overridden,-ambiguous-paths".
From mathcomp Require Import all_ssreflect all_algebra.
From Verif Require Base.
From Verif Require Import FieldTac FEMxLemmas FEGramLemmas FERegSpec LinModel LinSpec.

Set Implicit Arguments.
Unset Strict Implicit.
Unset Printing Implicit Defensive.

Import GRing.Theory Num.Theory Order.POrderTheory.
Local Open Scope ring_scope.

Section Lin.
Variable F : realFieldType.
Add Field lin_field : (field_th F).
Variable n : nat.
Implicit Types (cs : seq 'cV[F]_n) (bs : seq F).

(* ---- columns times coefficients ------------------------------------------ *)

Fixpoint dotl cs bs (r : 'I_n) : F :=
  match cs, bs with
  | c :: cs', b :: bs' => c r 0 * b + dotl cs' bs' r
  | _, _ => 0
  end.

Lemma dotl_sum cs bs r : size bs = size cs ->
  \sum_(k < size cs) nth 0 cs k r 0 * nth 0 bs k = dotl cs bs r.
Proof.
elim: cs bs => [|c cs IH] [|b bs] //=; first by rewrite big_ord0.
by move=> [e]; rewrite big_ord_recl /= IH.
Qed.

Lemma nth_vlst k (v : 'cV[F]_k) (i : 'I_k) : nth 0 (vlst v) i = v i 0.
Proof. by rewrite /vlst (nth_map i) ?size_enum_ord // nth_ord_enum. Qed.

Lemma size_vlst k (v : 'cV[F]_k) : size (vlst v) = k.
Proof. by rewrite size_map size_enum_ord. Qed.

Lemma cmx_dotl cs (v : 'cV[F]_(size cs)) r : (cmx cs *m v) r 0 = dotl cs (vlst v) r.
Proof.
rewrite mxE -dotl_sum ?size_vlst //; apply: eq_bigr => k _.
by rewrite mxE nth_vlst.
Qed.

Definition cvl k bs : 'cV[F]_k := \col_i nth 0 bs i.

Lemma vlst_cvl k bs : size bs = k -> vlst (cvl k bs) = bs.
Proof.
move=> e; apply: (@eq_from_nth _ 0); rewrite size_vlst // => i li.
by rewrite (nth_vlst _ (Ordinal li)) mxE.
Qed.

Lemma dotl_cat c1 c2 b1 b2 r : size b1 = size c1 ->
  dotl (c1 ++ c2) (b1 ++ b2) r = dotl c1 b1 r + dotl c2 b2 r.
Proof.
elim: c1 b1 => [|c c1 IH] [|b b1] //=; first by rewrite add0r.
by move=> [e]; rewrite IH // addrA.
Qed.

Lemma dotl_map (f : nat -> 'cV[F]_n) (g : nat -> F) s r :
  dotl [seq f k | k <- s] [seq g k | k <- s] r = \sum_(k <- s) f k r 0 * g k.
Proof. by elim: s => [|k s IH] /=; rewrite ?big_nil ?big_cons // IH. Qed.

Lemma sum_pick (j a m : nat) (x : F) (g : nat -> F) :
  \sum_(k <- iota a m) (if j == k then x else 0) * g k
  = if (a <= j < a + m)%N then x * g j else 0.
Proof.
elim: m a => [|m IH] a.
  by rewrite /= big_nil addn0; case: ltnP => //; case: leqP.
rewrite /= big_cons IH.
case: (j =P a) => [->|ne].
  by rewrite leqnn ltnn /= addnS ltnS leq_addr addr0.
rewrite mul0r add0r addSn addnS ltn_neqAle.
have -> : (a != j) = true by apply/eqP => e; apply: ne.
by [].
Qed.


Lemma dotl_skip cB cA bB bA m r : size bB = size cB -> (m < size cB)%N -> nth 0 bB m = 0 ->
  dotl (take m cB ++ drop m.+1 cB ++ cA) (take m bB ++ drop m.+1 bB ++ bA) r
  = dotl cB bB r + dotl cA bA r.
Proof.
move=> e lm z; rewrite dotl_cat ?size_take ?e // dotl_cat ?size_drop ?e // addrA; congr (_ + _).
rewrite -[in RHS](cat_take_drop m cB) -[in RHS](cat_take_drop m bB) dotl_cat ?size_take ?e //.
by congr (_ + _); rewrite (drop_nth 0 lm) (@drop_nth _ 0 m bB) ?e //= z mulr0 add0r.
Qed.

(* ---- the equations of noise-free wages ----------------------------------- *)

Variable sq : F -> F.
Variable rss_solve : forall k, 'M[F]_k -> 'cV[F]_k -> 'cV[F]_k.
Variable qp : forall k, 'M[F]_k -> 'cV[F]_k -> 'cV[F]_k.
Variable d : edata F n.
Variables nf nw : nat.
Variable p : lparams F.
Hypothesis fo : firms_ok d nf.
Hypothesis nf0 : (0 < nf)%N.

(* Coefficients that are functions of the firm. *)
Definition bsB (b1 b2 : nat -> F) : seq F :=
  if l_stat_b p then [seq b1 k | k <- iota 0 nf]
  else [seq b1 k | k <- iota 0 nf] ++ [seq b2 k | k <- iota 0 nf].
Definition bsA (a1 a2 : nat -> F) : seq F :=
  if l_stat_a p then [seq a1 k | k <- iota 1 nf.-1]
  else [seq a1 k | k <- iota 1 nf.-1] ++ [seq a2 k | k <- iota 0 nf].

Lemma size_bsB b1 b2 : size (bsB b1 b2) = size (colsB d nf p).
Proof. by rewrite /bsB /colsB; case: l_stat_b; rewrite ?size_cat !size_map. Qed.
Lemma size_bsA a1 a2 : size (bsA a1 a2) = size (colsA d nf p).
Proof. by rewrite /bsA /colsA; case: l_stat_a; rewrite ?size_cat !size_map. Qed.

Lemma fit_B b1 b2 r : (l_stat_b p -> forall j, (j < nf)%N -> b1 j = b2 j) ->
  dotl (colsB d nf p) (bsB b1 b2) r = e_y2 d r * b2 (e_j2 d r) - e_y1 d r * b1 (e_j1 d r).
Proof.
have [f1 f2] := fo r; rewrite /bsB /colsB; case: l_stat_b => [e|_].
  rewrite dotl_map.
  transitivity (\sum_(k <- iota 0 nf) (if e_j2 d r == k then e_y2 d r else 0) * b1 k
     - \sum_(k <- iota 0 nf) (if e_j1 d r == k then e_y1 d r else 0) * b1 k).
    by rewrite -sumrB; apply: eq_bigr => k _; rewrite !mxE mulrDl mulNr.
  by rewrite !sum_pick !leq0n !add0n f1 f2 (e isT (e_j2 d r)).
rewrite dotl_cat ?size_map // !dotl_map addrC; congr (_ + _).
  transitivity (\sum_(k <- iota 0 nf) (if e_j2 d r == k then e_y2 d r else 0) * b2 k).
    by apply: eq_bigr => k _; rewrite !mxE.
  by rewrite sum_pick leq0n add0n f2.
transitivity (- \sum_(k <- iota 0 nf) (if e_j1 d r == k then e_y1 d r else 0) * b1 k).
  by rewrite -sumrN; apply: eq_bigr => k _; rewrite !mxE mulNr.
by rewrite sum_pick leq0n add0n f1.
Qed.

Lemma pick1 (j : nat) (g : nat -> F) : (j < nf)%N -> g 0%N = 0 ->
  \sum_(k <- iota 1 nf.-1) (j == k)%:R * g k = g j.
Proof.
move=> lj g0; transitivity (\sum_(k <- iota 1 nf.-1) (if j == k then 1 else 0) * g k).
  by apply: eq_bigr => k _; case: eqP.
rewrite sum_pick mul1r addnC addn1 prednK // lj andbT.
by case: j {lj} => [|j] //=; rewrite g0.
Qed.

Lemma pick0 (j : nat) (g : nat -> F) : (j < nf)%N ->
  \sum_(k <- iota 0 nf) (j == k)%:R * g k = g j.
Proof.
move=> lj; transitivity (\sum_(k <- iota 0 nf) (if j == k then 1 else 0) * g k).
  by apply: eq_bigr => k _; case: eqP.
by rewrite sum_pick mul1r add0n lj.
Qed.

Lemma fit_A a1 a2 r : a1 0%N = 0 -> (l_stat_a p -> forall j, (j < nf)%N -> a1 j = a2 j) ->
  dotl (colsA d nf p) (bsA a1 a2) r = a1 (e_j1 d r) - a2 (e_j2 d r).
Proof.
move=> a0; have [f1 f2] := fo r; rewrite /bsA /colsA; case: l_stat_a => [e|_].
  rewrite dotl_map.
  transitivity (\sum_(k <- iota 1 nf.-1) (e_j1 d r == k)%:R * a1 k
                - \sum_(k <- iota 1 nf.-1) (e_j2 d r == k)%:R * a1 k).
    by rewrite -sumrB; apply: eq_bigr => k _; rewrite !mxE mulrDl mulNr.
  by rewrite !pick1 // (e isT (e_j2 d r)).
rewrite dotl_cat ?size_map // !dotl_map; congr (_ + _).
  by rewrite -(pick1 f1 a0); apply: eq_bigr => k _; rewrite mxE.
by rewrite -(pick0 a2 f2) -sumrN; apply: eq_bigr => k _; rewrite !mxE mulNr.
Qed.

(* Lists of coefficients as functions. *)
Lemma nth_bsA1 a1 a2 j : a1 0%N = 0 -> (j < nf)%N -> nth 0 (0 :: take nf.-1 (bsA a1 a2)) j = a1 j.
Proof.
move=> a0; case: j => [|j] lj; first by rewrite a0.
rewrite /= /bsA; case: l_stat_a.
  rewrite take_oversize ?size_map ?size_iota // (nth_map 0%N) ?size_iota ?nth_iota ?add1n //;
  by rewrite -ltnS prednK.
rewrite take_size_cat ?size_map ?size_iota // (nth_map 0%N) ?size_iota ?nth_iota ?add1n //;
by rewrite -ltnS prednK.
Qed.

Lemma nth_bsA2 a1 a2 j : l_stat_a p = false -> (j < nf)%N -> nth 0 (bsA a1 a2) (nf.-1 + j) = a2 j.
Proof.
move=> sa lj; rewrite /bsA sa nth_cat size_map size_iota ltnNge leq_addr /= addKn.
by rewrite (nth_map 0%N) ?size_iota // nth_iota.
Qed.

Lemma nth_bsB1 b1 b2 l j : (j < nf)%N -> nth 0 (bsB b1 b2 ++ l) j = b1 j.
Proof.
move=> lj; rewrite nth_cat /bsB; case: l_stat_b.
  by rewrite size_map size_iota lj (nth_map 0%N) ?size_iota // nth_iota.
rewrite size_cat !size_map !size_iota (leq_trans lj) ?leq_addr // nth_cat size_map size_iota lj.
by rewrite (nth_map 0%N) ?size_iota // nth_iota.
Qed.

Lemma nth_bsB2 b1 b2 l j : l_stat_b p = false -> (j < nf)%N ->
  nth 0 (bsB b1 b2 ++ l) (nf + j) = b2 j.
Proof.
move=> sb lj; rewrite nth_cat /bsB sb size_cat !size_map !size_iota ltn_add2l lj.
rewrite nth_cat size_map size_iota ltnNge leq_addr /= addKn.
by rewrite (nth_map 0%N) ?size_iota // nth_iota.
Qed.

(* Every list of the right size is of this form. *)
Lemma bsA_all l : size l = size (colsA d nf p) ->
  exists a1 a2, [/\ a1 0%N = 0, (l_stat_a p -> forall j, (j < nf)%N -> a1 j = a2 j) & l = bsA a1 a2].
Proof.
rewrite /colsA /bsA; case: l_stat_a.
  rewrite size_map size_iota => e.
  exists (fun j => nth 0 (0 :: l) j), (fun j => nth 0 (0 :: l) j); split=> //.
  apply: (@eq_from_nth _ 0) => [|i li]; first by rewrite size_map size_iota.
  rewrite e in li; by rewrite (nth_map 0%N) ?size_iota // nth_iota.
rewrite size_cat !size_map !size_iota => e.
exists (fun j => nth 0 (0 :: take nf.-1 l) j), (fun j => nth 0 (drop nf.-1 l) j); split=> //.
rewrite -[l in LHS](cat_take_drop nf.-1 l); congr (_ ++ _).
  have st : size (take nf.-1 l) = nf.-1 by rewrite size_take e -[X in (X < _)%N]addn0 ltn_add2l nf0.
  apply: (@eq_from_nth _ 0) => [|i li]; first by rewrite size_map size_iota.
  rewrite st in li; by rewrite (nth_map 0%N) ?size_iota // nth_iota.
have sd : size (drop nf.-1 l) = nf by rewrite size_drop e addKn.
apply: (@eq_from_nth _ 0) => [|i li]; first by rewrite size_map size_iota.
rewrite sd in li; by rewrite (nth_map 0%N) ?size_iota // nth_iota.
Qed.

(* ---- method 'iv' --------------------------------------------------------- *)

Section Iv.
Variables A1 A2 B1 B2 : nat -> F.
Variable alpha : 'I_n -> F.
Hypothesis nfree : e_noise_free d A1 A2 B1 B2 alpha.
Hypothesis nzB : forall j, (j < nf)%N -> B1 j != 0 /\ B2 j != 0.
Hypothesis hsb : l_stat_b p -> forall j, (j < nf)%N -> B1 j = B2 j.
Hypothesis hsa : l_stat_a p -> forall j, (j < nf)%N -> A1 j / B1 j = A2 j / B2 j.
Hypothesis hnorm : (l_norm p < nf)%N.
Let s := B1 (l_norm p).
Let c := A1 0%N / B1 0%N.
Let b1 j := s / B1 j.
Let b2 j := s / B2 j.
Let a1 j := s * (A1 j / B1 j - c).
Let a2 j := s * (A2 j / B2 j - c).
Let bB := bsB b1 b2.
Let bA := bsA a1 a2.

Lemma eq_zero r : dotl (colsB d nf p) bB r + dotl (colsA d nf p) bA r = 0.
Proof.
rewrite fit_B; last by move=> h j lj; rewrite /b1 /b2 hsb.
rewrite fit_A; last 2 first.
- by rewrite /a1 /c subrr mulr0.
- by move=> h j lj; rewrite /a1 /a2 hsa.
have [-> ->] := nfree r; have [f1 f2] := fo r.
have [n1 _] := nzB f1; have [_ n2] := nzB f2.
rewrite /b1 /b2 /a1 /a2.
move: (B1 (e_j1 d r)) (B2 (e_j2 d r)) (A1 (e_j1 d r)) (A2 (e_j2 d r)) (alpha r) n1 n2 => x1 x2 z1 z2 al n1 n2.
move: s c => s0 c0; by ffield F; repeat split; apply/eqP.
Qed.

Lemma sizeB : (l_norm p < size (colsB d nf p))%N.
Proof.
rewrite /colsB; case: l_stat_b; rewrite ?size_cat !size_map size_iota //.
by rewrite (leq_trans hnorm) // leq_addr.
Qed.

Definition bIv : seq F := take (l_norm p) bB ++ drop (l_norm p).+1 bB ++ bA.

Lemma size_bIv : size bIv = size (iv_cols d nf p).
Proof. by rewrite /bIv /iv_cols !size_cat !size_take !size_drop size_bsB size_bsA. Qed.

Lemma bB_norm : nth 0 bB (l_norm p) = 1.
Proof.
rewrite -[bB]cats0 nth_bsB1 // /b1 /s divff //.
by have [] := nzB hnorm.
Qed.

Lemma iv_exact r : dotl (iv_cols d nf p) bIv r = iv_Y d nf p r 0.
Proof.
have e := eq_zero r; rewrite /iv_cols /bIv /iv_Y.
have sb : size bB = size (colsB d nf p) by rewrite size_bsB.
rewrite dotl_cat; last by rewrite !size_take sb.
rewrite dotl_cat; last by rewrite !size_drop sb.
have ls := sizeB.
have := bB_norm; move: (colsB d nf p) bB sb ls e => cB b sb ls e e1.
rewrite -{1}(cat_take_drop (l_norm p) cB) -{1}(cat_take_drop (l_norm p) b) in e.
rewrite dotl_cat in e; last by rewrite !size_take sb.
rewrite (drop_nth 0 ls) (drop_nth 0 (s := b)) ?sb // in e.
rewrite /= e1 mulr1 in e; rewrite oppmE.
rewrite addrA; move: (dotl (take _ _) _ r) (dotl (drop _ _) _ r) (dotl _ bA r) (nth 0 cB _ r 0) e.
move=> x1 x2 x3 x4 e; apply/eqP; rewrite -subr_eq0 opprK -[X in _ == X]e; apply/eqP.
by fring F.
Qed.

Lemma bIv_beta : take (l_norm p) bIv ++ 1 :: drop (l_norm p) bIv = bB ++ bA.
Proof.
have ls : (l_norm p < size bB)%N by rewrite size_bsB sizeB.
have st : size (take (l_norm p) bB) = l_norm p by rewrite size_takel // ltnW.
rewrite /bIv take_size_cat // drop_size_cat // -[in RHS](cat_take_drop (l_norm p) bB).
by rewrite (drop_nth 0 ls) bB_norm -catA.
Qed.

Hypothesis hqp : forall k (M : 'M[F]_k) (v : 'cV[F]_k), M \in unitmx -> M *m qp M v = v.

Lemma iv_beta_true zs : iv_RR sq d nf p zs \in unitmx -> iv_beta sq qp d nf p zs = bB ++ bA.
Proof.
move=> u; rewrite /iv_beta -bIv_beta.
suff -> : qp (iv_RR sq d nf p zs) (iv_RY sq d nf p zs) = cvl _ bIv by rewrite vlst_cvl // size_bIv.
rewrite -[LHS](mulKmx u) hqp // -[RHS](mulKmx u); congr (_ *m _).
rewrite /iv_RY /iv_RR -!mulmxA; do 3 congr (_ *m _).
by apply/colP => r; rewrite cmx_dotl vlst_cvl ?size_bIv // iv_exact.
Qed.

Lemma iv_recovers zs : iv_RR sq d nf p zs \in unitmx ->
  forall j, (j < nf)%N ->
  let: (A1h, A2h, B1h, B2h) := extract nf p (iv_beta sq qp d nf p zs) in
  [/\ B1h j = B1 j / s, B2h j = B2 j / s, A1h j = A1 j - B1 j * c & A2h j = A2 j - B2 j * c].
Proof.
move=> u j lj; rewrite iv_beta_true // /extract.
have [n1 n2] := nzB lj.
have ns : s != 0 by have [] := nzB hnorm.
have e1 : (nth 0 (bB ++ bA) j)^-1 = B1 j / s by rewrite nth_bsB1 // /b1 invf_div.
have e2 : (if l_stat_b p then fun j0 => (nth 0 (bB ++ bA) j0)^-1
           else fun j0 => (nth 0 (bB ++ bA) (nf + j0))^-1) j = B2 j / s.
  case E : (l_stat_b p); first by rewrite e1 hsb.
  by rewrite nth_bsB2 // /b2 invf_div.
have sB : size bB = if l_stat_b p then nf else (nf + nf)%N.
  by rewrite /bB /bsB; case: (l_stat_b p); rewrite ?size_cat !size_map !size_iota.
have a10 : a1 0%N = 0 by rewrite /a1 /c subrr mulr0.
have e3 : nth 0 (0 :: take nf.-1 (drop (if l_stat_b p then nf else (nf + nf)%N) (bB ++ bA))) j = a1 j.
  by rewrite drop_size_cat // nth_bsA1.
split=> //.
  rewrite e3 e1 /a1; move: (A1 j) (B1 j) n1 s ns c => x y ny s0 ns0 c0.
  by ffield F; repeat split; apply/eqP.
case E : (l_stat_a p).
  rewrite e3 e1 e2 /a1 hsa //; move: (A2 j) (B2 j) n2 (B1 j) n1 s ns c => x y ny z nz s0 ns0 c0.
  by ffield F; repeat split; apply/eqP.
rewrite e2 -addnA -sB nth_cat ltnNge leq_addr /= addKn nth_bsA2 // /a2.
move: (A2 j) (B2 j) n2 s ns c => x y ny s0 ns0 c0.
by ffield F; repeat split; apply/eqP.
Qed.
End Iv.

(* ---- relevance ------------------------------------------------------------ *)

Section Rel.
Hypothesis pw : forall r, 0 < e_wgt d r.
Hypothesis tik0 : 0 <= l_tik p.
Hypothesis hnorm : (l_norm p < nf)%N.

Lemma sum_ind (f : 'I_n -> nat) k (e : 'I_n -> F) :
  \sum_r ind F f k r 0 * e r = \sum_(r | f r == k) e r.
Proof.
rewrite [RHS]big_mkcond; apply: eq_bigr => r _; rewrite mxE.
by case: eqP => _; rewrite ?mul1r ?mul0r.
Qed.

(* A dropped column has no rows. *)
Lemma zero_ind (f : 'I_n -> nat) k : ~~ nonzero_col (ind F f k) -> forall r, f r != k.
Proof.
rewrite /nonzero_col negbK => /eqP e r; apply/negP => fr.
have e1 : \sum_r ind F f k r 0 = \sum_(r | f r == k) (1 : F).
  by rewrite -(sum_ind f k (fun=> 1)); apply: eq_bigr => q _; rewrite mulr1.
have : 0 < \sum_(r | f r == k) (1 : F).
  rewrite (bigD1 r) //= ltr_paddr ?ltr01 // sumr_ge0 // => q _; exact: ler01.
by rewrite -e1 e ltxx.
Qed.

Lemma filt_moment (f : 'I_n -> nat) k (ks : seq nat) (cs1 cs2 : seq 'cV[F]_n) (e : 'I_n -> F) :
  (forall r, f r == k -> k \in ks) ->
  (forall z, z \in [seq c <- cs1 ++ [seq ind F f q | q <- ks] ++ cs2 | nonzero_col c] ->
     \sum_r z r 0 * e r = 0) ->
  \sum_(r | f r == k) e r = 0.
Proof.
move=> hk h; case nz : (nonzero_col (ind F f k)); last first.
  by rewrite big1 // => r fr; have /negP[] := zero_ind (negbT nz) r.
case: (pickP (fun r => f r == k)) => [r fr|none]; last by rewrite big_pred0.
rewrite -(sum_ind f k); apply: h; rewrite mem_filter nz !mem_cat /=.
by rewrite (map_f (ind F f) (hk _ fr)) orbT.
Qed.

Lemma pair_eq (a b c e m : nat) : (a < m)%N -> (c < m)%N ->
  (a + m * b == c + m * e)%N = (a == c) && (b == e).
Proof.
move=> la lc; apply/eqP/andP => [h|[/eqP-> /eqP->] //].
have := f_equal (modn^~ m) h; rewrite /= ![(_ + m * _)%N]addnC ![(m * _)%N]mulnC !modnMDl !modn_small // => ac.
split; apply/eqP => //; move/eqP: h; rewrite ac eqn_add2l.
by rewrite eqn_mul2l => /orP[/eqP m0|/eqP //]; move: la; rewrite m0.
Qed.

Lemma pair_lt (a b m q : nat) : (a < m)%N -> (b < q)%N -> (a + m * b < m * q)%N.
Proof.
move=> la lb; rewrite (@leq_trans (m * b.+1)) //; first by rewrite mulnS ltn_add2r.
by rewrite leq_mul2l lb orbT.
Qed.

Lemma moments_ok zs (e : 'I_n -> F) : instruments d nf nw p = Base.Ok zs ->
  (forall z, z \in zs -> \sum_r z r 0 * e r = 0) ->
  moments d (l_instrument p) (l_coarse p) e.
Proof.
rewrite /instruments; case: (l_instrument p) => /=; case E: (l_coarse p) => [|c] //=.
- move=> [<-] h k1 k2.
  case: (ltnP k1 nf) => [l1|g1]; last first.
    by rewrite big1 // => r /andP[/eqP q _]; have [] := fo r; rewrite q ltnNge g1.
  rewrite (eq_bigl (fun r => (e_j1 d r + nf * e_j2 d r == k1 + nf * k2)%N)); last first.
    by move=> r; rewrite pair_eq //; have [] := fo r.
  apply: (@filt_moment _ _ (iota 0 (nf * nf)) [::] [::]); last by rewrite cats0.
  by move=> r /eqP <-; have [f1 f2] := fo r; rewrite mem_iota add0n leq0n pair_lt.
- move=> [<-] h; split=> k1 k2.
    case: (ltnP k1 nf) => [l1|g1]; last first.
      by rewrite big1 // => r /andP[/eqP q _]; have [] := fo r; rewrite q ltnNge g1.
    rewrite (eq_bigl (fun r => (e_j1 d r + nf * (e_j2 d r %/ c.+1) == k1 + nf * k2)%N)); last first.
      by move=> r; rewrite pair_eq //; have [] := fo r.
    apply: (@filt_moment _ _ (iota 0 (nf * (maxl (fun r => e_j2 d r %/ c.+1)%N).+1)) [::] _ _ _ h).
    move=> r /eqP <-; have [f1 f2] := fo r; rewrite mem_iota add0n leq0n pair_lt //.
    by rewrite ltnS /maxl (leq_bigmax_cond (F := fun r => (e_j2 d r %/ c.+1)%N)).
  case: (ltnP k2 nf) => [l1|g1]; last first.
    by rewrite big1 // => r /andP[/eqP q _]; have [_] := fo r; rewrite q ltnNge g1.
  rewrite (eq_bigl (fun r => (e_j2 d r + nf * (e_j1 d r %/ c.+1) == k2 + nf * k1)%N)); last first.
    by move=> r; rewrite pair_eq //; have [] := fo r.
  rewrite -[X in X ++ _]cats0 -[X in _ ++ X]cats0 in h.
  apply: (@filt_moment _ _ (iota 0 (nf * (maxl (fun r => e_j1 d r %/ c.+1)%N).+1)) _ [::] _ _ h).
  move=> r /eqP <-; have [f1 f2] := fo r; rewrite mem_iota add0n leq0n pair_lt //.
  by rewrite ltnS /maxl (leq_bigmax_cond (F := fun r => (e_j1 d r %/ c.+1)%N)).
- case: forallP => // hi [<-] h i.
  case: (pickP (fun r => e_i d r == i)) => [r fr|none]; last by rewrite big_pred0.
  rewrite -(sum_ind (e_i d) i); apply: h; apply: map_f.
  by rewrite mem_iota leq0n add0n -(eqP fr) hi.
Qed.

(* Every list of coefficients without the normalised one. *)
Lemma bsB_all l : size l = size (colsB d nf p) ->
  exists b1 b2, (l_stat_b p -> forall j, (j < nf)%N -> b1 j = b2 j) /\ l = bsB b1 b2.
Proof.
rewrite /colsB /bsB; case: l_stat_b.
  rewrite size_map size_iota => e.
  exists (fun j => nth 0 l j), (fun j => nth 0 l j); split=> //.
  apply: (@eq_from_nth _ 0) => [|i li]; first by rewrite size_map size_iota.
  rewrite e in li; by rewrite (nth_map 0%N) ?size_iota // nth_iota.
rewrite size_cat !size_map !size_iota => e.
exists (fun j => nth 0 (take nf l) j), (fun j => nth 0 (drop nf l) j); split=> //.
rewrite -[l in LHS](cat_take_drop nf l); congr (_ ++ _).
  have st : size (take nf l) = nf by rewrite size_take e -[X in (X < _)%N]addn0 ltn_add2l nf0.
  apply: (@eq_from_nth _ 0) => [|i li]; first by rewrite size_map size_iota.
  rewrite st in li; by rewrite (nth_map 0%N) ?size_iota // nth_iota.
have sd : size (drop nf l) = nf by rewrite size_drop e addKn.
apply: (@eq_from_nth _ 0) => [|i li]; first by rewrite size_map size_iota.
rewrite sd in li; by rewrite (nth_map 0%N) ?size_iota // nth_iota.
Qed.

Lemma bs_zero b1 b2 a1 a2 : (forall j, (j < nf)%N -> [/\ b1 j = 0, b2 j = 0, a1 j = 0 & a2 j = 0]) ->
  forall i, nth 0 (bsB b1 b2 ++ bsA a1 a2) i = 0.
Proof.
move=> h i.
have all0 : all (fun x => x == 0) (bsB b1 b2 ++ bsA a1 a2).
  rewrite all_cat; apply/andP; split.
    by rewrite /bsB; case: l_stat_b; rewrite ?all_cat !all_map; repeat (apply/andP; split);
       apply/allP => k; rewrite mem_iota add0n => /andP[_ /h[e1 e2 _ _]]; rewrite /= ?e1 ?e2.
  by rewrite /bsA; case: l_stat_a; rewrite ?all_cat !all_map; repeat (apply/andP; split);
     apply/allP => k; rewrite mem_iota ?add0n ?add1n ?(prednK nf0) => /andP[_ /h[_ _ e1 e2]];
     rewrite /= ?e1 ?e2.
case: (ltnP i (size (bsB b1 b2 ++ bsA a1 a2))) => li; last by rewrite nth_default.
by apply/eqP; apply: (allP all0); rewrite mem_nth.
Qed.

Lemma rel_unit zs : instruments d nf nw p = Base.Ok zs ->
  relevant d nf p (fun r => sq (e_wgt d r)) -> iv_RR sq d nf p zs \in unitmx.
Proof.
move=> hz rel.
suff inj (x : 'cV[F]_(size (iv_cols d nf p))) : iv_RR sq d nf p zs *m x = 0 -> x = 0.
  rewrite -unitmx_tr -row_free_unit -kermx_eq0; apply/eqP/row_matrixP => i; rewrite row0.
  apply: trmx_inj; rewrite trmx0; apply: inj; apply: trmx_inj.
  by rewrite trmx_mul trmxK -row_mul mulmx_ker row0 trmx0.
move=> e.
pose l := take (l_norm p) (vlst x) ++ 0 :: drop (l_norm p) (vlst x).
have sx : size (vlst x) = (size (colsB d nf p) + size (colsA d nf p)).-1.
  rewrite size_vlst /iv_cols !size_cat size_takel ?size_drop; last by rewrite ltnW ?sizeB.
  have := sizeB hnorm; move: (size (colsB d nf p)) (size (colsA d nf p)) => u v ln.
  by rewrite -[in RHS](subnKC ln) !addSn /= addnA.
have sl : size l = (size (colsB d nf p) + size (colsA d nf p))%N.
  rewrite /l size_cat /= addnS -size_cat cat_take_drop sx prednK //.
  by rewrite (leq_ltn_trans (leq0n _) (leq_trans (sizeB hnorm) (leq_addr _ _))).
have lx : (l_norm p <= size (vlst x))%N.
  rewrite sx -ltnS prednK; first by rewrite (leq_trans (sizeB hnorm)) // leq_addr.
  by rewrite (leq_ltn_trans (leq0n _) (leq_trans (sizeB hnorm) (leq_addr _ _))).
have st : size (take (l_norm p) (vlst x)) = l_norm p by rewrite size_takel.
have ex : vlst x = take (l_norm p) l ++ drop (l_norm p).+1 l.
  rewrite /l take_size_cat // -cat_rcons drop_size_cat ?size_rcons ?st //.
  by rewrite cat_take_drop.
have nl : nth 0 l (l_norm p) = 0 by rewrite /l nth_cat st ltnn subnn.
have sB : size (take (size (colsB d nf p)) l) = size (colsB d nf p).
  by rewrite size_takel // sl leq_addr.
have sA : size (drop (size (colsB d nf p)) l) = size (colsA d nf p) by rewrite size_drop sl addKn.
have [b1 [b2 [sb eB]]] := bsB_all sB; have [a1 [a2 [a0 sa eA]]] := bsA_all sA.
have el : l = bsB b1 b2 ++ bsA a1 a2 by rewrite -eB -eA cat_take_drop.
have bn : b1 (l_norm p) = 0 by rewrite -nl el nth_bsB1.
have ln : (l_norm p < size (bsB b1 b2))%N by rewrite size_bsB sizeB.
have fitx r : (cmx (iv_cols d nf p) *m x) r 0 = e_resid d b1 b2 a1 a2 r.
  rewrite cmx_dotl ex el take_cat ln drop_cat.
  have -> : (if (l_norm p).+1 < size (bsB b1 b2) then drop (l_norm p).+1 (bsB b1 b2) ++ bsA a1 a2
      else drop ((l_norm p).+1 - size (bsB b1 b2)) (bsA a1 a2))%N
      = drop (l_norm p).+1 (bsB b1 b2) ++ bsA a1 a2.
    case: ltnP => // ge; have -> : size (bsB b1 b2) = (l_norm p).+1 by apply/eqP; rewrite eqn_leq ge ln.
    by rewrite subnn drop0 drop_oversize.
  rewrite /iv_cols dotl_skip ?size_bsB ?sizeB //; last first.
    by rewrite -[bsB b1 b2]cats0 nth_bsB1.
  by rewrite fit_B // fit_A // /e_resid addrA.
have q0 : (x^T *m iv_RR sq d nf p zs *m x) 0 0 = 0 by rewrite -mulmxA e mulmx0 mxE.
pose mo (k : 'I_(size zs)) := \sum_r (nth 0 zs k) r 0 * (sq (e_wgt d r) * e_resid d b1 b2 a1 a2 r).
pose zi (k : 'I_(size zs)) := \sum_r e_wgt d r * (nth 0 zs k) r 0 ^+ 2 + l_tik p.
have qs : \sum_k (zi k)^-1 * mo k ^+ 2 = 0.
  rewrite -[RHS]q0.
  pose XX := cmx (iv_cols d nf p); pose v := XX *m x.
  pose Zw : 'M[F]_(n, size zs) := \matrix_(r, k) (sq (eDp d r) * cmx zs r k).
  pose Zi : 'M[F]_(n, size zs) :=
    \matrix_(r, k) (Zw r k * (\sum_r (wmx d (cmx zs)) r k * cmx zs r k + l_tik p)^-1).
  have eR : iv_RR sq d nf p zs = (XX^T *m Zi) *m (Zw^T *m XX) by [].
  have -> : x^T *m iv_RR sq d nf p zs *m x = (v^T *m Zi) *m (Zw^T *m v).
    by rewrite eR /v trmx_mul !mulmxA.
  have m2 k : (Zw^T *m v) k 0 = mo k.
    by rewrite mxE /mo; apply: eq_bigr => r _; rewrite fitx !mxE mulrAC mulrC mulrA.
  have m1 k : (v^T *m Zi) 0 k = mo k / zi k.
    rewrite mxE /mo mulr_suml; apply: eq_bigr => r _; rewrite [v^T _ _]mxE fitx [Zi _ _]mxE.
    have -> : \sum_r0 wmx d (cmx zs) r0 k * cmx zs r0 k + l_tik p = zi k.
      by congr (_ + _); apply: eq_bigr => q _; rewrite !mxE expr2 mulrA.
    by rewrite !mxE /eDp /e_wgt; move: (sq _) (e_resid _ _ _ _ _ _) (zi k)^-1 (nth 0 zs k r 0) => u1 u2 u3 u4; fring F.
  by rewrite [RHS]mxE; apply: eq_bigr => k _; rewrite m1 m2 expr2 mulrA [mo k / _]mulrC.
have zi0 k : 0 <= zi k.
  by rewrite addr_ge0 // sumr_ge0 // => r _; rewrite mulr_ge0 ?sqr_ge0 // ltW.
have mo0 k : mo k = 0.
  have nn q : true -> 0 <= (zi q)^-1 * mo q ^+ 2 by move=> _; rewrite mulr_ge0 ?invr_ge0 ?sqr_ge0.
  have /eqP := qs; rewrite psumr_eq0 // => /allP /(_ k (mem_index_enum k)) /=.
  rewrite mulf_eq0 invr_eq0 sqrf_eq0 => /orP[|/eqP //].
  rewrite /zi paddr_eq0 ?sumr_ge0 // => [/andP[+ _]|r _]; last by rewrite mulr_ge0 ?sqr_ge0 // ltW.
  rewrite psumr_eq0 => [/allP z0|r _]; last by rewrite mulr_ge0 ?sqr_ge0 // ltW.
  rewrite /mo big1 // => r _; have := z0 r (mem_index_enum r).
  by rewrite /= mulf_eq0 (gt_eqF (pw r)) /= sqrf_eq0 => /eqP ->; rewrite mul0r.
have mm : moments d (l_instrument p) (l_coarse p) (fun r => sq (e_wgt d r) * e_resid d b1 b2 a1 a2 r).
  apply: (moments_ok hz) => z /(nthP 0)[k lk <-]; exact: (mo0 (Ordinal lk)).
have all0 := bs_zero (rel _ _ _ _ bn a0 sb sa mm).
have l0 i : nth 0 l i = 0 by rewrite el all0.
have st2 : size (take (l_norm p) l) = l_norm p.
  by rewrite size_takel // sl (leq_trans (ltnW (sizeB hnorm))) // leq_addr.
apply/colP => i; rewrite mxE -nth_vlst ex nth_cat st2; case: ltnP => li.
  by rewrite nth_take.
by rewrite nth_drop.
Qed.

End Rel.

(* ---- method 'linear' ----------------------------------------------------- *)

Section Linear.
Hypothesis pw : forall r, 0 < e_wgt d r.
Let W : 'rV[F]_n := \row_r e_wgt d r.
Let D := diag_mx W.
Let XX := cmx (colsA d nf p).
Hypothesis hs : consistent (@rss_solve (size (colsA d nf p))) (XX^T *m D *m XX).
Let YY : 'cV[F]_n := \col_r (e_y1 d r - e_y2 d r).
Let g := rss_solve ((wmx d XX)^T *m XX) ((wmx d XX)^T *m YY).

Lemma wmxE q (M : 'M[F]_(n, q)) : (wmx d M)^T = M^T *m D.
Proof. by apply/matrixP => i j; rewrite mul_mx_diag !mxE mulrC. Qed.

Lemma g_eq : (XX^T *m D *m XX) *m g = XX^T *m D *m YY.
Proof.
rewrite /g !wmxE; apply: hs.
have := @gram_solve F n _ XX (e_wgt d) pw 1 YY; rewrite -/W.
by move=> [x e]; exists x.
Qed.

Definition lin_A1 := (lin_fit rss_solve d nf p).1.1.1.
Definition lin_A2 := (lin_fit rss_solve d nf p).1.1.2.

Lemma lin_bsA : vlst g = bsA lin_A1 lin_A2.
Proof.
have [a1 [a2 [a0 ea el]]] := bsA_all (size_vlst g).
rewrite el /bsA /lin_A1 /lin_A2 /lin_fit -/XX -/YY -/g el /=.
have h1 k : k \in iota 1 nf.-1 -> nth 0 (0 :: take nf.-1 (bsA a1 a2)) k = a1 k.
  by rewrite mem_iota add1n prednK // => /andP[_ lk]; rewrite nth_bsA1.
case E : (l_stat_a p); first by apply/eq_in_map => k /h1.
congr (_ ++ _); first by apply/eq_in_map => k /h1.
apply/eq_in_map => k; rewrite mem_iota add0n => /andP[_ lk].
by rewrite nth_take // nth_drop nth_bsA2.
Qed.

Lemma lin_A10 : lin_A1 0%N = 0. Proof. by []. Qed.
Lemma lin_same : l_stat_a p -> lin_A2 = lin_A1.
Proof. by rewrite /lin_A2 /lin_A1 /lin_fit => ->. Qed.

Lemma lin_fitted r : (XX *m g) r 0 = lin_A1 (e_j1 d r) - lin_A2 (e_j2 d r).
Proof.
rewrite cmx_dotl lin_bsA fit_A //.
by move=> h j _; rewrite lin_same.
Qed.

Lemma lin_min A1 A2 : A1 0%N = 0 -> (l_stat_a p -> forall j, (j < nf)%N -> A1 j = A2 j) ->
  change_ssr d A1 A2 = change_ssr d lin_A1 lin_A2
    + \sum_r e_wgt d r * ((lin_A1 (e_j1 d r) - lin_A2 (e_j2 d r)) - (A1 (e_j1 d r) - A2 (e_j2 d r))) ^+ 2.
Proof.
move=> a0 ea; have := @normal_min F n _ XX (e_wgt d) YY g (cvl _ (bsA A1 A2)) g_eq.
have f r : (XX *m cvl _ (bsA A1 A2)) r 0 = A1 (e_j1 d r) - A2 (e_j2 d r).
  by rewrite cmx_dotl vlst_cvl ?size_bsA // fit_A.
rewrite /change_ssr => e.
transitivity (\sum_r e_wgt d r * (YY r 0 - (XX *m cvl _ (bsA A1 A2)) r 0) ^+ 2).
  by apply: eq_bigr => r _; rewrite f mxE.
rewrite e; congr (_ + _); apply: eq_bigr => r _.
  by rewrite lin_fitted mxE.
by rewrite mulmxBr addmE oppmE lin_fitted f.
Qed.

Lemma lin_exact A1 A2 alpha : e_noise_free d A1 A2 (fun=> 1) (fun=> 1) alpha ->
  (l_stat_a p -> forall j, (j < nf)%N -> A1 j = A2 j) ->
  forall r, lin_A1 (e_j1 d r) - lin_A2 (e_j2 d r) = A1 (e_j1 d r) - A2 (e_j2 d r).
Proof.
move=> nfr ea r.
have ch q : e_y1 d q - e_y2 d q = A1 (e_j1 d q) - A2 (e_j2 d q).
  by have [-> ->] := nfr q; move: (A1 _) (A2 _) (alpha q) => x y z; fring F.
have := @lin_min (fun j => A1 j - A1 0%N) (fun j => A2 j - A1 0%N); rewrite subrr => /(_ erefl) e.
have e' := e (fun h j lj => f_equal (fun x => x - A1 0%N) (ea h j lj)).
have z : change_ssr d (fun j => A1 j - A1 0%N) (fun j => A2 j - A1 0%N) = 0.
  rewrite /change_ssr big1 // => q _; rewrite ch.
  by move: (A1 _) (A1 _) (A2 _) (e_wgt d q) => x y u v; fring F.
have nn q : true -> 0 <= e_wgt d q * ((lin_A1 (e_j1 d q) - lin_A2 (e_j2 d q))
     - (A1 (e_j1 d q) - A1 0%N - (A2 (e_j2 d q) - A1 0%N))) ^+ 2.
  by move=> _; rewrite mulr_ge0 ?sqr_ge0 // ltW.
have nn2 : 0 <= change_ssr d lin_A1 lin_A2.
  by apply: sumr_ge0 => q _; rewrite mulr_ge0 ?sqr_ge0 // ltW.
rewrite z in e'; have /eqP := esym e'; rewrite (paddr_eq0 nn2 (sumr_ge0 _ nn)) => /andP[_].
rewrite psumr_eq0 // => /allP /(_ r (mem_index_enum r)) /=.
rewrite mulf_eq0 (gt_eqF (pw r)) /= sqrf_eq0 subr_eq0 => /eqP ->.
by move: (A1 _) (A1 _) (A2 _) => x y u; fring F.
Qed.

Lemma lin_linked A1 A2 alpha : e_noise_free d A1 A2 (fun=> 1) (fun=> 1) alpha ->
  (l_stat_a p -> forall j, (j < nf)%N -> A1 j = A2 j) ->
  forall h j, e_linked d (l_stat_a p) h j -> (j < nf)%N ->
  (if h then lin_A2 j = A2 j - A1 0%N else lin_A1 j = A1 j - A1 0%N).
Proof.
move=> nfr ea h j; elim=> {h j} [|r _ IH|r _ IH|h j sa _ IH] lj.
- by rewrite subrr lin_A10.
- have [f1 _] := fo r; have := lin_exact nfr ea r; rewrite IH //.
  move: (A1 (e_j1 d r)) (A1 0%N) (A2 (e_j2 d r)) (lin_A2 (e_j2 d r)) => x y u v e.
  have -> : v = (x - y) - (x - y - v) by fring F.
  by rewrite e; fring F.
- have [_ f2] := fo r; have := lin_exact nfr ea r; rewrite IH //.
  move: (A1 (e_j1 d r)) (A1 0%N) (A2 (e_j2 d r)) (lin_A1 (e_j1 d r)) => x y u v e.
  have -> : v = (v - (u - y)) + (u - y) by fring F.
  by rewrite e; fring F.
- move: {IH}(IH lj); case: h => /=; rewrite (lin_same sa) => ->; by rewrite (ea sa _ lj).
Qed.
End Linear.

End Lin.
