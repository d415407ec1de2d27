(* Leverages of 1 and leave-one-observation-out connectedness: proofs for C79. *)
Set Warnings "-notation-overridden,-ambiguous-paths".
From mathcomp Require Import all_ssreflect all_algebra.
From Verif Require Base.
From Verif Require Import FieldTac FEModel FESpec FEMxLemmas FESolveLemmas FELsLemmas
  FELevLemmas FEExpLemmas FEPropLemmas FESiiSpec FESiiLemmas.

Set Implicit Arguments.
Unset Strict Implicit.
Unset Printing Implicit Defensive.

Import GRing.Theory Num.Theory Order.POrderTheory.
Local Open Scope ring_scope.

Section Link.
Variable F : realFieldType.
Variable sq : F -> F.
Variables nn nf1 nw : nat.
Variable d : frame F nn nf1 nw.
Variable solver : 'M[F]_nf1 -> 'cV[F]_nf1 -> 'cV[F]_nf1.
Add Field Ff : (field_th F).
Local Notation H := (hat d (row_root d sq)).
Local Notation G := (invmx (normal_mx d)).
Local Notation RR := (diag_mx (\row_r row_root d sq r)).
Local Notation A := (design d).

Hypothesis pw : positive_weights d.
Hypothesis ob : workers_observed d.
Hypothesis cn : connected d.
Hypothesis rok : root_ok d sq.
Let wne := wsum_neq0 pw ob.
Let uM : Minv sq d \in unitmx := Minv_unit sq pw ob cn.
Let uN : normal_mx d \in unitmx := normal_unit wne uM.

Lemma root_ne s : row_root d sq s != 0.
Proof. by apply/eqP => z; have := row_root_sq rok s; rewrite z mul0r => e; have := pw s; rewrite -e ltxx. Qed.

Lemma HRA : H *m (RR *m A) = RR *m A.
Proof.
rewrite /hat -[RHS]mulmx1 -(mulVmx uN) -!mulmxA; congr (_ *m (_ *m (_ *m _))).
by rewrite [in RHS]/normal_mx -(RRRR rok) !mulmxA.
Qed.

Lemma lev1_row r s : H r r = 1 -> s != r -> H r s = 0.
Proof.
move=> h1 ne; have := hat_diag_sq wne uM rok r; rewrite (bigD1 r) //= h1 expr1n.
move/eqP; rewrite -subr_eq0 opprD addrA subrr add0r oppr_eq0 psumr_eq0.
  by move/allP/(_ s); rewrite mem_index_enum => /(_ isT); rewrite ne /= sqrf_eq0 => /eqP.
by move=> t _; exact: sqr_ge0.
Qed.

(* A row of leverage 1 is fitted by coefficients that fit 0 everywhere else. *)
Lemma lev1_direction r : H r r = 1 ->
  exists b : 'cV[F]_(nf1 + nw), (A *m b) r 0 != 0 /\ forall s, s != r -> (A *m b) s 0 = 0.
Proof.
move=> h1; have h0 s := lev1_row h1 (s := s).
pose b : 'cV[F]_(nf1 + nw) := G *m (A^T *m (RR *m delta_mx r 0)); exists b.
have bE s : row_root d sq s * (A *m b) s 0 = H r s.
  rewrite -(hat_sym sq d) [RHS]mxE.
  transitivity ((H *m (delta_mx r 0 : 'cV_nn)) s 0); last by rewrite -colE mxE.
  by rewrite /hat -!mulmxA -/b mul_diag_mx [RHS]mxE; congr (_ * _); rewrite mxE.
split=> [|s ne].
  by apply/eqP => z; have := bE r; rewrite z mulr0 h1 => /eqP; rewrite eq_sym oner_eq0.
by have := bE s; rewrite (h0 s ne) => /eqP; rewrite mulf_eq0 (negbTE (root_ne s)) => /eqP.
Qed.

Lemma edge_sym r : symmetric (edge_without d r).
Proof.
move=> x y; apply/existsP/existsP => -[s /andP[ne h]]; exists s; rewrite ne /=.
  by case/orP: h => /andP[-> ->]; rewrite ?orbT.
by case/orP: h => /andP[-> ->]; rewrite ?orbT.
Qed.

Lemma linked_lt1 r : linked_without d r -> H r r < 1.
Proof.
move=> lk; rewrite lt_neqAle (hat_le1 wne uM rok) andbT; apply/eqP => h1.
have [b [br b0]] := lev1_direction h1.
have fit s : (A *m b) s 0 = firm_eff (usubmx b) (fj d s) + dsubmx b (fi d s) 0.
  by rewrite -[in LHS](vsubmxK b) (design_mul sq) mult_A_no.
pose v (x : 'I_nf1.+1 + 'I_nw) : F :=
  match x with inl j => - firm_eff (usubmx b) j | inr i => dsubmx b i 0 end.
have ve x y : connect (edge_without d r) x y -> v x = v y.
  case/connectP => q; elim: q x => [|z q ih] x /=; first by move=> _ ->.
  case/andP => e pq l; rewrite -(ih z pq l).
  case/existsP: e => s /andP[ne /orP[]/andP[/eqP -> /eqP ->]] /=.
    by have := b0 s ne; rewrite fit => /eqP; rewrite addrC addr_eq0 => /eqP ->.
  by have := b0 s ne; rewrite fit => /eqP; rewrite addrC addr_eq0 => /eqP ->.
have := ve _ _ lk; rewrite /v => e; case/eqP: br.
by rewrite fit e subrr.
Qed.

Lemma lt1_linked r : H r r < 1 -> linked_without d r.
Proof.
rewrite /linked_without; apply: contraLR => nl.
suff -> : H r r = 1 by rewrite ltxx.
pose C x := connect (edge_without d r) (inr (fi d r)) x.
pose psi j : F := - (C (inl j))%:R.
pose alpha i : F := (C (inr i))%:R.
have same s : s != r -> C (inl (fj d s)) = C (inr (fi d s)).
  move=> ne; rewrite /C.
  have e : edge_without d r (inl (fj d s)) (inr (fi d s)).
    by apply/existsP; exists s; rewrite ne !eqxx.
  apply/idP/idP => h; apply: connect_trans h _; apply: connect1 => //.
  by rewrite edge_sym.
have fs s : fitted d psi alpha s = (s == r)%:R.
  rewrite /fitted; case: eqP => [->|/eqP ne].
    by rewrite /psi /alpha {1}/C (negbTE nl) /C connect0 oppr0 add0r.
  by rewrite /psi /alpha (same s ne) addNr.
have e := design_beta0 sq d psi alpha.
have K : H *m (RR *m (A *m beta0 psi alpha)) = RR *m (A *m beta0 psi alpha).
  by rewrite [RR *m _]mulmxA [LHS]mulmxA HRA.
move: K; rewrite e.
have -> : RR *m (\col_s fitted d psi alpha s) = row_root d sq r *: delta_mx r 0.
  apply/colP => s; rewrite mul_diag_mx !mxE fs.
  by case: eqP => [->|_]; rewrite ?mulr0.
move: (H) => X; rewrite -scalemxAr -colE => /colP /(_ r).
by rewrite !scalemE !mxE !eqxx => /(mulfI (root_ne r)).
Qed.

Lemma p_linked r : H r r < 1 <-> linked_without d r.
Proof. by split; [exact: lt1_linked | exact: linked_lt1]. Qed.

Lemma p_refused so : (exists r, leverage_used d so r) ->
  (estimate_exact_leverages sq d solver so = Base.Err Base.ValueError
   <-> exists r, leverage_used d so r /\ ~ linked_without d r).
Proof.
move=> x0; rewrite (p_lev_err solver pw ob cn rok x0).
split=> -[r [u h]]; exists r; split=> //.
  by move=> /linked_lt1; rewrite h ltxx.
have /andP[_ le] := p_hat_range pw ob cn rok r.
apply/eqP; rewrite eq_le le /= Order.TotalTheory.leNgt; apply/negP => lt; exact/h/lt1_linked.
Qed.

(* Approximate leverages: a row that cannot be left out is always noticed. *)
Hypothesis ex : exact_solver solver (Minv sq d).
Lemma p_refused_approx so ndraw (draws : seq 'cV[F]_nn) r :
  draws != [::] -> (forall R2 s, R2 \in draws -> R2 s 0 ^+ 2 = 1) ->
  leverage_used d so r -> ~ linked_without d r ->
  estimate_approximate_leverages sq d solver so ndraw [:: draws] = Base.Err Base.ValueError.
Proof.
move=> nz hs u nl.
have h1 : H r r = 1.
  have /andP[_ le] := p_hat_range pw ob cn rok r.
  by apply/eqP; rewrite eq_le le /= Order.TotalTheory.leNgt; apply/negP => lt; exact/nl/lt1_linked.
case e : (estimate_approximate_leverages sq d solver so ndraw [:: draws]) => [[P jla]|er]; last first.
  move: e; rewrite /estimate_approximate_leverages /=.
  by case: existsP => _ /=; [case: existsP => // _ [<-]|case=> <-].
have [/andP[_ lt] eP] := p_reported pw ob cn ex nz (fun R2 m => hs R2 r m) e u.
move: lt; rewrite eP; set X := H in eP *.
have HR (R : 'cV[F]_nn) : (X *m R) r 0 = R r 0.
  rewrite mxE (bigD1 r) //= h1 mul1r big1 ?addr0 // => s ne.
  by rewrite (lev1_row h1 ne) mul0r.
under eq_bigr do rewrite HR.
under [X in _ / X]eq_bigr do rewrite HR subrr expr0n addr0.
rewrite divff ?ltxx //.
have -> : \sum_(R <- draws) R r 0 ^+ 2 = (size draws)%:R.
  rewrite big_seq (eq_bigr (fun _ => 1)); last by move=> R m; rewrite hs.
  by rewrite -big_seq big_const_seq count_predT -Monoid.iteropE.
by rewrite pnatr_eq0 size_eq0.
Qed.
End Link.
