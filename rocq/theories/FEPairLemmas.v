(* Proofs for C55. *)
Set Warnings "-notation-overridden,-ambiguous-paths".
From mathcomp Require Import all_ssreflect all_algebra.
From Verif Require Base.
From Verif Require Import FEModel FESpec FEPairModel FEPairSpec FEMxLemmas.

Set Implicit Arguments.
Unset Strict Implicit.
Unset Printing Implicit Defensive.

Import GRing.Theory Num.Theory Order.POrderTheory.
Local Open Scope ring_scope.

Section Shift.
Variables (T : eqType) (x0 : T).
Lemma size_shift_next (a : seq T) f : size (shift_next a f) = size a.
Proof. by case: a => //= x a; rewrite size_rcons. Qed.
Lemma size_shift_prev (a : seq T) f : size (shift_prev a f) = size a.
Proof. by case: a => //= x a; rewrite size_belast. Qed.
Lemma nth_shift_next (a : seq T) f k : (k < size a)%N ->
  nth x0 (shift_next a f) k = if (k.+1 < size a)%N then nth x0 a k.+1 else f.
Proof.
case: a => //= x a lt; rewrite nth_rcons ltnS.
case: ltnP => // ge; have -> : k = size a by apply/eqP; rewrite eqn_leq ge andbT.
by rewrite eqxx.
Qed.
Lemma nth_shift_prev (a : seq T) f k : (k < size a)%N ->
  nth x0 (shift_prev a f) k = if k is k'.+1 then nth x0 a k' else f.
Proof.
case: a => //= x a lt; case: k lt => //= k lt.
by rewrite [in RHS]lastI nth_rcons size_belast -ltnS lt.
Qed.
End Shift.

Section Pairs.
Variable F : realFieldType.
Variable sq : F -> F.
Variables nn nf1 nw : nat.
Variable d : frame F nn nf1 nw.

Local Notation ic := (i_col d).
Lemma size_ic : size ic = nn.
Proof. by rewrite size_map size_enum_ord. Qed.

Lemma nth_ic (r : 'I_nn) : nth 0 ic r = (val (fi d r))%:Z.
Proof. by rewrite (nth_map r) ?size_enum_ord // nth_ord_enum. Qed.

Lemma keepE (b : seq int) : size b = nn ->
  [seq x.1 == x.2 | x <- zip ic b] = [seq nth 0 ic (val r) == nth 0 b (val r) | r <- enum 'I_nn].
Proof.
move=> sb; apply: (@eq_from_nth _ false).
  by rewrite size_map size_zip sb size_ic minnn size_map size_enum_ord.
move=> k; rewrite size_map size_zip sb size_ic minnn => lt.
rewrite (nth_map (0, 0)) ?size_zip ?sb ?size_ic ?minnn // nth_zip ?sb ?size_ic //=.
rewrite (nth_map (Ordinal lt)) ?size_enum_ord //.
by rewrite (nth_ord_enum (Ordinal lt) (Ordinal lt)).
Qed.

Definition has_next (r : 'I_nn) : bool := [exists s, adjacent d r s].
Definition has_prev (s : 'I_nn) : bool := [exists r, adjacent d r s].

Lemma rows_lE : rows_l d = filter has_next (enum 'I_nn).
Proof.
rewrite /rows_l /keep_l keepE ?size_shift_next ?size_ic // -filter_mask.
apply: eq_in_filter => r _; rewrite nth_shift_next ?size_ic //= nth_ic.
case: ltnP => lt.
  rewrite (nth_ic (Ordinal lt)); apply/eqP/existsP => [[e]|[s /andP [/eqP vs /eqP e]]].
    by exists (Ordinal lt); rewrite /adjacent eqxx; apply/eqP/val_inj.
  by congr (Posz _); rewrite e; congr (val (fi d _)); apply/val_inj.
rewrite (_ : (_ == _) = false) //; apply/esym/existsP => [[s /andP [/eqP vs _]]].
by have := ltn_ord s; rewrite vs ltnNge lt.
Qed.

Lemma rows_rE : rows_r d = filter has_prev (enum 'I_nn).
Proof.
rewrite /rows_r /keep_r keepE ?size_shift_prev ?size_ic // -filter_mask.
apply: eq_in_filter => s _; rewrite nth_shift_prev ?size_ic //= nth_ic.
case: s => [[|k] lt] /=.
  rewrite (_ : (_ == _) = false) //; apply/esym/existsP => [[r /andP [/eqP]]] //.
have lt' : (k < nn)%N by rewrite (ltn_trans _ lt).
rewrite (nth_ic (Ordinal lt')); apply/eqP/existsP => [[e]|[r /andP [/eqP [vr] /eqP e]]].
  by exists (Ordinal lt'); rewrite /adjacent eqxx; apply/eqP/val_inj.
by congr (Posz _); rewrite -e; congr (val (fi d _)); apply/val_inj.
Qed.

(* The selected rows as numbers. *)
Lemma map_filter_val (P : pred 'I_nn) (P' : pred nat) : (forall r, P r = P' (val r)) ->
  map val (filter P (enum 'I_nn)) = filter P' (iota 0 nn).
Proof.
by move=> e; rewrite -val_enum_ord [RHS]filter_map; congr (map _ _); apply: eq_filter.
Qed.

Definition nextb (k : nat) : bool := [exists r : 'I_nn, (val r == k) && has_next r].

Lemma has_nextE r : has_next r = nextb (val r).
Proof.
apply/idP/existsP => [h|[s /andP [/eqP /val_inj -> //]]].
by exists r; rewrite eqxx.
Qed.

Lemma has_prevE (s : 'I_nn) : has_prev s = if val s is k.+1 then nextb k else false.
Proof.
case: s => [[|k] lt] /=; first by apply/existsP => [[r /andP [/eqP]]].
apply/existsP/existsP => [[r /andP [/eqP [vr] e]]|[r /andP [/eqP vr /existsP [s /andP [/eqP vs e]]]]].
  exists r; rewrite /= vr eqxx; apply/existsP; exists (Ordinal lt).
  by rewrite /adjacent e andbT /= eqSS vr.
have <- : s = Ordinal lt by apply/val_inj; rewrite /= vs; congr _.+1.
by exists r; rewrite /adjacent vs eqxx.
Qed.

Lemma map_rows : map val (rows_r d) = map S (map val (rows_l d)).
Proof.
rewrite rows_lE rows_rE (map_filter_val has_nextE).
rewrite (map_filter_val (P' := fun j => if j is k.+1 then nextb k else false) has_prevE).
suff H n : n = nn -> [seq j <- iota 0 n | if j is k.+1 then nextb k else false]
    = map S (filter nextb (iota 0 n)) by exact: H.
case: n => [//|m] e; rewrite -[in RHS]addn1 iotaD filter_cat.
have -> : iota 0 m.+1 = 0%N :: map S (iota 0 m) by rewrite -(iotaDl 1 0 m).
rewrite [LHS]/= filter_map (_ : filter nextb (iota _ 1) = [::]) ?cats0 //=.
rewrite (_ : nextb m = false) //.
apply/existsP => [[r /andP [/eqP vr /existsP [s /andP [/eqP vs _]]]]].
by have := ltn_ord s; rewrite vs vr -e ltnn.
Qed.

Lemma size_rows : size (rows_r d) = size (rows_l d).
Proof. by rewrite -(size_map val) map_rows !size_map. Qed.

Lemma pairs_adj r s : ((r, s) \in zip (rows_l d) (rows_r d)) = adjacent d r s.
Proof.
have sz := size_rows.
apply/idP/idP => [|ad].
  case/(nthP (r, s)) => k; rewrite size_zip sz minnn => lt.
  rewrite nth_zip // => [[el er]].
  have vs : val s = (val r).+1.
    have := congr1 (fun t => nth 0%N t k) map_rows; rewrite (nth_map s) ?sz //.
    by rewrite (nth_map 0%N) ?size_map // (nth_map r) // el er.
  have : r \in rows_l d by rewrite -el mem_nth.
  rewrite rows_lE mem_filter => /andP [/existsP [s' /andP [/eqP vs' e]] _].
  rewrite /adjacent vs eqxx /=; suff <- : s' = s by [].
  by apply/val_inj; rewrite /= vs vs'.
have rl : r \in rows_l d.
  by rewrite rows_lE mem_filter mem_enum andbT; apply/existsP; exists s.
have lt : (index r (rows_l d) < size (rows_l d))%N by rewrite index_mem.
apply/(nthP (r, s)); exists (index r (rows_l d)); first by rewrite size_zip sz minnn.
rewrite nth_zip // nth_index //; congr (_, _); apply/val_inj.
have := congr1 (fun t => nth 0%N t (index r (rows_l d))) map_rows.
rewrite (nth_map s) ?sz // (nth_map 0%N) ?size_map // (nth_map r) // nth_index // => ->.
by case/andP: ad => /eqP ->.
Qed.

Lemma uniq_rows_l : uniq (rows_l d).
Proof. by rewrite rows_lE filter_uniq ?enum_uniq. Qed.

Lemma uniq_pairs : uniq (zip (rows_l d) (rows_r d)).
Proof.
apply: (@map_uniq _ _ fst); rewrite -/(unzip1 _) unzip1_zip ?uniq_rows_l //.
by rewrite size_rows.
Qed.

(* Sums over the selected rows are sums over the adjacent pairs. *)
Lemma sel_sum (e : size (rows_r d) = size (rows_l d)) (f : 'I_nn -> 'I_nn -> F) :
  \sum_k f (tnth (in_tuple (rows_l d)) k) (tnth (rows_r_as e) k) = adj_sum d f.
Proof.
have pm : perm_eq (zip (rows_l d) (rows_r d))
   [seq x <- index_enum [finType of 'I_nn * 'I_nn] | adjacent d x.1 x.2].
  apply: uniq_perm; first exact: uniq_pairs.
    exact/filter_uniq/index_enum_uniq.
  by move=> [r s]; rewrite pairs_adj mem_filter mem_index_enum andbT.
have <- : \sum_(x <- zip (rows_l d) (rows_r d)) f x.1 x.2 = adj_sum d f.
  by rewrite (perm_big _ pm) big_filter.
case: (posnP (size (rows_l d))) => sz0.
  have -> : zip (rows_l d) (rows_r d) = [::] by apply/size0nil; rewrite size_zip sz0 min0n.
  rewrite big_nil; apply: big1 => k _; exfalso.
  by have := ltn_ord k; rewrite [X in (_ < X)%N]sz0.
have r0 : 'I_nn := tnth (in_tuple (rows_l d)) (Ordinal sz0).
rewrite (big_nth (r0, r0)) size_zip e minnn big_mkord; apply: eq_bigr => k _.
rewrite nth_zip ?e //= /rows_r_as tcastE !(tnth_nth r0) /=; congr f.
Qed.

Lemma sel_mx_mul q (t : q.-tuple 'I_nn) (psi : 'cV[F]_nf1) k :
  (sel_mx d t *m psi) k 0 = firm_eff psi (fj d (tnth t k)).
Proof.
rewrite mxE /firm_eff; case: unliftP => [c e|e].
  rewrite (bigD1 c) //= mxE e eqxx mul1r big1 ?addr0 // => c' ne.
  by rewrite mxE e (inj_eq (@lift_inj _ _)) eq_sym (negbTE ne) mul0r.
by rewrite big1 // => c _; rewrite mxE e (negbTE (neq_lift _ _)) mul0r.
Qed.

Lemma cov_pairs (e : size (rows_r d) = size (rows_l d)) pa :
  cov_fe sq (prev_half d) (next_half e) (prev_w d) (next_w e) pa
  = cov_prev_next sq d (firm_eff pa.1).
Proof.
have S1 g : \sum_k g (tnth (in_tuple (rows_l d)) k) = adj_sum d (fun r _ => g r).
  by rewrite -(sel_sum e (fun r _ => g r)).
have S2 g : \sum_k g (tnth (rows_r_as e) k) = adj_sum d (fun _ s => g s).
  by rewrite -(sel_sum e (fun _ s => g s)).
rewrite /cov_fe /prev_half /next_half /half_mult /prev_w /next_w /sel_w.
have e1 : weighted_mean (sel_mx d (in_tuple (rows_l d)) *m pa.1)
   (omap (fun w k => w (tnth (in_tuple (rows_l d)) k)) (fw d)) = mean_prev d (firm_eff pa.1).
  rewrite /weighted_mean /mean_prev /wgt; case: (fw d) => [w|] /=.
    congr (_ / _); last exact: S1.
    by rewrite -(S1 (fun r => w r * firm_eff pa.1 (fj d r))); apply: eq_bigr => k _; rewrite sel_mx_mul.
  rewrite -(S1 (fun _ => 1)) sumr_const card_ord; congr (_ / _).
  by rewrite -(S1 (fun r => 1 * firm_eff pa.1 (fj d r))); apply: eq_bigr => k _; rewrite sel_mx_mul mul1r.
have e2 : weighted_mean (sel_mx d (rows_r_as e) *m pa.1)
   (omap (fun w k => w (tnth (rows_r_as e) k)) (fw d)) = mean_next d (firm_eff pa.1).
  rewrite /weighted_mean /mean_next /wgt; case: (fw d) => [w|] /=.
    congr (_ / _); last exact: S2.
    by rewrite -(S2 (fun r => w r * firm_eff pa.1 (fj d r))); apply: eq_bigr => k _; rewrite sel_mx_mul.
  rewrite -(S2 (fun _ => 1)) sumr_const card_ord; congr (_ / _).
  by rewrite -(S2 (fun r => 1 * firm_eff pa.1 (fj d r))); apply: eq_bigr => k _; rewrite sel_mx_mul mul1r.
rewrite /weighted_cov e1 e2 /cov_prev_next /pair_wgt.
case: (fw d) e1 e2 => [w|] /= _ _.
  congr (_ / _); last exact: (sel_sum e (fun r s => sq (w r * w s))).
  by rewrite -(sel_sum e); apply: eq_bigr => k _; rewrite !sel_mx_mul.
rewrite -(sel_sum e (fun _ _ => 1)) sumr_const card_ord; congr (_ / _).
by rewrite -(sel_sum e); apply: eq_bigr => k _; rewrite !sel_mx_mul mul1r.
Qed.

Lemma prev_next_value pa : prev_next_fe sq d pa = Base.Ok (cov_prev_next sq d (firm_eff pa.1)).
Proof.
rewrite /prev_next_fe; case: eqVneq => [e|]; first by rewrite cov_pairs.
by rewrite size_rows eqxx.
Qed.

(* A constant added to all firm effects does not matter. *)
Lemma adj_sumD f g : adj_sum d (fun r s => f r s + g r s) = adj_sum d f + adj_sum d g.
Proof. exact: big_split. Qed.
Lemma eq_adj_sum f g : (forall r s, f r s = g r s) -> adj_sum d f = adj_sum d g.
Proof. by move=> e; apply: eq_bigr => x _; rewrite e. Qed.
Lemma adj_sum_mulr f c : adj_sum d (fun r s => f r s * c) = adj_sum d f * c.
Proof. by rewrite /adj_sum mulr_suml. Qed.

Lemma adj_sum_gt0 f : (forall r s, 0 < f r s) ->
  adj_sum d f != 0 \/ (forall r s, adjacent d r s = false).
Proof.
move=> pos; case: (boolP [exists x : 'I_nn * 'I_nn, adjacent d x.1 x.2]) => [/existsP [x ax]|ne].
  left; rewrite gt_eqF // /adj_sum (bigD1 x) //= ltr_paddr //.
  by rewrite sumr_ge0 // => y _; exact: ltW.
right=> r s; apply/negbTE; apply: contraNN ne => h; by apply/existsP; exists (r, s).
Qed.

Lemma cov_prev_next_shift (psi psi' : 'I_nf1.+1 -> F) c : positive_weights d ->
  (forall j, psi' j = psi j + c) -> cov_prev_next sq d psi' = cov_prev_next sq d psi.
Proof.
move=> pw eps; case: (@adj_sum_gt0 (fun r _ => wgt d r)) => // [n1|no]; last first.
  by rewrite /cov_prev_next; congr (_ / _); rewrite /adj_sum !big_pred0 //= => -[r s]; exact: no.
case: (@adj_sum_gt0 (fun _ s => wgt d s)) => // [n2|no]; last first.
  by rewrite /cov_prev_next; congr (_ / _); rewrite /adj_sum !big_pred0 //= => -[r s]; exact: no.
have m1 : mean_prev d psi' = mean_prev d psi + c.
  rewrite /mean_prev (eq_adj_sum (g := fun r _ => wgt d r * psi (fj d r) + wgt d r * c)).
    by rewrite adj_sumD adj_sum_mulr mulrDl mulrAC mulfV ?mul1r.
  by move=> r s; rewrite eps mulrDr.
have m2 : mean_next d psi' = mean_next d psi + c.
  rewrite /mean_next (eq_adj_sum (g := fun _ s => wgt d s * psi (fj d s) + wgt d s * c)).
    by rewrite adj_sumD adj_sum_mulr mulrDl mulrAC mulfV ?mul1r.
  by move=> r s; rewrite eps mulrDr.
rewrite /cov_prev_next m1 m2; congr (_ / _); apply: eq_adj_sum => r s.
rewrite !eps; congr (_ * _ * _); by rewrite opprD addrACA subrr addr0.
Qed.

Lemma firm_eff_normalised (psi : 'I_nf1.+1 -> F) (alpha : 'I_nw -> F) j :
  firm_eff (normalised psi alpha).1 j = psi j + (- psi ord0) :> F.
Proof.
rewrite /firm_eff /=; case: unliftP => [k ->|->]; last by rewrite subrr.
by rewrite mxE.
Qed.

Lemma pairs_all :
  size (rows_l d) = size (rows_r d) /\ uniq (zip (rows_l d) (rows_r d))
  /\ forall r s, ((r, s) \in zip (rows_l d) (rows_r d)) = adjacent d r s.
Proof. by split; [rewrite size_rows|split; [exact: uniq_pairs|exact: pairs_adj]]. Qed.

Lemma cov_pairs_true (e : size (rows_r d) = size (rows_l d))
    (psi : 'I_nf1.+1 -> F) (alpha : 'I_nw -> F) : positive_weights d ->
  cov_fe sq (prev_half d) (next_half e) (prev_w d) (next_w e) (normalised psi alpha)
  = cov_prev_next sq d psi.
Proof.
move=> pw; rewrite cov_pairs; apply: (cov_prev_next_shift (c := - psi ord0)) => // j.
exact: firm_eff_normalised.
Qed.

End Pairs.
