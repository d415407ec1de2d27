(* Proofs about attrition subsets. *)
Set Warnings "-notation-overridden,-ambiguous-paths".
From Coq Require Import ZArith QArith Qround Qabs Lia Lqa.
From mathcomp Require Import all_ssreflect.
From Verif Require Base.
From Verif Require Import AttrModel AttrSpec.

Set Implicit Arguments.
Unset Strict Implicit.
Unset Printing Implicit Defensive.
Local Open Scope nat_scope.

(* Rounding. *)
Lemma injB1 z : Qeq (inject_Z (z - 1)) (Qminus (inject_Z z) 1).
Proof. by rewrite /Z.sub inject_Z_plus. Qed.
Lemma injD1 z : Qeq (inject_Z (z + 1)) (Qplus (inject_Z z) 1).
Proof. by rewrite inject_Z_plus. Qed.

Lemma np_round_bounds x :
  Qle (Qminus x (Qmake 1 2)) (inject_Z (np_round x)) /\ Qle (inject_Z (np_round x)) (Qplus x (Qmake 1 2)).
Proof.
rewrite /np_round; have lo := Qfloor_le x; have hi := Qlt_floor x.
rewrite inject_Z_plus in hi; set f := inject_Z (Qfloor x) in lo hi *.
case: (Qcompare_spec (Qminus x f) (Qmake 1 2)) => h.
- case: (Z.even _); rewrite ?inject_Z_plus -/f; split; change (inject_Z 1) with 1%Q in *; lra.
- rewrite -/f; split; lra.
- rewrite inject_Z_plus -/f; change (inject_Z 1) with 1%Q in *; split; lra.
Qed.

Lemma np_round_nearest x : nearest (np_round x) x.
Proof. rewrite /nearest; apply/Qabs_Qle_condition; have := np_round_bounds x; lra. Qed.

Lemma np_round_int z : np_round (inject_Z z) = z.
Proof.
have [lo hi] := np_round_bounds (inject_Z z).
have l' : Qlt (inject_Z (z - 1)) (inject_Z (np_round (inject_Z z))).
  by have := injB1 z; lra.
have h' : Qlt (inject_Z (np_round (inject_Z z))) (inject_Z (z + 1)).
  by have := injD1 z; lra.
rewrite -!Zlt_Qlt in l' h'; lia.
Qed.

Lemma np_round_le x y : Qle x y -> (np_round x <= np_round y)%Z.
Proof.
move=> le; case: (Z.le_gt_cases (np_round x) (np_round y)) => // gt; exfalso.
have fl : (Qfloor x <= Qfloor y)%Z by exact: Qfloor_resp_le.
have [bx1 bx2] := np_round_bounds x; have [by1 by2] := np_round_bounds y.
(* round x <= floor x + 1 and round y >= floor y, so the floors are equal *)
have ex : np_round x = Qfloor x \/ np_round x = (Qfloor x + 1)%Z.
  by rewrite /np_round; case: (Qcompare _ _) => /=; [case: (Z.even _)| |]; auto.
have ey : np_round y = Qfloor y \/ np_round y = (Qfloor y + 1)%Z.
  by rewrite /np_round; case: (Qcompare _ _) => /=; [case: (Z.even _)| |]; auto.
have ef : Qfloor x = Qfloor y by lia.
move: gt; rewrite /np_round ef.
set z := Qfloor y; set f := inject_Z z.
by case: (Qcompare_spec (Qminus x f) (Qmake 1 2)) => hx;
  case: (Qcompare_spec (Qminus y f) (Qmake 1 2)) => hy;
  try (by clear -hx hy le; exfalso; lra); case: (Z.even z) => gt; clear -gt; lia.
Qed.

Lemma np_round_ge0 x : Qle (inject_Z 0) x -> (0 <= np_round x)%Z.
Proof. by move=> h; rewrite -(np_round_int 0); apply: np_round_le. Qed.

(* Observations. *)
Section Rows.
Implicit Types rows : seq obs.

Lemma of_worker_drop W rows i :
  of_worker i (drop_i W rows) = if i \in W then [::] else of_worker i rows.
Proof.
rewrite /of_worker /drop_i -filter_predI; case: ifP => h.
  rewrite -(filter_pred0 rows); apply: eq_filter => r /=.
  by case: eqP => // ->; rewrite h.
by apply: eq_filter => r /=; case: eqP => // ->; rewrite h.
Qed.

Lemma drop_i_nil rows : drop_i [::] rows = rows.
Proof. by elim: rows => //= r l ->. Qed.
Lemma drop_i_cat W1 W2 rows : drop_i W1 (drop_i W2 rows) = drop_i (W1 ++ W2) rows.
Proof. by rewrite /drop_i -filter_predI; apply: eq_filter => r /=; rewrite mem_cat negb_or. Qed.
Lemma eq_drop_i W1 W2 rows : W1 =i W2 -> drop_i W1 rows = drop_i W2 rows.
Proof. by move=> e; apply: eq_filter => r; rewrite e. Qed.

Lemma sub_filter (p q : pred obs) rows : (forall r, p r -> q r) ->
  sub_obs (filter p rows) (filter q rows).
Proof.
move=> h; exists (map p (filter q rows)); rewrite -filter_mask -filter_predI.
by apply: eq_filter => r /=; case px: (p r) => //=; rewrite h.
Qed.

Lemma wids_drop W rows : wids (drop_i W rows) = [seq i <- wids rows | i \notin W].
Proof. by rewrite /wids filter_undup filter_map. Qed.

Lemma is_mover_drop W rows i : is_mover (drop_i W rows) i = (i \notin W) && is_mover rows i.
Proof. by rewrite /is_mover of_worker_drop; case: (i \in W). Qed.

Lemma movers_drop W rows : movers (drop_i W rows) = [seq i <- movers rows | i \notin W].
Proof.
rewrite /movers wids_drop -!filter_predI; apply: eq_filter => i /=.
by rewrite is_mover_drop; case: (i \in W); rewrite ?andbF //= andbT.
Qed.

Lemma uniq_movers rows : uniq (movers rows).
Proof. by rewrite filter_uniq // undup_uniq. Qed.

Lemma single_drop wt W rows :
  single_stayers wt (drop_i W rows) = [seq i <- single_stayers wt rows | i \notin W].
Proof.
rewrite /single_stayers wids_drop -!filter_predI; apply: eq_filter => i /=.
rewrite is_mover_drop /worker_weight of_worker_drop.
by case: (i \in W); rewrite ?andbF //= andbT.
Qed.

Lemma single_not_mover wt rows i : i \in single_stayers wt rows -> i \notin movers rows.
Proof.
by rewrite !mem_filter => /andP [/andP [/negbTE -> _] _].
Qed.

Lemma opt_drop_i W rows : (if opt W is Some w then drop_i w rows else rows) = drop_i W rows.
Proof. by case: W => //=; rewrite drop_i_nil. Qed.
End Rows.
