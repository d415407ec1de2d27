(* The update of the type proportions: counts by bincount, rows of
   probabilities, and the growth of the likelihood. *)
From Verif Require Import Base BaseLemmas UtilModel UtilSpec UtilNumLemmas
  BLMModel BLMEMModel BLMSpec BLMSortLemmas BLMLikLemmas.
From Coq Require Import ZifyNat.
Local Open Scope res_scope.
Local Open Scope R_scope.

(* ---- bincount ---- *)
Lemma list_max1_gt l k : In k l -> (k < list_max1 l)%nat.
Proof.
  unfold list_max1. induction l as [|x l IH]; cbn [fold_right In]; [tauto|].
  intros [->|H]; [lia|]. specialize (IH H). lia.
Qed.
Lemma list_max1_le l m : (forall k, In k l -> (k < m)%nat) -> (list_max1 l <= m)%nat.
Proof.
  unfold list_max1. induction l as [|x l IH]; cbn [fold_right In]; intros H; [lia|].
  pose proof (H x (or_introl eq_refl)). specialize (IH (fun k Hk => H k (or_intror Hk))). lia.
Qed.

Lemma nth_bincount keys ws b :
  (b < list_max1 keys)%nat ->
  nth b (bincount keys ws) 0
  = rsum (map (fun kw => if (fst kw =? b)%nat then snd kw else 0) (combine keys ws)).
Proof.
  intros H. unfold bincount.
  rewrite (nth_map_in _ _ _ 0%nat) by (rewrite length_range; exact H). now rewrite nth_range.
Qed.
Lemma length_bincount keys ws : length (bincount keys ws) = list_max1 keys.
Proof. unfold bincount. now rewrite map_length, length_range. Qed.

Lemma combine_app {A B} (a a' : list A) (b b' : list B) :
  length a = length b -> combine (a ++ a') (b ++ b') = combine a b ++ combine a' b'.
Proof.
  revert b. induction a as [|x a IH]; intros [|y b] H; simpl in *; try lia; auto.
  f_equal. apply IH. lia.
Qed.
Lemma combine_map_same {A B C} (f : A -> B) (g : A -> C) l :
  combine (map f l) (map g l) = map (fun x => (f x, g x)) l.
Proof. induction l; simpl; congruence. Qed.

Section Items.
Context {A : Type} (key : A -> nat) (W : A -> R) (q : A -> nat -> R).

Lemma tiled_pairs n nl d (items : list A) :
  combine (tiled_keys n nl (map key items))
    (tiled_weights d (map W items) (map (fun a => map (q a) (range nl)) items))
  = flat_map (fun a => map (fun l => ((key a + n * l)%nat, W a * (q a l + d - 1))) (range nl)) items.
Proof.
  unfold tiled_keys, tiled_weights.
  induction items as [|a items IH]; [reflexivity|]. cbn [map flat_map combine fst snd].
  rewrite map_map. rewrite combine_app by (now rewrite !map_length). rewrite IH.
  f_equal. apply combine_map_same.
Qed.

Lemma rsum_flat_map {B} (f : B -> list R) l : rsum (flat_map f l) = rsum (map (fun a => rsum (f a)) l).
Proof. induction l as [|x l IH]; simpl; [reflexivity|]. now rewrite rsum_app, IH. Qed.
Lemma map_flat_map {B C D} (f : C -> D) (g : B -> list C) l :
  map f (flat_map g l) = flat_map (fun a => map f (g a)) l.
Proof. induction l as [|x l IH]; simpl; [reflexivity|]. now rewrite map_app, IH. Qed.

Definition count_at (d : R) (items : list A) (k l : nat) : R :=
  rsum (map (fun a => if (key a =? k)%nat then W a * (q a l + d - 1) else 0) items).

Lemma pk_counts_ok n nl d (items : list A) :
  (0 < nl)%nat -> (forall a, In a items -> (key a < n)%nat) ->
  (exists a, In a items /\ S (key a) = n) ->
  exists pk,
    pk_counts n nl d (map key items) (map W items) (map (fun a => map (q a) (range nl)) items) = Ok pk
    /\ forall k l, (k < n)%nat -> (l < nl)%nat -> pk k l = count_at d items k l.
Proof.
  intros Hnl Hk (a0 & Ha0 & Ek). unfold pk_counts.
  set (keys := tiled_keys n nl (map key items)).
  assert (Hin : forall x, In x keys <-> exists a l, In a items /\ (l < nl)%nat /\ x = (key a + n * l)%nat).
  { intros x. unfold keys, tiled_keys. rewrite in_flat_map. split.
    - intros (k & Hk' & Hx). apply in_map_iff in Hk' as (a & <- & Ha).
      apply in_map_iff in Hx as (l & <- & Hl). apply in_seq in Hl. exists a, l. repeat split; auto; lia.
    - intros (a & l & Ha & Hl & ->). exists (key a). split; [now apply in_map|].
      apply in_map_iff. exists l. split; [reflexivity|]. apply in_seq. lia. }
  assert (Hmax : list_max1 keys = (nl * n)%nat).
  { apply Nat.le_antisymm.
    - apply list_max1_le. intros x Hx. apply Hin in Hx as (a & l & Ha & Hl & ->).
      specialize (Hk a Ha). nia.
    - assert (H : In (key a0 + n * (nl - 1))%nat keys) by (apply Hin; exists a0, (nl - 1)%nat; repeat split; auto; lia).
      apply list_max1_gt in H. nia. }
  rewrite length_bincount, Hmax, Nat.eqb_refl. eexists. split; [reflexivity|].
  intros k l Hkn Hl. cbv beta.
  rewrite nth_bincount by (rewrite Hmax; nia). unfold keys.
  rewrite tiled_pairs, map_flat_map, rsum_flat_map. unfold count_at.
  apply rsum_map_ext. intros a Ha. rewrite map_map. specialize (Hk a Ha).
  cbn [fst snd].
  destruct (Nat.eqb_spec (key a) k) as [E|E].
  - change (sumn nl (fun x => if (key a + n * x =? l * n + k)%nat then W a * (q a x + d - 1) else 0)
            = W a * (q a l + d - 1)).
    rewrite (sumn_single nl l); [|exact Hl|].
    + replace (key a + n * l =? l * n + k)%nat with true; [reflexivity|].
      symmetry. apply Nat.eqb_eq. lia.
    + intros j Hj Hjl. replace (key a + n * j =? l * n + k)%nat with false; [reflexivity|].
      symmetry. apply Nat.eqb_neq. nia.
  - apply rsum_zero. intros j Hj.
    replace (key a + n * j =? l * n + k)%nat with false; [reflexivity|].
    symmetry. apply Nat.eqb_neq. intros C. apply E.
    assert (Hm : ((key a + n * j) mod n = (l * n + k) mod n)%nat) by now rewrite C.
    rewrite (Nat.mul_comm n j), Nat.mod_add in Hm by lia.
    rewrite Nat.add_comm, Nat.mod_add in Hm by lia.
    rewrite !Nat.mod_small in Hm by lia. exact Hm.
Qed.

Lemma pk_counts_err n nl d (items : list A) :
  (0 < nl)%nat -> (0 < n)%nat -> (forall a, In a items -> (S (key a) < n)%nat) ->
  pk_counts n nl d (map key items) (map W items) (map (fun a => map (q a) (range nl)) items)
  = Err ValueError.
Proof.
  intros Hnl Hn Hk. unfold pk_counts. rewrite length_bincount.
  set (keys := tiled_keys n nl (map key items)).
  assert (H : (list_max1 keys <= n * nl - 1)%nat).
  { apply list_max1_le. intros x Hx. unfold keys, tiled_keys in Hx.
    apply in_flat_map in Hx as (k & Hk' & Hx). apply in_map_iff in Hk' as (a & <- & Ha).
    apply in_map_iff in Hx as (l & <- & Hl). apply in_seq in Hl. specialize (Hk a Ha). nia. }
  replace (list_max1 keys =? nl * n)%nat with false; [reflexivity|].
  symmetry. apply Nat.eqb_neq. nia.
Qed.

(* ---- the rows ---- *)
Definition weight_of (items : list A) (k : nat) : R :=
  rsum (map (fun a => if (key a =? k)%nat then W a else 0) items).


Lemma count_sum d nl items k :
  (forall a, In a items -> sumn nl (q a) = 1) ->
  sumn nl (count_at d items k) = weight_of items k * (1 + INR nl * (d - 1)).
Proof.
  intros Hq. unfold count_at, weight_of.
  rewrite <- rsum_map_scal_r.
  induction items as [|a items IH]; [now rewrite sumn_zero|].
  cbn [map rsum]. rewrite sumn_plus.
  rewrite IH by (intros; apply Hq; now right). f_equal.
  destruct (key a =? k)%nat; [|rewrite sumn_zero; [lra|auto]].
  rewrite sumn_scal. f_equal.
  rewrite <- (Hq a (or_introl eq_refl)). rewrite <- sumn_const, <- sumn_plus.
  apply sumn_ext. intros; lra.
Qed.

Lemma weight_pos items k :
  (forall a, In a items -> 0 < W a) -> (exists a, In a items /\ key a = k) -> 0 < weight_of items k.
Proof.
  intros Hw. induction items as [|a items IH]; intros (b & Hb & E); [destruct Hb|].
  unfold weight_of in *. cbn [map rsum].
  assert (H0 : 0 <= rsum (map (fun a => if (key a =? k)%nat then W a else 0) items)).
  { apply rsum_nonneg. intros x Hx. apply in_map_iff in Hx as (c & <- & Hc).
    destruct (key c =? k)%nat; [|lra]. pose proof (Hw c (or_intror Hc)). lra. }
  destruct Hb as [->|Hb].
  - rewrite E, Nat.eqb_refl. pose proof (Hw b (or_introl eq_refl)). lra.
  - assert (0 < rsum (map (fun a => if (key a =? k)%nat then W a else 0) items)).
    { apply IH; [intros; apply Hw; now right|]. exists b; auto. }
    pose proof (Hw a (or_introl eq_refl)). destruct (key a =? k)%nat; lra.
Qed.
Lemma weight_zero items k :
  (forall a, In a items -> key a <> k) -> weight_of items k = 0.
Proof.
  intros H. apply rsum_zero. intros a Ha. specialize (H a Ha).
  apply Nat.eqb_neq in H. now rewrite H.
Qed.
End Items.

(* ---- the likelihood grows ---- *)
Lemma ln_le_sub1 x : 0 < x -> ln x <= x - 1.
Proof. intros H. pose proof (exp_ineq1_le (ln x)) as E. rewrite exp_ln in E by exact H. lra. Qed.

Lemma jensen_ln nl (q x : nat -> R) :
  (forall l, (l < nl)%nat -> 0 <= q l) -> sumn nl q = 1 ->
  (forall l, (l < nl)%nat -> 0 < x l) -> 0 < sumn nl (fun l => q l * x l) ->
  sumn nl (fun l => q l * ln (x l)) <= ln (sumn nl (fun l => q l * x l)).
Proof.
  intros Hq H1 Hx Hs. set (s := sumn nl (fun l => q l * x l)) in *.
  assert (L : sumn nl (fun l => q l * ln (x l))
              <= sumn nl (fun l => / s * (q l * x l) + (ln s - 1) * q l)).
  { apply sumn_le. intros l Hl. pose proof (Hq l Hl). pose proof (Hx l Hl) as Hxl.
    assert (E : ln (x l) <= / s * x l - 1 + ln s).
    { assert (Hd : 0 < x l * / s) by (apply Rmult_lt_0_compat; [exact Hxl|now apply Rinv_0_lt_compat]).
      pose proof (ln_le_sub1 _ Hd) as Q.
      rewrite ln_mult, ln_Rinv in Q by (auto; now apply Rinv_0_lt_compat). lra. }
    replace (/ s * (q l * x l) + (ln s - 1) * q l) with (q l * (/ s * x l - 1 + ln s)) by ring.
    now apply Rmult_le_compat_l. }
  rewrite sumn_plus, !sumn_scal, H1 in L. fold s in L.
  rewrite Rinv_l in L by lra. lra.
Qed.

Lemma gibbs nl (a b : nat -> R) :
  (forall l, (l < nl)%nat -> 0 < a l) -> (forall l, (l < nl)%nat -> 0 < b l) ->
  sumn nl b <= sumn nl a -> 0 <= sumn nl (fun l => a l * ln (a l / b l)).
Proof.
  intros Ha Hb Hs.
  assert (L : sumn nl (fun l => a l - b l) <= sumn nl (fun l => a l * ln (a l / b l))).
  { apply sumn_le. intros l Hl. pose proof (Ha l Hl) as Pa. pose proof (Hb l Hl) as Pb.
    assert (Hd : 0 < b l / a l) by (now apply Rdiv_lt_0_compat).
    pose proof (ln_le_sub1 _ Hd) as Q.
    replace (ln (a l / b l)) with (- ln (b l / a l)).
    - assert (a l * ln (b l / a l) <= a l * (b l / a l - 1)) by (apply Rmult_le_compat_l; lra).
      replace (a l * (b l / a l - 1)) with (b l - a l) in H by (field; lra). lra.
    - unfold Rdiv. rewrite !ln_mult, !ln_Rinv by (auto; now apply Rinv_0_lt_compat). ring. }
  rewrite sumn_minus in L. lra.
Qed.

Lemma rsum_by_key {A} (key : A -> nat) (F : nat -> A -> R) n (items : list A) :
  (forall a, In a items -> (key a < n)%nat) ->
  rsum (map (fun a => F (key a) a) items)
  = sumn n (fun k => rsum (map (fun a => if (key a =? k)%nat then F k a else 0) items)).
Proof.
  intros H. induction items as [|a items IH]; cbn [map rsum]; [now rewrite sumn_zero|].
  rewrite sumn_plus. rewrite IH by (intros; apply H; now right). f_equal.
  rewrite (sumn_single n (key a)); [now rewrite Nat.eqb_refl|apply H; now left|].
  intros i _ Hi. destruct (Nat.eqb_spec (key a) i); [congruence|reflexivity].
Qed.

Lemma rsum_sumn_swap {A} nl (F : A -> nat -> R) items :
  rsum (map (fun a => sumn nl (F a)) items) = sumn nl (fun l => rsum (map (fun a => F a l) items)).
Proof.
  induction items as [|a items IH]; cbn [map rsum]; [now rewrite sumn_zero|].
  now rewrite IH, <- sumn_plus.
Qed.

Lemma sumn_pos k g : (0 < k)%nat -> (forall l, (l < k)%nat -> 0 < g l) -> 0 < sumn k g.
Proof.
  intros Hk Hg. unfold sumn. apply rsum_pos; [now apply map_range_nonempty|].
  intros x Hx. apply in_map_iff in Hx as (l & <- & Hl). apply in_seq in Hl. apply Hg. lia.
Qed.

Section Ascent.
Context {A : Type} (key : A -> nat) (f : A -> nat -> R) (n nl : nat) (pi pi' : mat)
  (items : list A).
Let m (a : A) : R := mixture nl (pi (key a)) (f a).
Let q (a : A) (l : nat) : R := pi (key a) l * f a l / m a.
Hypothesis nl_pos : (0 < nl)%nat.
Hypothesis key_lt : forall a, In a items -> (key a < n)%nat.
Hypothesis f_pos : forall a l, In a items -> (l < nl)%nat -> 0 < f a l.
Hypothesis pi_pos : forall a l, In a items -> (l < nl)%nat -> 0 < pi (key a) l.
Hypothesis pi_one : forall a, In a items -> sumn nl (pi (key a)) = 1.

Lemma m_pos a : In a items -> 0 < m a.
Proof.
  intros Ha. apply sumn_pos; [exact nl_pos|]. intros l Hl.
  apply Rmult_lt_0_compat; auto.
Qed.
Lemma q_pos a l : In a items -> (l < nl)%nat -> 0 < q a l.
Proof.
  intros Ha Hl. apply Rdiv_lt_0_compat; [|now apply m_pos]. apply Rmult_lt_0_compat; auto.
Qed.
Lemma q_one a : In a items -> sumn nl (q a) = 1.
Proof.
  intros Ha. unfold q, Rdiv. rewrite sumn_scal_r.
  apply Rinv_r. pose proof (m_pos a Ha). unfold m, mixture in *. lra.
Qed.
Let N (k : nat) : R := rsum (map (fun a => if (key a =? k)%nat then 1 else 0) items).
Hypothesis update : forall a l, In a items -> (l < nl)%nat ->
  pi' (key a) l * N (key a)
  = rsum (map (fun b => if (key b =? key a)%nat then q b l else 0) items).

Lemma N_pos a : In a items -> 0 < N (key a).
Proof.
  intros Ha. apply (weight_pos key (fun _ => 1)); [intros; lra|]. exists a; auto.
Qed.

Lemma pi'_pos a l : In a items -> (l < nl)%nat -> 0 < pi' (key a) l.
Proof.
  intros Ha Hl. pose proof (N_pos a Ha) as HN. pose proof (update a l Ha Hl) as U.
  assert (P : 0 < rsum (map (fun b => if (key b =? key a)%nat then q b l else 0) items)).
  { apply (weight_pos key (fun b => q b l)); [|exists a; auto]. intros b Hb. now apply q_pos. }
  rewrite <- U in P. apply Rmult_lt_reg_r with (N (key a)); [exact HN|]. lra.
Qed.
Lemma pi'_one a : In a items -> sumn nl (pi' (key a)) = 1.
Proof.
  intros Ha. pose proof (N_pos a Ha) as HN.
  apply Rmult_eq_reg_r with (N (key a)); [|lra]. rewrite <- sumn_scal_r.
  rewrite (sumn_ext _ _ (fun l => rsum (map (fun b => if (key b =? key a)%nat then q b l else 0) items)))
    by (intros; now apply update).
  rewrite <- rsum_sumn_swap, Rmult_1_l. apply rsum_map_ext. intros b Hb.
  destruct (key b =? key a)%nat; [now apply q_one|now apply sumn_zero].
Qed.

Let L (k l : nat) : R := ln (pi' k l / pi k l).

Lemma item_gain a :
  In a items -> ln (m a) + sumn nl (fun l => q a l * L (key a) l)
                <= ln (mixture nl (pi' (key a)) (f a)).
Proof.
  intros Ha. pose proof (m_pos a Ha) as Hm.
  assert (Hx : forall l, (l < nl)%nat -> 0 < pi' (key a) l / pi (key a) l).
  { intros l Hl. apply Rdiv_lt_0_compat; [now apply pi'_pos|now apply pi_pos]. }
  assert (E : sumn nl (fun l => q a l * (pi' (key a) l / pi (key a) l))
              = mixture nl (pi' (key a)) (f a) / m a).
  { unfold mixture at 1, Rdiv at 2. rewrite <- sumn_scal_r. apply sumn_ext. intros l Hl.
    unfold q. pose proof (pi_pos a l Ha Hl). field. lra. }
  assert (Hm' : 0 < mixture nl (pi' (key a)) (f a)).
  { apply sumn_pos; [exact nl_pos|]. intros l Hl.
    apply Rmult_lt_0_compat; [now apply pi'_pos|now apply f_pos]. }
  pose proof (jensen_ln nl (q a) (fun l => pi' (key a) l / pi (key a) l)) as J.
  cbv beta in J. rewrite E in J. unfold L.
  assert (Hd : 0 < mixture nl (pi' (key a)) (f a) / m a) by (now apply Rdiv_lt_0_compat).
  specialize (J (fun l Hl => Rlt_le _ _ (q_pos a l Ha Hl)) (q_one a Ha) Hx Hd).
  unfold Rdiv at 2 in J. rewrite ln_mult, ln_Rinv in J by (auto; now apply Rinv_0_lt_compat). lra.
Qed.

Lemma gain_nonneg :
  0 <= rsum (map (fun a => sumn nl (fun l => q a l * L (key a) l)) items).
Proof.
  rewrite (rsum_by_key key (fun k a => sumn nl (fun l => q a l * L k l)) n) by exact key_lt.
  apply sumn_nonneg. intros k _.
  destruct (existsb (fun a => (key a =? k)%nat) items) eqn:Ex.
  - apply existsb_exists in Ex as (a & Ha & Ek). apply Nat.eqb_eq in Ek. subst k.
    assert (E : rsum (map (fun b => if (key b =? key a)%nat then sumn nl (fun l => q b l * L (key a) l) else 0) items)
                = N (key a) * sumn nl (fun l => pi' (key a) l * ln (pi' (key a) l / pi (key a) l))).
    { rewrite <- sumn_scal.
      transitivity (sumn nl (fun l => rsum (map (fun b => if (key b =? key a)%nat then q b l * L (key a) l else 0) items))).
      - rewrite <- rsum_sumn_swap. apply rsum_map_ext. intros b _.
        destruct (key b =? key a)%nat; [reflexivity|]. symmetry. now apply sumn_zero.
      - apply sumn_ext. intros l Hl.
        transitivity (pi' (key a) l * N (key a) * L (key a) l); [|unfold L; ring].
        rewrite (update a l Ha Hl), <- rsum_map_scal_r. apply rsum_map_ext. intros b _.
        destruct (key b =? key a)%nat; ring. }
    rewrite E. apply Rmult_le_pos; [left; now apply N_pos|].
    apply gibbs; [intros; now apply pi'_pos|intros; now apply pi_pos|].
    rewrite pi_one, pi'_one by exact Ha. lra.
  - rewrite rsum_zero; [lra|]. intros a Ha.
    destruct (key a =? k)%nat eqn:E; [|reflexivity].
    assert (X : existsb (fun a => (key a =? k)%nat) items = true)
      by (apply existsb_exists; exists a; auto). congruence.
Qed.

Lemma em_ascent :
  rsum (map (fun a => ln (mixture nl (pi (key a)) (f a))) items)
  <= rsum (map (fun a => ln (mixture nl (pi' (key a)) (f a))) items).
Proof.
  assert (H : rsum (map (fun a => ln (m a) + sumn nl (fun l => q a l * L (key a) l)) items)
              <= rsum (map (fun a => ln (mixture nl (pi' (key a)) (f a))) items)).
  { apply rsum_le. intros a Ha. now apply item_gain. }
  rewrite rsum_map_plus in H. pose proof gain_nonneg. unfold m in H. lra.
Qed.
End Ascent.
