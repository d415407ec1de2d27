(* Lemmas about counts and type proportions. *)
From Verif Require Import Base BaseLemmas BLMModel BLMRunModel BLMRealModel BLMRunSpec.
Local Open Scope res_scope.
Local Open Scope R_scope.

Lemma sumn_pos_some n f i : (forall j, (j < n)%nat -> 0 <= f j) -> (i < n)%nat -> 0 < f i -> 0 < sumn n f.
Proof.
  revert i. induction n as [|n IH]; intros i Hf Hi Hp; [lia|]. rewrite sumn_S.
  destruct (Nat.eq_dec i n) as [->|Hn].
  - assert (0 <= sumn n f) by (apply sumn_nonneg; auto). lra.
  - assert (0 < sumn n f) by (apply (IH i); auto; lia). specialize (Hf n ltac:(lia)). lra.
Qed.

Lemma prob_ext nl r r' : (forall l, (l < nl)%nat -> r l = r' l) -> prob_vec nl r -> prob_vec nl r'.
Proof.
  intros E [Hp Hs]. split.
  - intros l Hl. rewrite <- E by auto. auto.
  - rewrite <- Hs. symmetry. apply sumn_ext. auto.
Qed.

(* Averages of distributions are distributions. *)
Lemma prob_mix nl n (w : nat -> R) (p : nat -> nat -> R) W :
  (forall k, (k < n)%nat -> 0 <= w k) -> W = sumn n w -> 0 < W ->
  (forall k, (k < n)%nat -> prob_vec nl (p k)) ->
  prob_vec nl (fun l => sumn n (fun k => w k * p k l) / W).
Proof.
  intros Hw -> HW Hp. split.
  - intros l Hl. apply Rmult_le_pos; [|left; apply Rinv_0_lt_compat; auto].
    apply sumn_nonneg. intros k Hk. apply Rmult_le_pos; auto. apply (proj1 (Hp k Hk)); auto.
  - unfold Rdiv. rewrite sumn_scal_r, sumn_swap.
    rewrite (sumn_ext n _ w).
    + now rewrite Rinv_r by lra.
    + intros k Hk. rewrite sumn_scal, (proj2 (Hp k Hk)). ring.
Qed.

Lemma prob_two nl a b (p q : nat -> R) :
  0 <= a -> 0 <= b -> 0 < a + b -> prob_vec nl p -> prob_vec nl q ->
  prob_vec nl (fun l => (a * p l + b * q l) / (a + b)).
Proof.
  intros Ha Hb Hab [Hp Sp] [Hq Sq]. split.
  - intros l Hl. apply Rmult_le_pos; [|left; apply Rinv_0_lt_compat; auto].
    specialize (Hp l Hl). specialize (Hq l Hl). nra.
  - unfold Rdiv. rewrite sumn_scal_r, sumn_plus, !sumn_scal, Sp, Sq. field. lra.
Qed.

Lemma prob_half nl (p q : nat -> R) : prob_vec nl p -> prob_vec nl q ->
  prob_vec nl (fun l => (p l + q l) / 2).
Proof.
  intros Hp Hq. apply (prob_ext nl (fun l => (1 * p l + 1 * q l) / (1 + 1))).
  - intros. field.
  - apply prob_two; auto; lra.
Qed.

Lemma pr_swapped nk NN pk a b l : pr nk NN pk a b l = NN a b * prop_of nk pk b a l.
Proof. unfold pr, reshape3, prop_of. do 2 f_equal. lia. Qed.

Section Counts.
Variables (nl nk : nat) (NN : mat) (Ns : nat -> R) (pk1 pk0 : mat).
Hypothesis HC : counts_ok nk NN Ns.
Hypothesis HP : props_ok nl nk pk1 pk0.

Lemma period1_prob k : (k < nk)%nat -> prob_vec nl (pk1_period1 nk NN pk1 k).
Proof.
  intros Hk. destruct HC as [H0 [H1 [H2 [H3 H4]]]]. destruct HP as [Q1 Q0].
  apply (prob_ext nl (fun l => sumn nk (fun b => NN k b * prop_of nk pk1 b k l) / row_sums nk NN k)).
  - intros l _. unfold pk1_period1. f_equal. apply sumn_ext. intros. symmetry. apply pr_swapped.
  - apply (prob_mix nl nk (NN k) (fun b => prop_of nk pk1 b k)); auto.
    apply H1; auto.
Qed.
Lemma period2_prob k : (k < nk)%nat -> prob_vec nl (pk1_period2 nk NN pk1 k).
Proof.
  intros Hk. destruct HC as [H0 [H1 [H2 [H3 H4]]]]. destruct HP as [Q1 Q0].
  apply (prob_ext nl (fun l => sumn nk (fun a => NN a k * prop_of nk pk1 k a l) / col_sums nk NN k)).
  - intros l _. unfold pk1_period2. f_equal. apply sumn_ext. intros. symmetry. apply pr_swapped.
  - apply (prob_mix nl nk (fun a => NN a k) (fun a => prop_of nk pk1 k a)); auto.
    apply H2; auto.
Qed.
Lemma joint_prob N p k : (k < nk)%nat -> 0 < N k -> prob_vec nl (p k) ->
  prob_vec nl (joint N Ns p pk0 k).
Proof.
  intros Hk HN Hp. destruct HC as [H0 [H1 [H2 [H3 H4]]]]. destruct HP as [Q1 Q0].
  unfold joint. specialize (H3 k Hk). apply prob_two; auto; lra.
Qed.

Lemma total_counts : sumn nk (col_sums nk NN) = sumn nk (row_sums nk NN).
Proof. unfold col_sums, row_sums. apply sumn_swap. Qed.

Lemma sumn_pos_all n f : (0 < n)%nat -> (forall i, (i < n)%nat -> 0 < f i) -> 0 < sumn n f.
Proof.
  intros Hn Hf. apply (sumn_pos_some n f 0); auto. intros j Hj. left; auto.
Qed.

Lemma reallocate_ok jointly per :
  jointly = true \/ per = RFirst -> per <> ROther ->
  exists r1 r0, reallocate nl nk jointly per NN Ns pk1 pk0 = Ok ((fun _ => r1), (fun _ => r0)) /\
    prob_vec nl r1 /\ prob_vec nl r0 /\ (jointly = true -> r1 = r0).
Proof.
  intros Hj Hper. pose proof HC as [H0 [H1 [H2 [H3 H4]]]].
  assert (Hnk : (0 < nk)%nat).
  { destruct nk; [|lia]. rewrite sumn_0 in H4. lra. }
  assert (N1 : forall k, (k < nk)%nat -> 0 < row_sums nk NN k) by (intros; apply H1; auto).
  assert (N2 : forall k, (k < nk)%nat -> 0 < col_sums nk NN k) by (intros; apply H2; auto).
  assert (Hm : 0 < sumn nk (row_sums nk NN)) by (apply sumn_pos_all; auto).
  pose proof period1_prob as P1. pose proof period2_prob as P2.
  unfold reallocate. destruct jointly.
  - assert (G : forall N p, (forall k, (k < nk)%nat -> 0 < N k) ->
              sumn nk N = sumn nk (row_sums nk NN) ->
              (forall k, (k < nk)%nat -> prob_vec nl (p k)) ->
      prob_vec nl (fun l => sumn nk (fun k => (N k + Ns k) * p k l)
                            / (sumn nk (row_sums nk NN) + sumn nk Ns))).
    { intros N p HN HS Hp. apply (prob_mix nl nk (fun k => N k + Ns k)); auto.
      - intros k Hk. specialize (HN k Hk). specialize (H3 k Hk). lra.
      - rewrite sumn_plus, HS. reflexivity.
      - lra. }
    assert (J1 : forall k, (k < nk)%nat -> prob_vec nl (joint (row_sums nk NN) Ns (pk1_period1 nk NN pk1) pk0 k))
      by (intros; apply joint_prob; auto).
    assert (J2 : forall k, (k < nk)%nat -> prob_vec nl (joint (col_sums nk NN) Ns (pk1_period2 nk NN pk1) pk0 k))
      by (intros; apply joint_prob; auto).
    destruct per; cbn [bind]; try congruence; eexists _, _; (split; [reflexivity|]);
      [assert (Q := G (row_sums nk NN) _ N1 eq_refl J1)
      |assert (Q := G (col_sums nk NN) _ N2 total_counts J2)
      |assert (Q := G (fun k => (row_sums nk NN k + col_sums nk NN k) / 2)
                      (fun k l => (joint (row_sums nk NN) Ns (pk1_period1 nk NN pk1) pk0 k l
                                   + joint (col_sums nk NN) Ns (pk1_period2 nk NN pk1) pk0 k l) / 2))].
    + auto.
    + auto.
    + assert (prob_vec nl _) by (apply Q;
        [ intros k Hk; specialize (N1 k Hk); specialize (N2 k Hk); lra
        | unfold Rdiv; rewrite sumn_scal_r, sumn_plus, total_counts; field
        | intros k Hk; apply prob_half; auto ]).
      auto.
  - destruct Hj as [?| ->]; [discriminate|]. cbn [bind].
    eexists _, _. split; [reflexivity|]. split; [|split; [|discriminate]].
    + apply (prob_mix nl nk (row_sums nk NN)); auto.
      intros k Hk. left; auto.
    + apply (prob_mix nl nk Ns); auto. apply (proj2 HP).
Qed.

Lemma proportions_ok sub per : per <> ROther ->
  exists pm, type_proportions nk sub per NN Ns pk1 pk0 = Ok pm /\
    forall k, (k < nk)%nat -> prob_vec nl (pm k).
Proof.
  intros Hper. pose proof HC as [H0 [H1 [H2 [H3 H4]]]].
  pose proof period1_prob as P1. pose proof period2_prob as P2.
  assert (J1 : forall k, (k < nk)%nat -> prob_vec nl (joint (row_sums nk NN) Ns (pk1_period1 nk NN pk1) pk0 k))
    by (intros; apply joint_prob; auto; apply H1; auto).
  assert (J2 : forall k, (k < nk)%nat -> prob_vec nl (joint (col_sums nk NN) Ns (pk1_period2 nk NN pk1) pk0 k))
    by (intros; apply joint_prob; auto; apply H2; auto).
  pose proof (proj2 HP) as Q0.
  destruct sub, per; try congruence; eexists; (split; [reflexivity|]); intros k Hk;
    cbn beta; auto; apply prob_half; auto.
Qed.
End Counts.

Lemma reallocate_unbound nl nk NN Ns pk1 pk0 per : per = RSecond \/ per = RAll ->
  reallocate nl nk false per NN Ns pk1 pk0 = Err UnboundLocalError.
Proof. intros [->| ->]; reflexivity. Qed.

(* With symmetric counts the pairing is right, and the graph too. *)
Lemma symmetric_graph nk NN pk1 l a b : symmetric nk NN -> (a < nk)%nat -> (b < nk)%nat ->
  graph_weights nk NN pk1 l a b
  = (type_moves nk NN pk1 a b l + type_moves nk NN pk1 b a l) / 2
    / sumn nk (fun k1 => sumn nk (fun k2 => type_moves nk NN pk1 k1 k2 l)).
Proof.
  intros HS Ha Hb. unfold graph_weights. rewrite !pr_swapped.
  replace (sumn nk (fun a0 => sumn nk (fun b0 => pr nk NN pk1 a0 b0 l)))
    with (sumn nk (fun k1 => sumn nk (fun k2 => type_moves nk NN pk1 k1 k2 l))).
  - unfold type_moves. rewrite (HS b a Hb Ha). unfold Rdiv. ring.
  - rewrite sumn_swap. apply sumn_ext. intros i Hi. apply sumn_ext. intros j Hj.
    rewrite pr_swapped. unfold type_moves. now rewrite (HS j i Hj Hi).
Qed.
Lemma symmetric_pairs nk NN pk1 a b l : symmetric nk NN -> (a < nk)%nat -> (b < nk)%nat ->
  pr nk NN pk1 a b l = type_moves nk NN pk1 b a l.
Proof. intros HS Ha Hb. rewrite pr_swapped. unfold type_moves. now rewrite (HS a b Ha Hb). Qed.

(* ---- a case where the pairing shows ---- *)
(* One mover of each pair but three from type 1 to type 0; those from 0 to 1 are
   of worker type 0, those from 1 to 0 of worker type 1. *)
Definition cx_NN : mat := fun a b => if ((a =? 1) && (b =? 0))%nat then 3 else 1.
Definition cx_pk1 : mat := fun r l =>
  match r, l with
  | 2%nat, 0%nat => 1 | 2%nat, _ => 0      (* from 0 to 1: row 0 + 2 * 1 *)
  | 1%nat, 0%nat => 0 | 1%nat, _ => 1      (* from 1 to 0: row 1 + 2 * 0 *)
  | _, _ => 1 / 2
  end.
Definition cx_pk0 : mat := fun _ _ => 1 / 2.
Definition cx_Ns : nat -> R := fun _ => 1.

Lemma lt2 k : (k < 2)%nat -> k = 0%nat \/ k = 1%nat.
Proof. lia. Qed.

Lemma cx_counts : counts_ok 2 cx_NN cx_Ns.
Proof.
  unfold counts_ok, cx_NN, cx_Ns.
  repeat split; intros; unfold sumn; simpl;
    repeat match goal with H : (_ < 2)%nat |- _ => apply lt2 in H as [->| ->] end; simpl; lra.
Qed.
Lemma cx_props : props_ok 2 2 cx_pk1 cx_pk0.
Proof.
  unfold props_ok, prob_vec, prop_of, cx_pk0.
  split; intros; split; intros; unfold sumn; simpl;
    repeat match goal with H : (_ < 2)%nat |- _ => apply lt2 in H as [->| ->] end; simpl; lra.
Qed.

Lemma cx_graph : graph_weights 2 cx_NN cx_pk1 0 0%nat 1%nat = 3 / 8 /\
  (type_moves 2 cx_NN cx_pk1 0 1 0 + type_moves 2 cx_NN cx_pk1 1 0 0) / 2
    / sumn 2 (fun k1 => sumn 2 (fun k2 => type_moves 2 cx_NN cx_pk1 k1 k2 0)) = 1 / 4.
Proof.
  unfold graph_weights, type_moves, pr, reshape3, prop_of, cx_NN, sumn. simpl. split; field.
Qed.
Lemma cx_proportions : exists pm, type_proportions 2 SMovers RFirst cx_NN cx_Ns cx_pk1 cx_pk0 = Ok pm /\
  pm 0%nat 0%nat = 1 / 4 /\
  type_leaving 2 cx_NN cx_pk1 0 0 / sumn 2 (fun b => cx_NN 0%nat b) = 3 / 4.
Proof.
  eexists. split; [reflexivity|].
  unfold pk1_period1, pr, reshape3, row_sums, type_leaving, type_moves, prop_of, cx_NN, sumn. simpl.
  split; field.
Qed.
