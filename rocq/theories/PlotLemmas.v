(* Lemmas for the plots. *)
From Verif Require Import Base BaseLemmas UtilModel UtilSpec BLMModel BLMSpec BLMSortLemmas BLMCtlRunLemmas
  DBLMModel DBLMSpec DBLMSortLemmas BLMRealModel BLMRunModel PlotModel PlotSpec.
From Coq Require Import Permutation Sorted.
Local Open Scope R_scope.

(* ---- sorting and quantiles ---- *)
Lemma rinsert_perm x l : Permutation (x :: l) (rinsert x l).
Proof.
  induction l as [|y l IH]; cbn [rinsert]; [reflexivity|]. destruct (Rle_dec x y); [reflexivity|].
  eapply perm_trans; [apply perm_swap|]. now constructor.
Qed.
Lemma rsort_perm l : Permutation l (rsort l).
Proof.
  induction l as [|x l IH]; [constructor|]. change (rsort (x :: l)) with (rinsert x (rsort l)).
  eapply perm_trans; [|apply rinsert_perm]. now constructor.
Qed.
Lemma rinsert_sorted x l : StronglySorted Rle l -> StronglySorted Rle (rinsert x l).
Proof.
  induction 1 as [|y l H IH F]; cbn [rinsert]; [repeat constructor|].
  destruct (Rle_dec x y) as [r|n].
  - constructor; [now constructor|]. constructor; [exact r|].
    eapply Forall_impl; [|exact F]. intros a Ha. lra.
  - constructor; [exact IH|]. eapply Permutation_Forall; [apply rinsert_perm|].
    constructor; [lra|exact F].
Qed.
Lemma rsort_sorted l : StronglySorted Rle (rsort l).
Proof. induction l; [constructor|]. now apply rinsert_sorted. Qed.
Lemma ssorted_nth s a b : StronglySorted Rle s -> (a < b < length s)%nat -> nth a s 0 <= nth b s 0.
Proof.
  intros H. revert a b. induction H as [|x s H IH F]; intros a b L; cbn [length] in L; [lia|].
  destruct b as [|b]; [lia|]. destruct a as [|a]; cbn [nth].
  - rewrite Forall_forall in F. apply F, nth_In. lia.
  - apply IH. lia.
Qed.
Lemma sorted_perm_eq l m : StronglySorted Rle l -> StronglySorted Rle m -> Permutation l m -> l = m.
Proof.
  intros H. revert m. induction H as [|x l H IH F]; intros m Hm P.
  - apply Permutation_nil in P. now subst.
  - destruct Hm as [|y m Hm G]; [apply Permutation_sym, Permutation_nil_cons in P; tauto|].
    assert (E : x = y).
    { rewrite Forall_forall in F, G.
      assert (I1 : In y (x :: l)) by (eapply Permutation_in; [apply Permutation_sym, P|now left]).
      assert (I2 : In x (y :: m)) by (eapply Permutation_in; [exact P|now left]).
      destruct I1 as [->|I1]; [reflexivity|]. destruct I2 as [->|I2]; [reflexivity|].
      apply Rle_antisym; auto. }
    subst y. f_equal. apply IH; [exact Hm|]. now apply Permutation_cons_inv in P.
Qed.

Lemma percentile_quantile q x : 0 <= q <= 1 -> x <> [] -> is_quantile q x (percentile q x).
Proof.
  intros Hq Hx. unfold percentile. cbv zeta.
  assert (Hn : (1 <= length x)%nat) by (destruct x; [congruence|cbn; lia]).
  assert (En : INR (length x - 1) = INR (length x) - 1) by (rewrite minus_INR by lia; reflexivity).
  rewrite En. set (h := q * (INR (length x) - 1)).
  assert (H1 : 1 <= INR (length x)) by (change 1 with (INR 1); now apply le_INR).
  assert (Hh : 0 <= h <= INR (length x) - 1) by (unfold h; nra).
  destruct (base_Int_part h) as [B1 B2].
  assert (Hz : (0 <= Int_part h)%Z).
  { assert (-1 < Int_part h)%Z; [|lia]. apply lt_IZR. change (IZR (-1)) with (-1). lra. }
  set (i := Z.to_nat (Int_part h)).
  assert (Ei : INR i = IZR (Int_part h)) by (unfold i; rewrite INR_IZR_INZ, Z2Nat.id by exact Hz; reflexivity).
  assert (Li : (i < length x)%nat).
  { apply INR_lt. lra. }
  pose proof (Permutation_length (rsort_perm x)) as EL.
  exists (rsort x), i. split; [apply rsort_perm|]. split; [intros a b; apply ssorted_nth, rsort_sorted|].
  split; [exact Li|]. split; [fold h; lra|]. fold h.
  destruct (Nat.eq_dec (S i) (length x)) as [E|E].
  - rewrite (nth_overflow (rsort x) (nth i (rsort x) 0)) by lia.
    replace (Nat.min (i + 1) (length x - 1)) with i by lia. ring.
  - replace (Nat.min (i + 1) (length x - 1)) with (S i) by lia.
    rewrite (nth_indep (rsort x) (nth i (rsort x) 0) 0) by lia. ring.
Qed.

Lemma INR_between i j h : INR i <= h < INR i + 1 -> INR j <= h < INR j + 1 -> i = j.
Proof.
  intros A B. assert (INR i < INR (S j)) by (rewrite S_INR; lra). assert (INR j < INR (S i)) by (rewrite S_INR; lra).
  apply INR_lt in H, H0. lia.
Qed.

(* up to forty values: the mean lies between the quantiles *)
Lemma mean_below x v : x <> [] -> (length x <= 40)%nat -> is_quantile (975 / 1000) x v -> rsum x <= INR (length x) * v.
Proof.
  intros Hx Hn (s & i & P & Hs & Li & Hi & ->). rewrite (rsum_perm _ _ P).
  pose proof (Permutation_length P) as E. rewrite E in *. clear E.
  assert (H40 : INR (length s) <= 40) by (rewrite INR_IZR_INZ; apply IZR_le; lia).
  destruct s as [|a0 s0] using rev_ind; [cbn in Li; lia|]. clear IHs0.
  destruct s0 as [|b0 s1] using rev_ind; [|clear IHs1].
  { cbn in *. assert (i = 0)%nat by lia. subst i. cbn. lra. }
  assert (Ln : length ((s1 ++ [b0]) ++ [a0]) = S (S (length s1))) by (rewrite !app_length; cbn; lia).
  rewrite Ln in *. rewrite !S_INR in *.
  set (c := INR (length s1)) in *. assert (Hc : 0 <= c) by apply pos_INR.
  assert (i = length s1) by (apply (INR_between _ _ (975 / 1000 * (c + 1 + 1 - 1))); [exact Hi|fold c; lra]).
  subst i. fold c.
  assert (E1 : nth (length s1) ((s1 ++ [b0]) ++ [a0]) 0 = b0)
    by (rewrite app_nth1, app_nth2, Nat.sub_diag by (rewrite ?app_length; cbn; lia); reflexivity).
  assert (E2 : forall d, nth (S (length s1)) ((s1 ++ [b0]) ++ [a0]) d = a0).
  { intros d. rewrite app_nth2 by (rewrite app_length; cbn; lia). rewrite app_length. cbn [length].
    replace (S (length s1) - (length s1 + 1))%nat with 0%nat by lia. reflexivity. }
  rewrite E1, E2.
  assert (Hba : b0 <= a0).
  { specialize (Hs (length s1) (S (length s1))). rewrite E1, E2 in Hs. apply Hs. lia. }
  assert (Hsum : rsum s1 <= c * b0).
  { unfold c. assert (G : forall y, In y s1 -> y <= b0).
    { intros y Iy. destruct (In_nth _ _ 0 Iy) as (k & Lk & <-).
      specialize (Hs k (length s1)). rewrite E1 in Hs.
      rewrite <- !app_assoc, app_nth1 in Hs by exact Lk. apply Hs. cbn. lia. }
    clear - G. induction s1 as [|y s1 IH]; [cbn; lra|]. cbn [rsum length fold_right]. rewrite S_INR.
    assert (y <= b0) by (apply G; now left).
    assert (rsum s1 <= INR (length s1) * b0) by (apply IH; intros z Hz; apply G; now right).
    unfold rsum in *. cbn [fold_right]. lra. }
  rewrite !rsum_app. replace (rsum [b0]) with b0 by (cbn; lra). replace (rsum [a0]) with a0 by (cbn; lra).
  assert (0 <= (a0 - b0) * ((c + 1) * (38 - c))) by (apply Rmult_le_pos; [lra|apply Rmult_le_pos; lra]).
  nra.
Qed.
Lemma mean_above x v : x <> [] -> (length x <= 40)%nat -> is_quantile (25 / 1000) x v -> INR (length x) * v <= rsum x.
Proof.
  intros Hx Hn (s & i & P & Hs & Li & Hi & ->). rewrite (rsum_perm _ _ P).
  pose proof (Permutation_length P) as E. rewrite E in *. clear E.
  assert (H40 : INR (length s) <= 40) by (rewrite INR_IZR_INZ; apply IZR_le; lia).
  destruct s as [|a s]; [cbn in Li; lia|]. destruct s as [|b s].
  { cbn in *. assert (i = 0)%nat by lia. subst i. cbn. lra. }
  cbn [length] in *. rewrite !S_INR in *.
  set (c := INR (length s)) in *. assert (Hc : 0 <= c) by apply pos_INR.
  assert (i = 0)%nat by (apply (INR_between _ _ (25 / 1000 * (c + 1 + 1 - 1))); [exact Hi|cbn; lra]).
  subst i. cbn [nth]. change (INR 0) with 0.
  assert (Hab : a <= b) by (apply (Hs 0 1)%nat; lia).
  assert (Hsum : c * b <= rsum s).
  { unfold c. assert (G : forall y, In y s -> b <= y).
    { intros y Iy. destruct (In_nth _ _ 0 Iy) as (k & Lk & <-). apply (Hs 1 (S (S k)))%nat. lia. }
    clear - G. induction s as [|y s IH]; [cbn; lra|]. cbn [length]. rewrite S_INR.
    assert (b <= y) by (apply G; now left).
    assert (INR (length s) * b <= rsum s) by (apply IH; intros z Hz; apply G; now right).
    change (rsum (y :: s)) with (y + rsum s). lra. }
  change (rsum (a :: b :: s)) with (a + (b + rsum s)).
  assert (0 <= (b - a) * ((c + 1) * (38 - c))) by (apply Rmult_le_pos; [lra|apply Rmult_le_pos; lra]).
  nra.
Qed.
