(* The regressions of the dynamic model: order of the unknowns, blocks, and the
   quadratic form handed to the solver as a weighted sum of squares. *)
From Verif Require Import Base BaseLemmas UtilModel UtilSpec ConsModel ConsSpec ConsQPLemmas
  ConsPropLemmas BLMModel BLMEMModel BLMSpec BLMSortLemmas BLMFitModel BLMFitSpec BLMFitLemmas
  DBLMModel DBLMSpec.
From Coq Require Import Permutation Sorted.
Local Open Scope R_scope.

(* ---- sorting distinct keys ---- *)
Lemma sorted_perm_eq l m :
  Permutation l m -> StronglySorted Rle l -> StronglySorted Rle m -> l = m.
Proof.
  revert m. induction l as [|x l IH]; intros m P Hl Hm.
  - apply Permutation_nil in P. now subst.
  - destruct m as [|y m]; [symmetry in P; apply Permutation_nil in P; discriminate|].
    inversion Hl as [|? ? Hl1 Hl2]; subst. inversion Hm as [|? ? Hm1 Hm2]; subst.
    rewrite Forall_forall in Hl2, Hm2.
    assert (x = y).
    { assert (Hx : In x (y :: m)) by (eapply Permutation_in; [exact P|now left]).
      assert (Hy : In y (x :: l)) by (eapply Permutation_in; [symmetry; exact P|now left]).
      destruct Hx as [Hx|Hx]; [auto|]. destruct Hy as [Hy|Hy]; [auto|].
      apply Rle_antisym; auto. }
    subst y. f_equal. apply IH; auto. eapply Permutation_cons_inv. exact P.
Qed.
Lemma sorted_INR_range n : StronglySorted Rle (map INR (range n)).
Proof.
  unfold range. generalize 0%nat. induction n as [|n IH]; intros a; cbn [seq map]; constructor; auto.
  apply Forall_forall. intros x Hx. apply in_map_iff in Hx as (i & <- & Hi). apply in_seq in Hi.
  apply le_INR. lia.
Qed.

(* An argsort of the keys INR (f 0), INR (f 1), ... where f is a bijection of
   0 .. n-1 inverts f. *)
Lemma argsort_inverts n f o :
  is_argsort (map INR (map f (range n))) o ->
  (forall i, (i < n)%nat -> (f i < n)%nat) ->
  (forall i j, (i < n)%nat -> (j < n)%nat -> f i = f j -> i = j) ->
  length o = n /\ relabelling n (fun i => nth i o 0%nat) /\
  forall i, (i < n)%nat -> nth (f i) o 0%nat = i.
Proof.
  intros [P So] Hlt Hinj. rewrite !map_length, length_range in P.
  assert (Lo : length o = n) by now apply perm_length.
  split; [exact Lo|]. split; [now apply perm_relabelling|].
  assert (Pf : Permutation (map f (range n)) (range n)).
  { apply NoDup_Permutation_bis.
    - rewrite (NoDup_nth _ 0%nat). rewrite map_length, length_range. intros i j Hi Hj.
      rewrite !(nth_map_in _ _ _ 0%nat) by (now rewrite length_range).
      rewrite !nth_range by assumption. now apply Hinj.
    - now rewrite map_length.
    - intros x Hx. apply in_map_iff in Hx as (i & <- & Hi). apply in_seq in Hi. apply in_seq.
      specialize (Hlt i). lia. }
  assert (E : map (fun i => nth i (map INR (map f (range n))) 0) o = map INR (range n)).
  { apply sorted_perm_eq; [|exact So|apply sorted_INR_range].
    eapply Permutation_trans; [apply Permutation_map; exact P|].
    replace (map (fun i => nth i (map INR (map f (range n))) 0) (range n))
      with (map INR (map f (range n))).
    - now apply Permutation_map.
    - rewrite !map_map. apply map_ext_in. intros i Hi. apply in_seq in Hi.
      rewrite (nth_map_in _ _ _ 0%nat) by (rewrite length_range; lia).
      now rewrite nth_range by lia. }
  intros i Hi.
  assert (Hn : forall j, (j < n)%nat -> f (nth j o 0%nat) = j).
  { intros j Hj.
    assert (Q : nth j (map (fun i => nth i (map INR (map f (range n))) 0) o) 0
                = nth j (map INR (range n)) 0) by now rewrite E.
    rewrite (nth_map_in _ _ _ 0%nat) in Q by (now rewrite Lo).
    rewrite (nth_map_in _ (range n) _ 0%nat) in Q by (now rewrite length_range).
    rewrite nth_range in Q by exact Hj.
    assert (Lt : (nth j o 0 < n)%nat).
    { apply (relabelling_lt n (fun i => nth i o 0%nat)); [now apply perm_relabelling|exact Hj]. }
    rewrite map_map, (nth_map_in _ _ _ 0%nat) in Q by (now rewrite length_range).
    rewrite nth_range in Q by exact Lt. now apply INR_eq in Q. }
  apply Hinj; [|exact Hi|].
  - apply (relabelling_lt n (fun i => nth i o 0%nat)); [now apply perm_relabelling|auto].
  - apply Hn. auto.
Qed.

(* ---- X_order ---- *)
Section Order.
Variables (np nl nk : nat).
Definition pidx (t l k : nat) : nat := (t * (nl * nk) + (l * nk + k))%nat.
Definition cidx (l t k : nat) : nat := (l * (nk * np) + (t * nk + k))%nat.

Lemma cidx_lt l t k : (l < nl)%nat -> (t < np)%nat -> (k < nk)%nat ->
  (cidx l t k < nl * (nk * np))%nat.
Proof. unfold cidx. intros. assert (t * nk + k < nk * np)%nat by nia. nia. Qed.
Lemma pidx_lt l t k : (l < nl)%nat -> (t < np)%nat -> (k < nk)%nat ->
  (pidx t l k < nl * (nk * np))%nat.
Proof.
  unfold pidx. intros. assert (l * nk + k < nl * nk)%nat by nia.
  replace (nl * (nk * np))%nat with (np * (nl * nk))%nat by ring. nia.
Qed.
Lemma cidx_dec j : (j < nl * (nk * np))%nat ->
  exists l t k, (l < nl)%nat /\ (t < np)%nat /\ (k < nk)%nat /\ j = cidx l t k.
Proof.
  intros H.
  assert (Hk : (nk <> 0)%nat) by (intros ->; rewrite Nat.mul_0_l, Nat.mul_0_r in H; lia).
  assert (Hw : (nk * np <> 0)%nat) by (intros E; rewrite E, Nat.mul_0_r in H; lia).
  exists (j / (nk * np))%nat, ((j mod (nk * np)) / nk)%nat, ((j mod (nk * np)) mod nk)%nat.
  pose proof (Nat.mod_upper_bound j (nk * np) Hw) as M1.
  pose proof (Nat.mod_upper_bound (j mod (nk * np)) nk Hk) as M2.
  repeat split.
  - apply Nat.div_lt_upper_bound; [exact Hw|]. lia.
  - apply Nat.div_lt_upper_bound; [exact Hk|]. exact M1.
  - exact M2.
  - unfold cidx. rewrite (Nat.mul_comm _ nk), <- (Nat.div_mod (j mod (nk * np)) nk) by exact Hk.
    rewrite (Nat.mul_comm _ (nk * np)). now apply Nat.div_mod.
Qed.
Lemma split_inj n a b a' b' : (b < n)%nat -> (b' < n)%nat -> (a * n + b = a' * n + b')%nat ->
  a = a' /\ b = b'.
Proof.
  intros H H' E. assert (a = a') by nia. subst. lia.
Qed.
Lemma pidx_inj t l k t' l' k' : (l < nl)%nat -> (k < nk)%nat -> (l' < nl)%nat -> (k' < nk)%nat ->
  pidx t l k = pidx t' l' k' -> t = t' /\ l = l' /\ k = k'.
Proof.
  unfold pidx. intros. apply split_inj in H3 as [-> E]; try nia.
  apply split_inj in E as [-> ->]; auto.
Qed.

(* the key of an unknown in the order of the normal equations *)
Definition okey (j : nat) : nat :=
  pidx ((j mod (nk * np)) / nk) (j / (nk * np)) ((j mod (nk * np)) mod nk).
Lemma okey_cidx l t k : (l < nl)%nat -> (t < np)%nat -> (k < nk)%nat -> okey (cidx l t k) = pidx t l k.
Proof.
  intros Hl Ht Hk. unfold okey, cidx.
  assert (W : (t * nk + k < nk * np)%nat) by nia.
  assert (E1 : ((l * (nk * np) + (t * nk + k)) / (nk * np) = l)%nat).
  { rewrite Nat.div_add_l by nia. rewrite (Nat.div_small _ _ W). lia. }
  assert (E2 : ((l * (nk * np) + (t * nk + k)) mod (nk * np) = t * nk + k)%nat).
  { rewrite (Nat.add_comm (l * (nk * np))), Nat.mod_add by nia. exact (Nat.mod_small _ _ W). }
  assert (E3 : ((t * nk + k) / nk = t)%nat).
  { rewrite Nat.div_add_l by lia. rewrite (Nat.div_small _ _ Hk). lia. }
  assert (E4 : ((t * nk + k) mod nk = k)%nat).
  { rewrite (Nat.add_comm (t * nk)), Nat.mod_add by lia. exact (Nat.mod_small _ _ Hk). }
  now rewrite E1, E2, E3, E4.
Qed.

Lemma X_order_spec argsort : (forall l, is_argsort l (argsort l)) ->
  length (X_order argsort np nl nk) = (nl * (nk * np))%nat /\
  relabelling (nl * (nk * np)) (fun i => nth i (X_order argsort np nl nk) 0%nat) /\
  forall l t k, (l < nl)%nat -> (t < np)%nat -> (k < nk)%nat ->
    nth (pidx t l k) (X_order argsort np nl nk) 0%nat = cidx l t k.
Proof.
  intros Hs. set (N := (nl * (nk * np))%nat).
  set (ks := map2 Nat.add (map2 (fun a b => (a + nk * b)%nat) (np_tile (range nk) (nl * np))
               (np_repeat (range nl) (nk * np)))
             (map (fun b => (nl * nk * b)%nat) (np_tile (np_repeat (range np) nk) nl))).
  assert (L1 : length (np_tile (range nk) (nl * np)) = N)
    by (rewrite length_tile, length_range; unfold N; ring).
  assert (L2 : length (np_repeat (range nl) (nk * np)) = N)
    by (rewrite length_repeat, length_range; reflexivity).
  assert (L3 : length (np_tile (np_repeat (range np) nk) nl) = N)
    by (rewrite length_tile, length_repeat, length_range; unfold N; ring).
  assert (E : ks = map okey (range N)).
  { apply nth_ext with (d := 0%nat) (d' := 0%nat).
    - unfold ks. rewrite !length_map2; rewrite ?map_length, ?length_range, ?length_map2; congruence.
    - intros j Hj. unfold ks in Hj.
      rewrite length_map2 in Hj by (rewrite map_length, length_map2; congruence).
      rewrite length_map2, L1 in Hj by congruence.
      rewrite (nth_map_in _ _ _ 0%nat) by (rewrite length_range; exact Hj).
      rewrite nth_range by exact Hj.
      unfold ks. rewrite (nth_map2 _ _ _ _ 0%nat 0%nat);
        [|rewrite length_map2; congruence|rewrite map_length; congruence].
      rewrite (nth_map2 _ _ _ _ 0%nat 0%nat) by congruence.
      rewrite (nth_map_in _ _ _ 0%nat) by congruence.
      destruct (cidx_dec j Hj) as (l & t & k & Hl & Ht & Hk & ->).
      rewrite okey_cidx by assumption.
      assert (Q1 : nth (cidx l t k) (np_tile (range nk) (nl * np)) 0%nat = k).
      { replace (cidx l t k) with ((l * np + t) * length (range nk) + k)%nat
          by (rewrite length_range; unfold cidx; ring).
        rewrite nth_tile; [now apply nth_range|nia|now rewrite length_range]. }
      assert (Q2 : nth (cidx l t k) (np_repeat (range nl) (nk * np)) 0%nat = l).
      { unfold cidx. rewrite nth_repeat; [now apply nth_range|now rewrite length_range|nia]. }
      assert (Q3 : nth (cidx l t k) (np_tile (np_repeat (range np) nk) nl) 0%nat = t).
      { replace (cidx l t k) with (l * length (np_repeat (range np) nk) + (t * nk + k))%nat
          by (rewrite length_repeat, length_range; unfold cidx; ring).
        rewrite nth_tile; [|exact Hl|rewrite length_repeat, length_range; nia].
        rewrite nth_repeat; [now apply nth_range|now rewrite length_range|exact Hk]. }
      rewrite Q1, Q2, Q3. unfold pidx. ring. }
  assert (HX : X_order argsort np nl nk = argsort (map INR (map okey (range N)))).
  { unfold X_order. fold ks. now rewrite E. }
  rewrite HX.
  destruct (argsort_inverts N okey (argsort (map INR (map okey (range N)))) (Hs _)) as (A & B & C).
  - intros j Hj. destruct (cidx_dec j Hj) as (l & t & k & Hl & Ht & Hk & ->).
    rewrite okey_cidx by assumption. now apply pidx_lt.
  - intros i j Hi Hj.
    destruct (cidx_dec i Hi) as (l & t & k & Hl & Ht & Hk & ->).
    destruct (cidx_dec j Hj) as (l' & t' & k' & Hl' & Ht' & Hk' & ->).
    rewrite !okey_cidx by assumption. intros Q.
    apply pidx_inj in Q as (-> & -> & ->); auto.
  - split; [exact A|]. split; [exact B|]. intros l t k Hl Ht Hk.
    rewrite <- okey_cidx by assumption. apply C. now apply cidx_lt.
Qed.
End Order.

(* ---- blocks ---- *)
Lemma set_block_entry ni nk a b M X r t i k :
  (i < ni)%nat -> (k < nk)%nat ->
  set_block (a * ni) (b * nk) ni nk M X (r * ni + i)%nat (t * nk + k)%nat
  = if ((r =? a) && (t =? b))%nat then M i k else X (r * ni + i)%nat (t * nk + k)%nat.
Proof.
  intros Hi Hk. unfold set_block.
  destruct (Nat.eqb_spec r a) as [->|Hr]; destruct (Nat.eqb_spec t b) as [->|Ht]; cbn [andb].
  - rewrite !(proj2 (Nat.leb_le _ _)), !(proj2 (Nat.ltb_lt _ _)) by lia. cbn [andb].
    f_equal; lia.
  - destruct (_ && _)%bool eqn:E; [|reflexivity]. exfalso.
    rewrite !Bool.andb_true_iff, !Nat.leb_le, !Nat.ltb_lt in E. nia.
  - destruct (_ && _)%bool eqn:E; [|reflexivity]. exfalso.
    rewrite !Bool.andb_true_iff, !Nat.leb_le, !Nat.ltb_lt in E. nia.
  - destruct (_ && _)%bool eqn:E; [|reflexivity]. exfalso.
    rewrite !Bool.andb_true_iff, !Nat.leb_le, !Nat.ltb_lt in E. nia.
Qed.

Lemma range_S n : range (S n) = range n ++ [n].
Proof. unfold range. rewrite seq_S. reflexivity. Qed.

Lemma diag_blocks w f n l l' a b : (a < w)%nat -> (b < w)%nat ->
  fold_left (fun M l => set_block (l * w) (l * w) w w (f l) M) (range n) zero_mat
    (l * w + a)%nat (l' * w + b)%nat
  = if ((l =? l') && (l <? n))%nat then f l a b else 0.
Proof.
  intros Ha Hb. induction n as [|n IH].
  - cbn. rewrite Bool.andb_false_r. reflexivity.
  - rewrite range_S, fold_left_app. cbn [fold_left]. rewrite set_block_entry by assumption.
    rewrite IH. destruct (Nat.eqb_spec l n) as [->|H1]; cbn [andb].
    + destruct (Nat.eqb_spec l' n) as [->|H2].
      * rewrite Nat.eqb_refl. rewrite (proj2 (Nat.ltb_lt _ _)) by lia. reflexivity.
      * destruct (Nat.eqb_spec n l'); [congruence|]. reflexivity.
    + destruct (Nat.eqb_spec l l'); [|reflexivity]. cbn [andb].
      destruct (Nat.ltb_spec l n), (Nat.ltb_spec l (S n)); try reflexivity; lia.
Qed.

Section Reg.
Variables (np nl nk nr : nat) (X : mat) (wts y : nat -> list R) (d : R).
Let w := (nk * np)%nat.
Let N := (nl * w)%nat.

Lemma XwX_entry l l' a b : (l < nl)%nat -> (a < w)%nat -> (b < w)%nat ->
  XwX nr w nl X wts d (l * w + a)%nat (l' * w + b)%nat
  = (if (l =? l')%nat then sumn nr (fun i => nth i (wts l) 0 * X i a * X i b) else 0)
    + Rmax 0 (d - 1) * (if (l * w + a =? l' * w + b)%nat then 1 else 0).
Proof.
  intros Hl Ha Hb. unfold XwX.
  pose proof (diag_blocks w (fun l a b => sumn nr (fun i => nth i (wts l) 0 * X i a * X i b))
                nl l l' a b Ha Hb) as E.
  rewrite (proj2 (Nat.ltb_lt _ _) Hl), Bool.andb_true_r in E.
  destruct (Rlt_dec 1 d) as [H|H]; rewrite E.
  - rewrite Rmax_right by lra. reflexivity.
  - rewrite Rmax_left by lra. ring.
Qed.

Lemma Xwv_entry l a : (l < nl)%nat -> (a < w)%nat ->
  Xwv nr w nl X wts y (l * w + a)%nat
  = sumn nr (fun i => nth i (wts l) 0 * X i a * nth i (y l) 0).
Proof.
  intros Hl Ha. unfold Xwv.
  assert (E : forall n, fold_left (fun v l j =>
      if ((l * w <=? j) && (j <? l * w + w))%nat
      then sumn nr (fun i => nth i (wts l) 0 * X i (j - l * w)%nat * nth i (y l) 0)
      else v j) (range n) (fun _ => 0) (l * w + a)%nat
    = if (l <? n)%nat then sumn nr (fun i => nth i (wts l) 0 * X i a * nth i (y l) 0) else 0).
  { induction n as [|n IH]; [reflexivity|]. rewrite range_S, fold_left_app. cbn [fold_left].
    rewrite IH. destruct (Nat.eq_dec l n) as [->|Hne].
    - rewrite (proj2 (Nat.leb_le (n * w) (n * w + a))) by lia.
      rewrite (proj2 (Nat.ltb_lt (n * w + a) (n * w + w))) by lia.
      rewrite (proj2 (Nat.ltb_lt n (S n))) by lia. cbn [andb].
      replace (n * w + a - n * w)%nat with a by lia. reflexivity.
    - destruct (_ && _)%bool eqn:Q.
      + exfalso. rewrite Bool.andb_true_iff, Nat.leb_le, Nat.ltb_lt in Q. nia.
      + destruct (Nat.ltb_spec l n), (Nat.ltb_spec l (S n)); try reflexivity; lia. }
  rewrite E. now rewrite (proj2 (Nat.ltb_lt _ _) Hl).
Qed.

(* x as a vector in the order of the normal equations *)
Let zz (x : nat -> R) (j : nat) : R := x (okey np nl nk j).

(* fitted value of row r for type l *)
Definition fitted (x : nat -> R) (l r : nat) : R :=
  sumn np (fun t => sumn nk (fun k => X r (t * nk + k)%nat * x (pidx nl nk t l k))).
Definition wss (x : nat -> R) : R :=
  sumn nl (fun l => sumn nr (fun r => nth r (wts l) 0 * (nth r (y l) 0 - fitted x l r) ^ 2))
  + Rmax 0 (d - 1)
    * sumn nl (fun l => sumn np (fun t => sumn nk (fun k => x (pidx nl nk t l k) ^ 2))).
Definition wss0 : R :=
  sumn nl (fun l => sumn nr (fun r => nth r (wts l) 0 * nth r (y l) 0 ^ 2)).

Lemma zz_entry x l t k : (l < nl)%nat -> (t < np)%nat -> (k < nk)%nat ->
  zz x (l * w + (t * nk + k))%nat = x (pidx nl nk t l k).
Proof. intros. unfold zz. f_equal. now apply (okey_cidx np nl nk). Qed.

Lemma fitted_zz x l r : (l < nl)%nat ->
  fitted x l r = sumn w (fun a => X r a * zz x (l * w + a)%nat).
Proof.
  intros Hl. unfold fitted, w at 1. rewrite Nat.mul_comm, sumn_mul. apply sumn_ext. intros t Ht.
  apply sumn_ext. intros k Hk. now rewrite zz_entry.
Qed.
Lemma ridge_zz x :
  sumn nl (fun l => sumn np (fun t => sumn nk (fun k => x (pidx nl nk t l k) ^ 2)))
  = sumn nl (fun l => sumn w (fun a => zz x (l * w + a)%nat ^ 2)).
Proof.
  apply sumn_ext. intros l Hl. unfold w at 1. rewrite Nat.mul_comm, sumn_mul. apply sumn_ext.
  intros t Ht. apply sumn_ext. intros k Hk. now rewrite zz_entry.
Qed.

Lemma quad_block (z : nat -> R) l :
  sumn w (fun a => z a * sumn w (fun b => sumn nr (fun i => nth i (wts l) 0 * X i a * X i b) * z b))
  = sumn nr (fun i => nth i (wts l) 0 * sumn w (fun a => X i a * z a) ^ 2).
Proof.
  transitivity (sumn w (fun a => sumn nr (fun i =>
    nth i (wts l) 0 * (X i a * z a) * sumn w (fun b => X i b * z b)))).
  - apply sumn_ext. intros a _. rewrite <- sumn_scal.
    transitivity (sumn w (fun b => sumn nr (fun i =>
      nth i (wts l) 0 * (X i a * z a) * (X i b * z b)))).
    + apply sumn_ext. intros b _. rewrite <- sumn_scal_r, <- sumn_scal. apply sumn_ext. intros; ring.
    + rewrite sumn_swap. apply sumn_ext. intros i _. now rewrite sumn_scal.
  - rewrite sumn_swap. apply sumn_ext. intros i _.
    transitivity (nth i (wts l) 0 * sumn w (fun b => X i b * z b) * sumn w (fun a => X i a * z a));
      [|ring].
    rewrite <- sumn_scal. apply sumn_ext. intros; ring.
Qed.
Lemma lin_block (z : nat -> R) l :
  sumn w (fun a => sumn nr (fun i => nth i (wts l) 0 * X i a * nth i (y l) 0) * z a)
  = sumn nr (fun i => nth i (wts l) 0 * (nth i (y l) 0 * sumn w (fun a => X i a * z a))).
Proof.
  transitivity (sumn w (fun a => sumn nr (fun i => nth i (wts l) 0 * (nth i (y l) 0 * (X i a * z a))))).
  - apply sumn_ext. intros a _. rewrite <- sumn_scal_r. apply sumn_ext. intros; ring.
  - rewrite sumn_swap. apply sumn_ext. intros i _. now rewrite !sumn_scal.
Qed.

Lemma quad_all (z : nat -> R) :
  sumn N (fun i => z i * sumn N (fun j => XwX nr w nl X wts d i j * z j))
  = sumn nl (fun l => sumn nr (fun i => nth i (wts l) 0 * sumn w (fun a => X i a * z (l * w + a)%nat) ^ 2))
    + Rmax 0 (d - 1) * sumn nl (fun l => sumn w (fun a => z (l * w + a)%nat ^ 2)).
Proof.
  unfold N. rewrite sumn_mul, <- sumn_scal, <- sumn_plus. apply sumn_ext. intros l Hl.
  rewrite <- (quad_block (fun a => z (l * w + a)%nat)), <- sumn_scal, <- sumn_plus.
  apply sumn_ext. intros a Ha.
  replace (z (l * w + a)%nat * sumn w (fun b => sumn nr (fun i => nth i (wts l) 0 * X i a * X i b)
             * z (l * w + b)%nat) + Rmax 0 (d - 1) * z (l * w + a)%nat ^ 2)
    with (z (l * w + a)%nat * (sumn w (fun b => sumn nr (fun i => nth i (wts l) 0 * X i a * X i b)
             * z (l * w + b)%nat) + Rmax 0 (d - 1) * z (l * w + a)%nat)) by ring.
  f_equal. rewrite sumn_mul. rewrite (sumn_single nl l).
  - rewrite (sumn_ext _ _ (fun b =>
      sumn nr (fun i => nth i (wts l) 0 * X i a * X i b) * z (l * w + b)%nat
      + Rmax 0 (d - 1) * (if (a =? b)%nat then z (l * w + b)%nat else 0))).
    + rewrite sumn_plus. f_equal. rewrite sumn_scal. f_equal.
      rewrite (sumn_single w a); [now rewrite Nat.eqb_refl|exact Ha|].
      intros b _ Hne. destruct (Nat.eqb_spec a b); [congruence|reflexivity].
    + intros b Hb. rewrite XwX_entry by assumption. rewrite Nat.eqb_refl.
      destruct (Nat.eqb_spec a b) as [->|Hne].
      * rewrite Nat.eqb_refl. ring.
      * destruct (Nat.eqb_spec (l * w + a) (l * w + b)); [lia|]. ring.
  - exact Hl.
  - intros l' Hl' Hne. apply sumn_zero. intros b Hb. rewrite XwX_entry by assumption.
    destruct (Nat.eqb_spec l l'); [congruence|].
    destruct (Nat.eqb_spec (l * w + a) (l' * w + b)) as [E|_]; [|ring].
    apply split_inj in E as [E _]; [congruence|exact Ha|exact Hb].
Qed.
Lemma lin_all (z : nat -> R) :
  sumn N (fun i => Xwv nr w nl X wts y i * z i)
  = sumn nl (fun l => sumn nr (fun i =>
      nth i (wts l) 0 * (nth i (y l) 0 * sumn w (fun a => X i a * z (l * w + a)%nat)))).
Proof.
  unfold N. rewrite sumn_mul. apply sumn_ext. intros l Hl.
  rewrite <- (lin_block (fun a => z (l * w + a)%nat)). apply sumn_ext. intros a Ha.
  now rewrite Xwv_entry.
Qed.

Variable argsort : list R -> list nat.
Hypothesis argsort_ok : forall l, is_argsort l (argsort l).

Lemma reg_objective x :
  let o := X_order argsort np nl nk in
  2 * dqobj (length o) (take_cols o (take_rows o (XwX nr w nl X wts d)))
        (map (fun i => - Xwv nr w nl X wts y i) o) x + wss0
  = wss x.
Proof.
  intros o. destruct (X_order_spec np nl nk argsort argsort_ok) as (Lo & Ro & Eo). fold o in Lo, Ro, Eo.
  fold w in Lo, Ro. fold N in Lo, Ro.
  assert (Z : forall i, (i < N)%nat -> zz x (nth i o 0%nat) = x i).
  { intros i Hi.
    assert (Hj : (nth i o 0 < nl * (nk * np))%nat) by (apply (relabelling_lt N _ i Ro Hi)).
    destruct (cidx_dec np nl nk _ Hj) as (l & t & k & Hl & Ht & Hk & E).
    rewrite E. unfold zz. rewrite okey_cidx by assumption. f_equal.
    assert (D : NoDup o).
    { apply (Permutation_NoDup (l := range N)); [|apply seq_NoDup].
      symmetry. unfold relabelling in Ro. rewrite <- (map_nth_range o 0%nat), Lo. exact Ro. }
    rewrite (NoDup_nth o 0%nat) in D. symmetry. apply D.
    - now rewrite Lo.
    - rewrite Lo. now apply pidx_lt.
    - rewrite E. symmetry. now apply Eo. }
  unfold dqobj. rewrite Lo.
  rewrite (sumn_ext N (fun i => x i * _) (fun i =>
    zz x (nth i o 0%nat) * sumn N (fun j => XwX nr w nl X wts d (nth i o 0%nat) j * zz x j))).
  2:{ intros i Hi. rewrite Z by exact Hi. f_equal.
      rewrite <- (relabelling_sumn N (fun i => nth i o 0%nat)
        (fun j => XwX nr w nl X wts d (nth i o 0%nat) j * zz x j) Ro). apply sumn_ext. intros j Hj.
      cbv beta.
      rewrite Z by exact Hj. unfold take_cols, take_rows. reflexivity. }
  rewrite (relabelling_sumn N (fun i => nth i o 0%nat)
    (fun i => zz x i * sumn N (fun j => XwX nr w nl X wts d i j * zz x j)) Ro).
  rewrite (sumn_ext N (fun i => nth i _ 0 * x i)
    (fun i => (fun j => - (Xwv nr w nl X wts y j * zz x j)) (nth i o 0%nat))).
  2:{ intros i Hi. rewrite (nth_map_in _ _ _ 0%nat) by (rewrite Lo; exact Hi).
      cbv beta. rewrite Z by exact Hi. ring. }
  rewrite (relabelling_sumn N (fun i => nth i o 0%nat)
    (fun j => - (Xwv nr w nl X wts y j * zz x j)) Ro).
  rewrite (sumn_ext N (fun i => - _) (fun i => (-1) * (Xwv nr w nl X wts y i * zz x i)))
    by (intros; ring).
  rewrite sumn_scal, quad_all, lin_all. unfold wss, wss0. rewrite ridge_zz.
  set (rg := sumn nl (fun l => sumn w (fun a => zz x (l * w + a)%nat ^ 2))).
  transitivity (sumn nl (fun l =>
      sumn nr (fun i => nth i (wts l) 0 * sumn w (fun a => X i a * zz x (l * w + a)%nat) ^ 2)
      + (-2) * sumn nr (fun i => nth i (wts l) 0 * (nth i (y l) 0 * sumn w (fun a => X i a * zz x (l * w + a)%nat)))
      + sumn nr (fun r => nth r (wts l) 0 * nth r (y l) 0 ^ 2)) + Rmax 0 (d - 1) * rg).
  - rewrite !sumn_plus, sumn_scal. field.
  - f_equal. apply sumn_ext. intros l Hl. rewrite <- sumn_scal, <- !sumn_plus.
    apply sumn_ext. intros r Hr. rewrite fitted_zz by exact Hl. ring.
Qed.
End Reg.
