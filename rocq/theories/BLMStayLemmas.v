(* Updates of pk1 and pk0, and the loop of fit_stayers. *)
From Verif Require Import Base BaseLemmas UtilModel UtilSpec UtilNumLemmas
  BLMModel BLMEMModel BLMSpec BLMSortLemmas BLMLikLemmas BLMEMLemmas.
From Coq Require Import ZifyNat Sorted.
Local Open Scope res_scope.
Local Open Scope R_scope.

Lemma map_fst_combine {A B} (l : list A) (m : list B) :
  length m = length l -> map fst (combine l m) = l.
Proof.
  revert m. induction l as [|x l IH]; intros [|y m] H; simpl in *; try lia; auto.
  f_equal. apply IH. lia.
Qed.
Lemma map_snd_combine {A B} (l : list A) (m : list B) :
  length m = length l -> map snd (combine l m) = m.
Proof.
  revert m. induction l as [|x l IH]; intros [|y m] H; simpl in *; try lia; auto.
  f_equal. apply IH. lia.
Qed.
Lemma in_combine_of_l {A B} (l : list A) (m : list B) a :
  length m = length l -> In a l -> exists b, In (a, b) (combine l m).
Proof.
  revert m. induction l as [|x l IH]; intros [|y m] H Ha; simpl in *; try lia; try tauto.
  destruct Ha as [->|Ha]; [exists y; auto|]. destruct (IH m) as [b Hb]; [lia|exact Ha|]. eauto.
Qed.

Section Update.
Variables (key : obs -> nat) (W : obs -> R) (n nl : nat) (d : R) (data : list obs)
  (qi : list (list R)).
Hypothesis nl_pos : (0 < nl)%nat.
Hypothesis d_ge : 1 <= d.
Hypothesis key_lt : forall o, In o data -> (key o < n)%nat.
Hypothesis W_pos : forall o, In o data -> 0 < W o.
Hypothesis q_ok : posteriors_ok nl data qi.

Let items := combine data qi.
Let ikey (p : obs * list R) := key (fst p).
Let iW (p : obs * list R) := W (fst p).
Let iq (p : obs * list R) (l : nat) := nth l (snd p) 0.

Lemma items_in p : In p items -> In (fst p) data /\ In (snd p) qi.
Proof.
  destruct p as [o row]. intros H. split;
  [eapply in_combine_l; exact H|eapply in_combine_r; exact H].
Qed.
Lemma items_key : map ikey items = map key data.
Proof.
  unfold ikey, items. rewrite <- (map_map fst key). rewrite map_fst_combine; [reflexivity|apply q_ok].
Qed.
Lemma items_W : map iW items = map W data.
Proof.
  unfold iW, items. rewrite <- (map_map fst W). rewrite map_fst_combine; [reflexivity|apply q_ok].
Qed.
Lemma row_ok row : In row qi -> length row = nl /\ (forall x, In x row -> 0 <= x) /\ rsum row = 1.
Proof. destruct q_ok as [_ F]. rewrite Forall_forall in F. apply F. Qed.
Lemma items_q : map (fun a => map (iq a) (range nl)) items = qi.
Proof.
  transitivity (map snd items); [|apply map_snd_combine; apply q_ok].
  apply map_ext_in. intros p Hp. apply items_in in Hp as [_ Hp].
  destruct (row_ok _ Hp) as [L _]. unfold iq. rewrite <- L. apply map_nth_range.
Qed.
Lemma iq_one a : In a items -> sumn nl (iq a) = 1.
Proof.
  intros H. apply items_in in H as [_ H]. destruct (row_ok _ H) as (L & _ & <-).
  rewrite rsum_nth, L. reflexivity.
Qed.
Lemma iq_nonneg a l : In a items -> (l < nl)%nat -> 0 <= iq a l.
Proof.
  intros H Hl. apply items_in in H as [_ H]. destruct (row_ok _ H) as (L & P & _).
  apply P. apply nth_In. lia.
Qed.

Lemma count_share k l :
  count_at ikey iW iq d items k l = share (fun o => (key o =? k)%nat) W d data qi l.
Proof. unfold count_at, share. rewrite map2_combine. reflexivity. Qed.

Lemma counts_err :
  (0 < n)%nat -> (forall o, In o data -> S (key o) <> n) ->
  pk_counts n nl d (map key data) (map W data) qi = Err ValueError.
Proof.
  intros Hn H. rewrite <- items_key, <- items_W, <- items_q.
  apply pk_counts_err; auto. intros a Ha. apply items_in in Ha as [Ha _].
  specialize (H _ Ha). specialize (key_lt _ Ha). unfold ikey. lia.
Qed.

Lemma counts_ok :
  (exists o, In o data /\ S (key o) = n) ->
  exists pk, pk_counts n nl d (map key data) (map W data) qi = Ok pk /\
    forall k l, (k < n)%nat -> (l < nl)%nat ->
      pk k l = share (fun o => (key o =? k)%nat) W d data qi l.
Proof.
  intros (o & Ho & Eo).
  destruct (pk_counts_ok ikey iW iq n nl d items nl_pos) as (pk & E & H).
  - intros a Ha. apply items_in in Ha as [Ha _]. now apply key_lt.
  - destruct (in_combine_of_l data qi o (proj1 q_ok) Ho) as [row Hr].
    exists (o, row). split; [exact Hr|exact Eo].
  - rewrite items_key, items_W, items_q in E. exists pk. split; [exact E|].
    intros k l Hk Hl. rewrite H by assumption. apply count_share.
Qed.

Lemma share_sum k :
  sumn nl (share (fun o => (key o =? k)%nat) W d data qi)
  = rsum (map (fun o => if (key o =? k)%nat then W o else 0) data) * (1 + INR nl * (d - 1)).
Proof.
  rewrite (sumn_ext _ _ (count_at ikey iW iq d items k)) by (intros; symmetry; apply count_share).
  rewrite count_sum by exact iq_one. f_equal. unfold weight_of, ikey, iW.
  rewrite <- (map_map fst (fun o => if (key o =? k)%nat then W o else 0)).
  unfold items. rewrite map_fst_combine; [reflexivity|apply q_ok].
Qed.
Lemma prior_pos : 0 < 1 + INR nl * (d - 1).
Proof. pose proof (pos_INR nl). assert (0 <= INR nl * (d - 1)) by (apply Rmult_le_pos; lra). lra. Qed.

Lemma share_sum_pos k :
  (exists o, In o data /\ key o = k) -> 0 < sumn nl (share (fun o => (key o =? k)%nat) W d data qi).
Proof.
  intros H. rewrite share_sum. apply Rmult_lt_0_compat; [|exact prior_pos].
  now apply (weight_pos key W).
Qed.
Lemma share_sum_zero k :
  (forall o, In o data -> key o <> k) -> sumn nl (share (fun o => (key o =? k)%nat) W d data qi) = 0.
Proof. intros H. rewrite share_sum. pose proof (weight_zero key W data k H) as E.
  unfold weight_of in E. rewrite E. ring. Qed.

Lemma share_nonneg k l : (l < nl)%nat -> 0 <= share (fun o => (key o =? k)%nat) W d data qi l.
Proof.
  intros Hl. rewrite <- count_share. unfold count_at. apply rsum_nonneg.
  intros x Hx. apply in_map_iff in Hx as (a & <- & Ha).
  pose proof (iq_nonneg a l Ha Hl). apply items_in in Ha as [Ha _].
  pose proof (W_pos _ Ha). destruct (ikey a =? k)%nat; [|lra].
  apply Rmult_le_pos; [unfold iW|]; lra.
Qed.
Lemma share_pos k l :
  (l < nl)%nat -> Forall (fun row => forall x, In x row -> 0 < x) qi ->
  (exists o, In o data /\ key o = k) -> 0 < share (fun o => (key o =? k)%nat) W d data qi l.
Proof.
  intros Hl Hq (o & Ho & Ek). rewrite <- count_share. unfold count_at.
  apply (weight_pos ikey (fun a => iW a * (iq a l + d - 1))).
  - intros a Ha. apply items_in in Ha as [Ha Hr]. apply Rmult_lt_0_compat; [now apply W_pos|].
    rewrite Forall_forall in Hq. unfold iq.
    assert (0 < nth l (snd a) 0).
    { apply (Hq _ Hr). apply nth_In. destruct (row_ok _ Hr) as [-> _]. exact Hl. }
    lra.
  - destruct (in_combine_of_l data qi o (proj1 q_ok) Ho) as [row Hr].
    exists (o, row). split; [exact Hr|exact Ek].
Qed.
End Update.

Lemma norm_rows_some nl pk k l :
  sumn nl (pk k) <> 0 -> norm_rows nl pk k l = Some (1 / sumn nl (pk k) * pk k l).
Proof. intros H. unfold norm_rows. destruct (Req_EM_T (sumn nl (pk k)) 0); [contradiction|reflexivity]. Qed.
Lemma norm_rows_none nl pk k l : sumn nl (pk k) = 0 -> norm_rows nl pk k l = None.
Proof. intros H. unfold norm_rows. destruct (Req_EM_T (sumn nl (pk k)) 0); [reflexivity|contradiction]. Qed.

Lemma any_nan_false n nl pk :
  (forall k l, (k < n)%nat -> (l < nl)%nat -> pk k l <> None) -> any_nan n nl pk = false.
Proof.
  intros H. unfold any_nan. apply Bool.not_true_is_false. intros C.
  apply existsb_exists in C as (k & Hk & C). apply existsb_exists in C as (l & Hl & C).
  apply in_seq in Hk, Hl. specialize (H k l). destruct (pk k l); [discriminate|].
  apply H; [lia|lia|reflexivity].
Qed.
Lemma any_nan_true n nl pk k l :
  (k < n)%nat -> (l < nl)%nat -> pk k l = None -> any_nan n nl pk = true.
Proof.
  intros Hk Hl H. unfold any_nan. apply existsb_exists. exists k. split; [apply in_seq; lia|].
  apply existsb_exists. exists l. split; [apply in_seq; lia|]. now rewrite H.
Qed.

(* ---- pk1 ---- *)
Lemma KK_lt nk o : data_ok nk o -> (KK nk o < nk * nk)%nat.
Proof. intros [H1 H2]. unfold KK. nia. Qed.
Lemma KK_moves nk o k1 k2 :
  data_ok nk o -> (k1 < nk)%nat -> (k2 < nk)%nat -> (KK nk o =? k1 + nk * k2)%nat = moves k1 k2 o.
Proof.
  intros [H1 H2] Hk1 Hk2. unfold KK, moves.
  destruct (Nat.eqb_spec (g1 o) k1), (Nat.eqb_spec (g2 o) k2); subst; simpl;
    [apply Nat.eqb_refl| | |]; apply Nat.eqb_neq; nia.
Qed.

Lemma share_ext sel sel' W d data qi l :
  (forall o, In o data -> sel o = sel' o) -> share sel W d data qi l = share sel' W d data qi l.
Proof.
  intros H. unfold share. rewrite !map2_combine. apply rsum_map_ext. intros [o row] Ho.
  apply in_combine_l in Ho. cbn [fst snd]. now rewrite H.
Qed.

Lemma pair_of_index nk k : (k < nk * nk)%nat -> exists k1 k2, (k1 < nk)%nat /\ (k2 < nk)%nat /\ k = (k1 + nk * k2)%nat.
Proof.
  intros H. exists (k mod nk)%nat, (k / nk)%nat.
  assert (Hn : nk <> 0%nat) by (destruct nk; lia).
  split; [now apply Nat.mod_upper_bound|]. split; [apply Nat.div_lt_upper_bound; lia|].
  rewrite Nat.add_comm. now apply Nat.div_mod.
Qed.

Lemma update_pk1_ok nl nk d data qi :
  (0 < nl)%nat -> (0 < nk)%nat -> 1 <= d -> Forall (data_ok nk) data ->
  (forall o, In o data -> 0 < w1 o /\ 0 < w2 o) -> posteriors_ok nl data qi ->
  (forall k1 k2, (k1 < nk)%nat -> (k2 < nk)%nat -> exists o, In o data /\ g1 o = k1 /\ g2 o = k2) ->
  exists pk, update_pk1 nl nk d data qi = Ok pk /\
    forall k1 k2, (k1 < nk)%nat -> (k2 < nk)%nat ->
      prob_row nl (pk (k1 + nk * k2)%nat) /\
      forall l, (l < nl)%nat ->
        pk (k1 + nk * k2)%nat l
        = share (moves k1 k2) (fun o => sqrt (w1 o * w2 o)) d data qi l
          / sumn nl (share (moves k1 k2) (fun o => sqrt (w1 o * w2 o)) d data qi).
Proof.
  intros Hnl Hnk Hd Hok Hw Hq Hobs. rewrite Forall_forall in Hok.
  set (W := fun o => sqrt (w1 o * w2 o)).
  assert (HW : forall o, In o data -> 0 < W o).
  { intros o Ho. destruct (Hw o Ho). apply sqrt_lt_R0. now apply Rmult_lt_0_compat. }
  assert (Hk : forall o, In o data -> (KK nk o < nk * nk)%nat) by (intros; apply KK_lt; auto).
  destruct (counts_ok (KK nk) W (nk * nk) nl d data qi Hnl Hk Hq) as (pk & E & H).
  { destruct (Hobs (nk - 1)%nat (nk - 1)%nat) as (o & Ho & E1 & E2); [lia|lia|].
    exists o. split; [exact Ho|]. unfold KK. rewrite E1, E2. nia. }
  unfold update_pk1. fold W. rewrite E. cbn [bind].
  assert (Hsum : forall k, (k < nk * nk)%nat ->
    sumn nl (pk k) = sumn nl (share (fun o => (KK nk o =? k)%nat) W d data qi)).
  { intros k Hkk. apply sumn_ext. intros l Hl. now apply H. }
  assert (Hpos : forall k, (k < nk * nk)%nat -> 0 < sumn nl (pk k)).
  { intros k Hkk. rewrite Hsum by exact Hkk. apply share_sum_pos; auto.
    destruct (pair_of_index nk k Hkk) as (k1 & k2 & H1 & H2 & ->).
    destruct (Hobs k1 k2 H1 H2) as (o & Ho & E1 & E2). exists o. split; [exact Ho|].
    unfold KK. now rewrite E1, E2. }
  rewrite any_nan_false.
  2:{ intros k l Hkk Hl. rewrite norm_rows_some; [discriminate|]. pose proof (Hpos k Hkk). lra. }
  eexists. split; [reflexivity|]. intros k1 k2 H1 H2.
  assert (Hkk : (k1 + nk * k2 < nk * nk)%nat) by nia.
  pose proof (Hpos _ Hkk) as P.
  assert (V : forall l, from_nan (norm_rows nl pk) (k1 + nk * k2)%nat l
                        = 1 / sumn nl (pk (k1 + nk * k2)%nat) * pk (k1 + nk * k2)%nat l).
  { intros l. unfold from_nan. rewrite norm_rows_some by lra. reflexivity. }
  split; [split|].
  - intros l Hl. rewrite V, H by assumption. apply Rmult_le_pos.
    + apply Rlt_le, Rdiv_lt_0_compat; lra.
    + apply share_nonneg with (nl := nl); auto.
  - rewrite (sumn_ext _ _ _ (fun l _ => V l)), sumn_scal. field. lra.
  - intros l Hl. rewrite V, Hsum, H by assumption.
    rewrite (share_ext (fun o => (KK nk o =? k1 + nk * k2)%nat) (moves k1 k2))
      by (intros; apply KK_moves; auto).
    rewrite (sumn_ext nl (share (fun o => (KK nk o =? k1 + nk * k2)%nat) W d data qi)
               (share (moves k1 k2) W d data qi))
      by (intros; apply share_ext; intros; apply KK_moves; auto).
    unfold Rdiv. ring.
Qed.

Lemma update_pk1_err nl nk d data qi k1 k2 :
  (0 < nl)%nat -> Forall (data_ok nk) data -> posteriors_ok nl data qi ->
  (k1 < nk)%nat -> (k2 < nk)%nat -> (forall o, In o data -> g1 o <> k1 \/ g2 o <> k2) ->
  update_pk1 nl nk d data qi = Err ValueError.
Proof.
  intros Hnl Hok Hq H1 H2 Hobs. rewrite Forall_forall in Hok.
  set (W := fun o => sqrt (w1 o * w2 o)). unfold update_pk1. fold W.
  assert (Hk : forall o, In o data -> (KK nk o < nk * nk)%nat) by (intros; apply KK_lt; auto).
  destruct (existsb (fun o => (S (KK nk o) =? nk * nk)%nat) data) eqn:Ex.
  - apply existsb_exists in Ex as (o & Ho & Eo). apply Nat.eqb_eq in Eo.
    destruct (counts_ok (KK nk) W (nk * nk) nl d data qi Hnl Hk Hq) as (pk & -> & H); [eauto|].
    cbn [bind]. rewrite (any_nan_true _ _ _ (k1 + nk * k2)%nat 0%nat); [reflexivity|nia|exact Hnl|].
    apply norm_rows_none.
    rewrite (sumn_ext _ _ (share (fun o => (KK nk o =? k1 + nk * k2)%nat) W d data qi))
      by (intros; apply H; auto; nia).
    apply share_sum_zero; auto. intros o' Ho' E.
    assert (M : moves k1 k2 o' = true) by (rewrite <- (KK_moves nk); auto; now apply Nat.eqb_eq).
    unfold moves in M. apply andb_prop in M as [M1 M2]. apply Nat.eqb_eq in M1, M2.
    destruct (Hobs o' Ho'); contradiction.
  - rewrite counts_err; auto; [nia|].
    intros o Ho E. assert (X : existsb (fun o => (S (KK nk o) =? nk * nk)%nat) data = true).
    { apply existsb_exists. exists o. split; [exact Ho|]. now apply Nat.eqb_eq. }
    congruence.
Qed.

(* ---- stayers ---- *)
Section Stayers.
Variables (nl nk : nat) (d threshold : R) (p : par) (data : list obs).
Hypothesis nl_pos : (0 < nl)%nat.
Hypothesis d_ge : 1 <= d.
Hypothesis shapes : shapes_ok p.
Hypothesis g_lt : forall o, In o data -> (g1 o < nk)%nat.
Hypothesis S_pos : forall o l, In o data -> (l < nl)%nat -> 0 < S1 p l (g1 o).
Hypothesis w_pos : forall o, In o data -> 0 < w1 o.

Definition stab : list (list R) :=
  map (fun o => map (fun l => w1 o * ln (nd1 p l o)) (range nl)) data.

Lemma lp_stable_stab : lp_stable nl nk p data = Ok stab.
Proof. apply lp_stable_spec; auto. Qed.

(* the rows of the observed firm types are probabilities *)
Definition inv (pk : nat -> nat -> option R) : Prop :=
  forall o, In o data ->
    (forall l, (l < nl)%nat -> exists v, pk (g1 o) l = Some v /\ 0 < v) /\
    sumn nl (from_nan pk (g1 o)) = 1.

Lemma inv_at pk o l :
  inv pk -> In o data -> (l < nl)%nat ->
  pk (g1 o) l = Some (from_nan pk (g1 o) l) /\ 0 < from_nan pk (g1 o) l.
Proof.
  intros H Ho Hl. destruct (H o Ho) as [H1 _]. destruct (H1 l Hl) as (v & E & Hv).
  unfold from_nan. rewrite E. auto.
Qed.

Definition LL (pk : nat -> nat -> option R) : R := stayers_loglik nl p (from_nan pk) data.
Definition qq (pk : nat -> nat -> option R) (o : obs) (l : nat) : R :=
  from_nan pk (g1 o) l * stayer_density p o l / mixture nl (from_nan pk (g1 o)) (stayer_density p o).

Definition st_entry (pk : nat -> nat -> option R) (o : obs) (l : nat) : R :=
  w1 o * ln (nd1 p l o) + ln (from_nan pk (g1 o) l).

Lemma st_rows pk :
  inv pk ->
  traverse (fun os => stayer_row nl pk (fst os) (snd os)) (combine data stab)
  = Ok (map (fun o => map (st_entry pk o) (range nl)) data).
Proof.
  intros H. unfold stab.
  assert (E : combine data (map (fun o => map (fun l => w1 o * ln (nd1 p l o)) (range nl)) data)
              = map (fun o => (o, map (fun l => w1 o * ln (nd1 p l o)) (range nl))) data).
  { rewrite <- (map_id data) at 1. apply combine_map_same. }
  rewrite E.
  rewrite (traverse_ok _ (fun os => map (st_entry pk (fst os)) (range nl))).
  - now rewrite map_map.
  - intros os Hos. apply in_map_iff in Hos as (o & <- & Ho). cbn [fst snd].
    unfold stayer_row. apply traverse_ok. intros l Hl. apply in_seq in Hl.
    destruct (inv_at pk o l H Ho) as [E' _]; [lia|]. rewrite E'.
    rewrite (nth_map_in _ _ _ 0%nat) by (rewrite length_range; lia).
    rewrite nth_range by lia. reflexivity.
Qed.

Lemma exp_st pk o l :
  0 < from_nan pk (g1 o) l ->
  exp (st_entry pk o l) = from_nan pk (g1 o) l * stayer_density p o l.
Proof.
  intros H. unfold st_entry, stayer_density, Rpower. rewrite exp_plus, exp_ln by exact H.
  unfold nd1. ring.
Qed.
Lemma rsum_exp_st pk o :
  inv pk -> In o data ->
  rsum (map exp (map (st_entry pk o) (range nl)))
  = mixture nl (from_nan pk (g1 o)) (stayer_density p o).
Proof.
  intros H Ho. rewrite map_map. unfold mixture, sumn. apply rsum_map_ext.
  intros l Hl. apply in_seq in Hl. apply exp_st. apply (inv_at pk o l H Ho). lia.
Qed.

Lemma st_mean pk :
  inv pk -> mean_lse (map (fun o => map (st_entry pk o) (range nl)) data) = Ok (LL pk).
Proof.
  intros H. unfold mean_lse.
  rewrite (traverse_ok _ (fun row => ln (rsum (map exp row)))).
  2:{ intros row Hr. apply in_map_iff in Hr as [o [<- _]].
      apply logsumexp_spec. now apply map_range_nonempty. }
  cbn [bind]. unfold LL, stayers_loglik. rewrite !map_length, map_map. do 2 f_equal.
  apply rsum_map_ext. intros o Ho. now rewrite rsum_exp_st.
Qed.
Lemma st_post pk :
  inv pk ->
  posteriors (map (fun o => map (st_entry pk o) (range nl)) data)
  = Ok (map (fun o => map (qq pk o) (range nl)) data).
Proof.
  intros H. unfold posteriors.
  rewrite (traverse_ok _ (fun row => map (fun y => exp y / rsum (map exp row)) row)).
  2:{ intros row Hr. apply in_map_iff in Hr as [o [<- _]].
      apply posterior_list. now apply map_range_nonempty. }
  rewrite map_map. f_equal. apply map_ext_in. intros o Ho.
  rewrite rsum_exp_st, map_map by assumption.
  apply map_ext_in. intros l Hl. apply in_seq in Hl.
  rewrite exp_st; [reflexivity|]. apply (inv_at pk o l H Ho). lia.
Qed.

Lemma dens_pos o l : 0 < stayer_density p o l.
Proof. unfold stayer_density, Rpower. apply exp_pos. Qed.

Lemma qq_pos pk o l : inv pk -> In o data -> (l < nl)%nat -> 0 < qq pk o l.
Proof.
  intros H Ho Hl. apply (q_pos g1 (stayer_density p) nl (from_nan pk) data); auto.
  - intros; apply dens_pos.
  - intros a j Ha Hj. now apply (inv_at pk a j H Ha).
Qed.
Lemma qq_one pk o : inv pk -> In o data -> sumn nl (qq pk o) = 1.
Proof.
  intros H Ho. apply (q_one g1 (stayer_density p) nl (from_nan pk) data); auto.
  - intros; apply dens_pos.
  - intros a j Ha Hj. now apply (inv_at pk a j H Ha).
Qed.

Lemma qq_ok pk : inv pk -> posteriors_ok nl data (map (fun o => map (qq pk o) (range nl)) data).
Proof.
  intros H. split; [apply map_length|]. apply Forall_forall. intros row Hr.
  apply in_map_iff in Hr as (o & <- & Ho). split; [now rewrite map_length, length_range|].
  split; [|now apply qq_one]. intros x Hx. apply in_map_iff in Hx as (l & <- & Hl).
  apply in_seq in Hl. apply Rlt_le, qq_pos; auto. lia.
Qed.
Lemma qq_all_pos pk :
  inv pk -> Forall (fun row => forall x, In x row -> 0 < x) (map (fun o => map (qq pk o) (range nl)) data).
Proof.
  intros H. apply Forall_forall. intros row Hr.
  apply in_map_iff in Hr as (o & <- & Ho). intros x Hx.
  apply in_map_iff in Hx as (l & <- & Hl). apply in_seq in Hl. apply qq_pos; auto. lia.
Qed.

(* after an update the rows of the other firm types are nan *)
Definition nan_rest (pk : nat -> nat -> option R) : Prop :=
  forall k l, (k < nk)%nat -> (l < nl)%nat -> (forall o, In o data -> g1 o <> k) -> pk k l = None.

Definition shr (pk : nat -> nat -> option R) (k l : nat) : R :=
  share (works_at k) w1 d data (map (fun o => map (qq pk o) (range nl)) data) l.

Lemma update_ok pk :
  inv pk -> (exists o, In o data /\ S (g1 o) = nk) ->
  exists pk', update_pk0 nl nk d data (map (fun o => map (qq pk o) (range nl)) data) = Ok pk'
    /\ inv pk' /\ nan_rest pk'
    /\ forall o l, In o data -> (l < nl)%nat ->
         from_nan pk' (g1 o) l = shr pk (g1 o) l / sumn nl (shr pk (g1 o)).
Proof.
  intros H Hlast. unfold update_pk0.
  destruct (counts_ok g1 w1 nk nl d data _ nl_pos g_lt (qq_ok pk H) Hlast) as (cnt & -> & Hc).
  cbn [bind]. eexists. split; [reflexivity|].
  assert (Hsum : forall k, (k < nk)%nat -> sumn nl (cnt k) = sumn nl (shr pk k)).
  { intros k Hk. apply sumn_ext. intros l Hl. now apply Hc. }
  assert (Hpos : forall o, In o data -> 0 < sumn nl (cnt (g1 o))).
  { intros o Ho. rewrite Hsum by auto.
    apply (share_sum_pos g1 w1 nl d data _ d_ge w_pos (qq_ok pk H)). eauto. }
  assert (V : forall o l, In o data -> (l < nl)%nat ->
            norm_rows nl cnt (g1 o) l = Some (1 / sumn nl (cnt (g1 o)) * cnt (g1 o) l)).
  { intros o l Ho Hl. apply norm_rows_some. pose proof (Hpos o Ho). lra. }
  split; [|split].
  - intros o Ho. pose proof (Hpos o Ho) as P. split.
    + intros l Hl. rewrite V by assumption. eexists. split; [reflexivity|].
      apply Rmult_lt_0_compat; [apply Rdiv_lt_0_compat; lra|]. rewrite Hc by auto.
      apply (share_pos g1 w1 nl d data _ d_ge w_pos (qq_ok pk H)); auto; [now apply qq_all_pos|eauto].
    + rewrite (sumn_ext _ _ (fun l => 1 / sumn nl (cnt (g1 o)) * cnt (g1 o) l)).
      * rewrite sumn_scal. field. lra.
      * intros l Hl. unfold from_nan. now rewrite V.
  - intros k l Hk Hl Hno. apply norm_rows_none. rewrite Hsum by exact Hk.
    apply (share_sum_zero g1 w1 nl d data _ (qq_ok pk H)). exact Hno.
  - intros o l Ho Hl. unfold from_nan. rewrite V by assumption.
    rewrite Hsum, Hc by auto. unfold shr, works_at, Rdiv. ring.
Qed.

Lemma update_err pk :
  inv pk -> (0 < nk)%nat -> (forall o, In o data -> S (g1 o) <> nk) ->
  update_pk0 nl nk d data (map (fun o => map (qq pk o) (range nl)) data) = Err ValueError.
Proof.
  intros H Hnk Hlast. unfold update_pk0. rewrite counts_err; auto. now apply qq_ok.
Qed.

Lemma loop_ok n : forall iter pk prev lik liks,
  inv pk -> (exists o, In o data /\ S (g1 o) = nk) ->
  exists pk' lik' liks',
    stayers_loop n nl nk d threshold data stab iter pk prev lik liks = Ok (pk', lik', liks')
    /\ inv pk' /\ (nan_rest pk \/ (n <> 0%nat /\ prev = None) -> nan_rest pk').
Proof.
  induction n as [|n IH]; intros iter pk prev lik liks H Hlast; cbn [stayers_loop].
  - do 3 eexists. split; [reflexivity|]. split; [exact H|]. intros [?|[C _]]; [assumption|congruence].
  - rewrite st_rows by exact H. cbn [bind]. rewrite st_mean by exact H. cbn [bind].
    rewrite st_post by exact H. cbn [bind].
    destruct (close threshold (stayer_lik nl nk d iter pk (LL pk)) prev) eqn:Ec.
    + do 3 eexists. split; [reflexivity|]. split; [exact H|].
      intros [?|[_ C]]; [assumption|]. subst prev. unfold close in Ec.
      destruct (stayer_lik nl nk d iter pk (LL pk)); discriminate.
    + destruct (update_ok pk H Hlast) as (pk1 & -> & H1 & H2 & _). cbn [bind].
      destruct (IH (S iter) pk1 (Some (stayer_lik nl nk d iter pk (LL pk)))
                  (Some (stayer_lik nl nk d iter pk (LL pk)))
                  (liks ++ [stayer_lik nl nk d iter pk (LL pk)]) H1 Hlast)
        as (pk' & lik' & liks' & -> & Hi & Hn).
      do 3 eexists. split; [reflexivity|]. auto.
Qed.

(* ---- growth ---- *)
Definition all_observed : Prop := forall k, (k < nk)%nat -> exists o, In o data /\ g1 o = k.

Lemma no_nan pk : all_observed -> inv pk -> any_nan nk nl pk = false.
Proof.
  intros Ha H. apply any_nan_false. intros k l Hk Hl. destruct (Ha k Hk) as (o & Ho & <-).
  destruct (inv_at pk o l H Ho Hl) as [-> _]. discriminate.
Qed.

Lemma lik_is_LL iter pk :
  d = 1 -> all_observed -> inv pk -> stayer_lik nl nk d iter pk (LL pk) = Some (LL pk).
Proof.
  intros Hd Ha H. unfold stayer_lik. destruct (iter =? 0)%nat; [reflexivity|].
  rewrite no_nan by assumption. unfold lik_prior. rewrite Hd. f_equal. ring.
Qed.

Lemma update_grows pk pk' w :
  d = 1 -> (forall o, In o data -> w1 o = w) -> inv pk ->
  (forall o l, In o data -> (l < nl)%nat ->
         from_nan pk' (g1 o) l = shr pk (g1 o) l / sumn nl (shr pk (g1 o))) ->
  LL pk <= LL pk'.
Proof.
  intros Hd Hw H Hu. destruct (Nat.eq_dec (length data) 0) as [E0|E0].
  { apply length_zero_iff_nil in E0. unfold LL, stayers_loglik. rewrite E0. simpl. lra. }
  unfold LL, stayers_loglik, Rdiv. apply Rmult_le_compat_r.
  { apply Rlt_le, Rinv_0_lt_compat. apply lt_0_INR. lia. }
  apply (em_ascent g1 (stayer_density p) nk nl (from_nan pk) (from_nan pk') data); auto.
  - intros; apply dens_pos.
  - intros a l Ha Hl. now apply (inv_at pk a l H Ha).
  - intros a Ha. now apply H.
  - intros a l Ha Hl. rewrite Hu by assumption.
    pose proof (share_sum_pos g1 w1 nl d data _ d_ge w_pos (qq_ok pk H) (g1 a)
                  (ex_intro _ a (conj Ha eq_refl))) as P.
    change (0 < sumn nl (shr pk (g1 a))) in P.
    pose proof (share_sum g1 w1 nl d data _ (qq_ok pk H) (g1 a)) as E.
    match type of E with _ = ?r => change (sumn nl (shr pk (g1 a)) = r) in E end.
    assert (Ew : rsum (map (fun o => if (g1 o =? g1 a)%nat then w1 o else 0) data)
                 = w * rsum (map (fun o => if (g1 o =? g1 a)%nat then 1 else 0) data)).
    { rewrite <- rsum_map_scal. apply rsum_map_ext. intros o Ho.
      destruct (g1 o =? g1 a)%nat; [rewrite Hw by exact Ho|]; ring. }
    assert (Es : shr pk (g1 a) l
                 = w * rsum (map (fun b => if (g1 b =? g1 a)%nat then qq pk b l else 0) data)).
    { unfold shr, share, works_at. rewrite <- rsum_map_scal, map2_map_r.
      apply rsum_map_ext. intros o Ho. rewrite (Hw o Ho), Hd.
      rewrite (nth_map_in _ _ _ 0%nat) by (rewrite length_range; exact Hl).
      rewrite nth_range by exact Hl. destruct (g1 o =? g1 a)%nat; ring. }
    rewrite Ew, Hd in E. rewrite Es.
    set (T := rsum (map (fun o => if (g1 o =? g1 a)%nat then 1 else 0) data)) in *.
    assert (E' : sumn nl (shr pk (g1 a)) = w * T) by (rewrite E; ring).
    assert (Hw0 : 0 < w) by (rewrite <- (Hw a Ha); now apply w_pos).
    assert (HT : T <> 0) by (intros C; rewrite E', C in P; lra).
    rewrite E'. unfold qq. cbv beta. field. lra.
Qed.

Lemma loop_grows n w : forall iter pk prev lik liks,
  d = 1 -> (0 < nk)%nat -> all_observed -> (forall o, In o data -> w1 o = w) -> inv pk ->
  exists pk' lik' ls,
    stayers_loop n nl nk d threshold data stab iter pk prev lik liks
      = Ok (pk', lik', liks ++ map Some ls)
    /\ inv pk' /\ (length ls <= n)%nat /\ (n <> 0%nat -> ls <> [])
    /\ hd 0 (ls ++ [LL pk']) = LL pk /\ Sorted Rle (ls ++ [LL pk']).
Proof.
  induction n as [|n IH]; intros iter pk prev lik liks Hd Hnk Ha Hw H; cbn [stayers_loop].
  - exists pk, lik, []. rewrite app_nil_r. repeat split; auto; try tauto. all: try apply H; auto.
    cbn. constructor; constructor.
  - rewrite st_rows by exact H. cbn [bind]. rewrite st_mean by exact H. cbn [bind].
    rewrite st_post by exact H. cbn [bind]. rewrite lik_is_LL by assumption.
    destruct (close threshold (Some (LL pk)) prev) eqn:Ec.
    + exists pk, (Some (Some (LL pk))), [LL pk]. split; [reflexivity|]. split; [exact H|].
      split; [simpl; lia|]. split; [discriminate|]. split; [reflexivity|].
      cbn. constructor; [constructor; constructor|constructor; lra].
    + destruct (update_ok pk H) as (pk1 & -> & H1 & _ & Hu).
      { destruct (Ha (nk - 1)%nat) as (o & Ho & E); [lia|]. exists o. split; [exact Ho|lia]. }
      cbn [bind].
      destruct (IH (S iter) pk1 (Some (Some (LL pk))) (Some (Some (LL pk))) (liks ++ [Some (LL pk)])
                  Hd Hnk Ha Hw H1) as (pk' & lik' & ls & -> & Hi & Hlen & _ & Hh & Hs).
      exists pk', lik', (LL pk :: ls). split; [now rewrite <- app_assoc|].
      split; [exact Hi|]. split; [simpl; lia|]. split; [discriminate|]. split; [reflexivity|].
      cbn [app]. constructor; [exact Hs|].
      pose proof (update_grows pk pk1 w Hd Hw H Hu) as G. rewrite <- Hh in G.
      destruct (ls ++ [LL pk']); constructor. exact G.
Qed.
End Stayers.
