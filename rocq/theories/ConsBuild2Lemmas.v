(* Builders with one matrix row per index tuple: LinearAdditive, Monotonic,
   NoWorkerTypeInteraction, Stationary, StationaryFirmTypeVariation, bounds. *)
From Verif Require Import Base BaseLemmas UtilModel ConsModel ConsSpec ConsLemmas
  ConsBuildLemmas.
Local Open Scope R_scope.

(* ======================================================== LinearAdditive *)
Definition add_idx (nnt : list nat) (nk : nat) := L2 (enumerate nnt) (range (nk - 1)).
Definition la_idx (nnt : list nat) (nl nk : nat) : list (nat * nat * nat * nat + nat * nat * nat) :=
  map inl (lin_idx nnt nl nk) ++ map inr (add_idx nnt nk).
Definition la_row (n nl nk : nat) (g : nat * nat * nat * nat + nat * nat * nat) : nat :=
  match g with
  | inl g => lin_row nl nk g
  | inr (i, p, k) => (n * (nl - 2) * nk + i * (nk - 1) + k)%nat
  end.
Definition la_ws (n nl nk : nat) (g : nat * nat * nat * nat + nat * nat * nat) : list wr :=
  match g with
  | inl g => lin_ws nl nk g
  | inr (i, p, k) =>
      map (fun q => W (n * (nl - 2) * nk + i * (nk - 1) + k)%nat (fst q) (snd q) false)
        [((p * nl * nk + k)%nat, 1); ((p * nl * nk + nk + k)%nat, -1);
         ((p * nl * nk + k + 1)%nat, -1); ((p * nl * nk + nk + k + 1)%nat, 1)]
  end.

Lemma In_la nnt nl nk g :
  In g (la_idx nnt nl nk) <->
  match g with inl g => In g (lin_idx nnt nl nk) | inr g => In g (add_idx nnt nk) end.
Proof.
  unfold la_idx. rewrite in_app_iff, !in_map_iff. destruct g as [g|g]; split.
  - intros [(g' & E & H)|(g' & E & H)]; [congruence|discriminate].
  - intros H. left; eauto.
  - intros [(g' & E & H)|(g' & E & H)]; [discriminate|congruence].
  - intros H. right; eauto.
Qed.

Lemma la_NoDup nnt nl nk : NoDup (la_idx nnt nl nk).
Proof.
  unfold la_idx.
  assert (G : forall (l : list (nat * nat * nat * nat)) (m : list (nat * nat * nat)),
    NoDup l -> NoDup m -> NoDup (map inl l ++ map inr m : list (_ + _))).
  { clear. intros l m Hl Hm. induction Hl as [|a l Ha Hl IH]; simpl.
    - apply FinFun.Injective_map_NoDup; [|exact Hm]. intros x y E; congruence.
    - constructor; [|exact IH]. rewrite in_app_iff, !in_map_iff.
      intros [(b & E & Hb)|(b & E & Hb)]; [|discriminate]. congruence. }
  apply G; [apply lin_NoDup|]. apply NoDup_L2; auto using NoDup_enumerate, NoDup_range.
Qed.

Lemma la_ops nnt nl nk A :
  bind (linear_rows nnt nl nk A) (fun A =>
    for_each (enumerate nnt) (fun ip A =>
    let '(i, period) := ip in
    let row_shift := (length nnt * (nl - 2) * nk + i * (nk - 1))%nat in
    let col_shift := (period * nl * nk)%nat in
    for_each (range (nk - 1)) (fun k A =>
      bind (aset (row_shift + k) (col_shift + k) 1 A) (fun A =>
      bind (aset (row_shift + k) (col_shift + nk + k) (-1) A) (fun A =>
      bind (aset (row_shift + k) (col_shift + k + 1) (-1) A) (fun A =>
      aset (row_shift + k) (col_shift + nk + k + 1) 1 A)))) A) A)
  = for_each (flat_map (la_ws (length nnt) nl nk) (la_idx nnt nl nk)) apply1 A.
Proof.
  unfold la_idx. rewrite flat_map_app, for_each_app, !flat_map_map.
  rewrite linear_rows_ops. cbn [la_ws].
  destruct (for_each _ apply1 A) as [A'|e]; cbn [bind]; [|reflexivity].
  unfold add_idx. rewrite for_each_L2. apply for_each_ext. intros [i p] s _.
  cbv zeta. apply for_each_ext. intros k s1 _.
  cbn [la_ws map for_each fst snd]. unfold apply1; cbn [w_r w_c w_v w_add].
  repeat match goal with
  | |- bind (aset ?r ?c ?v ?s) _ = _ =>
      destruct (aset r c v s) as [?m|]; cbn [bind]; [|reflexivity]
  end.
  now rewrite bind_ok.
Qed.

(* Worker effects differ by the same amount at all firm types between the two
   lowest worker types, and are linear in the worker type. *)
Definition additive_at (nl nk : nat) (x : nat -> R) (t : nat) : Prop :=
  forall k, (k + 1 < nk)%nat ->
    eff nl nk x t 1 k - eff nl nk x t 0 k = eff nl nk x t 1 (k + 1) - eff nl nk x t 0 (k + 1).

Lemma la_spec0 nnt nt nl nk :
  (2 <= nl)%nat -> (1 <= nk)%nat -> in_periods nnt nt ->
  exists c, LinearAdditive nnt nt nl nk = Ok c /\ cons_wf (nt * nl * nk) c
    /\ forall x, sat c x <->
         (forall t k, In t nnt -> (k < nk)%nat -> linear_in_l nl nk x t k)
         /\ (forall t, In t nnt -> additive_at nl nk x t).
Proof.
  intros Hnl Hnk Hp. unfold LinearAdditive.
  set (N := (length nnt * ((nl - 2) * nk + (nk - 1)))%nat).
  rewrite (zeros_ok _ _ N (nt * nl * nk)) by (unfold zn, N; nia). cbn [bind].
  match goal with |- exists c, bind ?a ?f = _ /\ _ => idtac end.
  assert (Eprog : forall (A : dmat) (k : dmat -> res cons),
    bind (linear_rows nnt nl nk A) (fun A => bind (for_each (enumerate nnt) (fun ip A =>
    let '(i, period) := ip in
    let row_shift := (length nnt * (nl - 2) * nk + i * (nk - 1))%nat in
    let col_shift := (period * nl * nk)%nat in
    for_each (range (nk - 1)) (fun k A =>
      bind (aset (row_shift + k) (col_shift + k) 1 A) (fun A =>
      bind (aset (row_shift + k) (col_shift + nk + k) (-1) A) (fun A =>
      bind (aset (row_shift + k) (col_shift + k + 1) (-1) A) (fun A =>
      aset (row_shift + k) (col_shift + nk + k + 1) 1 A)))) A) A) k)
    = bind (for_each (flat_map (la_ws (length nnt) nl nk) (la_idx nnt nl nk)) apply1 A) k).
  { intros A k. rewrite <- la_ops. now destruct (linear_rows nnt nl nk A). }
  rewrite Eprog.
  destruct (rows_spec (la_idx nnt nl nk) (la_row (length nnt) nl nk)
              (la_ws (length nnt) nl nk) N (nt * nl * nk)) as (m & E & H1 & H2 & H3).
  - apply la_NoDup.
  - intros [g|[[i p] k]] [g'|[[i' p'] k']] Hg Hg' Er; rewrite In_la in Hg, Hg'.
    + f_equal. eapply lin_inj; eassumption.
    + apply lin_row_lt in Hg. cbn [la_row] in Er. lia.
    + apply lin_row_lt in Hg'. cbn [la_row] in Er. lia.
    + unfold add_idx in *. in_idx. cbn [la_row] in Er.
      assert (Er' : (i * (nk - 1) + k = i' * (nk - 1) + k')%nat) by lia.
      apply mr_inj in Er' as [-> ->]; [|assumption..]. congruence.
  - intros [g|[[i p] k]] Hg; rewrite In_la in Hg.
    + apply lin_row_lt in Hg. cbn [la_row]. unfold N. nia.
    + unfold add_idx in Hg. in_idx. cbn [la_row].
      match goal with H : nth_error nnt i = _ |- _ => apply nth_error_lt in H end.
      unfold N. nia.
  - intros [g|[[i p] k]] w Hg Hw; rewrite In_la in Hg.
    + eapply lin_bound; eassumption.
    + unfold add_idx in Hg. in_idx. cbn [la_ws map fst snd] in Hw.
      assert (Ht : (p < nt)%nat) by (apply Hp; eapply nth_error_In; eassumption).
      pose proof (col_lt nt nl nk p 0 k Ht). pose proof (col_lt nt nl nk p 1 k Ht).
      pose proof (col_lt nt nl nk p 0 (k + 1) Ht).
      pose proof (col_lt nt nl nk p 1 (k + 1) Ht).
      destruct Hw as [<-|[<-|[<-|[<-|[]]]]]; cbn [w_r w_c]; (split; [reflexivity|]); lia.
  - intros [g|[[i p] k]] Hg; rewrite In_la in Hg.
    + eapply lin_fresh; eassumption.
    + unfold add_idx in Hg. in_idx. apply fresh_row. cbn [map fst].
      repeat constructor; cbn [In]; intuition lia.
  - rewrite E; cbn [bind]. eexists; split; [reflexivity|]. split.
    + split; [exact I|]. split; [exact H2|]. apply length_full.
    + intros x. unfold sat; cbn [c_G c_A].
      rewrite (all_eq_gens (la_idx nnt nl nk) (la_row (length nnt) nl nk)
         (fun g x => rsum (map (fun w => w_v w * x (w_c w)) (la_ws (length nnt) nl nk g)))).
      * rewrite <- lin_gens_iff. split.
        -- intros [_ H]. split.
           ++ intros g Hg. apply (H (inl g)). now apply In_la.
           ++ intros t Ht k Hk. apply In_nth_error in Ht as [i Hi].
              assert (Hg : In (inr (i, t, k)) (la_idx nnt nl nk)).
              { apply In_la. unfold add_idx. apply In_L2. rewrite In_enumerate, In_range.
                split; [exact Hi|lia]. }
              specialize (H _ Hg). cbn [la_ws map fst snd w_v w_c rsum] in H.
              unfold eff.
              replace (t * nl * nk + 1 * nk + k)%nat with (t * nl * nk + nk + k)%nat by ring.
              replace (t * nl * nk + 0 * nk + k)%nat with (t * nl * nk + k)%nat by ring.
              replace (t * nl * nk + 1 * nk + (k + 1))%nat
                with (t * nl * nk + nk + k + 1)%nat by ring.
              replace (t * nl * nk + 0 * nk + (k + 1))%nat
                with (t * nl * nk + k + 1)%nat by ring. lra.
        -- intros [Ha Hb]. split; [exact I|]. intros [g|[[i p] k]] Hg; rewrite In_la in Hg.
           ++ now apply Ha.
           ++ unfold add_idx in Hg. in_idx.
              assert (Hin : In p nnt) by (eapply nth_error_In; eassumption).
              specialize (Hb p Hin k ltac:(lia)). unfold eff in Hb.
              replace (p * nl * nk + 1 * nk + k)%nat with (p * nl * nk + nk + k)%nat in Hb by ring.
              replace (p * nl * nk + 0 * nk + k)%nat with (p * nl * nk + k)%nat in Hb by ring.
              replace (p * nl * nk + 1 * nk + (k + 1))%nat
                with (p * nl * nk + nk + k + 1)%nat in Hb by ring.
              replace (p * nl * nk + 0 * nk + (k + 1))%nat
                with (p * nl * nk + k + 1)%nat in Hb by ring.
              cbn [la_ws map fst snd w_v w_c rsum]. lra.
      * intros r Hr. rewrite H1 in Hr. unfold N in Hr.
        destruct (le_lt_dec (length nnt * (nl - 2) * nk) r) as [Hge|Hlt].
        -- set (r' := (r - length nnt * (nl - 2) * nk)%nat).
           assert (Hr' : (r' < length nnt * (nk - 1))%nat) by (unfold r'; nia).
           destruct (mr_decode _ _ _ Hr') as (i & k & Hi & Hk & Er).
           destruct (nth_error nnt i) as [p|] eqn:Ep.
           2:{ apply nth_error_None in Ep. lia. }
           exists (inr (i, p, k)). split.
           ++ apply In_la. unfold add_idx. apply In_L2. rewrite In_enumerate, In_range. auto.
           ++ cbn [la_row]. unfold r' in Er. lia.
        -- destruct (lin_cover nnt nl nk r Hlt) as [g [Hg Eg]].
           exists (inl g). split; [now apply In_la|exact Eg].
      * intros [g|[[i p] k]] Hg; rewrite In_la in Hg; rewrite H1.
        -- apply lin_row_lt in Hg. cbn [la_row]. unfold N. nia.
        -- unfold add_idx in Hg. in_idx. cbn [la_row].
           match goal with H : nth_error nnt i = _ |- _ => apply nth_error_lt in H end.
           unfold N. nia.
      * exact (fun g x Hg => H3 g x Hg).
Qed.

Lemma linear_steps nl nk x t k :
  (2 <= nl)%nat -> linear_in_l nl nk x t k ->
  forall l, (l < nl)%nat ->
    eff nl nk x t l k = eff nl nk x t 0 k + INR l * (eff nl nk x t 1 k - eff nl nk x t 0 k).
Proof.
  intros Hnl H.
  assert (G : forall l, (l + 1 < nl)%nat ->
    eff nl nk x t (l + 1) k - eff nl nk x t l k = eff nl nk x t 1 k - eff nl nk x t 0 k).
  { induction l as [|l IH]; intros Hl; [reflexivity|].
    rewrite <- IH by lia. specialize (H l ltac:(lia)).
    replace (S l + 1)%nat with (l + 2)%nat by lia.
    replace (S l) with (l + 1)%nat by lia. lra. }
  induction l as [|l IH]; intros Hl.
  - simpl. lra.
  - specialize (G l ltac:(lia)). rewrite S_INR. specialize (IH ltac:(lia)).
    replace (S l) with (l + 1)%nat by lia. lra.
Qed.

Lemma linear_additive_iff nl nk x t :
  (2 <= nl)%nat -> (1 <= nk)%nat ->
  ((forall k, (k < nk)%nat -> linear_in_l nl nk x t k) /\ additive_at nl nk x t)
  <-> linear_additive_at nl nk x t.
Proof.
  intros Hnl Hnk. split.
  - intros [Hl Ha]. exists (fun k => eff nl nk x t 0 k), (eff nl nk x t 1 0 - eff nl nk x t 0 0).
    intros l k Hl' Hk.
    assert (E : eff nl nk x t 1 k - eff nl nk x t 0 k = eff nl nk x t 1 0 - eff nl nk x t 0 0).
    { clear Hl' l. induction k as [|k IH]; [reflexivity|].
      rewrite <- IH by lia. specialize (Ha k ltac:(lia)).
      replace (S k) with (k + 1)%nat by lia. lra. }
    rewrite <- E. apply linear_steps; auto.
  - intros (a & d & H). split.
    + intros k Hk l Hl. rewrite !H by lia. rewrite !plus_INR. simpl. lra.
    + intros k Hk. rewrite !H by lia. simpl. lra.
Qed.

Lemma LinearAdditive_spec nnt nt nl nk :
  (2 <= nl)%nat -> (1 <= nk)%nat -> in_periods nnt nt ->
  exists c, LinearAdditive nnt nt nl nk = Ok c /\ cons_wf (nt * nl * nk) c
    /\ forall x, sat c x <-> forall t, In t nnt -> linear_additive_at nl nk x t.
Proof.
  intros Hnl Hnk Hp. destruct (la_spec0 nnt nt nl nk Hnl Hnk Hp) as (c & E & Hw & Hs).
  exists c. split; [exact E|]. split; [exact Hw|]. intros x. rewrite Hs. split.
  - intros [Hl Ha] t Ht. apply linear_additive_iff; auto.
  - intros H. split.
    + intros t k Ht. specialize (H t Ht). apply linear_additive_iff in H as [H _]; auto.
    + intros t Ht. specialize (H t Ht). apply linear_additive_iff in H as [_ H]; auto.
Qed.

Lemma LinearAdditive_one nnt nt nk :
  nnt <> [] -> LinearAdditive nnt nt 1 nk = Err ValueError.
Proof.
  intros Hn. unfold LinearAdditive, zeros, zn.
  assert (0 < length nnt)%nat by (destruct nnt; simpl; [congruence|lia]).
  match goal with |- context [(?a <? 0)%Z] => destruct (Z.ltb_spec a 0) end; [reflexivity|].
  nia.
Qed.

(* ====================== differences of consecutive worker types, shared by
   Monotonic and NoWorkerTypeInteraction *)
Definition dif_idx (nnt : list nat) (nl nk : nat) :=
  L3 (enumerate nnt) (range nk) (range (nl - 1)).
Definition dif_row (nl nk : nat) (g : nat * nat * nat * nat) : nat :=
  let '(i, p, k, l) := g in (i * (nl - 1) * nk + k * (nl - 1) + l)%nat.
Definition dif_ws (nl nk : nat) (g : nat * nat * nat * nat) : list wr :=
  let '(i, p, k, l) := g in
  map (fun q => W (dif_row nl nk g) (fst q) (snd q) false)
    [((p * nl * nk + k * 1 + nk * l)%nat, 1);
     ((p * nl * nk + k * 1 + nk * (l + 1))%nat, -1)].

Definition dif_prog (nnt : list nat) (nl nk : nat) (A : dmat) : res dmat :=
  for_each (enumerate nnt) (fun ip A =>
    let '(i, period) := ip in
    bind (for_each (range nk) (fun k st =>
      let '(A, row_shift, col_shift) := st in
      bind (for_each (range (nl - 1)) (fun l A =>
        bind (aset (row_shift + l) (col_shift + nk * l) 1 A) (fun A =>
        aset (row_shift + l) (col_shift + nk * (l + 1)) (-1) A)) A) (fun A =>
      Ok (A, row_shift + (nl - 1), col_shift + 1)%nat))
      (A, i * (nl - 1) * nk, period * nl * nk)%nat) (fun '(A, _, _) => Ok A)) A.

Lemma dif_ops nnt nl nk A :
  dif_prog nnt nl nk A
  = for_each (flat_map (dif_ws nl nk) (dif_idx nnt nl nk)) apply1 A.
Proof.
  unfold dif_prog, dif_idx. rewrite for_each_L3. apply for_each_ext.
  intros [i p] s _.
  rewrite (shift_loop2 nk (fun k rs cs s => for_each (range (nl - 1)) (fun l A =>
        bind (aset (rs + l) (cs + nk * l) 1 A) (fun A =>
        aset (rs + l) (cs + nk * (l + 1)) (-1) A)) s)).
  match goal with |- bind (bind ?x _) _ = _ => transitivity x; [now destruct x|] end.
  apply for_each_ext. intros k s1 _. apply for_each_ext. intros l s2 _.
  cbn [dif_ws dif_row map for_each fst snd]. unfold apply1; cbn [w_r w_c w_v w_add].
  destruct (aset _ _ 1 s2) as [m|]; cbn [bind]; [|reflexivity].
  now rewrite bind_ok.
Qed.

Lemma dif_sum nl nk (x : nat -> R) i p k l :
  rsum (map (fun w => w_v w * x (w_c w)) (dif_ws nl nk (i, p, k, l)))
  = eff nl nk x p l k - eff nl nk x p (l + 1) k.
Proof.
  cbn [dif_ws map fst snd w_v w_c rsum]. unfold eff.
  replace (p * nl * nk + k * 1 + nk * l)%nat with (p * nl * nk + l * nk + k)%nat by ring.
  replace (p * nl * nk + k * 1 + nk * (l + 1))%nat
    with (p * nl * nk + (l + 1) * nk + k)%nat by ring. lra.
Qed.

Lemma dif_row_lt nnt nl nk g :
  In g (dif_idx nnt nl nk) -> (dif_row nl nk g < length nnt * (nl - 1) * nk)%nat.
Proof.
  destruct g as [[[i p] k] l]. unfold dif_idx. intros Hg. in_idx. cbn [dif_row].
  apply mr3_lt; try assumption. eapply nth_error_lt; eassumption.
Qed.

Lemma dif_cover nnt nl nk r :
  (r < length nnt * (nl - 1) * nk)%nat ->
  exists g, In g (dif_idx nnt nl nk) /\ dif_row nl nk g = r.
Proof.
  intros Hr. destruct (mr3_decode _ _ _ _ Hr) as (i & k & l & Hi & Hk & Hl & ->).
  destruct (nth_error nnt i) as [p|] eqn:Ep.
  2:{ apply nth_error_None in Ep. lia. }
  exists (i, p, k, l). split; [|reflexivity].
  unfold dif_idx. apply In_L3. rewrite In_enumerate, !In_range. auto.
Qed.

Lemma dif_matrix nnt nt nl nk :
  in_periods nnt nt ->
  exists m, dif_prog nnt nl nk
      (mkmat (length nnt * (nl - 1) * nk) (nt * nl * nk) (fun _ _ => 0)) = Ok m
    /\ nr m = (length nnt * (nl - 1) * nk)%nat /\ nc m = (nt * nl * nk)%nat
    /\ forall i p k l x, In (i, p, k, l) (dif_idx nnt nl nk) ->
         rowdot m (dif_row nl nk (i, p, k, l)) x
         = eff nl nk x p l k - eff nl nk x p (l + 1) k.
Proof.
  intros Hp. rewrite dif_ops.
  destruct (rows_spec (dif_idx nnt nl nk) (dif_row nl nk) (dif_ws nl nk)
              (length nnt * (nl - 1) * nk) (nt * nl * nk)) as (m & E & H1 & H2 & H3).
  - apply NoDup_L3; auto using NoDup_enumerate, NoDup_range.
  - intros [[[i p] k] l] [[[i' p'] k'] l'] H H' Er. unfold dif_idx in *.
    in_idx. cbn [dif_row] in Er. apply mr3_inj in Er as (-> & -> & ->); try assumption.
    congruence.
  - intros; now apply dif_row_lt.
  - intros [[[i p] k] l] w Hg Hw. unfold dif_idx in Hg. in_idx.
    assert (Ht : (p < nt)%nat) by (apply Hp; eapply nth_error_In; eassumption).
    cbn [dif_ws map fst snd] in Hw.
    pose proof (col_lt nt nl nk p l k Ht). pose proof (col_lt nt nl nk p (l + 1) k Ht).
    destruct Hw as [<-|[<-|[]]]; cbn [w_r w_c]; (split; [reflexivity|]); nia.
  - intros [[[i p] k] l] Hg. unfold dif_idx in Hg. in_idx. apply fresh_row.
    cbn [map fst]. repeat constructor; cbn [In]; intuition nia.
  - exists m. split; [exact E|]. split; [exact H1|]. split; [exact H2|].
    intros i p k l x Hg. rewrite H3 by exact Hg. apply dif_sum.
Qed.

(* NoWorkerTypeInteraction *)
Lemma NoWTI_spec nnt nt nl nk :
  (1 <= nl)%nat -> in_periods nnt nt ->
  exists c, NoWorkerTypeInteraction nnt nt nl nk = Ok c /\ cons_wf (nt * nl * nk) c
    /\ forall x, sat c x <->
         forall t k l l', In t nnt -> (k < nk)%nat -> (l < nl)%nat -> (l' < nl)%nat ->
           eff nl nk x t l k = eff nl nk x t l' k.
Proof.
  intros Hnl Hp. unfold NoWorkerTypeInteraction.
  rewrite (zeros_ok _ _ (length nnt * (nl - 1) * nk) (nt * nl * nk))
    by (unfold zn; nia). cbn [bind].
  destruct (dif_matrix nnt nt nl nk Hp) as (m & E & H1 & H2 & H3).
  unfold dif_prog in E. rewrite E. cbn [bind].
  eexists; split; [reflexivity|]. split.
  - split; [exact I|]. split; [exact H2|]. apply length_full.
  - intros x. unfold sat; cbn [c_G c_A].
    rewrite (all_eq_gens (dif_idx nnt nl nk) (dif_row nl nk)
       (fun g x => let '(i, p, k, l) := g in
          eff nl nk x p l k - eff nl nk x p (l + 1) k)).
    + split.
      * intros [_ H] t k.
        assert (G : forall l, In t nnt -> (k < nk)%nat -> (l < nl)%nat ->
                      eff nl nk x t l k = eff nl nk x t 0 k).
        { intros l Ht Hk. apply In_nth_error in Ht as [i Hi].
          induction l as [|l IH]; intros Hl; [reflexivity|].
          rewrite <- IH by lia. specialize (H (i, t, k, l)). cbv beta iota in H.
          replace (S l) with (l + 1)%nat by lia.
          assert (eff nl nk x t l k - eff nl nk x t (l + 1) k = 0); [|lra].
          apply H. unfold dif_idx. apply In_L3. rewrite In_enumerate, !In_range.
          repeat split; try assumption; lia. }
        intros l l' Ht Hk Hl Hl'. rewrite (G l), (G l') by assumption. reflexivity.
      * intros H. split; [exact I|]. intros [[[i p] k] l] Hg. unfold dif_idx in Hg. in_idx.
        rewrite (H p k l (l + 1)%nat); [lra|eapply nth_error_In; eassumption|assumption|lia|lia].
    + intros r Hr. apply dif_cover. lia.
    + intros g Hg. rewrite H1. now apply dif_row_lt.
    + intros [[[i p] k] l] y Hg. now apply H3.
Qed.

(* Monotonic *)
Lemma for_each_map {A B St} (f : A -> B) (g : B -> St -> res St) l s :
  for_each (map f l) g s = for_each l (fun x => g (f x)) s.
Proof.
  revert s; induction l as [|x l IH]; intros s; simpl; [reflexivity|].
  destruct (g (f x) s); simpl; [apply IH|reflexivity].
Qed.

Lemma enumerate_range n : enumerate (range n) = map (fun i => (i, i)) (range n).
Proof.
  unfold enumerate, range. rewrite seq_length.
  generalize 0%nat. induction n as [|n IH]; intros k; simpl; [reflexivity|]. now rewrite IH.
Qed.

Lemma in_periods_range nt : in_periods (range nt) nt.
Proof. intros t Ht. now apply In_range. Qed.

Lemma length_range n : length (range n) = n.
Proof. apply seq_length. Qed.

Lemma Monotonic_spec md inc nt nl nk :
  (1 <= nl)%nat ->
  exists c, Monotonic md inc nt nl nk = Ok c /\ cons_wf (nt * nl * nk) c
    /\ forall x, sat c x <->
         forall t k l, (t < nt)%nat -> (k < nk)%nat -> (l + 1 < nl)%nat ->
           if inc then eff nl nk x t (l + 1) k >= eff nl nk x t l k + md
           else eff nl nk x t (l + 1) k <= eff nl nk x t l k - md.
Proof.
  intros Hnl. unfold Monotonic.
  rewrite (zeros_ok _ _ (nt * (nl - 1) * nk) (nt * nl * nk)) by (unfold zn; nia).
  cbn [bind].
  destruct (dif_matrix (range nt) nt nl nk (in_periods_range nt)) as (m & E & H1 & H2 & H3).
  unfold dif_prog in E. rewrite enumerate_range, for_each_map, length_range in E.
  rewrite length_range in H1.
  match goal with |- exists c, bind ?p ?f = _ /\ _ =>
    assert (Ep : p = Ok m) by exact E end.
  rewrite Ep. cbn [bind].
  eexists; split; [reflexivity|]. split.
  - split; [|exact I]. cbn [c_G half_wf]. rewrite nc_flip, nr_flip. split; [exact H2|].
    apply length_full.
  - intros x. unfold sat; cbn [c_G c_A]. rewrite <- (nr_flip (negb inc) m).
    rewrite (all_le_gens (dif_idx (range nt) nl nk) (dif_row nl nk)
       (fun g x => let '(i, p, k, l) := g in
          if inc then eff nl nk x p l k - eff nl nk x p (l + 1) k
          else - (eff nl nk x p l k - eff nl nk x p (l + 1) k))).
    + split.
      * intros [H _] t k l Ht Hk Hl. specialize (H (t, t, k, l)). cbv beta iota in H.
        assert (Hg : In (t, t, k, l) (dif_idx (range nt) nl nk)).
        { unfold dif_idx. apply In_L3. rewrite In_enumerate, !In_range.
          rewrite nth_error_range by exact Ht. repeat split; auto; lia. }
        specialize (H Hg). destruct inc; lra.
      * intros H. split; [|exact I]. intros [[[i p] k] l] Hg. unfold dif_idx in Hg. in_idx.
        assert (Hp : (p < nt)%nat).
        { apply In_range. eapply nth_error_In; eassumption. }
        specialize (H p k l Hp ltac:(assumption) ltac:(lia)). destruct inc; lra.
    + intros r Hr. rewrite nr_flip, H1 in Hr. apply dif_cover. rewrite length_range. exact Hr.
    + intros g Hg. rewrite nr_flip, H1. apply dif_row_lt in Hg. now rewrite length_range in Hg.
    + intros [[[i p] k] l] y Hg. rewrite rowdot_flip, H3 by exact Hg. now destruct inc.
Qed.

(* ============================================================= Stationary *)
Definition st_idx (nt nla nk : nat) := L3 (range (nt - 1)) (range nk) (range nla).
Definition st_row (nla nk : nat) (g : nat * nat * nat) : nat :=
  let '(t, k, l) := g in (t * nla * nk + k * nla + l)%nat.
Definition st_ws (nla nl nk : nat) (g : nat * nat * nat) : list wr :=
  let '(t, k, l) := g in
  map (fun q => W (st_row nla nk g) (fst q) (snd q) false)
    [((t * nl * nk + nl * k + l)%nat, 1);
     ((t * nl * nk + nl * nk + nl * k + l)%nat, -1)].

Lemma st_ops nt nla nl nk A :
  for_each (range (nt - 1)) (fun period A =>
    let col_shift := (period * nl * nk)%nat in
    bind (for_each (range nk) (fun k st =>
      let '(A, row_shift) := st in
      bind (for_each (range nla) (fun l A =>
        bind (aset (row_shift + k + l) (col_shift + nl * k + l) 1 A) (fun A =>
        aset (row_shift + k + l) (col_shift + nl * nk + nl * k + l) (-1) A)) A) (fun A =>
      Ok (A, row_shift + (nla - 1))%nat))
      (A, period * nla * nk)%nat) (fun '(A, _) =>
    Ok A)) A
  = for_each (flat_map (st_ws nla nl nk) (st_idx nt nla nk)) apply1 A.
Proof.
  unfold st_idx. rewrite for_each_L3. apply for_each_ext. intros t s _. cbv zeta.
  rewrite (shift_loop1 nk (fun k rs s => for_each (range nla) (fun l A =>
        bind (aset (rs + k + l) (t * nl * nk + nl * k + l) 1 A) (fun A =>
        aset (rs + k + l) (t * nl * nk + nl * nk + nl * k + l) (-1) A)) s)).
  match goal with |- bind (bind ?x _) _ = _ => transitivity x; [now destruct x|] end.
  apply for_each_ext. intros k s1 _. apply for_each_ext. intros l s2 Hl.
  apply In_range in Hl.
  replace (t * nla * nk + k * (nla - 1) + k + l)%nat with (st_row nla nk (t, k, l))
    by (cbn [st_row]; nia).
  cbn [st_ws map for_each fst snd]. unfold apply1; cbn [w_r w_c w_v w_add].
  destruct (aset _ _ 1 s2) as [m|]; cbn [bind]; [|reflexivity].
  now rewrite bind_ok.
Qed.

(* The exact meaning of Stationary(nwt): it constrains the flat positions
   nl * k + l of each period with l below the adjusted number of types. *)
Lemma Stationary_raw nwt nt nl nk :
  (nwt = -1 \/ 1 <= nwt)%Z -> (1 <= nt)%nat ->
  let nla := if (nwt =? -1)%Z then nl else Nat.min nl (Z.to_nat nwt) in
  exists c, Stationary nwt nt nl nk = Ok c /\ cons_wf (nt * nl * nk) c
    /\ forall x, sat c x <->
         forall t k l, (t + 1 < nt)%nat -> (k < nk)%nat -> (l < nla)%nat ->
           x (t * nl * nk + (nl * k + l))%nat = x ((t + 1) * nl * nk + (nl * k + l))%nat.
Proof.
  intros Hnwt Hnt nla. unfold Stationary.
  destruct ((nwt <? -1) || (nwt =? 0))%Z eqn:Eb.
  { exfalso. destruct (Z.ltb_spec nwt (-1)); [lia|]. destruct (Z.eqb_spec nwt 0); [lia|].
    discriminate. }
  cbv zeta. change (if (nwt =? -1)%Z then nl else Nat.min nl (Z.to_nat nwt)) with nla.
  assert (Hnla : (nla <= nl)%nat) by (unfold nla; destruct (nwt =? -1)%Z; lia).
  rewrite (zeros_ok _ _ ((nt - 1) * nla * nk) (nt * nl * nk)) by (unfold zn; nia).
  cbn [bind].
  destruct (rows_spec (st_idx nt nla nk) (st_row nla nk) (st_ws nla nl nk)
              ((nt - 1) * nla * nk) (nt * nl * nk)) as (m & E & H1 & H2 & H3).
  - apply NoDup_L3; apply NoDup_range.
  - intros [[t k] l] [[t' k'] l'] H H' Er. unfold st_idx in *. in_idx.
    cbn [st_row] in Er. apply mr3_inj in Er as (-> & -> & ->); try assumption. reflexivity.
  - intros [[t k] l] H. unfold st_idx in H. in_idx. cbn [st_row]. now apply mr3_lt.
  - intros [[t k] l] w H Hw. unfold st_idx in H. in_idx.
    cbn [st_ws map fst snd] in Hw.
    assert (Hc : (nl * k + l < nl * nk)%nat).
    { rewrite (Nat.mul_comm nl k), (Nat.mul_comm nl nk). apply mr_lt; lia. }
    destruct Hw as [<-|[<-|[]]]; cbn [w_r w_c]; (split; [reflexivity|]).
    + replace (t * nl * nk + nl * k + l)%nat with (t * (nl * nk) + (nl * k + l))%nat by ring.
      replace (nt * nl * nk)%nat with (nt * (nl * nk))%nat by ring.
      apply mr_lt; lia.
    + replace (t * nl * nk + nl * nk + nl * k + l)%nat
        with ((t + 1) * (nl * nk) + (nl * k + l))%nat by ring.
      replace (nt * nl * nk)%nat with (nt * (nl * nk))%nat by ring.
      apply mr_lt; lia.
  - intros [[t k] l] H. unfold st_idx in H. in_idx. apply fresh_row.
    cbn [map fst]. repeat constructor; cbn [In]; intuition nia.
  - rewrite st_ops, E. cbn [bind]. eexists; split; [reflexivity|]. split.
    + split; [exact I|]. split; [exact H2|]. apply length_full.
    + intros x. unfold sat; cbn [c_G c_A].
      rewrite (all_eq_gens (st_idx nt nla nk) (st_row nla nk)
         (fun g x => rsum (map (fun w => w_v w * x (w_c w)) (st_ws nla nl nk g)))).
      * assert (S : forall t k l, rsum (map (fun w => w_v w * x (w_c w)) (st_ws nla nl nk (t, k, l)))
           = x (t * nl * nk + (nl * k + l))%nat - x ((t + 1) * nl * nk + (nl * k + l))%nat).
        { intros t k l. cbn [st_ws map fst snd w_v w_c rsum].
          replace (t * nl * nk + nl * k + l)%nat with (t * nl * nk + (nl * k + l))%nat by ring.
          replace (t * nl * nk + nl * nk + nl * k + l)%nat
            with ((t + 1) * nl * nk + (nl * k + l))%nat by ring. lra. }
        split.
        -- intros [_ H] t k l Ht Hk Hl. specialize (H (t, k, l)). rewrite S in H.
           assert (x (t * nl * nk + (nl * k + l))%nat - x ((t + 1) * nl * nk + (nl * k + l))%nat = 0);
             [|lra].
           apply H. unfold st_idx. apply In_L3. rewrite !In_range. repeat split; lia.
        -- intros H. split; [exact I|]. intros [[t k] l] Hg. rewrite S.
           unfold st_idx in Hg. in_idx. rewrite (H t k l) by lia. lra.
      * intros r Hr. rewrite H1 in Hr.
        destruct (mr3_decode _ _ _ _ Hr) as (t & k & l & Ht & Hk & Hl & ->).
        exists (t, k, l). split; [|reflexivity]. unfold st_idx. apply In_L3. now rewrite !In_range.
      * intros [[t k] l] H. unfold st_idx in H. in_idx. rewrite H1. cbn [st_row]. now apply mr3_lt.
      * exact (fun g x Hg => H3 g x Hg).
Qed.

(* All worker types constrained: every position of a period is reached. *)
Lemma Stationary_all nwt nt nl nk :
  (nwt = -1 \/ Z.of_nat nl <= nwt)%Z -> (1 <= nt)%nat -> (1 <= nl)%nat ->
  exists c, Stationary nwt nt nl nk = Ok c /\ cons_wf (nt * nl * nk) c
    /\ forall x, sat c x <-> stationary nt nl nk x.
Proof.
  intros Hnwt Hnt Hnl.
  destruct (Stationary_raw nwt nt nl nk) as (c & E & Hw & Hs); [lia|exact Hnt|].
  exists c. split; [exact E|]. split; [exact Hw|]. intros x. rewrite Hs.
  assert (Hnla : (if (nwt =? -1)%Z then nl else Nat.min nl (Z.to_nat nwt)) = nl).
  { destruct (Z.eqb_spec nwt (-1)); lia. }
  rewrite Hnla. unfold stationary, eff. split.
  - intros H t l k Ht Hl Hk.
    assert (Hc : (l * nk + k < nk * nl)%nat) by (rewrite (Nat.mul_comm nk nl); apply mr_lt; assumption).
    destruct (mr_decode nk nl _ Hc) as (k' & l' & Hk' & Hl' & Ec).
    specialize (H t k' l' Ht Hk' Hl').
    replace (nl * k' + l')%nat with (l * nk + k)%nat in H by lia.
    now rewrite !Nat.add_assoc in H.
  - intros H t k l Ht Hk Hl.
    assert (Hc : (nl * k + l < nl * nk)%nat).
    { rewrite (Nat.mul_comm nl k), (Nat.mul_comm nl nk). apply mr_lt; assumption. }
    destruct (mr_decode nl nk _ Hc) as (l' & k' & Hl' & Hk' & Ec).
    specialize (H t l' k' Ht Hl' Hk').
    rewrite Ec, !Nat.add_assoc. exact H.
Qed.

(* ================================================================= bounds *)
Lemma rowdot_eye n r x : (r < n)%nat -> rowdot (eye n) r x = x r.
Proof.
  intros Hr. unfold rowdot; cbn [nc eye ent].
  rewrite (sumn_single n r).
  - rewrite Nat.eqb_refl. lra.
  - exact Hr.
  - intros i _ Hi. destruct (Nat.eqb_spec r i); [congruence|lra].
Qed.

Lemma BoundedBelow_spec lb nt nl nk :
  exists c, BoundedBelow lb nt nl nk = Ok c /\ cons_wf (nt * nl * nk) c
    /\ forall x, sat c x <->
         forall t l k, (t < nt)%nat -> (l < nl)%nat -> (k < nk)%nat -> lb <= eff nl nk x t l k.
Proof.
  eexists; split; [reflexivity|]. split.
  - split; [|exact I]. split; [reflexivity|]. apply length_full.
  - intros x. unfold sat, all_le; cbn [c_G c_A nr scal_mat eye]. split.
    + intros [H _] t l k Ht Hl Hk. unfold eff.
      pose proof (col_lt nt nl nk t l k Ht Hl Hk) as Hc. specialize (H _ Hc).
      rewrite rowdot_scal, rowdot_eye, nth_full in H by exact Hc. lra.
    + intros H. split; [|exact I]. intros r Hr.
      destruct (mr_decode (nt * nl) nk r Hr) as (q & k & Hq & Hk & ->).
      destruct (mr_decode nt nl q Hq) as (t & l & Ht & Hl & ->).
      rewrite rowdot_scal, rowdot_eye, nth_full by exact Hr.
      specialize (H t l k Ht Hl Hk). unfold eff in H.
      replace ((t * nl + l) * nk + k)%nat with (t * nl * nk + l * nk + k)%nat by ring. lra.
Qed.

Lemma BoundedAbove_spec ub nt nl nk :
  exists c, BoundedAbove ub nt nl nk = Ok c /\ cons_wf (nt * nl * nk) c
    /\ forall x, sat c x <->
         forall t l k, (t < nt)%nat -> (l < nl)%nat -> (k < nk)%nat -> eff nl nk x t l k <= ub.
Proof.
  eexists; split; [reflexivity|]. split.
  - split; [|exact I]. split; [reflexivity|]. apply length_full.
  - intros x. unfold sat, all_le; cbn [c_G c_A nr eye]. split.
    + intros [H _] t l k Ht Hl Hk. unfold eff.
      pose proof (col_lt nt nl nk t l k Ht Hl Hk) as Hc. specialize (H _ Hc).
      now rewrite rowdot_eye, nth_full in H by exact Hc.
    + intros H. split; [|exact I]. intros r Hr.
      destruct (mr_decode (nt * nl) nk r Hr) as (q & k & Hq & Hk & ->).
      destruct (mr_decode nt nl q Hq) as (t & l & Ht & Hl & ->).
      rewrite rowdot_eye, nth_full by exact Hr.
      specialize (H t l k Ht Hl Hk). unfold eff in H.
      replace ((t * nl + l) * nk + k)%nat with (t * nl * nk + l * nk + k)%nat by ring. lra.
Qed.
