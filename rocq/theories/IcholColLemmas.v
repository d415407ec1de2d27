(* Lemmas about one column of the incomplete Cholesky decomposition: the walk along
   the linked list and the emission of the column. *)
From Coq Require Import Permutation Sorted.
From Verif Require Import Base BaseLemmas IcholModel IcholSpec IcholLemmas.
Local Open Scope R_scope.
Local Open Scope nat_scope.

(* ---- finished columns ---- *)
Record cols (n j : nat) (r p : nat -> nat) : Prop := {
  c_zero : p 0 = 0;
  c_lt : forall k, k < j -> p k < p (k + 1);
  c_diag : forall k, k < j -> r (p k) = k;
  c_row : forall k idx, k < j -> p k < idx -> idx < p (k + 1) -> k < r idx /\ r idx < n;
  c_inc : forall k a b, k < j -> p k <= a -> a < b -> b < p (k + 1) -> r a < r b }.

Lemma cols_le n j r p k m : cols n j r p -> k <= m -> m <= j -> p k <= p m.
Proof.
  intros C H; induction H as [|m H IH]; intros Hj; [lia|].
  pose proof (c_lt _ _ _ _ C m ltac:(lia)) as M. replace (m + 1) with (S m) in M by lia.
  specialize (IH ltac:(lia)); lia.
Qed.

(* the element (i, k) of the finished columns *)
Definition mcol (v : nat -> R) (r p : nat -> nat) (i k : nat) : R := colsum v r (p k) (p (k + 1)) i.

Lemma mcol_at n j v r p k idx : cols n j r p -> k < j -> p k <= idx < p (k + 1) ->
  mcol v r p (r idx) k = v idx.
Proof. intros C Hk H. apply colsum_at; [assumption|]. intros; now apply (c_inc _ _ _ _ C k). Qed.
Lemma mcol_lower n j v r p i k : cols n j r p -> k < j -> i < k -> mcol v r p i k = 0%R.
Proof.
  intros C Hk H. apply colsum_zero. intros idx Hi.
  destruct (Nat.eq_dec idx (p k)) as [->|Hne]; [rewrite (c_diag _ _ _ _ C) by assumption; lia|].
  destruct (c_row _ _ _ _ C k idx Hk) as [? _]; lia.
Qed.
Lemma mcol_nonzero n j v r p i k : cols n j r p -> k < j -> mcol v r p i k <> 0%R ->
  exists idx, p k <= idx < p (k + 1) /\ r idx = i.
Proof.
  intros C Hk H.
  destruct (in_dec Nat.eq_dec i (map r (range2 (p k) (p (k + 1))))) as [Hi|Hi].
  - apply in_map_iff in Hi. destruct Hi as [idx [E Hi]]. apply in_range2 in Hi. eauto.
  - exfalso; apply H, colsum_zero. intros idx Hx E. apply Hi, in_map_iff. exists idx; split; [assumption|].
    now apply in_range2.
Qed.

(* ---- linked lists ---- *)
Fixpoint chain (l : nat -> option nat) (h : option nat) (ch : list nat) : Prop :=
  match ch with
  | [] => h = None
  | k :: ch' => h = Some k /\ chain l (l k) ch'
  end.
Lemma chain_ext l l' h ch : (forall k, In k ch -> l k = l' k) -> chain l h ch -> chain l' h ch.
Proof.
  revert h; induction ch as [|k ch IH]; intros h E C; [exact C|].
  destruct C as [-> C]; split; [reflexivity|]. rewrite <- E by (now left).
  apply IH; [|assumption]. intros; apply E; now right.
Qed.

(* column k is in the list of row i *)
Definition at_row (j : nat) (r p s : nat -> nat) (i k : nat) : Prop :=
  k < j /\ s k < p (k + 1) /\ r (s k) = i.
Definition lists (n j j0 : nat) (r p s : nat -> nat) (l : nat -> option nat) : Prop :=
  forall i, j0 <= i -> i < n ->
  exists ch, chain l (l i) ch /\ NoDup ch /\ forall k, In k ch <-> at_row j r p s i k.

(* how far the columns before j have been used when rows before j0 are done *)
Record used (j j0 : nat) (r p s : nat -> nat) : Prop := {
  u_lo : forall k, k < j -> p k < s k;
  u_hi : forall k, k < j -> s k <= p (k + 1);
  u_before : forall k idx, k < j -> p k < idx -> idx < s k -> r idx < j0;
  u_next : forall k, k < j -> s k < p (k + 1) -> j0 <= r (s k) \/ s k + 1 = p (k + 1) }.

Section Walk.
Variables (n j max : nat) (Lv : arr R) (Lr Lp : arr nat).
Notation v := (aval Lv).
Notation r := (aval Lr).
Notation p := (aval Lp).
Hypothesis C : cols n j r p.
Hypothesis Hj : j < n.
Hypothesis lenp : alen Lp = n + 1.
Hypothesis lenv : p j <= alen Lv.
Hypothesis lenr : p j <= alen Lr.

(* the state of the walk when the columns of [rest] remain *)
Definition walking (w0 : nat -> R) (done rest : list nat) (h : option nat)
    (s : arr nat) (l : arr (option nat)) (w : work) : Prop :=
  (alen s = n /\ alen l = n) /\
  (wok n j w /\ supp n w) /\
  chain (aval l) h rest /\
  NoDup (done ++ rest) /\
  (forall k, In k rest -> at_row j r p (aval s) j k) /\
  lists n j (j + 1) r p (aval s) (aval l) /\
  (forall k, k < j -> p k < aval s k) /\
  (forall k, k < j -> aval s k <= p (k + 1)) /\
  (forall k idx, k < j -> p k < idx -> idx < aval s k -> r idx < j + 1) /\
  (forall k, k < j -> ~ In k rest -> aval s k < p (k + 1) ->
     j + 1 <= r (aval s k) \/ aval s k + 1 = p (k + 1)) /\
  (forall i, i < n -> aval (wa w) i =
     (w0 i - rsum (map (fun k => if j <? i then mcol v r p i k * mcol v r p j k else 0) done))%R).

Lemma walk_ok w0 rest : forall done h s l w fuel,
  length rest < fuel -> walking w0 done rest h s l w ->
  exists s' l' w', walk fuel Lv Lr Lp h (s, l, w) = Ok (s', l', w') /\
    walking w0 (done ++ rest) [] None s' l' w'.
Proof.
  induction rest as [|k rest IH]; intros done h s l w fuel Hf H.
  - destruct H as [H1 [H2 [H3 H4]]]. simpl in H3; subst h. destruct fuel; [simpl in Hf; lia|].
    exists s, l, w. split; [reflexivity|]. rewrite app_nil_r in *. split; [assumption|].
    split; [assumption|]. split; [reflexivity|]. rewrite ?app_nil_r. exact H4.
  - destruct fuel as [|fuel]; [simpl in Hf; lia|].
    destruct H as [[Hs Hl] [[W U] [[Eh Ch] [ND [Hrest [Hls [Hlo [Hhi [Hbef [Hnext Hw]]]]]]]]]]. subst h.
    destruct (Hrest k (or_introl eq_refl)) as [Hk [Hk1 Hk2]].
    pose proof (cols_le _ _ _ _ (k + 1) j C ltac:(lia) ltac:(lia)) as Hpj.
    pose proof (Hlo k Hk) as Hlok.
    assert (Hknr : ~ In k rest /\ ~ In k done).
    { apply NoDup_remove in ND. rewrite in_app_iff in ND. tauto. }
    destruct Hknr as [Hknr Hknd].
    assert (Ejk : v (aval s k) = mcol v r p j k).
    { rewrite <- Hk2. symmetry. apply (mcol_at n j); [assumption|assumption|lia]. }
    assert (Msum : forall i, i < n -> mcol v r p i k =
              (colsum v r (aval s k + 1) (p (k + 1)) i + (if j <? i then 0 else mcol v r p i k))%R).
    { intros i Hi. destruct (Nat.ltb_spec j i) as [Hji|Hji].
      - unfold mcol. rewrite (colsum_split _ _ _ (aval s k + 1)) by lia.
        rewrite (colsum_zero _ _ (p k)); [ring|]. intros idx Hx.
        destruct (Nat.eq_dec idx (aval s k)) as [->|]; [lia|].
        pose proof (c_inc _ _ _ _ C k idx (aval s k) Hk ltac:(lia) ltac:(lia) ltac:(lia)). lia.
      - rewrite (colsum_zero _ _ (aval s k + 1)); [ring|]. intros idx Hx.
        pose proof (c_inc _ _ _ _ C k (aval s k) idx Hk ltac:(lia) ltac:(lia) ltac:(lia)). lia. }
    cbn [walk]. run. rewrite Ejk.
    destruct (Nat.ltb_spec (aval s k + 1) (p (k + 1))) as [Hmore|Hlast].
    + (* there is a next element *)
      run. set (i0 := r (aval s k + 1)).
      destruct (c_row _ _ _ _ C k (aval s k + 1) Hk ltac:(lia) Hmore) as [_ Hi0]. fold i0 in Hi0.
      assert (Hi0j : j < i0).
      { pose proof (c_inc _ _ _ _ C k (aval s k) (aval s k + 1) Hk ltac:(lia) ltac:(lia) ltac:(lia)).
        unfold i0; lia. }
      run.
      destruct (update_ok n j Lv Lr (aval s k + 1) (p (k + 1)) (mcol v r p j k) w)
        as [w' [Ew [W' [U' Iw]]]]; auto; try lia.
      { intros idx Hx. pose proof (c_inc _ _ _ _ C k (aval s k) idx Hk ltac:(lia) ltac:(lia) ltac:(lia)).
        destruct (c_row _ _ _ _ C k idx Hk ltac:(lia) ltac:(lia)). lia. }
      rewrite Ew. cbn [bind].
      set (s' := upd s k (aval s k + 1)).
      set (l' := upd (upd l k (aval l i0)) i0 (Some k)).
      destruct (IH (done ++ [k]) (aval l k) s' l' w' fuel) as [s2 [l2 [w2 [E2 H2]]]].
      * simpl in Hf; lia.
      * assert (Lk : aval l' k = aval l i0).
        { unfold l'. rewrite upd_neq by lia. apply upd_eq. }
        assert (Li : aval l' i0 = Some k) by (unfold l'; apply upd_eq).
        assert (Lo : forall m, m <> k -> m <> i0 -> aval l' m = aval l m).
        { intros m M1 M2. unfold l'. now rewrite !upd_neq by assumption. }
        assert (Sk : aval s' k = aval s k + 1) by apply upd_eq.
        assert (So : forall m, m <> k -> aval s' m = aval s m) by (intros; now apply upd_neq).
        assert (So' : forall m i, m <> k -> at_row j r p (aval s') i m <-> at_row j r p (aval s) i m).
        { intros m i Hm. unfold at_row. rewrite So by assumption. tauto. }
        split; [split; assumption|]. split; [split; assumption|].
        split.
        { apply chain_ext with (l := aval l); [|exact Ch]. intros m Hm. symmetry. apply Lo.
          - intros ->; contradiction.
          - destruct (Hrest m (or_intror Hm)) as [? _]. lia. }
        split; [now rewrite <- app_assoc|].
        split.
        { intros m Hm. rewrite So'; [apply Hrest; now right|intros ->; contradiction]. }
        split.
        { intros i Hji Hi. destruct (Hls i Hji Hi) as [ch [Cc [Nc Mc]]].
          assert (Hkc : ~ In k ch) by (rewrite Mc; unfold at_row; lia).
          assert (Hsmall : forall m, In m ch -> m < j) by (intros m Hm; apply Mc in Hm; apply Hm).
          assert (Cc' : chain (aval l') (aval l i) ch).
          { apply chain_ext with (l := aval l); [|exact Cc]. intros m Hm. symmetry; apply Lo.
            - intros ->; contradiction.
            - pose proof (Hsmall m Hm). lia. }
          destruct (Nat.eq_dec i i0) as [->|Hne].
          - exists (k :: ch). split; [|split].
            + split; [assumption|]. rewrite Lk. assumption.
            + constructor; assumption.
            + intros m. cbn [In]. destruct (Nat.eq_dec m k) as [->|Hmk].
              * split; [|auto]. intros _. unfold at_row. rewrite Sk. auto.
              * rewrite So', <- Mc by assumption. intuition congruence.
          - exists ch. split; [|split; [assumption|]].
            + rewrite Lo; [assumption|lia|assumption].
            + intros m. destruct (Nat.eq_dec m k) as [->|Hmk].
              * split; [contradiction|]. unfold at_row. rewrite Sk. intros [_ [_ Q]].
                exfalso; apply Hne; unfold i0; now rewrite Q.
              * rewrite So' by assumption. apply Mc. }
        split.
        { intros m Hm. destruct (Nat.eq_dec m k) as [->|]; [rewrite Sk; lia|rewrite So by assumption; auto]. }
        split.
        { intros m Hm. destruct (Nat.eq_dec m k) as [->|]; [rewrite Sk; lia|rewrite So by assumption; auto]. }
        split.
        { intros m idx Hm. destruct (Nat.eq_dec m k) as [->|].
          - rewrite Sk. intros Q1 Q2. destruct (Nat.eq_dec idx (aval s k)) as [->|]; [lia|].
            apply (Hbef k); auto; lia.
          - rewrite So by assumption. apply Hbef; assumption. }
        split.
        { intros m Hm Hmr. destruct (Nat.eq_dec m k) as [->|].
          - rewrite Sk. intros _. left. fold i0. lia.
          - rewrite So by assumption. apply Hnext; [assumption|]. intros [->|]; [congruence|contradiction]. }
        { intros i Hi. rewrite Iw, Hw by assumption. rewrite map_app, rsum_app. cbn [map rsum].
          pose proof (Msum i Hi) as Q. destruct (Nat.ltb_spec j i) as [Hji|Hji].
          - rewrite Q. ring.
          - rewrite (colsum_zero _ _ (aval s k + 1)); [ring|]. intros idx Hx.
            pose proof (c_inc _ _ _ _ C k (aval s k) idx Hk ltac:(lia) ltac:(lia) ltac:(lia)). lia. }
      * exists s2, l2, w2. split; [exact E2|]. now rewrite <- app_assoc in H2.
    + (* the column is exhausted *)
      cbn [bind].
      destruct (IH (done ++ [k]) (aval l k) s l w fuel) as [s2 [l2 [w2 [E2 H2]]]].
      * simpl in Hf; lia.
      * split; [split; assumption|]. split; [split; assumption|]. split; [exact Ch|].
        split; [now rewrite <- app_assoc|]. split; [intros m Hm; apply Hrest; now right|].
        split; [assumption|]. split; [assumption|]. split; [assumption|].
        split; [assumption|]. split.
        { intros m Hm Hmr Q. destruct (Nat.eq_dec m k) as [->|]; [right; lia|].
          apply Hnext; [assumption| |assumption]. intros [->|]; [congruence|contradiction]. }
        { intros i Hi. rewrite Hw by assumption. rewrite map_app, rsum_app. cbn [map rsum].
          pose proof (Msum i Hi) as Q. destruct (Nat.ltb_spec j i) as [Hji|Hji]; [|ring].
          rewrite Q, (colsum_zero _ _ (aval s k + 1)); [ring|]. intros; lia. }
      * exists s2, l2, w2. split; [exact E2|]. now rewrite <- app_assoc in H2.
Qed.
End Walk.

(* a sum along a list without repetition *)
Lemma rsum_list_sumn j (f : nat -> R) l : NoDup l -> (forall k, In k l -> k < j) ->
  (forall k, k < j -> ~ In k l -> f k = 0%R) -> rsum (map f l) = sumn j f.
Proof.
  intros N B Z.
  transitivity (sumn j (fun k => if in_dec Nat.eq_dec k l then f k else 0%R)).
  - clear Z. induction l as [|k l IH]; [symmetry; apply sumn_zero; reflexivity|].
    inversion N as [|? ? Nk Nl]; subst. cbn [map rsum]. rewrite IH by (auto; intros; apply B; now right).
    assert (Q : f k = sumn j (fun i => if i =? k then f i else 0%R)).
    { rewrite (sumn_single j k); [now rewrite Nat.eqb_refl|apply B; now left|].
      intros i _ Hne. now destruct (Nat.eqb_spec i k). }
    rewrite Q, <- sumn_plus; clear Q. apply sumn_ext. intros i Hi.
    destruct (Nat.eqb_spec i k) as [->|Hne].
    + destruct (in_dec Nat.eq_dec k l) as [|]; [contradiction|].
      destruct (in_dec Nat.eq_dec k (k :: l)) as [|Q]; [ring|destruct Q; now left].
    + destruct (in_dec Nat.eq_dec i l) as [Q|Q], (in_dec Nat.eq_dec i (k :: l)) as [Q'|Q']; try ring.
      * destruct Q'; now right.
      * destruct Q' as [->|]; [congruence|contradiction].
  - apply sumn_ext. intros i Hi. destruct (in_dec Nat.eq_dec i l); [reflexivity|]. symmetry; now apply Z.
Qed.

(* 60-80 as a whole *)
Lemma walk_all n j Lv Lr Lp (w0 : nat -> R) s l w :
  cols n j (aval Lr) (aval Lp) -> j < n -> alen Lp = n + 1 ->
  aval Lp j <= alen Lv -> aval Lp j <= alen Lr ->
  alen s = n -> alen l = n -> wok n j w -> supp n w ->
  used j j (aval Lr) (aval Lp) (aval s) -> lists n j j (aval Lr) (aval Lp) (aval s) (aval l) ->
  (forall i, i < n -> aval (wa w) i = w0 i) ->
  exists s' l' w', walk (S n) Lv Lr Lp (aval l j) (s, l, w) = Ok (s', l', w') /\
    alen s' = n /\ alen l' = n /\ wok n j w' /\ supp n w' /\
    used j (j + 1) (aval Lr) (aval Lp) (aval s') /\
    lists n j (j + 1) (aval Lr) (aval Lp) (aval s') (aval l') /\
    forall i, i < n -> aval (wa w') i =
      (w0 i - (if j <? i
               then sumn j (fun k => mcol (aval Lv) (aval Lr) (aval Lp) i k *
                                     mcol (aval Lv) (aval Lr) (aval Lp) j k)
               else 0))%R.
Proof.
  intros C Hj lp lv lr Hs Hl W U Us Ls Ew.
  destruct (Ls j (Nat.le_refl j) Hj) as [ch [Cc [Nc Mc]]].
  assert (Bch : forall k, In k ch -> k < j) by (intros k Hk; apply Mc in Hk; apply Hk).
  destruct (walk_ok n j Lv Lr Lp C Hj lp lv lr w0 ch [] (aval l j) s l w (S n))
    as [s' [l' [w' [E [[Hs' Hl'] [[W' U'] [_ [_ [_ [L' [P1 [P2 [P3 [P4 P5]]]]]]]]]]]]]].
  - pose proof (NoDup_incl_length Nc (l' := range n)) as Q. unfold range in Q. rewrite seq_length in Q.
    apply Nat.lt_succ_r. apply Q. intros k Hk. apply in_seq. pose proof (Bch k Hk). lia.
  - split; [auto|]. split; [auto|]. split; [assumption|]. split; [assumption|].
    split; [intros k Hk; now apply Mc|].
    split; [intros i Hi Hn; apply Ls; lia|].
    split; [apply Us|]. split; [apply Us|].
    split; [intros k idx Hk Q1 Q2; pose proof (u_before _ _ _ _ _ Us k idx Hk Q1 Q2); lia|].
    split.
    + intros k Hk Hno Q. destruct (u_next _ _ _ _ _ Us k Hk Q) as [Q1|Q1]; [|auto].
      left. assert (aval Lr (aval s k) <> j); [|lia]. intros Q2. apply Hno, Mc. unfold at_row; auto.
    + intros i Hi. cbn [map rsum]. rewrite Ew by assumption. ring.
  - exists s', l', w'. split; [exact E|]. split; [assumption|]. split; [assumption|].
    split; [assumption|]. split; [assumption|]. split; [|split; [assumption|]].
    + constructor; auto.
    + intros i Hi. rewrite P5 by assumption. cbn [app].
      destruct (Nat.ltb_spec j i) as [Hji|Hji].
      * f_equal. f_equal. apply rsum_list_sumn; auto. intros k Hk Hno.
        replace (mcol (aval Lv) (aval Lr) (aval Lp) j k) with 0%R; [ring|].
        destruct (Req_EM_T (mcol (aval Lv) (aval Lr) (aval Lp) j k) 0) as [->|Q]; [reflexivity|].
        destruct (mcol_nonzero n j _ _ _ _ _ C Hk Q) as [idx [Hx Ex]].
        exfalso. apply Hno, Mc. pose proof (u_lo _ _ _ _ _ Us k Hk).
        assert (idx <> aval Lp k) by (intros ->; rewrite (c_diag _ _ _ _ C) in Ex by assumption; lia).
        assert (~ idx < aval s k).
        { intros Q1. pose proof (u_before _ _ _ _ _ Us k idx Hk ltac:(lia) Q1). lia. }
        split; [assumption|]. split; [lia|].
        destruct (u_next _ _ _ _ _ Us k Hk ltac:(lia)) as [Q1|Q1]; [|f_equal; replace idx with (aval s k) in Ex by lia; assumption].
        destruct (Nat.eq_dec idx (aval s k)) as [<-|]; [assumption|].
        pose proof (c_inc _ _ _ _ C k (aval s k) idx Hk ltac:(lia) ltac:(lia) ltac:(lia)). lia.
      * rewrite rsum_zero; [reflexivity|]. reflexivity.
Qed.

(* ---- sorting ---- *)
Lemma insert_perm x l : Permutation (insert x l) (x :: l).
Proof.
  induction l as [|y l IH]; simpl; [auto|]. destruct (x <=? y); [auto|].
  rewrite IH. apply perm_swap.
Qed.
Lemma sort_perm l : Permutation (sort l) l.
Proof. induction l as [|x l IH]; simpl; [auto|]. rewrite insert_perm. now constructor. Qed.
Lemma insert_sorted x l : StronglySorted le l -> StronglySorted le (insert x l).
Proof.
  induction l as [|y l IH]; intros H; simpl; [repeat constructor|].
  inversion H as [|? ? Hs Hf]; subst.
  destruct (Nat.leb_spec x y).
  - constructor; [assumption|]. constructor; [assumption|].
    eapply Forall_impl; [|exact Hf]. intros; simpl in *; lia.
  - constructor; [auto|]. apply Forall_forall. intros z Hz.
    apply (Permutation_in _ (insert_perm x l)) in Hz. destruct Hz as [<-|Hz]; [lia|].
    rewrite Forall_forall in Hf; auto.
Qed.
Lemma sort_sorted l : StronglySorted le (sort l).
Proof. induction l; simpl; [constructor|now apply insert_sorted]. Qed.
Lemma sort_before l pre x post : NoDup l -> sort l = pre ++ x :: post -> forall y, In y pre -> y < x.
Proof.
  intros N E y Hy. pose proof (sort_sorted l) as Ss. rewrite E in Ss.
  assert (Nd : NoDup (pre ++ x :: post)).
  { rewrite <- E. apply (Permutation_NoDup (Permutation_sym (sort_perm l)) N). }
  assert (y <> x).
  { intros ->. apply NoDup_remove_2 in Nd. apply Nd, in_or_app; now left. }
  enough (y <= x) by lia. clear -Ss Hy. induction pre as [|z pre IH]; [contradiction|].
  cbn in Ss. inversion Ss as [|? ? Hs Hf]; subst. destruct Hy as [->|Hy]; [|auto].
  rewrite Forall_forall in Hf. apply Hf, in_or_app. right; now left.
Qed.

(* ---- 90-108 ---- *)
(* what is stored for a value u of the column before division by the pivot dj *)
Definition kept (thr rel dj size u : R) : R :=
  if Rlt_dec thr (Rabs (u / dj)) then if Rlt_dec (rel * size) (Rabs u) then (u / dj)%R else 0%R else 0%R.

Section Emission.
Variables (n j : nat) (thr rel : R) (keep : bool) (r : arr R) (dj : R) (rows : list nat).
Variables (a0 : arr R) (b0 : arr bool) (d0 v0 : arr R) (r0 : arr nat) (n0 : nat).
Hypothesis Hj : j < n.
Hypothesis lens : alen r = n /\ alen a0 = n /\ alen b0 = n /\ alen d0 = n.
Hypothesis room : n0 + length rows <= alen v0 /\ n0 + length rows <= alen r0.
Hypothesis pivot : aval d0 j = dj /\ dj <> 0%R.
Hypothesis Hrows : forall i, In i rows -> j < i /\ i < n.
Hypothesis Hinc : forall pre x post, rows = pre ++ x :: post -> forall y, In y pre -> y < x.

Notation ind := (in_dec Nat.eq_dec).
Notation K := (kept thr rel dj (aval r j)).
Definition loss (u : R) : R := if keep then (u / dj * (u / dj))%R else (K u * K u)%R.

Definition emitting (pre : list nat) (e : emit) : Prop :=
  (alen (ea e) = n /\ alen (eb e) = n /\ alen (ed e) = n /\ alen (ev e) = alen v0 /\ alen (er e) = alen r0) /\
  (n0 <= en e /\ en e <= n0 + length pre) /\
  (forall i, aval (ea e) i = if ind i pre then 0%R else aval a0 i) /\
  (forall i, aval (eb e) i = if ind i pre then false else aval b0 i) /\
  (forall i, aval (ed e) i = if ind i pre then (aval d0 i - loss (aval a0 i))%R else aval d0 i) /\
  (forall idx, idx < n0 -> aval (ev e) idx = aval v0 idx /\ aval (er e) idx = aval r0 idx) /\
  (forall idx, n0 <= idx -> idx < en e -> In (aval (er e) idx) pre) /\
  (forall x y, n0 <= x -> x < y -> y < en e -> aval (er e) x < aval (er e) y) /\
  (forall i, colsum (aval (ev e)) (aval (er e)) n0 (en e) i = if ind i pre then K (aval a0 i) else 0%R).

Lemma ind_app i pre x : (if ind i (pre ++ [x]) then true else false) =
  (if i =? x then true else if ind i pre then true else false).
Proof.
  destruct (ind i (pre ++ [x])) as [H|H], (Nat.eqb_spec i x) as [Ei|Hne], (ind i pre) as [Q|Q];
    try reflexivity; exfalso; rewrite in_app_iff in H; cbn [In] in H; intuition congruence.
Qed.
Lemma ind_if {T} i pre (x y : T) : (if ind i pre then x else y) =
  (if (if ind i pre then true else false) then x else y).
Proof. now destruct (ind i pre). Qed.

Lemma emit_row_ok pre x post e : rows = pre ++ x :: post -> emitting pre e ->
  exists e', emit_row thr rel keep r j x e = Ok e' /\ emitting (pre ++ [x]) e'.
Proof.
  intros E [[La [Lb [Ld [Lv Lr]]]] [[N1 N2] [Ia [Ib [Id [Iold [Irow [Iinc Isum]]]]]]]].
  destruct lens as [Hr [Ha [Hb Hd]]]. destruct room as [R1 R2]. destruct pivot as [Ep Hp].
  assert (Hx : j < x /\ x < n) by (apply Hrows; rewrite E; apply in_or_app; right; now left).
  assert (Hxp : ~ In x pre).
  { intros Q. pose proof (Hinc pre x post E x Q). lia. }
  assert (Hjp : ~ In j pre).
  { intros Q. destruct (Hrows j); [rewrite E; apply in_or_app; now left|lia]. }
  assert (Hlen : length pre + 1 <= length rows) by (rewrite E, app_length; simpl; lia).
  assert (Ea : aval (ea e) x = aval a0 x) by (rewrite Ia; now destruct (ind x pre)).
  assert (Edj : aval (ed e) j = dj) by (rewrite Id; destruct (ind j pre); [contradiction|assumption]).
  assert (Edx : aval (ed e) x = aval d0 x) by (rewrite Id; now destruct (ind x pre)).
  set (L := (aval a0 x / dj)%R).
  assert (Fin : forall d' v' r' n',
    alen d' = n /\ alen v' = alen v0 /\ alen r' = alen r0 ->
    (forall i, aval d' i = if i =? x then (aval d0 x - loss (aval a0 x))%R else aval (ed e) i) ->
    (n' = en e /\ v' = ev e /\ r' = er e /\ K (aval a0 x) = 0%R \/
     n' = en e + 1 /\ v' = upd (ev e) (en e) L /\ r' = upd (er e) (en e) x /\ K (aval a0 x) = L) ->
    emitting (pre ++ [x]) (Emit (upd (ea e) x 0%R) (upd (eb e) x false) d' v' r' n')).
  { intros d' v' r' n' [Q1 [Q2 Q3]] Q4 Q5. unfold emitting; cbn [ea eb ed ev er en].
    rewrite app_length. cbn [length].
    split; [rewrite !upd_len; auto|]. split; [destruct Q5 as [[-> _]|[-> _]]; lia|].
    split.
    { intros i. rewrite ind_if, ind_app. destruct (Nat.eqb_spec i x) as [->|Hne]; [apply upd_eq|].
      rewrite upd_neq, Ia by assumption. now destruct (ind i pre). }
    split.
    { intros i. rewrite ind_if, ind_app. destruct (Nat.eqb_spec i x) as [->|Hne]; [apply upd_eq|].
      rewrite upd_neq, Ib by assumption. now destruct (ind i pre). }
    split.
    { intros i. rewrite ind_if, ind_app, Q4. destruct (Nat.eqb_spec i x) as [->|Hne]; [reflexivity|].
      rewrite Id. now destruct (ind i pre). }
    destruct Q5 as [[-> [-> [-> Q6]]]|[-> [-> [-> Q6]]]].
    - split; [assumption|]. split; [intros idx M1 M2; apply in_or_app; left; auto|]. split; [assumption|].
      intros i. rewrite ind_if, ind_app, Isum. destruct (Nat.eqb_spec i x) as [->|Hne].
      + rewrite Q6. now destruct (ind x pre).
      + now destruct (ind i pre).
    - split; [intros idx M; rewrite !upd_neq by lia; auto|].
      assert (Rn : aval (upd (er e) (en e) x) (en e) = x) by apply upd_eq.
      assert (Ro : forall idx, idx < en e -> aval (upd (er e) (en e) x) idx = aval (er e) idx)
        by (intros; apply upd_neq; lia).
      split; [|split].
      + intros idx M1 M2. apply in_or_app. destruct (Nat.eq_dec idx (en e)) as [->|].
        * rewrite Rn. right; now left.
        * left. rewrite Ro by lia. apply Irow; lia.
      + intros y z M1 M2 M3. rewrite (Ro y) by lia. destruct (Nat.eq_dec z (en e)) as [->|].
        * rewrite Rn. apply (Hinc pre x post E). apply Irow; lia.
        * rewrite Ro by lia. apply Iinc; lia.
      + intros i. rewrite colsum_S by lia. rewrite Rn, upd_eq.
        rewrite (colsum_ext _ _ (aval (ev e)) (aval (er e))).
        2:{ intros idx M. rewrite Ro by lia. rewrite upd_neq by lia. auto. }
        rewrite Isum, (ind_if i (pre ++ [x])), ind_app, (Nat.eqb_sym x i).
        destruct (Nat.eqb_spec i x) as [->|Hne].
        * rewrite Q6. destruct (ind x pre); [contradiction|ring].
        * destruct (ind i pre); ring. }
  unfold emit_row. run. rewrite Ea, Edj, fdiv_ok by assumption. cbn [bind]. fold L.
  destruct keep eqn:Ek.
  - run. rewrite Edx.
    assert (F1 : forall i, aval (upd (ed e) x (aval d0 x - L * L)%R) i =
              if i =? x then (aval d0 x - loss (aval a0 x))%R else aval (ed e) i).
    { intros i. unfold loss. rewrite Ek. fold L. destruct (Nat.eqb_spec i x) as [->|]; [apply upd_eq|now apply upd_neq]. }
    destruct (Rlt_dec thr (Rabs L)) as [H1|H1]; [destruct (Rlt_dec (rel * aval r j) (Rabs (aval a0 x))) as [H2|H2]|].
    + run. eexists; split; [reflexivity|]. apply Fin; [auto|assumption|].
      right. repeat split. unfold kept; fold L. destruct (Rlt_dec thr (Rabs L)); [|contradiction].
      now destruct (Rlt_dec _ _).
    + run. eexists; split; [reflexivity|]. apply Fin; [auto|assumption|].
      left. repeat split. unfold kept; fold L. destruct (Rlt_dec thr (Rabs L)); [|contradiction].
      now destruct (Rlt_dec _ _).
    + run. eexists; split; [reflexivity|]. apply Fin; [auto|assumption|].
      left. repeat split. unfold kept; fold L. now destruct (Rlt_dec thr (Rabs L)).
  - run.
    destruct (Rlt_dec thr (Rabs L)) as [H1|H1]; [destruct (Rlt_dec (rel * aval r j) (Rabs (aval a0 x))) as [H2|H2]|].
    + assert (EK : K (aval a0 x) = L).
      { unfold kept; fold L. destruct (Rlt_dec thr (Rabs L)); [|contradiction]. now destruct (Rlt_dec _ _). }
      run. rewrite Edx. eexists; split; [reflexivity|]. apply Fin; [auto| |auto].
      intros i. unfold loss. rewrite Ek, EK. destruct (Nat.eqb_spec i x) as [->|]; [apply upd_eq|now apply upd_neq].
    + assert (EK : K (aval a0 x) = 0%R).
      { unfold kept; fold L. destruct (Rlt_dec thr (Rabs L)); [|contradiction]. now destruct (Rlt_dec _ _). }
      run. eexists; split; [reflexivity|]. apply Fin; [auto| |auto].
      intros i. unfold loss. rewrite Ek, EK. destruct (Nat.eqb_spec i x) as [->|]; [rewrite Edx; ring|reflexivity].
    + assert (EK : K (aval a0 x) = 0%R) by (unfold kept; fold L; now destruct (Rlt_dec thr (Rabs L))).
      run. eexists; split; [reflexivity|]. apply Fin; [auto| |auto].
      intros i. unfold loss. rewrite Ek, EK. destruct (Nat.eqb_spec i x) as [->|]; [rewrite Edx; ring|reflexivity].
Qed.

Lemma emission : exists e, for_each rows (emit_row thr rel keep r j) (Emit a0 b0 d0 v0 r0 n0) = Ok e /\
  emitting rows e.
Proof.
  apply (for_each_inv rows (emit_row thr rel keep r j) emitting).
  - destruct lens as [Hr [Ha [Hb Hd]]]. unfold emitting; cbn [ea eb ed ev er en length].
    repeat split; auto; try (intros; lia). intros i. apply colsum_nil.
  - intros pre x post e E I. now apply (emit_row_ok pre x post).
Qed.
End Emission.
