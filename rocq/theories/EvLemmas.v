From Verif Require Import Base BaseLemmas EvModel EvSpec.
Local Open Scope nat_scope.
Local Open Scope list_scope.

Lemma x_len pre : length (x_vals pre) = pre + pre.
Proof. unfold x_vals. rewrite app_length, !map_length, !seq_length. reflexivity. Qed.
Lemma x_eq pre : x_vals pre = map (fun t => if t <? pre then (Z.of_nat t - Z.of_nat pre)%Z else (Z.of_nat t - Z.of_nat pre + 1)%Z) (seq 0 (pre + pre)).
Proof.
  unfold x_vals. rewrite seq_app, map_app. f_equal.
  - apply map_ext_in. intros t H. apply in_seq in H. destruct (Nat.ltb_spec t pre); [reflexivity|lia].
  - replace (seq (0 + pre) pre) with (map (fun i => i + pre) (seq 0 pre)).
    + rewrite map_map. apply map_ext_in. intros t H. destruct (Nat.ltb_spec (t + pre) pre); lia.
    + generalize pre at 1 3. intros a. rewrite <- (map_ext (fun i => a + i)) by (intros; lia). generalize 0 as b. generalize pre as n.
      induction n as [|n IH]; intros b; cbn; [reflexivity|]. f_equal; [lia|]. rewrite IH. f_equal; lia.
Qed.

Lemma gcol_ok t r : 1 <= t <= length (e_g r) -> gcol t r = Ok (nth (t - 1) (e_g r) 0).
Proof.
  destruct t as [|t]; [lia|]. intros H. cbn. rewrite Nat.sub_0_r.
  rewrite (nth_error_nth' (e_g r) 0) by lia. reflexivity.
Qed.

Lemma moves_iff pre i j r : 1 <= pre -> pre + 1 <= length (e_g r) ->
  (nth (pre - 1) (e_g r) 0 =? i) && (nth pre (e_g r) 0 =? j) = true <-> moves pre i j r.
Proof.
  intros H1 H2. rewrite Bool.andb_true_iff, !Nat.eqb_eq. split.
  - intros (<- & <-). destruct (nth_split (e_g r) 0 (n := pre - 1)) as (a & b & E & L); [lia|].
    destruct b as [|c b].
    { apply (f_equal (@length nat)) in E. rewrite app_length in E. cbn in E. lia. }
    exists a, b. split; [|lia]. rewrite E at 1. do 2 f_equal. rewrite E. rewrite app_nth2 by lia.
    replace (pre - length a) with 1 by lia. reflexivity.
  - intros (a & b & E & L). rewrite E. rewrite !app_nth2 by lia.
    replace (pre - 1 - length a) with 0 by lia. replace (pre - length a) with 1 by lia. now split.
Qed.

Lemma cell_ok k pre i j d : 1 <= pre -> Forall (shaped k pre pre) d ->
  exists c, cell pre i j d = Ok c /\ those (moves pre i j) d c.
Proof.
  intros H1 F. unfold cell.
  set (g := fun r => (nth (pre - 1) (e_g r) 0 =? i) && (nth pre (e_g r) 0 =? j)).
  rewrite (traverse_ok _ g).
  2: { intros r Hr. rewrite Forall_forall in F. destruct (F r Hr) as (_ & L & _).
       rewrite gcol_ok by lia. cbn [bind]. rewrite gcol_ok by lia. cbn [bind]. unfold g. now rewrite Nat.add_sub. }
  cbn [bind]. eexists. split; [reflexivity|]. induction F as [|r d (_ & L & _) F IH]; [constructor|].
  cbn [map combine filter fst]. pose proof (moves_iff pre i j r H1 ltac:(lia)) as Q. fold (g r) in Q.
  destruct (g r) eqn:E; cbn [map snd].
  - apply those_in; [now apply Q|exact IH].
  - apply those_out; [|exact IH]. intros M. apply Q in M. congruence.
Qed.

Lemma those_incl {A} (P : A -> Prop) l l' : those P l l' -> forall x, In x l' -> In x l.
Proof. induction 1; cbn; firstorder. Qed.

Lemma smean_ok x m : smean x = Some m -> is_mean x m.
Proof.
  unfold smean, is_mean. destruct x as [|a x]; [discriminate|]. intros [= <-]. split; [discriminate|].
  unfold Rdiv. rewrite Rmult_assoc, Rinv_l, Rmult_1_r; [reflexivity|]. apply not_0_INR. discriminate.
Qed.
Lemma serr_ok x s : serr x = Some s -> is_serr x s.
Proof.
  unfold serr. destruct x as [|a [|b x]]; [discriminate|discriminate|]. remember (a :: b :: x) as l eqn:El.
  assert (L : 1 < length l) by (subst l; cbn; lia). clear El a b x. intros [= <-].
  assert (N1 : (0 < INR (length l))%R) by (apply lt_0_INR; lia).
  assert (N2 : (0 < INR (length l - 1))%R) by (apply lt_0_INR; lia).
  set (m := (rsum l / INR (length l))%R). set (v := rsum (map (fun a => (a - m) * (a - m))%R l)).
  assert (V : (0 <= v)%R). { unfold v. generalize m. clear. intros m. induction l as [|a l IH]; cbn; [lra|]. pose proof (Rle_0_sqr (a - m)) as Q. unfold Rsqr in Q. lra. }
  assert (Q : (0 <= v / INR (length l - 1))%R) by (apply Rmult_le_pos; [assumption|]; left; now apply Rinv_0_lt_compat).
  pose proof (sqrt_lt_R0 _ N1) as SN.
  split; [exact L|]. split.
  - apply Rmult_le_pos; [apply sqrt_pos|]. left. now apply Rinv_0_lt_compat.
  - exists m. split.
    + split; [destruct l; [cbn in L; lia|discriminate]|]. unfold m. field. lra.
    + fold v. replace (INR (length l) - 1)%R with (INR (length l - 1)) by (rewrite minus_INR by lia; reflexivity).
      set (n := INR (length l)) in *. set (n1 := INR (length l - 1)) in *.
      replace (sqrt (v / n1) / sqrt n * (sqrt (v / n1) / sqrt n))%R with ((sqrt (v / n1) * sqrt (v / n1)) / (sqrt n * sqrt n))%R by (field; lra).
      rewrite !sqrt_sqrt by lra. field. lra.
Qed.

Lemma panel_ok k pre c : Forall (shaped k pre pre) c ->
  exists q, errorbar pre (pre + pre) c = Ok q /\ shows_rows pre pre c q.
Proof.
  intros F. unfold errorbar. rewrite x_len, Nat.eqb_refl. eexists. split; [reflexivity|].
  split; [reflexivity|]. split; [apply x_eq|]. cbn [p_y p_err]. rewrite !map_length, !seq_length. split; [reflexivity|]. split; [reflexivity|].
  intros t Ht. exists (ycol t c).
  assert (Ey : nth_error (map (fun t => smean (ycol t c)) (seq 0 (pre + pre))) t = Some (smean (ycol t c))).
  { apply (map_nth_error (fun t => smean (ycol t c))). rewrite (nth_error_nth' _ 0) by (rewrite seq_length; lia). now rewrite seq_nth. }
  assert (Ee : nth_error (map (fun t => serr (ycol t c)) (seq 0 (pre + pre))) t = Some (serr (ycol t c))).
  { apply (map_nth_error (fun t => serr (ycol t c))). rewrite (nth_error_nth' _ 0) by (rewrite seq_length; lia). now rewrite seq_nth. }
  rewrite Ey, Ee. split; [|split; [|split; [|split]]].
  - unfold pay, ycol. clear Ey Ee. induction F as [|r c (L & _) F IH]; cbn; constructor; [|exact IH]. apply nth_error_nth'. lia.
  - intros m [= E]. now apply smean_ok.
  - intros N. destruct (ycol t c) as [|a x]; [congruence|]. eexists. reflexivity.
  - intros s [= E]. now apply serr_ok.
  - intros N. destruct (ycol t c) as [|a [|b x]]; [cbn in N; lia|cbn in N; lia|]. eexists. reflexivity.
Qed.

Lemma traverse_each {A B} (f : A -> res B) (P : A -> B -> Prop) l : (forall x, In x l -> exists y, f x = Ok y /\ P x y) ->
  exists ys, traverse f l = Ok ys /\ Forall2 P l ys.
Proof.
  induction l as [|x l IH]; intros H; [exists []; split; [reflexivity|constructor]|].
  destruct (H x (or_introl eq_refl)) as (y & E & Hy). destruct IH as (ys & Es & F); [intros a Ha; apply H; now right|].
  exists (y :: ys). cbn. rewrite E. cbn [bind]. rewrite Es. split; [reflexivity|now constructor].
Qed.

Lemma Forall2_nth {A B} (P : A -> B -> Prop) l l' : Forall2 P l l' -> forall n y, nth_error l' n = Some y -> exists x, nth_error l n = Some x /\ P x y.
Proof. induction 1; intros [|n] z; cbn; try discriminate; [intros [= <-]; eauto|apply IHForall2]. Qed.
Lemma Forall2_len {A B} (P : A -> B -> Prop) l l' : Forall2 P l l' -> length l = length l'.
Proof. induction 1; cbn; congruence. Qed.
Lemma range_nth k i x : nth_error (range k) i = Some x -> x = i.
Proof.
  unfold range. intros H. assert (L : i < k) by (rewrite <- (seq_length k 0); apply nth_error_Some; congruence).
  apply (nth_error_nth _ _ 0) in H. now rewrite seq_nth in H.
Qed.

Lemma plot_lemma k pre d : 2 <= k -> 1 <= pre -> Forall (shaped k pre pre) d ->
  exists ps, plot_es (Some k) pre pre (pre + pre) d = Ok ps /\
    length ps = k /\ Forall (fun row => length row = k) ps /\
    forall i j row q, nth_error ps i = Some row -> nth_error row j = Some q ->
      exists d', those (moves pre i j) d d' /\ shows_rows pre pre d' q.
Proof.
  intros K1 P1 F. destruct k as [|[|k]]; [lia|lia|]. unfold plot_es.
  destruct (traverse_each (fun i => traverse (fun j => bind (cell pre i j d) (fun c => errorbar pre (pre + pre) c)) (range (S (S k))))
    (fun i row => Forall2 (fun j q => exists d', those (moves pre i j) d d' /\ shows_rows pre pre d' q) (range (S (S k))) row)
    (range (S (S k)))) as (ps & E & G).
  { intros i _. apply traverse_each. intros j _. destruct (cell_ok (S (S k)) pre i j d P1 F) as (c & -> & T). cbn [bind].
    destruct (panel_ok (S (S k)) pre c) as (q & -> & S').
    { rewrite Forall_forall in F |- *. intros r Hr. apply F. exact (those_incl _ _ _ T r Hr). }
    exists q. split; [reflexivity|]. now exists c. }
  exists ps. split; [exact E|]. split; [|split].
  - rewrite <- (Forall2_len _ _ _ G). apply seq_length.
  - apply Forall_forall. intros row Hr. apply In_nth_error in Hr. destruct Hr as (n & Hn).
    destruct (Forall2_nth _ _ _ G _ _ Hn) as (i & _ & G'). rewrite <- (Forall2_len _ _ _ G'). apply seq_length.
  - intros i j row q Hi Hj. destruct (Forall2_nth _ _ _ G _ _ Hi) as (i' & Ei & G'). apply range_nth in Ei. subst i'.
    destruct (Forall2_nth _ _ _ G' _ _ Hj) as (j' & Ej & Q). apply range_nth in Ej. now subst j'.
Qed.

Lemma one_cell k pre post r : 1 <= pre -> 1 <= post -> shaped k pre post r ->
  exists i j, i < k /\ j < k /\ moves pre i j r /\ forall i' j', moves pre i' j' r -> i' = i /\ j' = j.
Proof.
  intros P1 P2 (_ & L & F). exists (nth (pre - 1) (e_g r) 0), (nth pre (e_g r) 0).
  rewrite Forall_forall in F. split; [apply F, nth_In; lia|]. split; [apply F, nth_In; lia|]. split.
  - apply moves_iff; [assumption|lia|]. now rewrite !Nat.eqb_refl.
  - intros i' j' M. apply moves_iff in M; [|assumption|lia]. rewrite Bool.andb_true_iff, !Nat.eqb_eq in M. destruct M. now split.
Qed.

Lemma plot_asym k pre post d : 2 <= k -> 1 <= pre -> 1 <= post -> pre <> post -> Forall (shaped k pre post) d ->
  plot_es (Some k) pre post (pre + post) d = Err ValueError.
Proof.
  intros K1 P1 P2 N F. destruct k as [|[|k]]; [lia|lia|]. unfold plot_es, range. cbn [seq traverse].
  assert (C : exists c, cell pre 0 0 d = Ok c).
  { unfold cell. rewrite (traverse_ok _ (fun r => (nth (pre - 1) (e_g r) 0 =? 0) && (nth pre (e_g r) 0 =? 0))).
    2: { intros r Hr. rewrite Forall_forall in F. destruct (F r Hr) as (_ & L & _).
         rewrite gcol_ok by lia. cbn [bind]. rewrite gcol_ok by lia. cbn [bind]. now rewrite Nat.add_sub. }
    eexists. reflexivity. }
  destruct C as (c & ->). cbn [bind]. unfold errorbar. rewrite x_len.
  destruct (Nat.eqb_spec (pre + pre) (pre + post)); [lia|]. reflexivity.
Qed.
