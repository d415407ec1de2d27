(* Glue between the builder lemmas and the property theorems. *)
From Coq Require Import Permutation.
From Verif Require Import Base BaseLemmas UtilModel ConsModel ConsSpec ConsLemmas
  ConsBuildLemmas ConsBuild2Lemmas ConsBuild3Lemmas ConsQPLemmas.
Local Open Scope R_scope.

Lemma valid_buildable nt nl nk c :
  valid nt nl nk c ->
  exists d, get_constraints c nl nk = Ok d /\ cons_wf (nt * nl * nk) d.
Proof.
  destruct c; cbn [valid get_constraints].
  - intros (-> & H1 & H2). destruct (Linear_spec _ _ _ nk H1 H2) as (c & E & W & _). eauto.
  - intros (-> & H1 & H2 & H3).
    destruct (LinearAdditive_spec _ _ _ _ H1 H2 H3) as (c & E & W & _). eauto.
  - intros (-> & H1).
    destruct (Monotonic_spec md increasing nt nl nk H1) as (c & E & W & _). eauto.
  - intros (-> & H1 & H2 & H3).
    destruct (MonotonicMean_spec md increasing cross _ _ _ nk H1 H2 H3) as (c & E & W & _). eauto.
  - intros (-> & H1 & H2 & H3).
    destruct (MinFirmType_spec k0 md is_min cross _ _ nl _ H1 H2 H3) as (c & E & W & _). eauto.
  - intros (-> & H1 & H2). destruct (NoWTI_spec _ _ _ nk H1 H2) as (c & E & W & _). eauto.
  - intros (-> & H1 & H2 & H3 & H4).
    destruct (NormalizeLowest_spec k0 cross _ _ _ _ H1 H2 H3 H4) as (c & E & W & _). eauto.
  - intros (-> & H1 & H2 & H3).
    destruct (NormalizeAll_spec k0 cross _ _ nl _ H1 H2 H3) as (c & E & W & _). eauto.
  - intros (-> & H1 & H2). destruct (Stationary_raw nwt nt nl nk H1 H2) as (c & E & W & _). eauto.
  - intros (-> & H1). destruct (SFTV_spec _ nt nl nk H1) as (c & E & W & _). eauto.
  - intros ->. destruct (BoundedBelow_spec lb nt nl nk) as (c & E & W & _). eauto.
  - intros ->. destruct (BoundedAbove_spec ub nt nl nk) as (c & E & W & _). eauto.
Qed.

Lemma in_periods_all nt : in_periods (periods None nt) nt.
Proof. apply in_periods_range. Qed.

(* ---- Stationary with NoWorkerTypeInteraction ---- *)
Definition no_interaction (nt nl nk : nat) (x : nat -> R) : Prop :=
  forall t k l l', (t < nt)%nat -> (k < nk)%nat -> (l < nl)%nat -> (l' < nl)%nat ->
    eff nl nk x t l k = eff nl nk x t l' k.

Lemma nwt1 nl : (1 <= nl)%nat ->
  (if (1 =? -1)%Z then nl else Nat.min nl (Z.to_nat 1)) = 1%nat.
Proof. intros H. change (Z.to_nat 1) with 1%nat. cbn [Z.eqb]. lia. Qed.

Lemma coprime_hits a n k :
  Nat.gcd a n = 1%nat -> (k < n)%nat -> exists j, (j < n)%nat /\ (a * j mod n = k)%nat.
Proof.
  intros Hg Hk. destruct (Nat.eq_dec a 0) as [->|Ha].
  { rewrite Nat.gcd_0_l in Hg. subst n. exists 0%nat. split; [lia|]. simpl. lia. }
  destruct (Nat.gcd_bezout a n) as [(u & v & E)|(u & v & E)]; rewrite Hg in E.
  - (* u a = 1 + v n *)
    exists (u * k mod n)%nat. split; [apply Nat.mod_upper_bound; lia|].
    rewrite Nat.mul_mod_idemp_r by lia.
    replace (a * (u * k))%nat with (k + (v * k) * n)%nat
      by (transitivity ((u * a) * k)%nat; [rewrite E; ring|ring]).
    rewrite Nat.mod_add by lia. now apply Nat.mod_small.
  - (* u n = 1 + v a: a (v (n - 1) k) = (u n - 1)(n - 1) k = k mod n *)
    exists (v * ((n - 1) * k) mod n)%nat. split; [apply Nat.mod_upper_bound; lia|].
    rewrite Nat.mul_mod_idemp_r by lia.
    assert (Hz : (u * n >= 1)%nat) by lia.
    assert (E2 : (a * (v * ((n - 1) * k)) + (n - 1) * k = u * ((n - 1) * k) * n)%nat)
      by (transitivity ((u * n) * ((n - 1) * k))%nat; [rewrite E; ring|ring]).
    assert (E3 : ((a * (v * ((n - 1) * k)) + n * k) mod n = k mod n)%nat).
    { replace (a * (v * ((n - 1) * k)) + n * k)%nat with (k + u * ((n - 1) * k) * n)%nat.
      - now rewrite Nat.mod_add by lia.
      - rewrite <- E2. destruct n; [lia|]. replace (S n - 1)%nat with n by lia. nia. }
    rewrite (Nat.mul_comm n k), Nat.mod_add in E3 by lia. rewrite E3. now apply Nat.mod_small.
Qed.

Lemma pos_of nl nk j k : (nl * j mod nk = k)%nat -> (0 < nk)%nat -> (j < nk)%nat -> (1 <= nl)%nat ->
  (nl * j = (nl * j / nk) * nk + k /\ nl * j / nk < nl)%nat.
Proof.
  intros E Hnk Hj Hnl. split.
  - rewrite (Nat.div_mod (nl * j) nk) at 1 by lia. lia.
  - apply Nat.div_lt_upper_bound; [lia|]. nia.
Qed.

Lemma Stationary1_coprime nt nl nk x :
  (1 <= nt)%nat -> (1 <= nl)%nat -> Nat.gcd nl nk = 1%nat -> no_interaction nt nl nk x ->
  exists c, Stationary 1 nt nl nk = Ok c /\ (sat c x <-> stationary nt nl nk x).
Proof.
  intros Hnt Hnl Hg Hx.
  destruct (Stationary_raw 1 nt nl nk ltac:(lia) Hnt) as (c & E & _ & S).
  exists c. split; [exact E|]. rewrite S, nwt1 by exact Hnl. clear S E c.
  unfold stationary. split.
  - intros H t l k Ht Hl Hk.
    destruct (coprime_hits nl nk k Hg Hk) as (j & Hj & Ej).
    destruct (pos_of nl nk j k Ej ltac:(lia) Hj Hnl) as [Ep Hq].
    specialize (H t j 0%nat Ht Hj ltac:(lia)). rewrite Nat.add_0_r, Ep in H.
    rewrite (Hx t k l (nl * j / nk)%nat), (Hx (t + 1)%nat k l (nl * j / nk)%nat) by lia.
    unfold eff. rewrite !Nat.add_assoc in H. exact H.
  - intros H t k l Ht Hk Hl. assert (l = 0)%nat by lia. subst l. rewrite Nat.add_0_r.
    assert (Hj : (nl * k mod nk < nk)%nat) by (apply Nat.mod_upper_bound; lia).
    destruct (pos_of nl nk k _ eq_refl ltac:(lia) Hk Hnl) as [Ep Hq].
    specialize (H t (nl * k / nk)%nat (nl * k mod nk)%nat Ht Hq Hj).
    unfold eff in H. rewrite Ep, !Nat.add_assoc. exact H.
Qed.

(* Whenever nl and nk have a common factor, Stationary(nwt=1) does not force
   stationarity under NoWorkerTypeInteraction. *)
Lemma Stationary1_common_factor nt nl nk :
  (2 <= nt)%nat -> (1 <= nl)%nat -> (1 <= nk)%nat -> Nat.gcd nl nk <> 1%nat ->
  exists c x, Stationary 1 nt nl nk = Ok c /\ no_interaction nt nl nk x /\ sat c x
    /\ ~ stationary nt nl nk x.
Proof.
  intros Hnt Hnl Hnk Hg.
  set (g := Nat.gcd nl nk).
  assert (Hg0 : (g <> 0)%nat) by (intros E; apply Nat.gcd_eq_0 in E; lia).
  assert (Hg2 : (2 <= g)%nat) by lia.
  destruct (Nat.gcd_divide nl nk) as [[a Ha] [b Hb]]. fold g in Ha, Hb.
  destruct (Stationary_raw 1 nt nl nk ltac:(lia) ltac:(lia)) as (c & E & _ & S).
  (* 1 in later periods at firm types that are not multiples of g *)
  set (x := fun i : nat =>
    if (i <? nl * nk)%nat then 0 else if ((i mod g) =? 0)%nat then 0 else 1).
  assert (Hm : forall t l k, ((t * nl * nk + l * nk + k) mod g = k mod g)%nat).
  { intros t l k. rewrite Hb at 1 2.
    replace (t * nl * (b * g) + l * (b * g) + k)%nat with (k + (t * nl * b + l * b) * g)%nat by ring.
    now rewrite Nat.mod_add. }
  exists c, x. split; [exact E|]. split; [|split].
  - intros t k l l' Ht Hk Hl Hl'. unfold eff, x. rewrite !Hm.
    destruct t as [|t].
    + pose proof (col_lt 1 nl nk 0 l k ltac:(lia) Hl Hk).
      pose proof (col_lt 1 nl nk 0 l' k ltac:(lia) Hl' Hk).
      rewrite !(proj2 (Nat.ltb_lt _ _)) by lia. reflexivity.
    + rewrite !(proj2 (Nat.ltb_ge _ _)) by nia. reflexivity.
  - rewrite S, nwt1 by exact Hnl. intros t k l Ht Hk Hl. assert (l = 0)%nat by lia. subst l.
    assert (Z : forall t, x (t * nl * nk + (nl * k + 0))%nat = 0).
    { intros t'. unfold x. destruct (_ <? _)%nat; [reflexivity|].
      replace (t' * nl * nk + (nl * k + 0))%nat with (0 + (t' * a * nk + a * k) * g)%nat.
      - rewrite Nat.mod_add, Nat.mod_0_l by exact Hg0. reflexivity.
      - rewrite Ha. ring. }
    now rewrite !Z.
  - intros H.
    assert (Hnk2 : (2 <= nk)%nat) by (destruct b; nia).
    specialize (H 0%nat 0%nat 1%nat ltac:(lia) ltac:(lia) ltac:(lia)).
    unfold eff, x in H. rewrite !Hm, (Nat.mod_small 1 g) in H by lia.
    rewrite (proj2 (Nat.ltb_lt _ _)), (proj2 (Nat.ltb_ge _ _)) in H by nia.
    cbn in H. lra.
Qed.

(* Stationary(nwt=2) with Linear. *)
Lemma Stationary2_linear :
  exists c x, Stationary 2 2 3 3 = Ok c /\ sat c x
    /\ (forall t k, (t < 2)%nat -> (k < 3)%nat -> linear_in_l 3 3 x t k)
    /\ ~ stationary 2 3 3 x.
Proof.
  destruct (Stationary_raw 2 2 3 3 ltac:(lia) ltac:(lia)) as (c & E & _ & S).
  (* firm type 2 has effect 1 in period 1, everything else is 0 *)
  exists c, (fun i => if ((9 <=? i) && (i mod 3 =? 2))%nat then 1 else 0).
  split; [exact E|]. split; [|split].
  - rewrite S. intros t k l Ht Hk Hl.
    change (if (2 =? -1)%Z then 3%nat else Nat.min 3 (Z.to_nat 2)) with 2%nat in Hl.
    assert (t = 0)%nat by lia. subst t.
    destruct k as [|[|[|k]]]; [| | |lia]; (destruct l as [|[|l]]; [| |lia]); cbn; reflexivity.
  - intros t k Ht Hk l Hl. assert (l = 0)%nat by lia. subst l. unfold eff.
    destruct t as [|[|t]]; [| |lia]; (destruct k as [|[|[|k]]]; [| | |lia]); cbn; lra.
  - intros H. specialize (H 0%nat 0%nat 2%nat ltac:(lia) ltac:(lia) ltac:(lia)).
    unfold eff in H. cbn in H. lra.
Qed.

(* ---- pad on an object without constraints of one kind ---- *)
Lemma pad_empty l r nl nk :
  (0 < l + r)%nat ->
  exists s, pad l r (qp_init nl nk) = Ok s
    /\ (forall n, p_G (snd (solve false n s)) = Some (Arr1 (full (l + r) 0), []))
    /\ (forall d, cons_wf (l + r) d -> (exists m h, c_G d = Some (m, h) /\ (0 < nr m)%nat) ->
          add_constraint d s = Err ValueError).
Proof.
  intros H. eexists. split; [reflexivity|]. split.
  - intros n. cbn [snd solve p_G q_G arr_rows q_h].
    fold (full (l + r) 0). rewrite length_full.
    destruct (Nat.ltb_spec 0 (l + r)); [reflexivity|lia].
  - intros d _ (m & h & E & Hm). unfold add_constraint; cbn [q_G q_h].
    rewrite E. cbn [add_half]. destruct (Nat.ltb_spec 0 (nr m)); [|lia].
    cbn [arr_len bind]. fold (full (l + r) 0). rewrite length_full.
    destruct (Nat.ltb_spec 0 (l + r)); [reflexivity|lia].
Qed.

Lemma run_pad n nl nk ops l r :
  Forall (op_ok n nl nk) ops ->
  forall s, run ops (qp_init nl nk) = Ok s ->
  (q_G s <> Arr1 [] /\ q_A s <> Arr1 [] \/ (l + r = 0)%nat) ->
  exists s', pad l r s = Ok s' /\
    forall x, accepts s' x <-> accepts s (fun j => x (l + j)%nat).
Proof.
  intros H s E Hne. destruct (run_ok n nl nk ops H) as (s1 & E1 & O & _).
  assert (s1 = s) by congruence. subst s1.
  destruct (pad_ok n l r s O Hne) as (s' & Ep & _ & S). eauto.
Qed.

(* ---- sparse solvers ---- *)
Lemma sparse_then_add n nl nk c c' k :
  cons_wf n c -> (exists m h, c_G c = Some (m, h) /\ (0 < nr m)%nat) ->
  (exists m h, c_G c' = Some (m, h) /\ (0 < nr m)%nat) ->
  run [OpManual c; OpSolve true k; OpManual c'] (qp_init nl nk) = Err TypeError.
Proof.
  intros [HG HA] (m & h & E & Hm) (m' & h' & E' & Hm').
  unfold run. cbn [for_each step]. unfold add_constraint at 1; cbn [q_G q_h qp_init].
  rewrite E. cbn [add_half]. destruct (Nat.ltb_spec 0 (nr m)); [|lia]. cbn [arr_len bind length Nat.ltb Nat.leb].
  destruct (add_half_ok eq n (Arr1 []) [] (c_A c)) as (A & b & EA & OA & _); [now left|exact HA|].
  cbn [q_A q_b qp_init]. rewrite EA. cbn [bind solve fst q_G q_h to_sparse q_A q_b q_nl q_nk].
  destruct (Nat.ltb_spec 0 (nr m)); [|lia].
  unfold add_constraint; cbn [q_G q_h]. rewrite E'. cbn [add_half].
  destruct (Nat.ltb_spec 0 (nr m')); [|lia]. reflexivity.
Qed.

(* ---- check_feasible ---- *)
Lemma check_dim n nl nk ops :
  Forall (op_ok n nl nk) ops ->
  forall s, run ops (qp_init nl nk) = Ok s ->
  p_n (snd (check_feasible s)) = (nl * nk)%nat /\
  (forall a rhs, p_G (snd (check_feasible s)) = Some (a, rhs) ->
     exists m, a = Arr2 m /\ nc m = n /\ length rhs = nr m) /\
  (forall a rhs, p_A (snd (check_feasible s)) = Some (a, rhs) ->
     exists m, a = Arr2 m /\ nc m = n /\ length rhs = nr m).
Proof.
  intros H s E. destruct (run_ok n nl nk ops H) as (s1 & E1 & [OG OA] & L & K & _).
  assert (s1 = s) by congruence. subst s1.
  cbn [check_feasible solve snd p_n p_G p_A q_G q_h q_A q_b]. rewrite L, K.
  split; [reflexivity|].
  assert (P : forall a0 rhs0 a rhs, half_ok n a0 rhs0 ->
    (if (0 <? arr_rows a0)%nat then Some (a0, rhs0) else None) = Some (a, rhs) ->
    exists m, a = Arr2 m /\ nc m = n /\ length rhs = nr m).
  { intros a0 rhs0 a rhs [[-> ->]|(m & -> & Hm & Hc & Hl)] Eq; [discriminate|].
    destruct (0 <? arr_rows (Arr2 m))%nat; [|discriminate]. injection Eq as <- <-. eauto. }
  split; intros a rhs; apply P; assumption.
Qed.

Lemma check_ok nl nk ops :
  Forall (op_ok (1 * nl * nk) nl nk) ops ->
  forall s, run ops (qp_init nl nk) = Ok s -> problem_ok (snd (check_feasible s)).
Proof.
  intros H s E. destruct (check_dim _ _ _ _ H s E) as (En & HG & HA).
  unfold problem_ok, cols_ok. rewrite En. rewrite Nat.mul_1_l in *. split.
  - destruct (p_G _) as [[a rhs]|]; [|exact I].
    destruct (HG a rhs eq_refl) as (m & -> & H1 & H2). auto.
  - destruct (p_A _) as [[a rhs]|]; [|exact I].
    destruct (HA a rhs eq_refl) as (m & -> & H1 & H2). auto.
Qed.

Lemma check_bad lb nt nl nk :
  (2 <= nt)%nat -> (1 <= nl)%nat -> (1 <= nk)%nat ->
  exists s, run [OpAdd [CBoundedBelow lb nt]] (qp_init nl nk) = Ok s
    /\ ~ problem_ok (snd (check_feasible s)).
Proof.
  intros Ht Hl Hk. eexists. split.
  - unfold run. cbn [for_each step]. unfold add_constraints. cbn [for_each get_constraints].
    unfold BoundedBelow. cbn [bind]. unfold add_constraint. cbn [c_G c_A add_half q_G q_h q_nl q_nk qp_init].
    cbn [scal_mat eye nr q_nl q_nk qp_init]. destruct (Nat.ltb_spec 0 (nt * nl * nk)); [|nia].
    cbn [arr_len bind length Nat.ltb Nat.leb q_A q_b q_nl q_nk]. reflexivity.
  - intros [HG _]. revert HG. cbn [check_feasible solve snd p_n p_G q_G q_h arr_rows nr scal_mat eye q_nl q_nk].
    destruct (Nat.ltb_spec 0 (nt * nl * nk)); [|nia]. cbn [cols_ok nc scal_mat eye]. intros [Ec _].
    replace (nt * nl * nk)%nat with (nt * (nl * nk))%nat in Ec by ring. nia.
Qed.
