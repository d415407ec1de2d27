(* The slopes are a fixed point, and the only one up to scale. *)
From Coq Require Import Permutation Sorted.
From Verif Require Import Base BaseLemmas FixbModel FixbSpec FixbLemmas.
Local Open Scope R_scope.

Section Main.
Variable weighted : bool.
Variable how : split.
Variable alternative : bool.
Variable weight_pairs : bool.
Variable nbrs : nat -> list nat.
Variable draw : nat -> nat -> bool.
Variable nf : nat.
Variable jd : list row.
Variables A B alpha : nat -> R.
Hypothesis Hg : grouped jd.
Hypothesis Hs : one_spell jd.
Hypothesis Hn : noise_free A B alpha jd.
Hypothesis Hw : weighted = true -> worker_weights jd.
Hypothesis Hf : forall r, In r jd -> (r_j r < nf)%nat.

Definition wi (i : nat) : R :=
  if weighted then match find (fun r => (r_i r =? i)%nat) jd with Some r => r_w r | None => 1 end else 1.

Lemma wi_pos i : 0 < wi i.
Proof.
  unfold wi. destruct weighted; [|lra]. destruct (Hw eq_refl) as [P _].
  destruct (find _ jd) eqn:E; [|lra]. apply find_some in E. apply P; tauto.
Qed.

Lemma wi_row r : weighted = true -> In r jd -> r_w r = wi (r_i r).
Proof.
  intros W Hr. destruct (Hw W) as [_ U]. unfold wi. rewrite W.
  destruct (find _ jd) as [s|] eqn:E.
  - apply find_some in E. destruct E as [Hi E]. apply Nat.eqb_eq in E. apply U; auto.
  - exfalso. apply (find_none _ _ E r) in Hr. rewrite Nat.eqb_refl in Hr. discriminate.
Qed.

Definition tw (ids : list nat) : R := rsum (map wi ids).
Definition am (ids : list nat) : R := rsum (map (fun i => wi i * alpha i) ids) / tw ids.

Lemma tw_pos ids : ids <> [] -> 0 < tw ids.
Proof.
  unfold tw. destruct ids as [|i ids]; [congruence|]. intros _. simpl.
  assert (0 <= rsum (map wi ids)).
  { induction ids as [|k ids IH]; simpl; [lra|]. assert (P := wi_pos k). lra. }
  assert (P := wi_pos i). lra.
Qed.

Lemma total_w_eq l : weighted = true -> (forall r, In r l -> In r jd) -> total_w l = tw (map r_i l).
Proof.
  intros W H. unfold total_w, tw. rewrite map_map. f_equal. apply map_ext_in. intros r Hr.
  apply wi_row; auto.
Qed.

Lemma avg_y_eq j l : l <> [] -> (forall r, In r l -> In r jd /\ r_j r = j) ->
  avg_y weighted l = A j + B j * am (map r_i l).
Proof.
  intros ne H.
  assert (P : 0 < tw (map r_i l)) by (apply tw_pos; destruct l; [congruence|discriminate]).
  assert (E : rsum (map (fun r => wi (r_i r) * r_y r) l)
              = A j * tw (map r_i l) + B j * rsum (map (fun i => wi i * alpha i) (map r_i l))).
  { clear P ne. unfold tw. induction l as [|r l IH]; simpl; [lra|].
    rewrite IH by (intros; apply H; right; auto).
    destruct (H r (or_introl eq_refl)) as [Hr Ej]. rewrite (Hn r Hr), Ej. lra. }
  assert (EA : avg_y weighted l = rsum (map (fun r => wi (r_i r) * r_y r) l) / tw (map r_i l)).
  { unfold avg_y. destruct (Bool.bool_dec weighted true) as [W|W].
    - rewrite W, total_w_eq by (auto; intros r Hr; apply H; auto). f_equal. f_equal. apply map_ext_in.
      intros r Hr. rewrite (wi_row r W) by (apply H; auto). reflexivity.
    - apply not_true_is_false in W. rewrite W. unfold tw. f_equal.
      + f_equal. apply map_ext. intros r. unfold wi. rewrite W. ring.
      + f_equal. clear - W. induction l as [|r l IH]; [reflexivity|].
        cbn [length map rsum]. rewrite S_INR, IH. unfold wi at 2. rewrite W. ring. }
  rewrite EA, E. unfold am. field. lra.
Qed.

Definition both (j1 j2 : nat) (g : R) : list (nat * nat * R) :=
  [(j1, j2, B j1 * g); (j2, j1, if alternative then B j2 * g else - (B j2 * g))].

Lemma masks_len j1 j2 l l11 : length (evens l) = length l11 ->
  length (fst (masks how draw j1 j2 l l11)) = length l11 /\
  length (snd (masks how draw j1 j2 l l11)) = length l11.
Proof.
  intros E. unfold masks. destruct how; simpl; rewrite !map_length.
  - unfold range. rewrite seq_length. auto.
  - auto.
Qed.

Lemma pair_ok j1 j2 : j1 <> j2 ->
  pair_entries weighted how alternative weight_pairs draw jd j1 j2 = Ok [] \/
  exists g, pair_entries weighted how alternative weight_pairs draw jd j1 j2 = Ok (both j1 j2 g)
            /\ (j1 < nf)%nat /\ (j2 < nf)%nat.
Proof.
  intros ne. unfold pair_entries.
  destruct (4 <=? _)%nat eqn:E4; [|left; reflexivity].
  set (l := rows12 j1 j2 jd) in *.
  destruct (paired_ids j1 j2 l ne (rows12_paired j1 j2 jd ne Hg Hs)) as [I1 I2].
  assert (L1 : length (evens l) = length (at_firm j1 l)) by (rewrite <- (map_length r_i), <- I1, map_length; auto).
  assert (L2 : length (at_firm j2 l) = length (at_firm j1 l)).
  { rewrite <- (map_length r_i), I2, <- I1, map_length; auto. }
  destruct (masks_len j1 j2 l (at_firm j1 l) L1) as [M1 M2].
  destruct (masks how draw j1 j2 l (at_firm j1 l)) as [en ex]. simpl in M1, M2.
  destruct (existsb (fun b => b) en) eqn:N1; [|left; reflexivity].
  destruct (existsb (fun b => b) ex) eqn:N2; [|left; reflexivity].
  right. simpl andb. cbv iota. unfold select. rewrite L2, M1, M2, !Nat.eqb_refl. cbn [bind].
  assert (IN : forall m j r, In r (pick m (at_firm j l)) -> In r jd /\ r_j r = j).
  { intros m j r H. apply pick_in in H. apply filter_In in H. destruct H as [H E].
    apply Nat.eqb_eq in E. split; auto. apply (rows12_in j1 j2). exact H. }
  assert (NE : forall m j, existsb (fun b => b) m = true -> length m = length (at_firm j l) ->
               pick m (at_firm j l) <> []) by (intros; apply pick_nonempty; auto).
  assert (AV : forall m j, existsb (fun b => b) m = true -> length m = length (at_firm j l) ->
               avg_y weighted (pick m (at_firm j l)) = A j + B j * am (map r_i (pick m (at_firm j l)))).
  { intros m j H1 H2. apply avg_y_eq; [apply NE; auto|intros r Hr; apply (IN m j r Hr)]. }
  rewrite (AV en j1), (AV ex j1), (AV en j2), (AV ex j2) by congruence.
  assert (ID : forall m, map r_i (pick m (at_firm j2 l)) = map r_i (pick m (at_firm j1 l))).
  { intros m. rewrite !map_pick. congruence. }
  rewrite !ID.
  assert (W12 : (if weight_pairs then
                   (if weighted then total_w (pick en (at_firm j2 l)) + total_w (pick ex (at_firm j2 l))
                    else INR (length (at_firm j1 l))) else 1)
                = (if weight_pairs then
                   (if weighted then total_w (pick en (at_firm j1 l)) + total_w (pick ex (at_firm j1 l))
                    else INR (length (at_firm j1 l))) else 1)).
  { destruct weight_pairs; auto. destruct (Bool.bool_dec weighted true) as [W|W].
    2:{ apply not_true_is_false in W. rewrite W. reflexivity. }
    rewrite W, !total_w_eq by (auto; intros r Hr; apply IN in Hr; tauto). rewrite !ID. reflexivity. }
  rewrite W12. clear W12.
  match goal with |- context [Ok [(j1, j2, ?w * _); _]] => set (w0 := w) end.
  set (g := w0 * (am (map r_i (pick en (at_firm j1 l))) - am (map r_i (pick ex (at_firm j1 l))))).
  exists g. split.
  - unfold both. do 2 f_equal.
    + f_equal. unfold g. ring.
    + f_equal. f_equal. unfold g. destruct alternative; ring.
  - assert (H1 := NE en j1 N1 M1).
    assert (H2 := NE en j2 N1 (eq_trans M1 (eq_sym L2))).
    destruct (pick en (at_firm j1 l)) as [|r1 t1] eqn:F1; [congruence|].
    destruct (pick en (at_firm j2 l)) as [|r2 t2] eqn:F2; [congruence|].
    destruct (IN en j1 r1) as [K1 K2]; [rewrite F1; left; reflexivity|].
    destruct (IN en j2 r2) as [K3 K4]; [rewrite F2; left; reflexivity|].
    rewrite <- K2, <- K4. auto.
Qed.

(* The entries of M0. *)
Inductive good : list (nat * nat * R) -> Prop :=
| good_nil : good []
| good_pair es a b g : good es -> (a < nf)%nat -> (b < nf)%nat -> a <> b -> good (es ++ both a b g).

Lemma entries_good : exists es,
  entries weighted how alternative weight_pairs nbrs draw nf jd = Ok es /\ good es.
Proof.
  unfold entries.
  assert (IN : forall j1 l acc, good acc -> exists es,
    for_each l (fun j2 acc => if (j1 <? j2)%nat then
       (e <- pair_entries weighted how alternative weight_pairs draw jd j1 j2 ;; Ok (acc ++ e))%res
       else Ok acc) acc = Ok es /\ good es).
  { intros j1. induction l as [|j2 l IH]; intros acc G; simpl; [eauto|].
    destruct (j1 <? j2)%nat eqn:E; [|apply IH; auto]. apply Nat.ltb_lt in E.
    destruct (pair_ok j1 j2) as [->|[g [-> [F1 F2]]]]; [lia| |]; cbn [bind].
    - rewrite app_nil_r. apply IH; auto.
    - apply IH. constructor; auto. lia. }
  generalize (good_nil). generalize (@nil (nat * nat * R)) as acc.
  induction (range nf) as [|j1 l IH]; intros acc G; simpl; [eauto|].
  destruct (IN j1 (nbrs j1) acc G) as [es [-> G2]]. cbn [bind]. apply IH; auto.
Qed.

Lemma good_ids es : good es -> forall a b v, In (a, b, v) es -> (a < nf)%nat /\ (b < nf)%nat.
Proof.
  induction 1 as [|es a b g G IH Ha Hb ne]; intros x y v H; [destruct H|].
  apply in_app_or in H. destruct H as [H|[H|[H|[]]]]; [eapply IH; eauto| |]; injection H as <- <- _; auto.
Qed.

Lemma good_check es : good es ->
  forallb (fun e => let '(r, c, _) := e in (r <? nf)%nat && (c <? nf)%nat) es = true.
Proof.
  intros G. apply forallb_forall. intros [[a b] v] H.
  destruct (good_ids es G a b v H) as [H1 H2]. apply Nat.ltb_lt in H1, H2. rewrite H1, H2. auto.
Qed.

Lemma good_back es : good es -> forall a b v, In (a, b, v) es -> exists v', In (b, a, v') es.
Proof.
  induction 1 as [|es a b g G IH Ha Hb ne]; intros x y v H; [destruct H|].
  apply in_app_or in H. destruct H as [H|[H|[H|[]]]].
  - destruct (IH x y v H) as [v' Hv]. exists v'. apply in_or_app; auto.
  - injection H as <- <- _. eexists. apply in_or_app. right. right. left. reflexivity.
  - injection H as <- <- _. eexists. apply in_or_app. right. left. reflexivity.
Qed.

Lemma M0_app es fs a b : M0 (es ++ fs) a b = M0 es a b + M0 fs a b.
Proof. unfold M0. rewrite map_app. apply rsum_app. Qed.

Lemma good_sym es : good es -> exists G : nat -> nat -> R,
  (forall a b, M0 es a b = B a * G a b) /\
  (forall a b, G b a = if alternative then G a b else - G a b).
Proof.
  induction 1 as [|es x y g Gd [G [E1 E2]] Hx Hy ne].
  - exists (fun _ _ => 0). split; intros; [cbn; ring|destruct alternative; ring].
  - exists (fun a b => G a b + (if (x =? a)%nat && (y =? b)%nat then g else 0)
                       + (if (y =? a)%nat && (x =? b)%nat then (if alternative then g else - g) else 0)).
    split; intros a b.
    + rewrite M0_app, E1. unfold M0, both. cbn [map rsum].
      destruct (Nat.eqb_spec x a); destruct (Nat.eqb_spec y b); destruct (Nat.eqb_spec y a);
        destruct (Nat.eqb_spec x b); subst; cbn [andb]; destruct alternative; try ring.
    + rewrite E2.
      destruct (Nat.eqb_spec x a); destruct (Nat.eqb_spec y b); destruct (Nat.eqb_spec y a);
        destruct (Nat.eqb_spec x b); subst; cbn [andb]; destruct alternative; try ring; try (exfalso; congruence).
Qed.

Lemma S0_eq es G : (forall a b, M0 es a b = B a * G a b) ->
  (forall a b, G b a = if alternative then G a b else - G a b) ->
  forall a, S0 alternative nf es a = sumn nf (fun b => G a b * B b).
Proof.
  intros E1 E2 a. unfold S0.
  destruct alternative.
  - transitivity (sumn nf (fun b => M0 es b a)); [ring|]. apply sumn_ext. intros b _.
    rewrite E1, E2. ring.
  - transitivity (sumn nf (fun b => -1 * M0 es b a)); [rewrite sumn_scal; ring|].
    apply sumn_ext. intros b _. rewrite E1, E2. ring.
Qed.

Lemma row_eq es G : (forall a b, M0 es a b = B a * G a b) -> forall a v,
  sumn nf (fun b => M0 es a b * v b) = B a * sumn nf (fun b => G a b * v b).
Proof.
  intros E1 a v. rewrite <- sumn_scal. apply sumn_ext. intros b _. rewrite E1. ring.
Qed.

Lemma lhs_fixed es v : (forall a, (a < nf)%nat -> S0 alternative nf es a <> 0) ->
  fixed nf (lhs alternative nf es) v <->
  forall a, (a < nf)%nat -> sumn nf (fun b => M0 es a b * v b) = S0 alternative nf es a * v a.
Proof.
  intros nz.
  assert (E : forall a, sumn nf (fun b => lhs alternative nf es a b * v b)
              = 1 / S0 alternative nf es a * sumn nf (fun b => M0 es a b * v b)).
  { intros a. rewrite <- sumn_scal. apply sumn_ext. intros b _. unfold lhs. ring. }
  split; intros H a Ha.
  - specialize (H a Ha). rewrite E in H. rewrite <- H. field. auto.
  - rewrite E, (H a Ha). field. auto.
Qed.

Lemma true_fixed es : good es -> (forall a, (a < nf)%nat -> S0 alternative nf es a <> 0) ->
  fixed nf (lhs alternative nf es) B.
Proof.
  intros Gd nz. destruct (good_sym es Gd) as [G [E1 E2]]. apply lhs_fixed; auto. intros a Ha.
  rewrite (row_eq es G E1), (S0_eq es G E1 E2). ring.
Qed.

(* ---- uniqueness ---------------------------------------------------------- *)

Lemma max_exists n (x : nat -> R) : (0 < n)%nat -> exists m, (m < n)%nat /\ forall k, (k < n)%nat -> x k <= x m.
Proof.
  induction n as [|n IH]; intros H; [lia|]. destruct n as [|n].
  - exists 0%nat. split; [lia|]. intros k Hk. replace k with 0%nat by lia. lra.
  - destruct IH as [m [Hm Hk]]; [lia|]. destruct (Rle_dec (x (S n)) (x m)) as [L|L].
    + exists m. split; [lia|]. intros k H2. destruct (Nat.eq_dec k (S n)) as [->|]; auto. apply Hk; lia.
    + exists (S n). split; [lia|]. intros k H2. destruct (Nat.eq_dec k (S n)) as [->|]; [lra|].
      assert (x k <= x m) by (apply Hk; lia). lra.
Qed.

Lemma sumn_pos_zero n f : (forall k, (k < n)%nat -> 0 <= f k) -> sumn n f = 0 ->
  forall k, (k < n)%nat -> f k = 0.
Proof.
  induction n as [|n IH]; intros P E k Hk; [lia|]. rewrite sumn_S in E.
  assert (0 <= sumn n f) by (apply sumn_nonneg; auto).
  assert (0 <= f n) by (apply P; lia).
  destruct (Nat.eq_dec k n) as [->|]; [lra|]. apply IH; [auto|lra|lia].
Qed.

Section Unique.
Variable es : list (nat * nat * R).
Hypothesis Ha : alternative = true.
Hypothesis Gd : good es.
Hypothesis Bp : forall j, (j < nf)%nat -> 0 < B j.
Variable sg : R.
Hypothesis Vp : forall a b v, In (a, b, v) es -> 0 < sg * v.
Hypothesis n2 : (2 <= nf)%nat.
Hypothesis Hl : forall j, (j < nf)%nat -> linked es j.

Lemma M0_sign l a b : (forall a b v, In (a, b, v) l -> 0 < sg * v) -> 0 <= sg * M0 l a b.
Proof.
  induction l as [|[[x y] v] l IH]; intros H.
  - unfold M0; simpl; lra.
  - unfold M0 in *. cbn [map rsum].
    assert (0 <= sg * rsum (map (fun e => let '(r, c, v) := e in if (r =? a)%nat && (c =? b)%nat then v else 0) l)).
    { apply IH. intros; eapply H; right; eauto. }
    assert (0 < sg * v) by (eapply H; left; reflexivity).
    destruct (_ && _); lra.
Qed.

Lemma M0_pos l a b v : (forall a b v, In (a, b, v) l -> 0 < sg * v) -> In (a, b, v) l -> 0 < sg * M0 l a b.
Proof.
  induction l as [|[[x y] u] l IH]; intros H I; [destruct I|].
  assert (T : forall a b v, In (a, b, v) l -> 0 < sg * v) by (intros; eapply H; right; eauto).
  assert (P : 0 < sg * u) by (eapply H; left; reflexivity).
  assert (Z := M0_sign l a b T).
  change (M0 ((x, y, u) :: l) a b) with ((if (x =? a)%nat && (y =? b)%nat then u else 0) + M0 l a b).
  destruct I as [I|I].
  - injection I as -> -> ->. rewrite !Nat.eqb_refl. simpl. lra.
  - specialize (IH T I). destruct (_ && _); lra.
Qed.

Lemma out_of_0 j : linked es j -> j = 0%nat \/ exists b v, In (0%nat, b, v) es.
Proof.
  induction 1 as [|a b v I L [->|E]]; auto. right; eauto.
Qed.

Lemma into j : (j < nf)%nat -> exists a v, In (a, j, v) es.
Proof.
  intros Hj. destruct (Hl j Hj) as [|a b v I L]; [|eauto].
  destruct (out_of_0 1%nat) as [C|[b [v I]]]; [apply Hl; lia|discriminate|].
  destruct (good_back es Gd _ _ _ I) as [v' I']. eauto.
Qed.

Lemma S0_nonzero a : (a < nf)%nat -> S0 alternative nf es a <> 0.
Proof.
  intros H. unfold S0. rewrite Ha. destruct (into a H) as [c [v I]].
  destruct (good_ids es Gd _ _ _ I) as [Hc _].
  assert (P := M0_pos es c a v Vp I).
  intros C.
  assert (Z : sumn nf (fun b => sg * M0 es b a) = 0).
  { rewrite sumn_scal. replace (sumn nf (fun b => M0 es b a)) with 0; [ring|].
    lra. }
  assert (Y := sumn_pos_zero nf _ (fun k _ => M0_sign es k a Vp) Z c Hc). cbv beta in Y. lra.
Qed.

Lemma fixed_unique v : fixed nf (lhs alternative nf es) v ->
  exists c, forall j, (j < nf)%nat -> v j = c * B j.
Proof.
  intros F. rewrite lhs_fixed in F by exact S0_nonzero.
  destruct (good_sym es Gd) as [G [E1 E2]]. rewrite Ha in E2.
  set (x := fun j => v j / B j).
  destruct (max_exists nf x) as [m [Hm Mx]]; [lia|].
  assert (Gs : forall a b, (a < nf)%nat -> 0 <= sg * G a b).
  { intros a b La. assert (Z := M0_sign es a b Vp). rewrite E1 in Z. assert (P := Bp a La).
    apply Rmult_le_reg_l with (B a); auto. rewrite Rmult_0_r. lra. }
  assert (EQ : forall a, (a < nf)%nat -> sumn nf (fun b => sg * G a b * B b * (x a - x b)) = 0).
  { intros a La. specialize (F a La).
    rewrite (row_eq es G E1), (S0_eq es G E1) in F by (rewrite Ha; exact E2).
    assert (P := Bp a La).
    transitivity (sg * (x a * sumn nf (fun b => G a b * B b) - sumn nf (fun b => G a b * v b))).
    - rewrite <- sumn_scal, <- sumn_minus, <- sumn_scal. apply sumn_ext. intros b Lb.
      assert (Q := Bp b Lb). unfold x at 2. field. lra.
    - replace (x a * sumn nf (fun b => G a b * B b)) with (sumn nf (fun b => G a b * v b)); [ring|].
      apply Rmult_eq_reg_l with (B a); [|lra]. rewrite F. unfold x. field. lra. }
  assert (ST : forall a b w, In (a, b, w) es -> x a = x m -> x b = x m).
  { intros a b w I Ex. destruct (good_ids es Gd _ _ _ I) as [La Lb].
    assert (Z := EQ a La).
    assert (Y : sg * G a b * B b * (x a - x b) = 0).
    { apply (sumn_pos_zero nf (fun b => sg * G a b * B b * (x a - x b))); auto.
      intros k Lk. rewrite Ex. apply Rmult_le_pos; [|specialize (Mx k Lk); lra].
      apply Rmult_le_pos; [apply Gs; auto|]. specialize (Bp k Lk). lra. }
    assert (P := M0_pos es a b w Vp I). rewrite E1 in P.
    assert (PA := Bp a La). assert (PB := Bp b Lb).
    assert (sg * G a b <> 0) by (intros C; apply (Rlt_irrefl 0); replace 0 with (B a * (sg * G a b)) at 2 by (rewrite C; ring); lra).
    assert (x a - x b = 0); [|lra].
    apply Rmult_eq_reg_l with (sg * G a b * B b); [lra|].
    apply Rmult_integral_contrapositive_currified; lra. }
  assert (B2 : forall a b w, In (a, b, w) es -> x b = x m -> x a = x m).
  { intros a b w I Ex. destruct (good_back es Gd _ _ _ I) as [w' I']. eapply ST; eauto. }
  assert (X0 : x 0%nat = x m).
  { assert (L := Hl m Hm). assert (C : forall j, linked es j -> x j = x m -> x 0%nat = x m).
    { induction 1 as [|a b w I Lk IH]; auto. intros Ex. apply IH. eapply B2; eauto. }
    apply (C m L). reflexivity. }
  assert (AL : forall j, linked es j -> x j = x m).
  { induction 1 as [|a b w I Lk IH]; auto. eapply ST; eauto. }
  exists (x m). intros j Hj. rewrite <- (AL j (Hl j Hj)). unfold x. assert (P := Bp j Hj). field. lra.
Qed.

Lemma recovered eig : eig_ok nf eig (lhs alternative nf es) -> forall j, (j < nf)%nat ->
  eig (lhs alternative nf es) j / eig (lhs alternative nf es) 0%nat = B j / B 0%nat.
Proof.
  intros Ok j Hj.
  assert (P0 : 0 < B 0%nat) by (apply Bp; lia).
  destruct Ok as [[a [La Nz]] F].
  { exists B. split; [exists 0%nat; split; [lia|lra]|]. apply true_fixed; auto. exact S0_nonzero. }
  destruct (fixed_unique _ F) as [c E].
  assert (c <> 0) by (intros ->; apply Nz; rewrite E by auto; ring).
  rewrite !E by (auto; lia). field. split; [lra|auto].
Qed.
End Unique.
End Main.
