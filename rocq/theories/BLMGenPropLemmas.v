(* Lemmas for the properties of the constraints generated with control variables. *)
From Coq Require Import ZArith Lia ZifyNat.
Ltac Zify.zify_post_hook ::= Z.div_mod_to_equations.
From Verif Require Import Base BaseLemmas UtilModel UtilSpec ConsModel ConsSpec ConsLemmas
  ConsBuildLemmas ConsBuild2Lemmas ConsBuild3Lemmas ConsQPLemmas ConsPropLemmas
  BLMModel BLMRunModel BLMFitModel BLMFitLemmas BLMSpec BLMSortLemmas BLMGenModel BLMGenSpec BLMGenLemmas.
Local Open Scope R_scope.

Lemma Forall2_cons_iff {A B} (P : A -> B -> Prop) a l b l' :
  Forall2 P (a :: l) (b :: l') <-> P a b /\ Forall2 P l l'.
Proof. split; [intros H; inversion H; auto|intros [? ?]; constructor; assumption]. Qed.

Lemma Forall2_length {A B} (P : A -> B -> Prop) l l' : Forall2 P l l' -> length l = length l'.
Proof. intros H. induction H; cbn; congruence. Qed.

Lemma gen_meaning s nl nk cats ctss k0 : (k0 < nk)%nat -> (1 <= nl)%nat -> all_valid s nl nk (cats ++ ctss) ->
  exists qa qs cols, gen_all s nl nk cats ctss k0 = Ok (qa, qs, cols) /\
    (forall x, accepts qa x <->
       imposed nl nk (optl (p_a s) ++ optl (p_a_all s)) x /\
       (cats <> [] -> (p_a_all s <> None \/ reached cats) ->
          types_ordered (p_primary s) (p_md_worker s) nl nk x /\
          (p_normalize s = true ->
             (p_force s = true -> p_force_cons s = true -> lowest_firm (p_primary s) (p_md_firm s) nl nk k0 x) /\
             normalised (p_primary s) nl nk cats k0 x))) /\
    (forall x, accepts qs x <-> at_least (p_lb s) nl nk x /\ imposed nl nk (optl (p_s s) ++ optl (p_s_all s)) x) /\
    Forall2 (col_spec s nl) (cats ++ ctss) cols.
Proof.
  intros Hk Hl Hv. destruct (gen_built s nl nk cats ctss k0 Hk Hl Hv) as (qa & qs & cols & E & _ & Ha & Hs & Hc).
  exists qa, qs, cols. split; [exact E|]. split; [|split; [exact Hs|exact Hc]].
  intros x. rewrite Ha. exact (base_meaning s nl nk cats k0 x Hk Hl).
Qed.

(* ---- stationary columns ---- *)
Lemma stationary_two nl n x : (1 <= nl)%nat ->
  imposed nl n [CStationary (-1) 2] x <->
  forall l k, (l < nl)%nat -> (k < n)%nat -> eff nl n x 0 l k = eff nl n x 1 l k.
Proof.
  intros Hl. destruct (Stationary_all (-1) 2 nl n) as (d & E & _ & H); [now left|lia|exact Hl|].
  rewrite (imposed_one _ _ (CStationary (-1) 2) d x _ E (H x)). split.
  - intros K l k Hll Hk. apply (K 0%nat); [lia|exact Hll|exact Hk].
  - intros K t l k Ht Hll Hk. replace t with 0%nat by lia. apply K; assumption.
Qed.

(* What a control column's constraints imply for shifts. *)
Definition col_kind (nl : nat) (c : gcol) (x : nat -> R) : Prop :=
  (gc_wi c = false -> same_for_types nl (gc_n c) x) /\
  (is_stationary (gc_a c) = true ->
     forall l k, (l < nl)%nat -> (k < gc_n c)%nat -> eff nl (gc_n c) x 0 l k = eff nl (gc_n c) x 1 l k).

Lemma accepted_kind s nl c q x : (1 <= nl)%nat -> stationary_all c ->
  (forall o, In o (optl (gc_a c)) -> valid 2 nl (gc_n c) o) ->
  col_spec s nl c q -> accepts (fst q) x -> col_kind nl c x.
Proof.
  intros Hl Hs Hv [Ha _] Hx. apply Ha in Hx as [Hw Hi]. split; [exact Hw|].
  intros Est. apply is_stationary_iff in Est as (nwt & nt & Hin).
  pose proof (Hs _ _ Hin) as ->. assert (Ent : nt = 2%nat) by (apply (Hv _ Hin)). subst nt.
  apply (stationary_two nl (gc_n c) x Hl). intros o d [<-|[]]. apply Hi. apply in_or_app. now left.
Qed.

(* ---- identification ---- *)
(* The difference between two sets of control effects at fixed categories. *)
Lemma effect_difference nl cats xs xs' :
  length xs = length cats -> length xs' = length cats ->
  Forall (fun c => (1 <= gc_n c)%nat) cats -> ~ has cats true false ->
  Forall2 (col_kind nl) cats xs -> Forall2 (col_kind nl) cats xs' ->
  exists (a b : nat -> R),
    (forall t l, (t < 2)%nat -> (l < nl)%nat ->
       cats_effect nl cats xs t l (map (fun _ => 0%nat) cats) - cats_effect nl cats xs' t l (map (fun _ => 0%nat) cats)
       = a l + b t) /\
    (~ has cats true true -> forall l, (l < nl)%nat -> a l = 0) /\
    (~ has cats false false -> ~ has cats false true -> forall t, (t < 2)%nat -> b t = 0) /\
    (~ has cats false false -> b 0%nat = b 1%nat).
Proof.
  revert xs xs'. induction cats as [|c cats IH]; intros xs xs' L L' Hn Hf K K'.
  - exists (fun _ => 0), (fun _ => 0). repeat split; auto. intros t l _ _. cbn. ring.
  - destruct xs as [|x xs]; [discriminate|]. destruct xs' as [|x' xs']; [discriminate|].
    apply Forall_cons_iff in Hn as [Hc Hn].
    apply Forall2_cons_iff in K as [Kx K]. apply Forall2_cons_iff in K' as [Kx' K'].
    rewrite has_cons in Hf.
    destruct (IH xs xs') as (a & b & Hab & Ha & Hb & Hb'); [now injection L|now injection L'|assumption|tauto|assumption|assumption|].
    destruct (Nat.eq_dec nl 0) as [->|Hnl].
    { exists (fun _ => 0), (fun _ => 0). repeat split; auto. intros t l _ Hl. lia. }
    destruct Kx as [Kw Ks]. destruct Kx' as [Kw' Ks'].
    destruct (gc_wi c) eqn:Ew.
    + destruct (is_stationary (gc_a c)) eqn:Es; [|exfalso; apply Hf; auto].
      exists (fun l => a l + (eff nl (gc_n c) x 0 l 0 - eff nl (gc_n c) x' 0 l 0)), b.
      split; [|split; [|split]].
      * intros t l Ht Hl. cbn [map cats_effect]. specialize (Hab t l Ht Hl).
        assert (E : forall z, eff nl (gc_n c) z 0 l 0 = eff nl (gc_n c) z 1 l 0 -> eff nl (gc_n c) z t l 0 = eff nl (gc_n c) z 0 l 0).
        { intros z Hz. destruct t as [|[|t]]; [reflexivity|now symmetry|lia]. }
        rewrite (E x), (E x') by (first [apply Ks | apply Ks']; auto; lia). lra.
      * intros H. exfalso. apply H. apply has_cons. auto.
      * intros H1 H2. apply Hb; intros H; [apply H1|apply H2]; apply has_cons; auto.
      * intros H1. apply Hb'. intros H; apply H1; apply has_cons; auto.
    + exists a, (fun t => b t + (eff nl (gc_n c) x t 0 0 - eff nl (gc_n c) x' t 0 0)).
      split; [|split; [|split]].
      * intros t l Ht Hl. cbn [map cats_effect]. specialize (Hab t l Ht Hl).
        rewrite (Kw eq_refl t 0%nat l 0%nat), (Kw' eq_refl t 0%nat l 0%nat) by lia. lra.
      * intros H. apply Ha. intros H'. apply H. apply has_cons. auto.
      * intros H1 H2. exfalso. destruct (is_stationary (gc_a c)) eqn:Es;
          [apply H2|apply H1]; apply has_cons; auto.
      * intros H1. destruct (is_stationary (gc_a c)) eqn:Es; [|exfalso; apply H1; apply has_cons; auto].
        rewrite (Ks eq_refl 0%nat 0%nat), (Ks' eq_refl 0%nat 0%nat) by lia.
        assert (b 0%nat = b 1%nat) by (apply Hb'; intros H; apply H1; apply has_cons; auto). lra.
Qed.

Lemma in_primary_sub pp f g : in_primary pp f = 0 -> in_primary pp g = 0 -> in_primary pp (fun t => f t - g t) = 0.
Proof. destruct pp; cbn; lra. Qed.

Lemma normalised_unique pp nl nk cats k0 x x' xs xs' : (k0 < nk)%nat -> (1 <= nl)%nat ->
  length xs = length cats -> length xs' = length cats ->
  Forall (fun c => (1 <= gc_n c)%nat) cats ->
  Forall2 (col_kind nl) cats xs -> Forall2 (col_kind nl) cats xs' ->
  (cats <> [] -> normalised pp nl nk cats k0 x /\ normalised pp nl nk cats k0 x') ->
  same_predictions nl nk cats x xs x' xs' -> equal_effects nl nk x x'.
Proof.
  intros Hk Hl L L' Hn K K' HN HP.
  set (z := map (fun _ => 0%nat) cats).
  assert (Hz : Forall2 (fun c n => n < gc_n c)%nat cats z).
  { subst z. clear -Hn. induction Hn; cbn; constructor; [lia|assumption]. }
  (* the shift *)
  set (D t l := cats_effect nl cats xs' t l z - cats_effect nl cats xs t l z).
  assert (HD : forall t l k, (t < 2)%nat -> (l < nl)%nat -> (k < nk)%nat ->
             eff nl nk x t l k - eff nl nk x' t l k = D t l).
  { intros t l k Ht Hll Hkk. specialize (HP t l k z Ht Hll Hkk Hz). unfold D. lra. }
  enough (H0 : forall t l, (t < 2)%nat -> (l < nl)%nat -> D t l = 0).
  { intros t l k Ht Hll Hkk. specialize (HD t l k Ht Hll Hkk). rewrite (H0 t l Ht Hll) in HD. lra. }
  assert (Hne : cats = [] \/ cats <> []) by (destruct cats; [now left|right; discriminate]).
  destruct Hne as [Hne|Hne].
  { intros t l _ _. unfold D. rewrite Hne. cbn. ring. }
  destruct (HN Hne) as [(N1 & N2 & N3 & N4) (M1 & M2 & M3 & M4)]. clear HN.
  assert (D0 : forall t l, (t < 2)%nat -> (l < nl)%nat -> D t l = eff nl nk x t l k0 - eff nl nk x' t l k0).
  { intros t l Ht Hll. symmetry. apply HD; assumption. }
  destruct (has_dec cats true false) as [H1|H1].
  { intros t l Ht Hll. rewrite (D0 t l Ht Hll), (N1 H1 t l Ht Hll), (M1 H1 t l Ht Hll). ring. }
  destruct (effect_difference nl cats xs' xs L' L Hn H1 K' K) as (a & b & Hab & Ha & Hb & Hb').
  change (forall t l, (t < 2)%nat -> (l < nl)%nat -> D t l = a l + b t) in Hab.
  destruct (has_dec cats true true) as [H2|H2].
  - destruct (N2 H1 H2) as [P2 S2]. destruct (M2 H1 H2) as [P2' S2'].
    assert (PP : forall l, (l < nl)%nat -> in_primary pp (fun t => D t l) = 0).
    { intros l Hll. pose proof (in_primary_sub pp _ _ (P2 l Hll) (P2' l Hll)) as Q. cbv beta in Q.
      pose proof (D0 0%nat l ltac:(lia) Hll). pose proof (D0 1%nat l ltac:(lia) Hll).
      destruct pp; cbn in *; lra. }
    assert (Hb2 : has cats false false \/ b 0%nat = b 1%nat).
    { destruct (has_dec cats false false) as [H3|H3]; [now left|right; exact (Hb' H3)]. }
    assert (SS : D (secondary pp) 0%nat = 0 \/ b 0%nat = b 1%nat).
    { destruct Hb2 as [H3|H3]; [left|now right].
      rewrite D0 by (destruct pp; cbn; lia). rewrite (S2 H3), (S2' H3). ring. }
    intros t l Ht Hll. pose proof (PP l Hll) as Q. pose proof (PP 0%nat ltac:(lia)) as Q0.
    pose proof (Hab 0%nat l ltac:(lia) Hll). pose proof (Hab 1%nat l ltac:(lia) Hll).
    pose proof (Hab 0%nat 0%nat ltac:(lia) ltac:(lia)). pose proof (Hab 1%nat 0%nat ltac:(lia) ltac:(lia)).
    destruct pp; cbn in Q, Q0, SS; (destruct t as [|[|t]]; [| |lia]); destruct SS as [SS|SS]; lra.
  - assert (Ha0 := Ha H2).
    assert (DB : forall t l, (t < 2)%nat -> (l < nl)%nat -> D t l = D t 0%nat).
    { intros t l Ht Hll. rewrite (Hab t l Ht Hll), (Hab t 0%nat Ht ltac:(lia)), (Ha0 l Hll), (Ha0 0%nat ltac:(lia)). ring. }
    destruct (has_dec cats false false) as [H3|H3].
    + intros t l Ht Hll. rewrite (DB t l Ht Hll), (D0 t 0%nat Ht ltac:(lia)), (N3 H1 H2 H3 t Ht), (M3 H1 H2 H3 t Ht). ring.
    + assert (H4 : has cats false true).
      { destruct (has_some cats Hne) as ([|] & [|] & H); tauto. }
      assert (E := Hb' H3).
      pose proof (in_primary_sub pp _ _ (N4 H1 H2 H3 H4) (M4 H1 H2 H3 H4)) as Q. cbv beta in Q.
      pose proof (D0 0%nat 0%nat ltac:(lia) ltac:(lia)) as E0. pose proof (D0 1%nat 0%nat ltac:(lia) ltac:(lia)) as E1.
      pose proof (Hab 0%nat 0%nat ltac:(lia) ltac:(lia)). pose proof (Hab 1%nat 0%nat ltac:(lia) ltac:(lia)).
      pose proof (Ha0 0%nat ltac:(lia)).
      intros t l Ht Hll. rewrite (DB t l Ht Hll). destruct pp; cbn in Q; (destruct t as [|[|t]]; [| |lia]); lra.
Qed.

Lemma forall2_app_l {A B} (P : A -> B -> Prop) l1 l2 l :
  Forall2 P (l1 ++ l2) l -> Forall2 P l1 (firstn (length l1) l).
Proof.
  revert l. induction l1 as [|a l1 IH]; intros l H; [constructor|].
  destruct l as [|b l]; inversion H; subst. cbn. constructor; [assumption|]. now apply IH.
Qed.

Lemma kinds s nl cats cols xs : (1 <= nl)%nat -> Forall stationary_all cats ->
  (forall c o, In c cats -> In o (optl (gc_a c)) -> valid 2 nl (gc_n c) o) ->
  Forall2 (col_spec s nl) cats cols -> Forall2 (fun q x => accepts (fst q) x) cols xs ->
  Forall2 (col_kind nl) cats xs.
Proof.
  intros Hl Hs Hv Hc. revert xs. induction Hc as [|c q cats cols Hcq Hc IH]; intros xs Hx.
  - inversion Hx. constructor.
  - inversion Hx; subst. apply Forall_cons_iff in Hs as [Hs1 Hs2]. constructor.
    + apply (accepted_kind s nl c q); auto. intros o. apply Hv. now left.
    + apply IH; auto. intros c' o Hi. apply Hv. now right.
Qed.

Lemma identified s nl nk cats ctss k0 qa qs cols x xs x' xs' :
  (k0 < nk)%nat -> (1 <= nl)%nat -> all_valid s nl nk (cats ++ ctss) ->
  Forall (fun c => (1 <= gc_n c)%nat) cats -> Forall stationary_all cats ->
  p_normalize s = true -> p_a_all s <> None \/ reached cats ->
  gen_all s nl nk cats ctss k0 = Ok (qa, qs, cols) ->
  accepts qa x -> Forall2 (fun q y => accepts (fst q) y) (firstn (length cats) cols) xs ->
  accepts qa x' -> Forall2 (fun q y => accepts (fst q) y) (firstn (length cats) cols) xs' ->
  same_predictions nl nk cats x xs x' xs' -> equal_effects nl nk x x'.
Proof.
  intros Hk Hl Hv Hn Hst Hnorm Hr Eg Hx Hxs Hx' Hxs' HP.
  destruct (gen_meaning s nl nk cats ctss k0 Hk Hl Hv) as (qa0 & qs0 & cols0 & E & Ha & _ & Hc).
  rewrite E in Eg. injection Eg as -> -> ->.
  apply forall2_app_l in Hc.
  assert (HV : forall c o, In c cats -> In o (optl (gc_a c)) -> valid 2 nl (gc_n c) o).
  { intros c o Hi Ho. apply (proj2 Hv c o); [apply in_or_app; now left|apply in_or_app; now left]. }
  assert (K := kinds s nl cats _ xs Hl Hst HV Hc Hxs).
  assert (K' := kinds s nl cats _ xs' Hl Hst HV Hc Hxs').
  apply (normalised_unique (p_primary s) nl nk cats k0 x x' xs xs'); auto.
  - symmetry. exact (Forall2_length _ _ _ K).
  - symmetry. exact (Forall2_length _ _ _ K').
  - intros Hne. apply Ha in Hx as [_ Hx]. apply Ha in Hx' as [_ Hx'].
    destruct (Hx Hne Hr) as [_ N]. destruct (Hx' Hne Hr) as [_ N'].
    split; [exact (proj2 (N Hnorm))|exact (proj2 (N' Hnorm))].
Qed.

(* ---- every model has a normalised equivalent ---- *)
Definition shift (nl nk : nat) (g : nat -> nat -> R) (x : nat -> R) (i : nat) : R :=
  x i + g (i / (nl * nk))%nat ((i / nk) mod nl)%nat.

Lemma shift_eff nl nk g x t l k : (l < nl)%nat -> (k < nk)%nat ->
  eff nl nk (shift nl nk g x) t l k = eff nl nk x t l k + g t l.
Proof.
  intros Hl Hk. unfold eff, shift. f_equal.
  assert (E1 : ((t * nl * nk + l * nk + k) / nk = t * nl + l)%nat).
  { replace (t * nl * nk + l * nk + k)%nat with (k + (t * nl + l) * nk)%nat by lia.
    rewrite Nat.div_add by lia. rewrite (Nat.div_small k nk Hk). lia. }
  assert (E2 : ((t * nl * nk + l * nk + k) / (nl * nk) = t)%nat).
  { rewrite (Nat.mul_comm nl nk), <- Nat.div_div by lia. rewrite E1.
    replace (t * nl + l)%nat with (l + t * nl)%nat by lia.
    rewrite Nat.div_add by lia. rewrite (Nat.div_small l nl Hl). lia. }
  rewrite E1, E2. f_equal.
  replace (t * nl + l)%nat with (l + t * nl)%nat by lia.
  rewrite Nat.mod_add by lia. apply Nat.mod_small. exact Hl.
Qed.

(* A shift that the column can take up. *)
Definition can_take (wi stat : bool) (g : nat -> nat -> R) : Prop :=
  (wi = false -> forall t l l', g t l = g t l') /\ (stat = true -> forall l, g 0%nat l = g 1%nat l).

Lemma shift_kind nl c g x : can_take (gc_wi c) (is_stationary (gc_a c)) g -> col_kind nl c x ->
  col_kind nl c (shift nl (gc_n c) g x).
Proof.
  intros [Gw Gs] [Kw Ks]. split.
  - intros E t k l l' Ht Hk Hl Hl'. rewrite !shift_eff by assumption.
    rewrite (Gw E t l l'). rewrite (Kw E t k l l'); auto.
  - intros E l k Hl Hk. rewrite !shift_eff by assumption. rewrite (Ks E l k Hl Hk), (Gs E l). reflexivity.
Qed.

Lemma take_up nl cats xs wi stat g : has cats wi stat -> can_take wi stat g ->
  Forall2 (col_kind nl) cats xs ->
  exists xs', Forall2 (col_kind nl) cats xs' /\
    forall t l ns, (t < 2)%nat -> (l < nl)%nat -> Forall2 (fun c n => n < gc_n c)%nat cats ns ->
      cats_effect nl cats xs' t l ns = cats_effect nl cats xs t l ns + g t l.
Proof.
  intros Hh Hg K. induction K as [|c x cats xs Kx K IH]; [now apply has_nil in Hh|].
  apply has_cons in Hh as [[Ew Es]|Hh].
  - exists (shift nl (gc_n c) g x :: xs). split.
    + constructor; [|exact K]. apply shift_kind; [|exact Kx]. now rewrite Ew, Es.
    + intros t l ns Ht Hl Hns. inversion Hns; subst. cbn [cats_effect]. rewrite shift_eff by assumption. ring.
  - destruct (IH Hh) as (xs' & K' & E). exists (x :: xs'). split; [constructor; assumption|].
    intros t l ns Ht Hl Hns. inversion Hns; subst. cbn [cats_effect]. rewrite E by assumption. ring.
Qed.

Lemma move nl nk cats wi stat g x xs : has cats wi stat -> can_take wi stat g ->
  Forall2 (col_kind nl) cats xs ->
  exists x' xs', Forall2 (col_kind nl) cats xs' /\ same_predictions nl nk cats x xs x' xs' /\
    forall t l k, (t < 2)%nat -> (l < nl)%nat -> (k < nk)%nat -> eff nl nk x' t l k = eff nl nk x t l k - g t l.
Proof.
  intros Hh Hg K. destruct (take_up nl cats xs wi stat g Hh Hg K) as (xs' & K' & E).
  exists (shift nl nk (fun t l => - g t l) x), xs'. split; [exact K'|]. split.
  - intros t l k ns Ht Hl Hk Hns. rewrite shift_eff by assumption. rewrite E by assumption. ring.
  - intros t l k Ht Hl Hk. rewrite shift_eff by assumption. ring.
Qed.

Lemma same_predictions_trans nl nk cats x xs x' xs' x'' xs'' :
  same_predictions nl nk cats x xs x' xs' -> same_predictions nl nk cats x' xs' x'' xs'' ->
  same_predictions nl nk cats x xs x'' xs''.
Proof. intros H1 H2 t l k ns Ht Hl Hk Hns. rewrite (H1 t l k ns), (H2 t l k ns); auto. Qed.

Lemma normalisable pp nl nk cats k0 x xs : (k0 < nk)%nat -> (1 <= nl)%nat ->
  Forall2 (col_kind nl) cats xs ->
  exists x' xs', Forall2 (col_kind nl) cats xs' /\ same_predictions nl nk cats x xs x' xs' /\
    normalised pp nl nk cats k0 x'.
Proof.
  intros Hk Hl K. unfold normalised.
  set (m l := in_primary pp (fun t => eff nl nk x t l k0)).
  destruct (has_dec cats true false) as [H1|H1].
  { destruct (move nl nk cats true false (fun t l => eff nl nk x t l k0) x xs H1) as (x' & xs' & K' & P & E);
      [split; discriminate|exact K|].
    exists x', xs'. split; [exact K'|]. split; [exact P|]. split; [|tauto].
    intros _ t l Ht Hll. rewrite E by assumption. ring. }
  destruct (has_dec cats true true) as [H2|H2].
  { destruct (move nl nk cats true true (fun t l => m l) x xs H2) as (x1 & xs1 & K1 & P1 & E1);
      [split; [discriminate|reflexivity]|exact K|].
    assert (M1 : forall l, (l < nl)%nat -> in_primary pp (fun t => eff nl nk x1 t l k0) = 0).
    { intros l Hll. pose proof (E1 0%nat l k0 ltac:(lia) Hll Hk) as Q0.
      pose proof (E1 1%nat l k0 ltac:(lia) Hll Hk) as Q1. unfold m in Q0, Q1.
      destruct pp; cbn in *; lra. }
    destruct (has_dec cats false false) as [H3|H3].
    - set (v := eff nl nk x1 (secondary pp) 0 k0).
      destruct (move nl nk cats false false
        (fun t _ => if (t =? secondary pp)%nat then v else match pp with PAll => - v | _ => 0 end) x1 xs1 H3)
        as (x2 & xs2 & K2 & P2 & E2); [split; [reflexivity|discriminate]|exact K1|].
      exists x2, xs2. split; [exact K2|]. split; [exact (same_predictions_trans _ _ _ _ _ _ _ _ _ P1 P2)|].
      split; [tauto|]. split; [|tauto]. intros _ _. split.
      + intros l Hll. pose proof (M1 l Hll) as Q.
        pose proof (E2 0%nat l k0 ltac:(lia) Hll Hk) as Q0. pose proof (E2 1%nat l k0 ltac:(lia) Hll Hk) as Q1.
        destruct pp; cbn in *; lra.
      + intros _. rewrite E2 by (try assumption; try lia; destruct pp; cbn; lia).
        rewrite Nat.eqb_refl. unfold v. ring.
    - exists x1, xs1. split; [exact K1|]. split; [exact P1|]. split; [tauto|]. split; [|tauto].
      intros _ _. split; [exact M1|tauto]. }
  destruct (has_dec cats false false) as [H3|H3].
  { destruct (move nl nk cats false false (fun t l => eff nl nk x t 0 k0) x xs H3) as (x' & xs' & K' & P & E);
      [split; [reflexivity|discriminate]|exact K|].
    exists x', xs'. split; [exact K'|]. split; [exact P|]. split; [tauto|]. split; [tauto|]. split; [|tauto].
    intros _ _ _ t Ht. rewrite E by (assumption || lia). ring. }
  destruct (has_dec cats false true) as [H4|H4].
  { destruct (move nl nk cats false true (fun t l => m 0%nat) x xs H4) as (x' & xs' & K' & P & E);
      [split; reflexivity|exact K|].
    exists x', xs'. split; [exact K'|]. split; [exact P|]. split; [tauto|]. split; [tauto|]. split; [tauto|].
    intros _ _ _ _.
    pose proof (E 0%nat 0%nat k0 ltac:(lia) ltac:(lia) Hk) as Q0.
    pose proof (E 1%nat 0%nat k0 ltac:(lia) ltac:(lia) Hk) as Q1. unfold m in Q0, Q1.
    destruct pp; cbn in *; lra. }
  exists x, xs. split; [exact K|]. split; [intros t l k ns _ _ _ _; reflexivity|]. tauto.
Qed.

Lemma only_stationary_kind s nl c q x : (1 <= nl)%nat -> only_stationary c -> p_a_all s = None ->
  col_spec s nl c q -> (accepts (fst q) x <-> col_kind nl c x).
Proof.
  intros Hl Ho Hall [Ha _]. rewrite Ha, Hall. cbn [optl]. rewrite app_nil_r. unfold col_kind.
  enough (E : imposed nl (gc_n c) (optl (gc_a c)) x <->
     (is_stationary (gc_a c) = true -> forall l k, (l < nl)%nat -> (k < gc_n c)%nat ->
        eff nl (gc_n c) x 0 l k = eff nl (gc_n c) x 1 l k)) by (rewrite E; reflexivity).
  rewrite <- (stationary_two nl (gc_n c) x Hl), is_stationary_iff. split.
  - intros Hi (nwt & nt & Hin) o d [<-|[]]. apply Hi. rewrite (Ho _ Hin) in Hin. exact Hin.
  - intros Hi o d Hin. pose proof (Ho o Hin) as ->. apply Hi; [exists (-1)%Z, 2%nat; exact Hin|now left].
Qed.

(* Only the equalities, after clear_constraints(equality=False). *)
Lemma cleared_accepts nl nk css q x :
  (forall o, In o (concat css) -> valid 2 nl nk o) ->
  run (map OpAdd css) (qp_init nl nk) = Ok q ->
  (forall o d, In o (concat css) -> get_constraints o nl nk = Ok d -> sat_A d x) ->
  accepts (clear_constraints true false q) x.
Proof.
  intros Hv E HA.
  destruct (run_accepts (2 * nl * nk) nl nk (map OpAdd css ++ [OpClear true false])) as (s & Es & H).
  { apply Forall_app. split; [|repeat constructor].
    apply Forall_forall. intros o Ho. apply in_map_iff in Ho as (cs & <- & Hcs). cbn [op_ok].
    intros c Hc. apply valid_buildable. apply Hv. apply in_concat. eauto. }
  unfold run in Es. rewrite for_each_app in Es. unfold run in E. rewrite E in Es. cbn in Es.
  injection Es as <-. apply H. split.
  - intros d (pre & o & post & Eo & Ha & Hc). exfalso.
    destruct (@exists_last _ (o :: post)) as (m & y & Em); [discriminate|].
    rewrite Em, app_assoc in Eo. apply app_inj_tail in Eo as [_ <-].
    destruct m as [|m0 m].
    + injection Em as -> ->. destruct Ha.
    + assert (Hin : In (OpClear true false) post).
      { destruct post as [|p post]; [destruct m; discriminate|]. injection Em as _ Em. rewrite Em.
        apply in_or_app. right. now left. }
      exact (Hc _ Hin (ex_intro _ false eq_refl)).
  - intros d (pre & o & post & Eo & Ha & Hc).
    assert (Hin : In o (map OpAdd css ++ [OpClear true false])) by (rewrite Eo; apply in_elt).
    apply in_app_or in Hin as [Hin|[<-|[]]]; [|destruct Ha].
    apply in_map_iff in Hin as (cs & <- & Hcs). destruct Ha as (c & Hcc & Eg).
    apply (HA c d); [apply in_concat; eauto|exact Eg].
Qed.

Lemma mono_equalities md pp nl nk x d :
  get_constraints (CMonotonicMean md true true pp 2) nl nk = Ok d -> sat_A d x.
Proof.
  cbn [get_constraints]. unfold MonotonicMean. intros E.
  repeat match type of E with
  | bind ?e _ = _ => destruct e; [cbn [bind] in E|discriminate]
  end. injection E as <-. exact I.
Qed.
Lemma minfirm_equalities k0 md pp nl nk x d :
  get_constraints (CMinFirmType k0 md true true pp 2) nl nk = Ok d -> sat_A d x.
Proof.
  cbn [get_constraints]. unfold MinFirmType. intros E.
  repeat match type of E with
  | bind ?e _ = _ => destruct e; [cbn [bind] in E|discriminate]
  end. injection E as <-. exact I.
Qed.

Lemma norm_equalities s nl nk cats k0 x o d : (k0 < nk)%nat -> (1 <= nl)%nat -> cats <> [] ->
  normalised (p_primary s) nl nk cats k0 x ->
  In o (norm_constraints s k0 (scan cats (f0 s))) -> get_constraints o nl nk = Ok d -> sat_A d x.
Proof.
  intros Hk Hl Hne HN Ho Ed.
  (* the same list without order and lowest firm type *)
  set (s' := mkgset (p_a s) (p_a_all s) (p_s s) (p_s_all s) (p_lb s) (p_md_worker s) (p_md_firm s) (p_normalize s)
               false false (p_primary s)).
  unfold norm_constraints in Ho. destruct Ho as [<-|Ho]; [exact (mono_equalities _ _ _ _ _ _ Ed)|].
  destruct (p_normalize s) eqn:En; [|destruct Ho].
  apply in_app_or in Ho as [Ho|Ho].
  { destruct (p_force s && p_force_cons s); [|destruct Ho]. destruct Ho as [<-|[]].
    exact (minfirm_equalities _ _ _ _ _ _ _ Ed). }
  pose proof (norm_meaning s nl nk cats k0 x Hk Hl Hne) as NM.
  assert (F1 := scan_tv_wi cats (f0 s) eq_refl). unfold normalised in HN. destruct HN as (N1 & N2 & N3 & N4).
  assert (one : forall o', imposed nl nk [o'] x -> o = o' -> sat_A d x).
  { intros o' Hi <-. exact (proj2 (Hi o d (or_introl eq_refl) Ed)). }
  destruct (f_tv_wi (scan cats (f0 s))) eqn:E1.
  { destruct Ho as [<-|[]]. refine (one _ _ eq_refl). apply (imposed_all_both _ _ _ _ Hk). apply N1. tauto. }
  assert (H1 : ~ has cats true false) by (intros H; apply F1 in H; discriminate).
  destruct (scan_others cats (f0 s) H1) as (F2 & F3 & F4). cbn in F2, F3, F4.
  destruct (f_tnv_wi (scan cats (f0 s))) eqn:E2.
  { assert (H2 : has cats true true) by (destruct F2 as [F2 _]; destruct (F2 eq_refl); [discriminate|assumption]).
    destruct (N2 H1 H2) as [N2a N2b].
    destruct Ho as [<-|Ho]; [refine (one _ _ eq_refl); apply (imposed_all_primary _ _ _ _ _ Hk); exact N2a|].
    destruct (f_tv_nwi (scan cats (f0 s))) eqn:E3; [|destruct Ho]. destruct Ho as [<-|[]].
    refine (one _ _ eq_refl). apply (imposed_low_second _ _ _ _ _ Hk Hl). apply N2b.
    destruct F3 as [F3 _]; destruct (F3 eq_refl); [discriminate|assumption]. }
  assert (H2 : ~ has cats true true) by (intros H; destruct F2 as [_ F2]; discriminate (F2 (or_intror H))).
  destruct (f_tv_nwi (scan cats (f0 s))) eqn:E3.
  { destruct Ho as [<-|[]]. refine (one _ _ eq_refl). apply (imposed_low_both _ _ _ _ Hk Hl). apply (N3 H1 H2).
    destruct F3 as [F3 _]; destruct (F3 eq_refl); [discriminate|assumption]. }
  assert (H3 : ~ has cats false false) by (intros H; destruct F3 as [_ F3]; discriminate (F3 (or_intror H))).
  destruct (f_tnv_nwi (scan cats (f0 s))) eqn:E4; [|destruct Ho]. destruct Ho as [<-|[]].
  refine (one _ _ eq_refl). apply (imposed_low_primary _ _ _ _ _ Hk Hl). apply (N4 H1 H2 H3).
  destruct F4 as [F4 _]; destruct (F4 eq_refl); [discriminate|assumption].
Qed.

Lemma accept_list s nl cats cols xs : (1 <= nl)%nat -> p_a_all s = None -> Forall only_stationary cats ->
  Forall2 (col_spec s nl) cats cols ->
  (Forall2 (fun q y => accepts (fst q) y) cols xs <-> Forall2 (col_kind nl) cats xs).
Proof.
  intros Hl Hall Ho Hc. revert xs. induction Hc as [|c q cats cols Hcq Hc IH]; intros xs.
  - split; intros H; inversion H; constructor.
  - apply Forall_cons_iff in Ho as [Ho1 Ho]. split; intros H; inversion H; subst; constructor;
      try (apply (only_stationary_kind s nl c q); assumption); apply (IH Ho); assumption.
Qed.

Lemma attainable s nl nk cats ctss k0 qa qs cols x xs :
  (k0 < nk)%nat -> (1 <= nl)%nat -> all_valid s nl nk (cats ++ ctss) ->
  p_a s = None -> p_a_all s = None -> Forall only_stationary cats ->
  gen_all s nl nk cats ctss k0 = Ok (qa, qs, cols) ->
  Forall2 (fun q y => accepts (fst q) y) (firstn (length cats) cols) xs ->
  exists x' xs', same_predictions nl nk cats x xs x' xs' /\
    Forall2 (fun q y => accepts (fst q) y) (firstn (length cats) cols) xs' /\
    accepts (clear_constraints true false qa) x'.
Proof.
  intros Hk Hl Hv Hpa Hall Ho Eg Hxs.
  destruct (gen_built s nl nk cats ctss k0 Hk Hl Hv) as (qa0 & qs0 & cols0 & E & Er & _ & _ & Hc).
  rewrite E in Eg. injection Eg as -> -> ->. apply forall2_app_l in Hc.
  apply (accept_list s nl cats _ xs Hl Hall Ho Hc) in Hxs.
  destruct (normalisable (p_primary s) nl nk cats k0 x xs Hk Hl Hxs) as (x' & xs' & K' & P & N).
  exists x', xs'. split; [exact P|]. split; [now apply (accept_list s nl cats _ xs' Hl Hall Ho Hc)|].
  apply (cleared_accepts nl nk (base_lists s cats k0)); [|exact Er|].
  - intros o. exact (base_valid s nl nk cats ctss k0 o Hk Hl Hv).
  - unfold base_lists. rewrite Hpa, Hall. cbn [optl concat app]. rewrite app_nil_r. intros o d Hin Ed.
    destruct cats as [|c cats]; [destruct Hin|].
    destruct (f_cons _); [|destruct Hin].
    apply (norm_equalities s nl nk (c :: cats) k0 x' o d Hk Hl); auto. discriminate.
Qed.

(* ---- the order of the columns matters ---- *)
Definition ex_free : gcol := mkgcol 1 true None None.
Definition ex_nwi : gcol := mkgcol 1 false None None.
Definition ex_set (norm : bool) : gset :=
  mkgset None None None None 0 0 0 norm true true PFirst.

Lemma ex_valid norm nl nk cols : (forall c, In c cols -> gc_a c = None /\ gc_s c = None) ->
  all_valid (ex_set norm) nl nk cols.
Proof.
  intros H. split; [intros o []|]. intros c o Hc. destruct (H c Hc) as [-> ->]. intros [].
Qed.

Lemma eff_const nl nk v t l k : eff nl nk (fun _ => v) t l k = v.
Proof. reflexivity. Qed.

Lemma order_matters nl nk k0 : (k0 < nk)%nat -> (1 <= nl)%nat ->
  exists s cats cats', Permutation.Permutation cats cats' /\ p_normalize s = true /\
    all_valid s nl nk cats /\ Forall (fun c => (1 <= gc_n c)%nat) cats /\ Forall stationary_all cats /\
    (exists qa qs cols x xs x' xs', gen_all s nl nk cats [] k0 = Ok (qa, qs, cols) /\
       accepts qa x /\ Forall2 (fun q y => accepts (fst q) y) cols xs /\
       accepts qa x' /\ Forall2 (fun q y => accepts (fst q) y) cols xs' /\
       same_predictions nl nk cats x xs x' xs' /\ ~ equal_effects nl nk x x') /\
    (forall qa qs cols x xs x' xs', gen_all s nl nk cats' [] k0 = Ok (qa, qs, cols) ->
       accepts qa x -> Forall2 (fun q y => accepts (fst q) y) cols xs ->
       accepts qa x' -> Forall2 (fun q y => accepts (fst q) y) cols xs' ->
       same_predictions nl nk cats' x xs x' xs' -> equal_effects nl nk x x').
Proof.
  intros Hk Hl. exists (ex_set true), [ex_free; ex_nwi], [ex_nwi; ex_free].
  assert (HV : all_valid (ex_set true) nl nk ([ex_free; ex_nwi] ++ [])).
  { apply ex_valid. intros c [<-|[<-|[]]]; split; reflexivity. }
  assert (HV' : all_valid (ex_set true) nl nk ([ex_nwi; ex_free] ++ [])).
  { apply ex_valid. intros c [<-|[<-|[]]]; split; reflexivity. }
  split; [apply Permutation.perm_swap|]. split; [reflexivity|]. split; [exact HV|].
  split; [repeat constructor|]. split; [repeat constructor; intros ? ? []|]. split.
  - destruct (gen_meaning (ex_set true) nl nk [ex_free; ex_nwi] [] k0 Hk Hl HV) as (qa & qs & cols & E & Ha & _ & Hc).
    rewrite app_nil_r in Hc. inversion Hc as [|c1 q1 ? ? Hc1 Hc' E1 E2]; subst.
    inversion Hc' as [|c2 q2 ? ? Hc2 Hc'' E1 E2]; subst. inversion Hc''; subst.
    exists qa, qs, [q1; q2], (fun _ => 0), [(fun _ => 0); (fun _ => 0)], (fun _ => 1), [(fun _ => -1); (fun _ => 0)].
    assert (HA : forall x, accepts qa x).
    { intros x. apply Ha. split; [apply imposed_nil|]. intros _ [H|H]; [now contradiction H|exfalso].
      apply reached_cons in H as [H|[H _]].
      - destruct H as [H|H]; [now apply H|discriminate].
      - apply H. apply has_cons. left. split; reflexivity. }
    assert (HC : forall c q v, c = ex_free \/ c = ex_nwi -> col_spec (ex_set true) nl c q -> accepts (fst q) (fun _ => v)).
    { intros c q v Hcc [Hq _]. apply Hq. destruct Hcc as [-> | ->]; (split; [|apply imposed_nil]);
        [discriminate|]. intros _ t k l l' _ _ _ _. reflexivity. }
    pose proof (fun v => HC _ q1 v (or_introl eq_refl) Hc1) as HC1.
    pose proof (fun v => HC _ q2 v (or_intror eq_refl) Hc2) as HC2.
    split; [exact E|]. split; [apply HA|].
    split; [constructor; [apply HC1|constructor; [apply HC2|constructor]]|].
    split; [apply HA|]. split; [constructor; [apply HC1|constructor; [apply HC2|constructor]]|]. split.
    + intros t l k ns Ht Hll Hkk Hns. inversion Hns as [|? n ? ns' ? Hns']; subst. inversion Hns' as [|? n2 ? ns2 ? Hns2]; subst.
      cbn [cats_effect gc_n ex_free ex_nwi]. rewrite !eff_const. cbn; ring.
    + intros H. specialize (H 0%nat 0%nat 0%nat). rewrite !eff_const in H. lra || (assert (0 = 1) by (apply H; lia); lra).
  - intros qa qs cols x xs x' xs' Eg Hx Hxs Hx' Hxs'.
    destruct (gen_meaning (ex_set true) nl nk [ex_nwi; ex_free] [] k0 Hk Hl HV') as (qa0 & qs0 & cols0 & E & _ & _ & Hc).
    rewrite app_nil_r in Hc. assert (Lc := Forall2_length _ _ _ Hc).
    assert (EE : firstn (length [ex_nwi; ex_free]) cols = cols).
    { rewrite E in Eg. injection Eg as -> -> ->. rewrite Lc. apply firstn_all. }
    apply (identified (ex_set true) nl nk [ex_nwi; ex_free] [] k0 qa qs cols x xs x' xs' Hk Hl HV');
      try rewrite EE; try assumption; [repeat constructor|repeat constructor; intros ? ? []|reflexivity|].
    right. apply reached_cons. left. right. reflexivity.
Qed.

(* ---- normalize=False ---- *)
Definition ex_bound : gcol := mkgcol 1 false (Some [CBoundedAbove 0 2]) None.
Definition ex_five : par :=
  mkpar (fun _ _ => 5) (fun _ _ => 5) (fun _ _ => 1) (fun _ _ => 1)
    [Shared (fun _ => -1)] [Shared (fun _ => -1)] [Shared (fun _ => 1)] [Shared (fun _ => 1)]
    [] [] [] [] (fun _ _ => 1) (fun _ _ => 1) (fun _ _ => 1) (fun _ => 1).

Lemma ex_stored argsort nl nk : let p' := stored argsort (ex_set false) nl nk [ex_bound] ex_five in
  exists v1 v2, A1_cat p' = [Shared v1] /\ A2_cat p' = [Shared v2] /\ v1 0%nat = 4 /\ v2 0%nat = 4.
Proof.
  cbv zeta. unfold stored, norm_par, ex_set, p_primary, normalize, cfg_of, ex_bound, ex_five, sort_parameters.
  cbn -[min_firm_type row_means out_of_order Rplus Ropp].
  destruct (out_of_order _ _); cbn -[min_firm_type row_means out_of_order Rplus Ropp];
    unfold mat_add, take_rows; eexists; eexists; (split; [reflexivity|]); (split; [reflexivity|]); cbv beta; lra.
Qed.

Lemma normalized_anyway argsort nl nk k0 : (k0 < nk)%nat -> (1 <= nl)%nat ->
  exists s c p, p_normalize s = false /\ all_valid s nl nk [c] /\
    exists qa qs ca cs c1 c2, gen_all s nl nk [c] [] k0 = Ok (qa, qs, [(ca, cs)]) /\
      A1_cat p = [c1] /\ A2_cat p = [c2] /\
      (forall x, holds_arrays nl nk x (Inter (A1 p)) (Inter (A2 p)) -> accepts qa x) /\
      (forall y, holds_arrays nl (gc_n c) y c1 c2 -> accepts ca y) /\
      let p' := stored argsort s nl nk [c] p in
      exists c1' c2', A1_cat p' = [c1'] /\ A2_cat p' = [c2'] /\
        forall y, holds_arrays nl (gc_n c) y c1' c2' -> ~ accepts ca y.
Proof.
  intros Hk Hl. exists (ex_set false), ex_bound, ex_five. split; [reflexivity|].
  assert (HV : all_valid (ex_set false) nl nk ([ex_bound] ++ [])).
  { split; [intros o []|]. intros c o [<-|[]] [<-|[]]. reflexivity. }
  split; [exact HV|].
  destruct (gen_meaning (ex_set false) nl nk [ex_bound] [] k0 Hk Hl HV) as (qa & qs & cols & E & Ha & _ & Hc).
  inversion Hc as [|c1 [ca cs] ? ? Hc1 Hc' E1 E2]; subst. inversion Hc'; subst.
  destruct Hc1 as [Hq _]. cbn [fst ex_bound gc_a gc_n gc_wi p_a_all ex_set optl app] in Hq.
  assert (HB : forall y, imposed nl 1 [CBoundedAbove 0 2] y <->
    forall t l k, (t < 2)%nat -> (l < nl)%nat -> (k < 1)%nat -> eff nl 1 y t l k <= 0).
  { intros y. destruct (BoundedAbove_spec 0 2 nl 1) as (d & Ed & _ & H).
    exact (imposed_one _ _ (CBoundedAbove 0 2) d _ _ Ed (H y)). }
  exists qa, qs, ca, cs, (Shared (fun _ => -1)), (Shared (fun _ => -1)).
  split; [exact E|]. split; [reflexivity|]. split; [reflexivity|]. split; [|split].
  - intros x Hx. apply Ha. split; [apply imposed_nil|]. intros _ _. split; [|discriminate].
    intros l Hll. cbn [in_primary p_primary p_md_worker ex_set].
    assert (Hm : forall l', (l' < nl)%nat -> mean nk (eff nl nk x 0 l') = mean nk (fun _ => 5)).
    { intros l' Hl'. unfold mean. f_equal. apply sumn_ext. intros k Hkk. exact (proj1 (Hx l' k Hl' Hkk)). }
    rewrite !Hm by lia. lra.
  - intros y Hy. apply Hq. cbn [gc_n ex_bound] in Hy. split.
    + intros _ t k l l' Ht Hkk Hll Hll'. destruct t as [|[|t]]; [| |lia].
      * now rewrite (proj1 (Hy l k Hll Hkk)), (proj1 (Hy l' k Hll' Hkk)).
      * now rewrite (proj2 (Hy l k Hll Hkk)), (proj2 (Hy l' k Hll' Hkk)).
    + apply HB. intros t l k Ht Hll Hkk. destruct t as [|[|t]]; [| |lia].
      * rewrite (proj1 (Hy l k Hll Hkk)). cbn. lra.
      * rewrite (proj2 (Hy l k Hll Hkk)). cbn. lra.
  - destruct (ex_stored argsort nl nk) as (v1 & v2 & Ev1 & Ev2 & H1 & H2).
    cbv zeta. exists (Shared v1), (Shared v2). split; [exact Ev1|]. split; [exact Ev2|].
    intros y Hy Hac. apply Hq in Hac as [_ Hac]. apply (proj1 (HB y)) with (t := 0%nat) (l := 0%nat) (k := 0%nat) in Hac; try lia.
    cbn [gc_n ex_bound] in Hy. rewrite (proj1 (Hy 0%nat 0%nat Hl ltac:(lia))) in Hac. cbn in Hac. lra.
Qed.

(* ---- a case ---- *)
Definition ex_two : list gcol :=
  [mkgcol 2 true (Some [CStationary (-1) 2]) None; mkgcol 3 false None None].
Definition ex_slopes (i : nat) : R := nth i [0; 1; 0; 2; 0; 1; 0; 2] 0.

Lemma ex_two_case :
  all_valid (ex_set true) 2 2 ex_two /\ Forall (fun c => (1 <= gc_n c)%nat) ex_two /\
  Forall stationary_all ex_two /\ Forall only_stationary ex_two /\ reached ex_two /\
  has ex_two true true /\ has ex_two false false /\
  exists qa qs cols, gen_all (ex_set true) 2 2 ex_two [] 0 = Ok (qa, qs, cols) /\ accepts qa ex_slopes.
Proof.
  assert (HV : all_valid (ex_set true) 2 2 (ex_two ++ [])).
  { split; [intros o []|]. intros c o [<-|[<-|[]]] Ho; [|destruct Ho]. destruct Ho as [<-|[]].
    cbn; repeat split; try lia; auto. }
  assert (NS : ~ has ex_two true false).
  { intros H. apply has_cons in H as [[_ H]|H]; [discriminate|].
    apply has_cons in H as [[H _]|H]; [discriminate|now apply has_nil in H]. }
  assert (HT : has ex_two true true) by (apply has_cons; left; split; reflexivity).
  split; [exact HV|]. split; [repeat constructor|].
  split; [repeat constructor; [intros nwt nt [H|[]]; injection H as <- <-; reflexivity|intros ? ? []]|].
  split; [repeat constructor; [intros o [H|[]]; symmetry; exact H|intros ? []]|].
  split; [apply reached_cons; left; left; discriminate|].
  split; [exact HT|].
  split; [apply has_cons; right; apply has_cons; left; split; reflexivity|].
  destruct (gen_meaning (ex_set true) 2 2 ex_two [] 0 ltac:(lia) ltac:(lia) HV) as (qa & qs & cols & E & Ha & _).
  exists qa, qs, cols. split; [exact E|]. apply Ha. split; [apply imposed_nil|].
  intros _ _. split; [|intros _; split].
  - intros l Hl. assert (l = 0%nat) by lia. subst l. cbn. unfold mean, eff, ex_slopes. cbn. lra.
  - intros _ _ k Hk Hk0. assert (k = 1%nat) by lia. subst k. cbn. unfold mean, eff, ex_slopes. cbn. lra.
  - unfold normalised. split; [tauto|]. split; [|split; tauto]. intros _ _. split.
    + intros l Hl. destruct l as [|[|l]]; [| |lia]; cbn; unfold eff, ex_slopes; cbn; reflexivity.
    + intros _. cbn; unfold eff, ex_slopes; cbn; reflexivity.
Qed.
