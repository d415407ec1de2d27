(* Lemmas about the constraints generated with control variables. *)
From Coq Require Import ZifyNat.
From Verif Require Import Base BaseLemmas UtilModel ConsModel ConsSpec ConsLemmas
  ConsBuildLemmas ConsBuild2Lemmas ConsBuild3Lemmas ConsQPLemmas ConsPropLemmas
  BLMModel BLMRunModel BLMFitModel BLMFitLemmas BLMGenModel BLMGenSpec.
Local Open Scope R_scope.

Lemma add_opt_list cs q : add_opt cs q = add_constraints (optl cs) q.
Proof. destruct cs; reflexivity. Qed.

Lemma imposed_app nl nk a b x : imposed nl nk (a ++ b) x <-> imposed nl nk a x /\ imposed nl nk b x.
Proof.
  unfold imposed. split.
  - intros H. split; intros o d Ho; apply H; apply in_or_app; auto.
  - intros [Ha Hb] o d Ho. apply in_app_or in Ho as [Ho|Ho]; eauto.
Qed.

Lemma imposed_nil nl nk x : imposed nl nk [] x.
Proof. intros o d []. Qed.

Lemma imposed_one nl nk o d x (P : Prop) :
  get_constraints o nl nk = Ok d -> (sat d x <-> P) -> (imposed nl nk [o] x <-> P).
Proof.
  intros E H. rewrite <- H. split.
  - intros Hi. apply (Hi o d); [now left|exact E].
  - intros Hs o' d' [<-|[]] E'. rewrite E in E'. injection E' as <-. exact Hs.
Qed.

(* ---- the constraints added by the estimator ---- *)
Lemma in_all : in_periods [0; 1]%nat 2.
Proof. intros t [<-|[<-|[]]]; lia. Qed.
Lemma in_pper p : in_periods (pper p) 2.
Proof. intros t. destruct p; cbn; intros H; intuition lia. Qed.
Lemma in_sper p : in_periods (sper p) 2.
Proof. intros t. destruct p; cbn; intros H; intuition lia. Qed.
Lemma pper_cross p : true = true -> NoDup (pper p) /\ pper p <> [].
Proof.
  intros _. split; [|destruct p; discriminate].
  destruct p; cbn; repeat constructor; cbn; intuition lia.
Qed.

Lemma pper_mean p f : mean_over (pper p) f = in_primary p f.
Proof. destruct p; unfold mean_over; cbn; field. Qed.

Lemma imposed_bound lb nl nk x : imposed nl nk [CBoundedBelow lb 2] x <-> at_least lb nl nk x.
Proof.
  destruct (BoundedBelow_spec lb 2 nl nk) as (d & E & _ & H).
  exact (imposed_one _ _ (CBoundedBelow lb 2) d _ _ E (H x)).
Qed.

Lemma in_two (P : nat -> Prop) : (forall t, In t (periods None 2) -> P t) <-> (forall t, (t < 2)%nat -> P t).
Proof.
  split; intros H t Ht; apply H.
  - destruct t as [|[|t]]; [left; reflexivity|right; left; reflexivity|lia].
  - destruct Ht as [<-|[<-|[]]]; lia.
Qed.

Lemma imposed_nwti nl nk x : (1 <= nl)%nat ->
  imposed nl nk [CNoWorkerTypeInteraction None 2] x <-> same_for_types nl nk x.
Proof.
  intros Hl. destruct (NoWTI_spec (periods None 2) 2 nl nk Hl) as (d & E & _ & H).
  { apply in_periods_all. }
  rewrite (imposed_one _ _ (CNoWorkerTypeInteraction None 2) d x _ E (H x)).
  unfold same_for_types. split.
  - intros K t k l l' Ht. apply K. destruct t as [|[|t]]; cbn; auto; lia.
  - intros K t k l l' Ht. apply K. destruct Ht as [<-|[<-|[]]]; lia.
Qed.

Lemma imposed_mono md p nl nk x : (1 <= nl)%nat ->
  imposed nl nk [CMonotonicMean md true true (Some (pper p)) 2] x <-> types_ordered p md nl nk x.
Proof.
  intros Hl. destruct (MonotonicMean_spec md true true (pper p) 2 nl nk Hl (in_pper p) (pper_cross p))
    as (d & E & _ & H).
  rewrite (imposed_one _ _ (CMonotonicMean md true true (Some (pper p)) 2) d x _ E (H x)).
  unfold types_ordered. split.
  - intros K l Hlt. rewrite <- !pper_mean. apply (K (hd 0%nat (pper p))); [destruct p; cbn; auto|exact Hlt].
  - intros K t l Ht Hlt. cbv zeta. cbn match. rewrite !pper_mean. now apply K.
Qed.

Lemma imposed_minfirm md p k0 nl nk x : (k0 < nk)%nat ->
  imposed nl nk [CMinFirmType k0 md true true (Some (pper p)) 2] x <-> lowest_firm p md nl nk k0 x.
Proof.
  intros Hk. destruct (MinFirmType_spec k0 md true true (pper p) 2 nl nk Hk (in_pper p) (pper_cross p))
    as (d & E & _ & H).
  rewrite (imposed_one _ _ (CMinFirmType k0 md true true (Some (pper p)) 2) d x _ E (H x)).
  unfold lowest_firm. split.
  - intros K k Hkk Hne. rewrite <- !pper_mean.
    apply (K (hd 0%nat (pper p)) k); [destruct p; cbn; auto|exact Hkk|exact Hne].
  - intros K t k Ht Hkk Hne. cbv zeta. cbn match. rewrite !pper_mean. now apply K.
Qed.

Lemma imposed_all_both k0 nl nk x : (k0 < nk)%nat ->
  imposed nl nk [CNormalizeAll k0 false (Some [0; 1]%nat) 2] x <->
  forall t l, (t < 2)%nat -> (l < nl)%nat -> eff nl nk x t l k0 = 0.
Proof.
  intros Hk. destruct (NormalizeAll_spec k0 false [0; 1]%nat 2 nl nk Hk in_all) as (d & E & _ & H).
  { discriminate. }
  rewrite (imposed_one _ _ (CNormalizeAll k0 false (Some [0; 1]%nat) 2) d x _ E (H x)).
  split.
  - intros K t l Ht Hl. apply (K l Hl). destruct t as [|[|t]]; cbn; auto; lia.
  - intros K l Hl t Ht. apply K; [destruct Ht as [<-|[<-|[]]]; lia|exact Hl].
Qed.

Lemma imposed_all_primary p k0 nl nk x : (k0 < nk)%nat ->
  imposed nl nk [CNormalizeAll k0 true (Some (pper p)) 2] x <->
  forall l, (l < nl)%nat -> in_primary p (fun t => eff nl nk x t l k0) = 0.
Proof.
  intros Hk. destruct (NormalizeAll_spec k0 true (pper p) 2 nl nk Hk (in_pper p) (pper_cross p)) as (d & E & _ & H).
  rewrite (imposed_one _ _ (CNormalizeAll k0 true (Some (pper p)) 2) d x _ E (H x)).
  split; intros K l Hl; specialize (K l Hl); rewrite pper_mean in *; exact K.
Qed.

Lemma imposed_low_both k0 nl nk x : (k0 < nk)%nat -> (1 <= nl)%nat ->
  imposed nl nk [CNormalizeLowest k0 false (Some [0; 1]%nat) 2] x <->
  forall t, (t < 2)%nat -> eff nl nk x t 0 k0 = 0.
Proof.
  intros Hk Hl. destruct (NormalizeLowest_spec k0 false [0; 1]%nat 2 nl nk Hk Hl in_all) as (d & E & _ & H).
  { discriminate. }
  rewrite (imposed_one _ _ (CNormalizeLowest k0 false (Some [0; 1]%nat) 2) d x _ E (H x)).
  split.
  - intros K t Ht. apply K. destruct t as [|[|t]]; cbn; auto; lia.
  - intros K t Ht. apply K. destruct Ht as [<-|[<-|[]]]; lia.
Qed.

Lemma imposed_low_second p k0 nl nk x : (k0 < nk)%nat -> (1 <= nl)%nat ->
  imposed nl nk [CNormalizeLowest k0 false (Some (sper p)) 2] x <->
  eff nl nk x (secondary p) 0 k0 = 0.
Proof.
  intros Hk Hl. destruct (NormalizeLowest_spec k0 false (sper p) 2 nl nk Hk Hl (in_sper p)) as (d & E & _ & H).
  { discriminate. }
  rewrite (imposed_one _ _ (CNormalizeLowest k0 false (Some (sper p)) 2) d x _ E (H x)).
  split.
  - intros K. apply K. destruct p; cbn; auto.
  - intros K t Ht. destruct p; cbn in *; destruct Ht as [<-|[]]; exact K.
Qed.

Lemma imposed_low_primary p k0 nl nk x : (k0 < nk)%nat -> (1 <= nl)%nat ->
  imposed nl nk [CNormalizeLowest k0 true (Some (pper p)) 2] x <->
  in_primary p (fun t => eff nl nk x t 0 k0) = 0.
Proof.
  intros Hk Hl. destruct (NormalizeLowest_spec k0 true (pper p) 2 nl nk Hk Hl (in_pper p) (pper_cross p)) as (d & E & _ & H).
  rewrite (imposed_one _ _ (CNormalizeLowest k0 true (Some (pper p)) 2) d x _ E (H x)).
  rewrite pper_mean. reflexivity.
Qed.

(* ---- what the loop over columns finds ---- *)
Lemma is_stationary_iff c : is_stationary (gc_a c) = true <-> declared_stationary c.
Proof.
  unfold is_stationary, declared_stationary, optl. destruct (gc_a c) as [l|].
  - rewrite existsb_exists. split.
    + intros (o & Ho & Eo). destruct o; try discriminate. eauto.
    + intros (nwt & nt & Ho). eauto.
  - split; [discriminate|intros (a & b & [])].
Qed.
Lemma is_stationary_false c : is_stationary (gc_a c) = false <-> ~ declared_stationary c.
Proof.
  rewrite <- is_stationary_iff. destruct (is_stationary (gc_a c)); split; try congruence; intros H; exfalso; apply H; reflexivity.
Qed.

Lemma has_cons c cats wi stat :
  has (c :: cats) wi stat <->
  (gc_wi c = wi /\ is_stationary (gc_a c) = stat) \/ has cats wi stat.
Proof.
  unfold has. split.
  - intros (c' & [<-|Hi] & Hw & Hs); [left|right; eauto].
    split; [exact Hw|]. destruct stat; [now apply is_stationary_iff|now apply is_stationary_false].
  - intros [[Hw Hs]|(c' & Hi & Hw & Hs)].
    + exists c. split; [now left|]. split; [exact Hw|].
      destruct stat; [now apply is_stationary_iff|now apply is_stationary_false].
    + exists c'. split; [now right|auto].
Qed.
Lemma has_nil wi stat : ~ has [] wi stat.
Proof. intros (c & [] & _). Qed.

Lemma has_dec cats wi stat : has cats wi stat \/ ~ has cats wi stat.
Proof.
  induction cats as [|c cats IH]; [right; apply has_nil|].
  rewrite has_cons. destruct IH as [H|H]; [left; now right|].
  destruct (Bool.bool_dec (gc_wi c) wi) as [->|Hw]; [|right; tauto].
  destruct (Bool.bool_dec (is_stationary (gc_a c)) stat) as [->|Hs]; [left; left; auto|right; tauto].
Qed.

Lemma has_some cats : cats <> [] -> exists wi stat, has cats wi stat.
Proof.
  destruct cats as [|c cats]; [congruence|]. intros _.
  exists (gc_wi c), (is_stationary (gc_a c)). apply has_cons. auto.
Qed.

Lemma reached_cons c cats :
  reached (c :: cats) <-> constrained c \/ (~ has [c] true false /\ reached cats).
Proof.
  unfold reached. split.
  - intros (pre & c' & post & E & Hp & Hc). destruct pre as [|c0 pre].
    + injection E as -> ->. now left.
    + injection E as <- ->. right. split.
      * intros H. apply Hp. apply has_cons. apply has_cons in H as [H|H]; [now left|now apply has_nil in H].
      * exists pre, c', post. split; [reflexivity|]. split; [|exact Hc].
        intros H. apply Hp. apply has_cons. now right.
  - intros [Hc|[Hn (pre & c' & post & E & Hp & Hc)]].
    + exists [], c, cats. split; [reflexivity|]. split; [apply has_nil|exact Hc].
    + exists (c :: pre), c', post. split; [now rewrite E|]. split; [|exact Hc].
      intros H. apply has_cons in H as [H|H]; [|now apply Hp].
      apply Hn. apply has_cons. now left.
Qed.

Lemma given_iff {A} (o : option A) : given o = true <-> o <> None.
Proof. destruct o; cbn; split; congruence. Qed.

Ltac hasb := rewrite ?has_cons, ?reached_cons in *; unfold constrained in *.

Lemma scan_tv_wi cats f : f_tv_wi f = false -> f_tv_wi (scan cats f) = true <-> has cats true false.
Proof.
  revert f. induction cats as [|c cats IH]; intros f Hf; cbn [scan].
  - rewrite Hf. split; [discriminate|intros H; now apply has_nil in H].
  - rewrite has_cons. destruct (gc_wi c) eqn:Ew, (is_stationary (gc_a c)) eqn:Es; cbn;
      rewrite ?IH by exact Hf; intuition congruence.
Qed.

Lemma scan_cons cats f : f_cons (scan cats f) = true <-> f_cons f = true \/ reached cats.
Proof.
  revert f. induction cats as [|c cats IH]; intros f; cbn [scan].
  - split; [auto|]. intros [H|(pre & c & post & E & _)]; [exact H|]. destruct pre; discriminate.
  - rewrite reached_cons, has_cons. unfold constrained. rewrite <- given_iff.
    assert (N : ~ has [] true false) by apply has_nil.
    destruct (gc_wi c) eqn:Ew, (is_stationary (gc_a c)) eqn:Es; cbn;
      rewrite ?IH; cbn; rewrite ?Bool.orb_true_iff; intuition congruence.
Qed.

(* The other flags are read only if no column has been skipped. *)
Lemma scan_others cats f : ~ has cats true false ->
  (f_tnv_wi (scan cats f) = true <-> f_tnv_wi f = true \/ has cats true true) /\
  (f_tv_nwi (scan cats f) = true <-> f_tv_nwi f = true \/ has cats false false) /\
  (f_tnv_nwi (scan cats f) = true <-> f_tnv_nwi f = true \/ has cats false true).
Proof.
  revert f. induction cats as [|c cats IH]; intros f Hn; cbn [scan].
  - pose proof (has_nil true true). pose proof (has_nil false false). pose proof (has_nil false true). tauto.
  - rewrite has_cons in Hn.
    assert (Hn' : ~ has cats true false) by tauto.
    rewrite !has_cons.
    destruct (gc_wi c) eqn:Ew, (is_stationary (gc_a c)) eqn:Es; cbn;
      [| exfalso; apply Hn; auto | |];
      match goal with |- context [scan cats ?g] => destruct (IH g Hn') as (Ha & Hb & Hc) end;
      rewrite Ha, Hb, Hc; cbn; intuition congruence.
Qed.

Definition f0 (s : gset) : gflags := mkgflags (given (p_a_all s)) false false false false.

Lemma norm_meaning s nl nk cats k0 x : (k0 < nk)%nat -> (1 <= nl)%nat -> cats <> [] ->
  imposed nl nk (norm_constraints s k0 (scan cats (f0 s))) x <->
  types_ordered (p_primary s) (p_md_worker s) nl nk x /\
  (p_normalize s = true ->
     (p_force s = true -> p_force_cons s = true -> lowest_firm (p_primary s) (p_md_firm s) nl nk k0 x) /\
     normalised (p_primary s) nl nk cats k0 x).
Proof.
  intros Hk Hl Hne. unfold norm_constraints.
  rewrite (imposed_app nl nk [_] _ x : imposed nl nk (_ :: _) x <-> _).
  rewrite (imposed_mono _ _ _ _ _ Hl).
  destruct (p_normalize s); [|split; [intros [H _]; split; [exact H|discriminate]|
                                     intros [H _]; split; [exact H|apply imposed_nil]]].
  rewrite imposed_app.
  assert (HF : imposed nl nk (if p_force s && p_force_cons s
      then [CMinFirmType k0 (p_md_firm s) true true (Some (pper (p_primary s))) 2] else []) x <->
    (p_force s = true -> p_force_cons s = true -> lowest_firm (p_primary s) (p_md_firm s) nl nk k0 x)).
  { destruct (p_force s), (p_force_cons s); cbn [andb];
      try (split; [discriminate || (intros _ ? ?; discriminate)|intros _; apply imposed_nil]).
    rewrite (imposed_minfirm _ _ _ _ _ _ Hk). split; auto. }
  rewrite HF. clear HF.
  match goal with |- _ /\ _ /\ imposed nl nk ?L x <-> _ =>
    enough (HN : imposed nl nk L x <-> normalised (p_primary s) nl nk cats k0 x)
      by (rewrite HN; split; [intros (a & b & c); auto|intros (a & b); split; [exact a|]; exact (b eq_refl)]) end.
  pose proof (scan_tv_wi cats (f0 s) eq_refl) as F1.
  unfold normalised.
  destruct (f_tv_wi (scan cats (f0 s))) eqn:E1.
  - rewrite (imposed_all_both _ _ _ _ Hk). assert (H1 : has cats true false) by tauto. tauto.
  - assert (H1 : ~ has cats true false) by (intros H; apply F1 in H; discriminate).
    destruct (scan_others cats (f0 s) H1) as (F2 & F3 & F4). cbn in F2, F3, F4.
    destruct (f_tnv_wi (scan cats (f0 s))) eqn:E2.
    + assert (H2 : has cats true true) by (destruct F2 as [F2 _]; destruct (F2 eq_refl); [discriminate|assumption]).
      rewrite (imposed_app nl nk [_] _ x : imposed nl nk (_ :: _) x <-> _).
      rewrite (imposed_all_primary _ _ _ _ _ Hk).
      destruct (f_tv_nwi (scan cats (f0 s))) eqn:E3.
      * assert (H3 : has cats false false) by (destruct F3 as [F3 _]; destruct (F3 eq_refl); [discriminate|assumption]).
        rewrite (imposed_low_second _ _ _ _ _ Hk Hl). tauto.
      * assert (H3 : ~ has cats false false) by (intros H; destruct F3 as [_ F3]; discriminate (F3 (or_intror H))).
        pose proof (imposed_nil nl nk x). tauto.
    + assert (H2 : ~ has cats true true) by (intros H; destruct F2 as [_ F2]; discriminate (F2 (or_intror H))).
      destruct (f_tv_nwi (scan cats (f0 s))) eqn:E3.
      * assert (H3 : has cats false false) by (destruct F3 as [F3 _]; destruct (F3 eq_refl); [discriminate|assumption]).
        rewrite (imposed_low_both _ _ _ _ Hk Hl). tauto.
      * assert (H3 : ~ has cats false false) by (intros H; destruct F3 as [_ F3]; discriminate (F3 (or_intror H))).
        destruct (f_tnv_nwi (scan cats (f0 s))) eqn:E4.
        -- assert (H4 : has cats false true) by (destruct F4 as [F4 _]; destruct (F4 eq_refl); [discriminate|assumption]).
           rewrite (imposed_low_primary _ _ _ _ _ Hk Hl). tauto.
        -- exfalso. assert (H4 : ~ has cats false true) by (intros H; destruct F4 as [_ F4]; discriminate (F4 (or_intror H))).
           destruct (has_some cats Hne) as ([|] & [|] & H); tauto.
Qed.

Lemma norm_valid s nl nk cats k0 o : (k0 < nk)%nat -> (1 <= nl)%nat ->
  In o (norm_constraints s k0 (scan cats (f0 s))) -> valid 2 nl nk o.
Proof.
  intros Hk Hl. unfold norm_constraints.
  assert (Hp := in_pper (p_primary s)). assert (Hs := in_sper (p_primary s)).
  assert (Hc := pper_cross (p_primary s)). assert (H01 := in_all).
  assert (Hx : forall l, cross_ok false l) by (intros l H; discriminate).
  intros [<-|Ho]; [cbn [valid periods]; auto|].
  destruct (p_normalize s); [|destruct Ho].
  apply in_app_or in Ho as [Ho|Ho].
  - destruct (p_force s && p_force_cons s); [|destruct Ho]; destruct Ho as [<-|[]]. cbn [valid periods]. auto.
  - destruct (f_tv_wi _); [destruct Ho as [<-|[]]; cbn [valid periods]; auto|].
    destruct (f_tnv_wi _).
    + destruct Ho as [<-|Ho]; [cbn [valid periods]; auto|].
      destruct (f_tv_nwi _); [|destruct Ho]; destruct Ho as [<-|[]]. cbn [valid periods]. auto 6.
    + destruct (f_tv_nwi _); [destruct Ho as [<-|[]]; cbn [valid periods]; auto 6|].
      destruct (f_tnv_nwi _); [|destruct Ho]; destruct Ho as [<-|[]]. cbn [valid periods]. auto 6.
Qed.

(* ---- building ---- *)
Lemma add_each nl nk css :
  (forall o, In o (concat css) -> valid 2 nl nk o) ->
  exists q, run (map OpAdd css) (qp_init nl nk) = Ok q /\ forall x, accepts q x <-> imposed nl nk (concat css) x.
Proof. exact (adds_accepts nl nk css). Qed.

Definition nwti (c : gcol) : list cobj := if gc_wi c then [] else [CNoWorkerTypeInteraction None 2].
Lemma nwti_valid c nl n o : (1 <= nl)%nat -> In o (nwti c) -> valid 2 nl n o.
Proof.
  intros Hl. unfold nwti. destruct (gc_wi c); intros []; [subst o|contradiction].
  cbn [valid]. repeat split; [exact Hl|apply in_periods_all].
Qed.
Lemma imposed_nwti_col c nl x : (1 <= nl)%nat ->
  imposed nl (gc_n c) (nwti c) x <-> (gc_wi c = false -> same_for_types nl (gc_n c) x).
Proof.
  intros Hl. unfold nwti. destruct (gc_wi c).
  - split; [discriminate|intros _; apply imposed_nil].
  - rewrite (imposed_nwti _ _ _ Hl). split; auto.
Qed.

Lemma col_built s nl c : (1 <= nl)%nat ->
  (forall o, In o (optl (gc_a c) ++ optl (p_a_all s) ++ optl (gc_s c) ++ optl (p_s_all s)) ->
     valid 2 nl (gc_n c) o) ->
  exists qa qs, col_constraints s nl c = Ok (qa, qs) /\
    (forall x, accepts qa x <-> imposed nl (gc_n c) (nwti c ++ optl (gc_a c) ++ optl (p_a_all s)) x) /\
    (forall x, accepts qs x <->
       imposed nl (gc_n c) ([CBoundedBelow (p_lb s) 2] ++ nwti c ++ optl (gc_s c) ++ optl (p_s_all s)) x).
Proof.
  intros Hl Hv.
  destruct (add_each nl (gc_n c) [nwti c; optl (gc_a c); optl (p_a_all s)]) as (qa & Ea & Ha).
  { cbn [concat]. rewrite app_nil_r. intros o Ho. apply in_app_or in Ho as [Ho|Ho]; [exact (nwti_valid c nl _ o Hl Ho)|].
    apply Hv. rewrite app_assoc. apply in_or_app. now left. }
  destruct (add_each nl (gc_n c) [[CBoundedBelow (p_lb s) 2]; nwti c; optl (gc_s c); optl (p_s_all s)]) as (qs & Es & Hs).
  { cbn [concat]. rewrite app_nil_r. intros o Ho. apply in_app_or in Ho as [[<-|[]]|Ho]; [reflexivity|].
    apply in_app_or in Ho as [Ho|Ho]; [exact (nwti_valid c nl _ o Hl Ho)|].
    apply Hv. rewrite app_assoc. apply in_or_app. now right. }
  cbn [concat] in Ha, Hs. rewrite app_nil_r in Ha, Hs.
  exists qa, qs. split; [|split; [exact Ha|exact Hs]].
  unfold run in Ea, Es. cbn [map for_each step] in Ea, Es. unfold col_constraints.
  destruct (add_constraints [CBoundedBelow (p_lb s) 2] (qp_init nl (gc_n c))) as [s1|e]; [|discriminate].
  cbn [bind] in *. unfold nwti in Ea, Es.
  assert (E : (if gc_wi c then Ok (qp_init nl (gc_n c), s1)
     else bind (add_constraints [CNoWorkerTypeInteraction None 2] (qp_init nl (gc_n c))) (fun qa =>
          bind (add_constraints [CNoWorkerTypeInteraction None 2] s1) (fun qs => Ok (qa, qs)))) =
     bind (add_constraints (if gc_wi c then [] else [CNoWorkerTypeInteraction None 2]) (qp_init nl (gc_n c))) (fun qa =>
          bind (add_constraints (if gc_wi c then [] else [CNoWorkerTypeInteraction None 2]) s1) (fun qs => Ok (qa, qs))))
    by (destruct (gc_wi c); reflexivity).
  rewrite E. clear E.
  destruct (add_constraints (if gc_wi c then [] else _) (qp_init nl (gc_n c))) as [a1|e]; [|discriminate].
  destruct (add_constraints (if gc_wi c then [] else _) s1) as [s2|e]; [|discriminate].
  cbn [bind] in *. rewrite !add_opt_list.
  destruct (add_constraints (optl (gc_a c)) a1) as [a2|e]; [|discriminate]. cbn [bind] in *.
  rewrite ?add_opt_list.
  destruct (add_constraints (optl (p_a_all s)) a2) as [a3|e]; [|discriminate]. cbn [bind] in *.
  rewrite ?add_opt_list.
  destruct (add_constraints (optl (gc_s c)) s2) as [s3|e]; [|discriminate]. cbn [bind] in *.
  rewrite ?add_opt_list.
  destruct (add_constraints (optl (p_s_all s)) s3) as [s4|e]; [|discriminate]. cbn [bind] in *.
  congruence.
Qed.

Lemma traverse_forall2 {A B} (f : A -> res B) (P : A -> B -> Prop) l :
  (forall a, In a l -> exists b, f a = Ok b /\ P a b) ->
  exists bs, traverse f l = Ok bs /\ Forall2 P l bs.
Proof.
  induction l as [|a l IH]; intros H; [exists []; split; [reflexivity|constructor]|].
  destruct (H a (or_introl eq_refl)) as (b & Eb & Pb).
  destruct IH as (bs & Ebs & Pbs); [intros a' Ha; apply H; now right|].
  exists (b :: bs). cbn [traverse]. rewrite Eb, Ebs. cbn [bind]. split; [reflexivity|constructor; assumption].
Qed.

(* The lists of constraint objects put on the means, one after the other. *)
Definition base_lists (s : gset) (cats : list gcol) (k0 : nat) : list (list cobj) :=
  [optl (p_a s); optl (p_a_all s);
   match cats with
   | [] => []
   | _ => if f_cons (scan cats (f0 s)) then norm_constraints s k0 (scan cats (f0 s)) else []
   end].

Lemma base_valid s nl nk cats ctss k0 o : (k0 < nk)%nat -> (1 <= nl)%nat -> all_valid s nl nk (cats ++ ctss) ->
  In o (concat (base_lists s cats k0)) -> valid 2 nl nk o.
Proof.
  intros Hk Hl [Hv _]. unfold base_lists. cbn [concat]. rewrite app_nil_r.
  intros Ho. apply in_app_or in Ho as [Ho|Ho].
  - apply Hv. apply in_or_app. now left.
  - apply in_app_or in Ho as [Ho|Ho].
    + apply Hv. apply in_or_app. right. apply in_or_app. now left.
    + destruct cats as [|c cats]; [destruct Ho|].
      destruct (f_cons _); [|destruct Ho]. exact (norm_valid s nl nk _ k0 o Hk Hl Ho).
Qed.

Definition col_spec (s : gset) (nl : nat) (c : gcol) (q : qp * qp) : Prop :=
  (forall x, accepts (fst q) x <->
     (gc_wi c = false -> same_for_types nl (gc_n c) x) /\
     imposed nl (gc_n c) (optl (gc_a c) ++ optl (p_a_all s)) x) /\
  (forall x, accepts (snd q) x <->
     at_least (p_lb s) nl (gc_n c) x /\ (gc_wi c = false -> same_for_types nl (gc_n c) x) /\
     imposed nl (gc_n c) (optl (gc_s c) ++ optl (p_s_all s)) x).

Lemma gen_built s nl nk cats ctss k0 : (k0 < nk)%nat -> (1 <= nl)%nat -> all_valid s nl nk (cats ++ ctss) ->
  exists qa qs cols, gen_all s nl nk cats ctss k0 = Ok (qa, qs, cols) /\
    run (map OpAdd (base_lists s cats k0)) (qp_init nl nk) = Ok qa /\
    (forall x, accepts qa x <-> imposed nl nk (concat (base_lists s cats k0)) x) /\
    (forall x, accepts qs x <-> at_least (p_lb s) nl nk x /\ imposed nl nk (optl (p_s s) ++ optl (p_s_all s)) x) /\
    Forall2 (col_spec s nl) (cats ++ ctss) cols.
Proof.
  intros Hk Hl Hv.
  destruct (add_each nl nk (base_lists s cats k0)) as (qa & Ea & Ha).
  { intros o. exact (base_valid s nl nk cats ctss k0 o Hk Hl Hv). }
  destruct (add_each nl nk [[CBoundedBelow (p_lb s) 2]; optl (p_s s); optl (p_s_all s)]) as (qs & Es & Hs).
  { cbn [concat]. rewrite app_nil_r. intros o [<-|Ho]; [reflexivity|].
    apply (proj1 Hv). rewrite app_assoc. apply in_or_app. now right. }
  destruct (traverse_forall2 (col_constraints s nl) (col_spec s nl) (cats ++ ctss)) as (cols & Ec & Hc).
  { intros c Hi. destruct (col_built s nl c Hl (fun o => proj2 Hv c o Hi)) as (a & b & E & Pa & Pb).
    exists (a, b). split; [exact E|]. unfold col_spec. cbn [fst snd]. split; intros x.
    - rewrite Pa, imposed_app, (imposed_nwti_col _ _ _ Hl). reflexivity.
    - rewrite Pb, imposed_app, imposed_bound, imposed_app, (imposed_nwti_col _ _ _ Hl). reflexivity. }
  exists qa, qs, cols. split; [|split; [exact Ea|split; [exact Ha|split; [|exact Hc]]]].
  - unfold run, base_lists in Ea, Es. cbn [map for_each step] in Ea, Es. unfold gen_all. fold (f0 s).
    rewrite !add_opt_list.
    destruct (add_constraints [CBoundedBelow (p_lb s) 2] (qp_init nl nk)) as [s1|e]; [|discriminate].
    cbn [bind] in *.
    destruct (add_constraints (optl (p_a s)) (qp_init nl nk)) as [a1|e]; [|discriminate]. cbn [bind] in *.
    rewrite ?add_opt_list.
    destruct (add_constraints (optl (p_a_all s)) a1) as [a2|e]; [|discriminate]. cbn [bind] in *.
    rewrite ?add_opt_list.
    destruct (add_constraints (optl (p_s s)) s1) as [s2|e]; [|discriminate]. cbn [bind] in *.
    rewrite ?add_opt_list.
    destruct (add_constraints (optl (p_s_all s)) s2) as [s3|e]; [|discriminate]. cbn [bind] in *.
    rewrite Ec. cbn [bind].
    assert (E : match cats with
                | [] => Ok a2
                | _ => if f_cons (scan cats (f0 s))
                       then add_constraints (norm_constraints s k0 (scan cats (f0 s))) a2 else Ok a2
                end = Ok qa).
    { destruct cats as [|c cats].
      - destruct (add_constraints [] a2) eqn:E0; [|discriminate]. cbn [bind] in Ea. rewrite <- Ea. rewrite <- E0. reflexivity.
      - destruct (f_cons (scan (c :: cats) (f0 s))).
        + destruct (add_constraints (norm_constraints s k0 (scan (c :: cats) (f0 s))) a2); [exact Ea|discriminate].
        + destruct (add_constraints [] a2) eqn:E0; [|discriminate]. cbn [bind] in Ea. rewrite <- Ea. rewrite <- E0. reflexivity. }
    rewrite E. cbn [bind]. congruence.
  - intros x. rewrite Hs. cbn [concat]. rewrite app_nil_r, (imposed_app nl nk [_]), imposed_bound. reflexivity.
Qed.

Lemma base_meaning s nl nk cats k0 x : (k0 < nk)%nat -> (1 <= nl)%nat ->
  imposed nl nk (concat (base_lists s cats k0)) x <->
  imposed nl nk (optl (p_a s) ++ optl (p_a_all s)) x /\
  (cats <> [] -> (p_a_all s <> None \/ reached cats) ->
     types_ordered (p_primary s) (p_md_worker s) nl nk x /\
     (p_normalize s = true ->
        (p_force s = true -> p_force_cons s = true -> lowest_firm (p_primary s) (p_md_firm s) nl nk k0 x) /\
        normalised (p_primary s) nl nk cats k0 x)).
Proof.
  intros Hk Hl. unfold base_lists. cbn [concat]. rewrite app_nil_r, app_assoc, imposed_app.
  destruct cats as [|c cats].
  - split; [intros [H _]; split; [exact H|congruence]|intros [H _]; split; [exact H|apply imposed_nil]].
  - assert (Hne : c :: cats <> []) by discriminate.
    pose proof (scan_cons (c :: cats) (f0 s)) as F. cbn [f0 f_cons] in F. rewrite given_iff in F.
    destruct (f_cons (scan (c :: cats) (f0 s))).
    + rewrite (norm_meaning s nl nk (c :: cats) k0 x Hk Hl Hne). tauto.
    + split; [intros [H _]; split; [exact H|]|intros [H _]; split; [exact H|apply imposed_nil]].
      intros _ Hr. apply F in Hr. discriminate.
Qed.
