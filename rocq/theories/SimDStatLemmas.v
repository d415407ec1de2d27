(* The stationarity options of the control variables, and the rows of the data. *)
From Coq Require Import Permutation Sorted.
From Verif Require Import Base BaseLemmas UtilModel UtilSpec UtilQuantLemmas BLMModel BLMSpec SimModel SimSpec SimLemmas
  SimPropLemmas BLMRealModel DBLMModel DBLMSpec DBootModel DBootSpec DBootLemmas SimDModel SimDSpec SimDLemmas SimDPropLemmas
  SimDRunLemmas.
Local Open Scope R_scope.

Local Notation vary1 := (fun a a12 => Ok (variation1 a a12)).
Definition varied (f : dper -> arr) (p : dper) : arr :=
  match p with PA T12 => f (PA T12) | _ => variation1 (f p) (f (PA T12)) end.

Lemma vary_fresh o f : exists d, make_vary vary1 true (fresh f) = Ok d /\
  (forall p, get d p = varied f p) /\
  (forall p, get (switch_off (endo o) (sdep o) d) p = if off o p then zeroed (varied f p) else varied f p) /\
  (forall p, get (switch_off_cts (endo o) (sdep o) d) p = if off o p then Num 0 else varied f p).
Proof.
  eexists. split; [reflexivity|].
  split; [intros [[]|[]]; reflexivity|].
  split; destruct o as [? ? [] [] ?]; intros [[]|[]]; reflexivity.
Qed.
Lemma vary_equal o f : exists d, make_vary vary1 true (make_equal true (fresh f)) = Ok d /\
  (forall p, get (switch_off (endo o) (sdep o) d) p
     = if off o p then zeroed (varied (fun _ => f (PA T12)) p) else varied (fun _ => f (PA T12)) p) /\
  (forall p, get (switch_off_cts (endo o) (sdep o) d) p = if off o p then Num 0 else varied (fun _ => f (PA T12)) p).
Proof.
  eexists. split; [reflexivity|].
  split; destruct o as [? ? [] [] ?]; intros [[]|[]]; reflexivity.
Qed.
Lemma varied_entry f p : exists c, forall l k,
  entry (varied f p) l k = entry (f (PA T12)) l k + c.
Proof.
  assert (Z : exists c, forall l k, entry (f (PA T12)) l k = entry (f (PA T12)) l k + c) by (exists 0; intros; lra).
  assert (V : exists c, forall l k, entry (variation1 (f p) (f (PA T12))) l k = entry (f (PA T12)) l k + c).
  { unfold variation1. exists (mean_all (f p) - mean_all (f (PA T12))). intros l k.
    destruct (f (PA T12)) as [x|n h|r c h] eqn:E; cbn [map_arr entry]; lra. }
  unfold varied. destruct p as [[]|[]]; first [exact Z|exact V].
Qed.
Lemma entry_zeroed a l k : entry (zeroed a) l k = 0.
Proof. now destruct a. Qed.

(* ---- categorical, not interacted ---- *)
Lemma cat_stat_A nl o c A S : cat_int c = false -> stat_A (cat_stat c) = true -> stat_var (cat_stat c) = false ->
  gen_cat nl o c = Ok (A, S) ->
  forall p l v, entry (get A p) l v = if endo o && sdep o then cat_A c (PA T12) 0%nat v else 0.
Proof.
  intros I a s E p l v. unfold gen_cat in E. rewrite a, s in E. cbn [make_vary bind] in E. injection E as <- _.
  etransitivity; [exact (f_equal (fun z => entry z l v) (get_equal_off o (cat_arr nl c (cat_A c)) p))|].
  destruct (endo o && sdep o); [|apply entry_zeroed]. unfold cat_arr. now rewrite I.
Qed.
Lemma cat_stat_S nl o c A S : cat_int c = false -> stat_S (cat_stat c) = true -> 
  gen_cat nl o c = Ok (A, S) ->
  forall p l v, entry (get S p) l v = if endo o && sdep o then cat_S c (PA T12) 0%nat v else 0.
Proof.
  intros I a E p l v. unfold gen_cat in E. rewrite a in E. destruct (make_vary _ _ _); [|discriminate].
  cbn [bind] in E. injection E as _ <-.
  etransitivity; [exact (f_equal (fun z => entry z l v) (get_equal_off o (cat_arr nl c (cat_S c)) p))|].
  destruct (endo o && sdep o); [|apply entry_zeroed]. unfold cat_arr. now rewrite I.
Qed.
Lemma cat_stat_var nl o c A S : cat_int c = false -> stat_var (cat_stat c) = true ->
  gen_cat nl o c = Ok (A, S) ->
  forall p, off o p = false -> exists m, forall l v, entry (get A p) l v = entry (get A (PA T12)) l v + m.
Proof.
  intros I s E p Hp. unfold gen_cat in E. rewrite I, s in E.
  destruct (stat_A (cat_stat c)).
  - destruct (vary_equal o (cat_arr nl c (cat_A c))) as (d & V & G & _). rewrite V in E. cbn [bind] in E.
    injection E as <- _. rewrite !G, Hp. cbn [off]. exact (varied_entry (fun _ => cat_arr nl c (cat_A c) (PA T12)) p).
  - cbn [make_equal] in E. destruct (vary_fresh o (cat_arr nl c (cat_A c))) as (d & V & _ & G & _). rewrite V in E. cbn [bind] in E.
    injection E as <- _. rewrite !G, Hp. cbn [off]. exact (varied_entry (cat_arr nl c (cat_A c)) p).
Qed.

(* ---- continuous ---- *)
Lemma cts_stat_A nl o c A S : stat_A (cts_stat c) = true -> stat_var (cts_stat c) = false ->
  gen_cts nl o c = Ok (A, S) ->
  forall p l v, entry (get A p) l v = if off o p then 0 else cts_A c (PA T12) v.
Proof.
  intros a s E p l v. unfold gen_cts in E. rewrite a, s in E. cbn [make_vary bind] in E. injection E as <- _.
  etransitivity; [exact (f_equal (fun z => entry z l v) (get_equal_off_cts o (cts_arr nl c (cts_A c)) p))|].
  destruct (off o p); reflexivity.
Qed.
Lemma cts_stat_S nl o c A S : stat_S (cts_stat c) = true ->
  gen_cts nl o c = Ok (A, S) ->
  forall p l v, entry (get S p) l v = if off o p then 0 else cts_S c (PA T12) v.
Proof.
  intros a E p l v. unfold gen_cts in E. rewrite a in E. destruct (make_vary _ _ _); [|discriminate].
  cbn [bind] in E. injection E as _ <-.
  etransitivity; [exact (f_equal (fun z => entry z l v) (get_equal_off_cts o (cts_arr nl c (cts_S c)) p))|].
  destruct (off o p); reflexivity.
Qed.
Lemma cts_stat_var nl o c A S : stat_var (cts_stat c) = true ->
  gen_cts nl o c = Ok (A, S) ->
  forall p, off o p = false -> exists m, forall l v, entry (get A p) l v = entry (get A (PA T12)) l v + m.
Proof.
  intros s E p Hp. unfold gen_cts in E. rewrite s in E.
  destruct (stat_A (cts_stat c)).
  - destruct (vary_equal o (cts_arr nl c (cts_A c))) as (d & V & _ & G). rewrite V in E. cbn [bind] in E.
    injection E as <- _. rewrite !G, Hp. cbn [off]. exact (varied_entry (fun _ => cts_arr nl c (cts_A c) (PA T12)) p).
  - cbn [make_equal] in E. destruct (vary_fresh o (cts_arr nl c (cts_A c))) as (d & V & _ & _ & G). rewrite V in E. cbn [bind] in E.
    injection E as <- _. rewrite !G, Hp. cbn [off]. exact (varied_entry (cts_arr nl c (cts_A c)) p).
Qed.
(* Interacted: the arrays of '2mb' and '3mb' get the length nl. *)
Lemma varied_shape f n p : (exists h, f (PA T12) = Arr1 n h) -> exists h, varied f p = Arr1 n h.
Proof.
  intros (h & E). unfold varied, variation1. rewrite E. destruct p as [[]|[]]; cbn [map_arr]; eexists; reflexivity.
Qed.
Lemma cts_shape nl o c A S : cts_int c = true -> stationary (cts_stat c) = true -> gen_cts nl o c = Ok (A, S) ->
  (forall p, off o p = false -> exists h, get A p = Arr1 nl h) \/
  (forall p, off o p = false -> exists h, get S p = Arr1 nl h).
Proof.
  intros I H E. unfold gen_cts in E.
  assert (E12 : forall f, cts_arr nl c f (PA T12) = Arr1 nl (f (PA T12))) by (intros; unfold cts_arr; now rewrite I).
  destruct (stat_var (cts_stat c)) eqn:s.
  - left. destruct (stat_A (cts_stat c)).
    + destruct (vary_equal o (cts_arr nl c (cts_A c))) as (d & V & _ & G). rewrite V in E. cbn [bind] in E.
      injection E as <- _. intros p Hp. rewrite G, Hp. apply (varied_shape (fun _ => _)). eexists; apply E12.
    + cbn [make_equal] in E. destruct (vary_fresh o (cts_arr nl c (cts_A c))) as (d & V & _ & _ & G). rewrite V in E.
      cbn [bind] in E. injection E as <- _. intros p Hp. rewrite G, Hp. apply varied_shape. eexists; apply E12.
  - cbn [make_vary bind] in E. injection E as <- <-.
    destruct (stat_A (cts_stat c)) eqn:a.
    { left. intros p Hp. pose proof (get_equal_off_cts o (cts_arr nl c (cts_A c)) p) as Q. rewrite Hp in Q. eexists; etransitivity; [exact Q|apply E12]. }
    destruct (stat_S (cts_stat c)) eqn:b.
    { right. intros p Hp. pose proof (get_equal_off_cts o (cts_arr nl c (cts_S c)) p) as Q. rewrite Hp in Q. eexists; etransitivity; [exact Q|apply E12]. }
    unfold stationary in H. rewrite a, b, s in H. discriminate.
Qed.

(* Several specifications of one simulation. *)
Section Run.
Variables nl nk : nat.
Variable cm : nat -> nat -> nat.
Variable cs : nat -> nat.
Variable q : rhos.
Variable g : wdraws.
Variable argsort : list R -> list nat.
Variable sort : list R -> list R.
Variables (o : opts) (d : pdraws) (cats : list catspec) (ctss : list ctsspec) (fuel : nat).
Local Notation dsim := (dsim nl nk cm cs q g argsort sort o d cats ctss fuel).
Variables (jd sd : list drow) (A S : dict) (cc ct : list ctrl).
Hypothesis run : dsim = Ok (jd, sd, (A, S, cc, ct)).

Lemma F2_at {X Y} (P : X -> Y -> Prop) l m i x y :
  Forall2 P l m -> nth_error l i = Some x -> nth_error m i = Some y -> P x y.
Proof.
  intros H. revert i. induction H as [|u v l m R0 H IH]; intros [|i] Hx Hy; cbn in Hx, Hy; try discriminate.
  - congruence.
  - eauto.
Qed.
Lemma run_cat i c k : nth_error cats i = Some c -> nth_error cc i = Some k -> gen_cat nl o c = Ok (c_A k, c_S k).
Proof.
  intros Hc Hk. destruct (dsim_inv _ _ _ _ _ _ _ _ _ _ _ _ _ _ _ _ _ _ _ run) as (F & _).
  exact (proj1 (F2_at _ _ _ _ _ _ F Hc Hk)).
Qed.
Lemma run_cts i c k : nth_error ctss i = Some c -> nth_error ct i = Some k -> gen_cts nl o c = Ok (c_A k, c_S k).
Proof.
  intros Hc Hk. destruct (dsim_inv _ _ _ _ _ _ _ _ _ _ _ _ _ _ _ _ _ _ _ run) as (_ & F & _).
  exact (proj1 (F2_at _ _ _ _ _ _ F Hc Hk)).
Qed.
Lemma run_gen : gen_AS argsort sort nl nk o d = Ok (A, S).
Proof. destruct (dsim_inv _ _ _ _ _ _ _ _ _ _ _ _ _ _ _ _ _ _ _ run) as (_ & _ & G & _). exact G. Qed.

Definition same_row (ob : orow) (row : drow) : Prop :=
  d_i row = o_i ob /\ d_m row = o_m ob /\ d_j row = Q4 (o_j1 ob) (o_j1 ob) (o_j2 ob) (o_j2 ob) /\
  d_g row = Q4 (s_g1 (o_row ob)) (s_g1 (o_row ob)) (s_g2 (o_row ob)) (s_g2 (o_row ob)) /\ d_l row = s_l (o_row ob).

Lemma out_same code x nc nx l ys : Forall2 same_row l (out code x nc nx l ys).
Proof.
  unfold out, enumerate. generalize 0%nat as s. induction l as [|ob l IH]; intros s; [constructor|].
  cbn [length seq combine map]. constructor; [repeat split|apply IH].
Qed.
Lemma run_rows : exists jd0 sd0, SimModel.simulate nk cm cs no_wage no_wage no_wage no_wage (frame g) fuel = Ok (jd0, sd0) /\
  Forall2 same_row jd0 jd /\ Forall2 same_row sd0 sd.
Proof.
  destruct (dsim_inv _ _ _ _ _ _ _ _ _ _ _ _ _ _ _ _ _ _ _ run) as (_ & _ & _ & ym & ys & jd0 & sd0 & _ & _ & E & -> & ->).
  exists jd0, sd0. split; [exact E|]. split; apply out_same.
Qed.

(* Interacted continuous control variables. *)
Lemma cts_int_rows c b : In c ctss -> cts_int c = true -> stationary (cts_stat c) = true -> off o (PB b) = false ->
  (2 <= nl)%nat -> jd = [] \/ length jd = nl.
Proof.
  intros Hin I St Hb Hn.
  destruct (dsim_inv _ _ _ _ _ _ _ _ _ _ _ _ _ _ _ _ _ _ _ run) as (_ & F2 & _ & ym & ys & jd0 & sd0 & W & _ & E0 & Ej & _).
  destruct (sim0_rows nk cm cs g fuel _ _ E0) as [M _].
  assert (Lj : length jd = length (mrows nk cm g)).
  { rewrite Ej, out_length, <- M. symmetry. apply map_length. }
  destruct (mrows nk cm g) as [|s l] eqn:Em. { left. now apply length_zero_iff_nil. } right. rewrite Lj.
  assert (Hs : nth_error (s :: l) 0 = Some s) by reflexivity.
  destruct (wages_row _ _ _ _ _ _ _ _ _ _ _ _ W) as [_ R0]. destruct (R0 0%nat s Hs) as (a & v & Ha & Hv & _).
  specialize (Ha (PB b) ltac:(destruct b; cbn; tauto)). specialize (Hv (PB b) ltac:(destruct b; cbn; tauto)).
  destruct (F2_in _ _ _ _ F2 Hin) as (k & Hk & [G J]). destruct (In_nth_enum _ _ Hk) as (i & Hi).
  destruct (Nat.eq_dec (length (s :: l)) nl) as [Q|Q]; [exact Q|]. exfalso.
  assert (Sp : forall f, spread (length (s :: l)) (Arr1 nl f) 0 = Err ValueError).
  { intros f. unfold spread. replace (Nat.eqb nl 1) with false by (symmetry; apply Nat.eqb_neq; lia).
    now replace (Nat.eqb nl (length (s :: l))) with false by (symmetry; apply Nat.eqb_neq; lia). }
  destruct (cts_shape _ _ _ _ _ I St G) as [I2|I2]; destruct (I2 (PB b) Hb) as (h & Eh).
  - unfold A_sum in Ha. destruct (base A _ _ _) as [b0|]; [|discriminate]. cbn [bind] in Ha.
    destruct (for_each (enumerate cc) _ b0) as [b1|]; [|discriminate]. cbn [bind] in Ha.
    edestruct (for_each_err (enumerate ct)) as (e & Ee); [exact Hi| |rewrite Ee in Ha; discriminate].
    intros a0. cbn [fst snd]. unfold cts_term, interacted. cbn [is_b negb]. rewrite Bool.andb_false_r, Eh, Sp.
    eexists; reflexivity.
  - unfold S_sum_sq in Hv. destruct (base S _ _ _) as [b0|]; [|discriminate]. cbn [bind] in Hv.
    destruct (for_each (enumerate cc) _ _) as [b1|]; [|discriminate]. cbn [bind] in Hv.
    edestruct (for_each_err (enumerate ct)) as (e & Ee); [exact Hi| |rewrite Ee in Hv; discriminate].
    intros a0. cbn [fst snd]. unfold cts_term, interacted. cbn [is_b negb]. rewrite Bool.andb_false_r, Eh, Sp.
    eexists; reflexivity.
Qed.

(* ---- rows ---- *)
Lemma F2_map {X Y Z} (f : X -> Z) (h : Y -> Z) l m : Forall2 (fun x y => f x = h y) l m -> map f l = map h m.
Proof. induction 1; cbn; congruence. Qed.
Lemma F2_imp {X Y} (P Q : X -> Y -> Prop) l m : (forall x y, P x y -> Q x y) -> Forall2 P l m -> Forall2 Q l m.
Proof. induction 2; constructor; auto. Qed.
Lemma F2_Forall {X Y} (P : X -> Y -> Prop) (A0 : X -> Prop) (B : Y -> Prop) l m :
  Forall2 P l m -> (forall x y, P x y -> A0 x -> B y) -> Forall A0 l -> Forall B m.
Proof. intros H I. induction H; intros F; inversion F; subst; constructor; eauto. Qed.
Lemma F2_Forall_l {X Y} (P : X -> Y -> Prop) (A0 : X -> Prop) (B : Y -> Prop) l m :
  Forall2 P l m -> (forall x y, P x y -> B y -> A0 x) -> Forall B m -> Forall A0 l.
Proof. intros H I. induction H; intros F; inversion F; subst; constructor; eauto. Qed.
Lemma F2_count {X Y} (P : X -> Y -> Prop) (f : X -> bool) (h : Y -> bool) l m :
  Forall2 P l m -> (forall x y, P x y -> f x = h y) -> count f l = count h m.
Proof.
  intros H I. unfold count. induction H as [|x y l m R0 H IH]; [reflexivity|]. cbn [filter].
  rewrite (I _ _ R0). destruct (h y); cbn [length]; congruence.
Qed.
Lemma F2_filter_map {X Y Z} (P : X -> Y -> Prop) (f : X -> bool) (h : Y -> bool) (u : X -> Z) (w : Y -> Z) l m :
  Forall2 P l m -> (forall x y, P x y -> f x = h y /\ u x = w y) -> map u (filter f l) = map w (filter h m).
Proof.
  intros H I. induction H as [|x y l m R0 H IH]; [reflexivity|]. cbn [filter].
  destruct (I _ _ R0) as [E1 E2]. rewrite E1. destruct (h y); cbn [map]; congruence.
Qed.
Lemma between_of x y k1 k2 : same_row x y -> of_types k1 k2 x = between k1 k2 y.
Proof.
  intros (_ & _ & _ & E & _). unfold of_types, between, quad_eqb. rewrite E. cbn.
  destruct (Nat.eqb _ k1), (Nat.eqb _ k2); reflexivity.
Qed.

Lemma run_counts :
  (forall k1 k2, (k1 < nk)%nat -> (k2 < nk)%nat -> count (between k1 k2) jd = cm k1 k2) /\
  (forall k, (k < nk)%nat -> count (between k k) sd = cs k) /\
  Forall (fun o => exists k1 k2, (k1 < nk)%nat /\ (k2 < nk)%nat /\ d_g o = Q4 k1 k1 k2 k2) jd /\
  Forall (fun o => exists k, (k < nk)%nat /\ d_g o = Q4 k k k k) sd.
Proof.
  destruct run_rows as (jd0 & sd0 & E & Fj & Fs).
  destruct (sim_counts nk cm cs _ _ _ _ _ _ _ _ E) as (H1 & H2 & H3 & H4).
  split. { intros k1 k2 L1 L2. rewrite <- (H1 k1 k2 L1 L2). symmetry. apply (F2_count _ _ _ _ _ Fj). intros; now apply between_of. }
  split. { intros k L. rewrite <- (H2 k L). symmetry. apply (F2_count _ _ _ _ _ Fs). intros; now apply between_of. }
  split.
  - refine (F2_Forall _ _ _ _ _ Fj _ H3). intros x y (_ & _ & _ & G & _) [L1 L2]. eauto.
  - refine (F2_Forall _ _ _ _ _ Fs _ H4). intros x y (_ & _ & _ & G & _) [L1 L2].
    rewrite L2 in G. eauto.
Qed.

Lemma run_ids :
  map d_i (jd ++ sd) = range (length jd + length sd) /\
  Forall (fun o => d_m o = 1%nat /\ exists j1 j2, d_j o = Q4 j1 j1 j2 j2) jd /\
  Forall (fun o => d_m o = 0%nat /\ exists j, d_j o = Q4 j j j j) sd.
Proof.
  destruct run_rows as (jd0 & sd0 & E & Fj & Fs).
  destruct (sim_ids nk cm cs _ _ _ _ _ _ _ _ E) as (H1 & H2 & H3).
  split. { rewrite <- (Forall2_length _ _ _ Fj), <- (Forall2_length _ _ _ Fs), <- H1, !map_app.
    f_equal; symmetry; apply F2_map; eapply F2_imp; try eassumption; intros x y (G & _); now symmetry. }
  split.
  - refine (F2_Forall _ _ _ _ _ Fj _ H2). intros x y (_ & M & J & _) G.
    rewrite M, J, G. split; [reflexivity|]. eauto.
  - refine (F2_Forall _ _ _ _ _ Fs _ H3). intros x y (_ & M & J & _) [G1 G2].
    rewrite M, J, G1, G2. split; [reflexivity|]. eauto.
Qed.

Lemma run_employs jd0 sd0 :
  SimModel.simulate nk cm cs no_wage no_wage no_wage no_wage (frame g) fuel = Ok (jd0, sd0) -> Forall2 same_row sd0 sd ->
  forall k j, employs sd0 k j <-> demploys sd k j.
Proof.
  intros E Fs k j. destruct (sim_counts nk cm cs _ _ _ _ _ _ _ _ E) as (_ & _ & _ & H4).
  destruct (sim_ids nk cm cs _ _ _ _ _ _ _ _ E) as (_ & _ & H3). rewrite Forall_forall in H3, H4. split.
  - intros (ob & Hin & Hk & Hj). destruct (F2_in _ _ _ _ Fs Hin) as (row & Hr & (_ & _ & J & G & _)).
    exists row. split; [exact Hr|]. rewrite J, G. destruct (H4 _ Hin) as [_ E2]. destruct (H3 _ Hin) as [_ E3].
    rewrite E2, <- E3, Hk, Hj. auto.
  - intros (row & Hin & G & J). apply In_nth_error in Hin. destruct Hin as (i & Hi).
    assert (Hob : exists ob, nth_error sd0 i = Some ob).
    { destruct (nth_error sd0 i) as [ob|] eqn:X; [eauto|]. apply nth_error_None in X.
      rewrite (Forall2_length _ _ _ Fs) in X. apply nth_error_None in X. congruence. }
    destruct Hob as (ob & Hob). destruct (F2_at _ _ _ _ _ _ Fs Hob Hi) as (_ & _ & J' & G' & _).
    exists ob. split; [now apply nth_error_In in Hob|]. rewrite G in G'. rewrite J in J'. split; congruence.
Qed.
Lemma draws_ok_iff (P Q : nat -> nat -> Prop) dr : (forall k j, P k j <-> Q k j) -> draws_ok nl nk cm cs Q dr -> draws_ok nl nk cm cs P dr.
Proof.
  intros I [a b c e f]. split; try assumption.
  - intros k1 L. destruct (e k1 L) as [X Y]. split; [exact X|]. eapply Forall_impl; [|exact Y]. intros; now apply I.
  - intros t k2 L. destruct (f t k2 L) as [X Y]. split; [exact X|]. eapply Forall_impl; [|exact Y]. intros; now apply I.
Qed.

Lemma run_firms : (forall k, (k < nk)%nat -> length (st_firm (frame g) k) = cs k) ->
  (exists n, forall j, (j < n)%nat <-> exists k, demploys sd k j) /\
  (forall k k' j, demploys sd k j -> demploys sd k' j -> k = k') /\
  (forall k j, demploys sd k j -> exists j', j' <> j /\ demploys sd k j').
Proof.
  intros L. destruct run_rows as (jd0 & sd0 & E & Fj & Fs). pose proof (run_employs _ _ E Fs) as I.
  destruct (sim_firms nk cm cs _ _ _ _ _ _ _ _ E L) as ((n & H1) & H2).
  split. { exists n. intros j. rewrite H1. split; intros (k & H); exists k; now apply I. }
  split. { intros k k' j A1 A2. apply I in A1, A2. eauto. }
  intros k j A1. apply I in A1. destruct (sim_two_firms nk cm cs _ _ _ _ _ _ _ _ E L _ _ A1) as (j' & N & A2).
  exists j'. split; [exact N|now apply I].
Qed.

Lemma run_first : draws_ok nl nk cm cs (demploys sd) (frame g) ->
  Forall (fun o => at1 (d_j o) <> at4 (d_j o) /\ demploys sd (at1 (d_g o)) (at1 (d_j o))) jd.
Proof.
  intros ok. destruct run_rows as (jd0 & sd0 & E & Fj & Fs). pose proof (run_employs _ _ E Fs) as I.
  apply (draws_ok_iff _ _ _ I) in ok.
  destruct (sim_j2 nl nk cm cs _ _ _ _ _ _ ok _ _ _ E) as (H1 & _ & H3).
  assert (H : Forall (fun ob => o_j1 ob <> o_j2 ob /\ employs sd0 (s_g1 (o_row ob)) (o_j1 ob)) jd0).
  { clear -H1 H3. induction jd0 as [|ob l IH]; [constructor|]. inversion H3; subst. cbn [map] in H1. inversion H1; subst.
    constructor; auto. }
  refine (F2_Forall _ _ _ _ _ Fj _ H). intros x y (_ & _ & J & G & _) [N A1]. rewrite J, G. cbn. split; [exact N|now apply I].
Qed.

Lemma run_second : draws_ok nl nk cm cs (demploys sd) (frame g) ->
  (Forall (fun o => demploys sd (at4 (d_g o)) (at4 (d_j o))) jd <-> StronglySorted le (map (fun o => at4 (d_g o)) jd)).
Proof.
  intros ok. destruct run_rows as (jd0 & sd0 & E & Fj & Fs). pose proof (run_employs _ _ E Fs) as I.
  apply (draws_ok_iff _ _ _ I) in ok. pose proof (sim_second nl nk cm cs _ _ _ _ _ _ _ _ E ok) as H.
  assert (M : map (fun o => s_g2 (o_row o)) jd0 = map (fun o => at4 (d_g o)) jd).
  { apply F2_map. eapply F2_imp; [|exact Fj]. intros x y (_ & _ & _ & G & _). now rewrite G. }
  rewrite M in H. rewrite <- H. split; intros F.
  - refine (F2_Forall_l _ _ _ _ _ Fj _ F). intros x y (_ & _ & J & G & _). rewrite J, G. cbn. intros X. now apply I.
  - refine (F2_Forall _ _ _ _ _ Fj _ F). intros x y (_ & _ & J & G & _). rewrite J, G. cbn. intros X. now apply I.
Qed.
Lemma run_second_wrong k1 k2 k1' k2' : draws_ok nl nk cm cs (demploys sd) (frame g) ->
  (k1 < k1' < nk)%nat -> (k2' < k2 < nk)%nat -> (0 < cm k1 k2)%nat -> (0 < cm k1' k2')%nat ->
  exists o, In o jd /\ ~ demploys sd (at4 (d_g o)) (at4 (d_j o)).
Proof.
  intros ok L1 L2 C1 C2. destruct run_rows as (jd0 & sd0 & E & Fj & Fs). pose proof (run_employs _ _ E Fs) as I.
  apply (draws_ok_iff _ _ _ I) in ok.
  destruct (sim_second_wrong nl nk cm cs _ _ _ _ _ _ _ _ k1 k2 k1' k2' E ok L1 L2 C1 C2) as (ob & Hin & N).
  destruct (F2_in _ _ _ _ Fj Hin) as (row & Hr & (_ & _ & J & G & _)). exists row. split; [exact Hr|].
  rewrite J, G. cbn. intros X. apply N. now apply I.
Qed.
Lemma run_types has : draws_ok nl nk cm cs has (frame g) ->
  (forall k1 k2, (k1 < nk)%nat -> (k2 < nk)%nat -> map d_l (filter (between k1 k2) jd) = mv_l (frame g) k1 k2) /\
  (forall k, (k < nk)%nat -> map d_l (filter (between k k) sd) = st_l (frame g) k).
Proof.
  intros ok. destruct run_rows as (jd0 & sd0 & E & Fj & Fs).
  destruct (sim_worker_types nl nk cm cs _ _ _ _ _ _ _ _ has E ok) as [H1 H2]. split.
  - intros k1 k2 L1 L2. rewrite <- (H1 k1 k2 L1 L2). symmetry. apply (F2_filter_map _ _ _ _ _ _ _ Fj).
    intros x y X. split; [now apply between_of|]. destruct X as (_ & _ & _ & _ & X). now symmetry.
  - intros k L. rewrite <- (H2 k L). symmetry. apply (F2_filter_map _ _ _ _ _ _ _ Fs).
    intros x y X. split; [now apply between_of|]. destruct X as (_ & _ & _ & _ & X). now symmetry.
Qed.
End Run.
