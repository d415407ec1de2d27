(* Proofs of the properties of the bootstrap and the decomposition of the dynamic model. *)
From Coq Require Import Lra Lia ZifyNat.
From Verif Require Import Base BaseLemmas UtilModel UtilSpec BLMModel BLMSpec BLMSortLemmas BLMRealModel
  BLMRealLemmas BLMRunSpec BootModel BootSpec BootLemmas DBLMModel DBLMSpec DBootModel DBootSpec DBootLemmas.
Local Open Scope R_scope.

Lemma same_refl J : same_rows J J.
Proof. split; reflexivity. Qed.
Lemma same_length J J' : same_rows J J' -> length J' = length J.
Proof. intros [H _]. unfold worker_ids in H. rewrite <- (map_length e_i J), <- H. now rewrite map_length. Qed.

Section DBoot.
Variables nl nk : nat.
Variable realloc : option (bool * rperiod).
Variable gen : nat -> drng.

Section Bootstrap.
Variable estimator : nat -> list erow -> list erow -> res dpar.
Variable cluster : nat -> list erow -> list erow -> res (nat -> nat).
Variables J S0 : list erow.

(* What the estimator is given in round t. *)
Definition dsampled (p : dpar) (t : nat) (m : dpar) : Prop :=
  exists jt st jc sc c Lm Ls,
    estimator (S t) jt st = Ok m /\ same_rows J jt /\ same_rows S0 st /\
    cluster t jc sc = Ok c /\ same_rows J jc /\ same_rows S0 sc /\
    ewages jc = ewages jt /\ ewages sc = ewages st /\
    firm_types jt = map (fun q => Q4 (c (at1 q)) (c (at1 q)) (c (at4 q)) (c (at4 q))) (firm_ids J) /\
    firm_types st = map (fun q => Q4 (c (at1 q)) (c (at1 q)) (c (at1 q)) (c (at1 q))) (firm_ids S0) /\
    dsimulate nl nk p realloc (gen t) (map g14 J) (map g1_of S0) = Ok (ewages jt, ewages st, Lm, Ls).

Lemma dboot_round_ok p t jd sd fr m : same_rows J jd -> same_rows S0 sd ->
  dboot_round nl nk realloc estimator cluster gen p (map g14 J) (map g1_of S0) t jd sd = (fr, Ok m) ->
  same_rows J (fst fr) /\ same_rows S0 (snd fr) /\ dsampled p t m.
Proof.
  intros Fj Fs E. unfold dboot_round in E.
  destruct (dsimulate _ _ _ _ _ _ _) as [[[[yj ys] Lm] Ls]|e] eqn:ES; [|discriminate].
  destruct (dsimulate_lengths _ _ _ _ _ _ _ _ _ _ _ ES) as (L1 & L2 & L3 & L4).
  rewrite !map_length in *. pose proof (same_length _ _ Fj) as Lj. pose proof (same_length _ _ Fs) as Lss.
  set (jc := map2 set_y yj jd) in *. set (sc := map2 set_y ys sd) in *.
  assert (Fjc : same_rows J jc).
  { destruct Fj as [A B]. split; unfold worker_ids, firm_ids, jc in *.
    - rewrite (map2_keep set_y e_i) by (auto; lia). exact A.
    - rewrite (map2_keep set_y e_j) by (auto; lia). exact B. }
  assert (Fsc : same_rows S0 sc).
  { destruct Fs as [A B]. split; unfold worker_ids, firm_ids, sc in *.
    - rewrite (map2_keep set_y e_i) by (auto; lia). exact A.
    - rewrite (map2_keep set_y e_j) by (auto; lia). exact B. }
  destruct (cluster t jc sc) as [c|e] eqn:EC; [|discriminate].
  cbv zeta in E.
  set (jt := map _ jc) in E. set (st := map _ sc) in E.
  injection E as <- Em. cbn [fst snd].
  assert (Fjt : same_rows J jt).
  { destruct Fjc as [A B]. split; unfold worker_ids, firm_ids, jt in *; rewrite map_keep; auto. }
  assert (Fst : same_rows S0 st).
  { destruct Fsc as [A B]. split; unfold worker_ids, firm_ids, st in *; rewrite map_keep; auto. }
  assert (Wj : ewages jt = yj).
  { unfold ewages, jt. rewrite map_keep by auto. unfold jc. rewrite (map2_get set_y e_y (fun a => a)) by (auto; lia).
    apply map_id. }
  assert (Ws : ewages st = ys).
  { unfold ewages, st. rewrite map_keep by auto. unfold sc. rewrite (map2_get set_y e_y (fun a => a)) by (auto; lia).
    apply map_id. }
  split; auto. split; auto.
  exists jt, st, jc, sc, c, Lm, Ls. repeat (split; [assumption|]).
  split. { unfold ewages, jt. rewrite map_keep; auto. }
  split. { unfold ewages, st. rewrite map_keep; auto. }
  split. { destruct Fjc as [_ <-]. unfold firm_types, firm_ids, jt. rewrite !map_map. apply map_ext. reflexivity. }
  split. { destruct Fsc as [_ <-]. unfold firm_types, firm_ids, st. rewrite !map_map. apply map_ext. reflexivity. }
  rewrite Wj, Ws. exact ES.
Qed.

Lemma dboot_loop_ok p : forall n t jd sd models fr ms, same_rows J jd -> same_rows S0 sd ->
  dboot_loop nl nk realloc estimator cluster gen p (map g14 J) (map g1_of S0) n t jd sd models = (fr, Ok ms) ->
  same_rows J (fst fr) /\ same_rows S0 (snd fr) /\
  exists ms', ms = models ++ ms' /\ length ms' = n /\
    forall i d, (i < n)%nat -> dsampled p (t + i)%nat (nth i ms' d).
Proof.
  induction n as [|n IH]; intros t jd sd models fr ms Fj Fs E; simpl in E.
  - injection E as <- <-. split; auto. split; auto. exists []. rewrite app_nil_r. repeat split; auto. lia.
  - destruct (dboot_round _ _ _ _ _ _ _ _ _ _ _ _) as [[jd' sd'] [m|e]] eqn:ER; [|discriminate].
    destruct (dboot_round_ok _ _ _ _ _ _ Fj Fs ER) as (Fj' & Fs' & Sm). cbn [fst snd] in *.
    destruct (IH _ _ _ _ _ _ Fj' Fs' E) as (A & B & ms' & -> & L & H).
    split; auto. split; auto. exists (m :: ms'). rewrite <- app_assoc. split; auto. split; [simpl; lia|].
    intros [|i] d Hi; simpl.
    + now rewrite Nat.add_0_r.
    + replace (t + S i)%nat with (S t + i)%nat by lia. apply H. lia.
Qed.
End Bootstrap.

Lemma mover_types J : Forall mover_row J ->
  map (fun q => Q4 (fst q) (fst q) (snd q) (snd q)) (map g14 J) = firm_types J.
Proof.
  induction 1 as [|f J [_ (a & b & H)] F IH]; simpl; auto. f_equal; auto. unfold g14. now rewrite H.
Qed.
Lemma stayer_types J : Forall stayer_row J -> map (fun k => Q4 k k k k) (map g1_of J) = firm_types J.
Proof.
  induction 1 as [|f J [_ (a & H)] F IH]; simpl; auto. f_equal; auto. unfold g1_of. now rewrite H.
Qed.

Lemma dboot_fit_inv estimator cluster bm n jd sd fr ms :
  dboot_fit nl nk realloc estimator cluster gen bm n jd sd = (fr, Ok ms) ->
  (Forall mover_row jd -> Forall stayer_row sd -> fr = (jd, sd)) /\ length ms = n /\
  exists p, match bm with Some p0 => p = p0 | None => estimator 0%nat jd sd = Ok p end /\
    forall t d, (t < n)%nat -> dsampled estimator cluster jd sd p t (nth t ms d).
Proof.
  intros E. unfold dboot_fit in E.
  assert (EP : exists p, match bm with Some p => Ok p | None => estimator 0%nat jd sd end = Ok p /\
    match bm with Some p0 => p = p0 | None => estimator 0%nat jd sd = Ok p end).
  { destruct bm as [p|]; eauto. destruct (estimator 0%nat jd sd); [eauto|discriminate]. }
  destruct EP as (p & EP & EP'). rewrite EP in E.
  destruct (dboot_loop _ _ _ _ _ _ _ _ _ _ _ _ _ _) as [[jd' sd'] [models|e]] eqn:EL; [|discriminate].
  destruct (dboot_loop_ok _ _ jd sd p _ _ _ _ _ _ _ (same_refl jd) (same_refl sd) EL)
    as (Fj & Fs & ms' & -> & L & H).
  cbn [fst snd] in *. injection E as E <-. simpl. split; [|split; [exact L|exists p; split; auto]].
  intros Mv St. rewrite <- E.
  pose proof (same_length _ _ Fj) as Lj. pose proof (same_length _ _ Fs) as Lss.
  destruct Fj as [A1 A2], Fs as [B1 B2].
  assert (M1 : length (map2 set_y (map e_y jd) jd') = length jd) by (rewrite length_map2; rewrite ?map_length; lia).
  assert (M2 : length (map2 set_y (map e_y sd) sd') = length sd) by (rewrite length_map2; rewrite ?map_length; lia).
  f_equal; apply rows_ext; unfold worker_ids, firm_ids, firm_types, ewages in *.
  - rewrite !map2_keep; auto; rewrite ?map_length; try lia.
  - rewrite !map2_keep; auto; rewrite ?map_length; try lia.
  - rewrite (map2_get _ e_g (fun q => Q4 (fst q) (fst q) (snd q) (snd q))); auto.
    + apply mover_types. exact Mv.
    + rewrite map_length. lia.
  - rewrite map2_keep; auto; rewrite ?map_length; try lia.
    rewrite (map2_get set_y e_y (fun a => a)); auto; [apply map_id|rewrite map_length; lia].
  - rewrite !map2_keep; auto; rewrite ?map_length; try lia.
  - rewrite !map2_keep; auto; rewrite ?map_length; try lia.
  - rewrite (map2_get _ e_g (fun k => Q4 k k k k)); auto.
    + apply stayer_types. exact St.
    + rewrite map_length. lia.
  - rewrite map2_keep; auto; rewrite ?map_length; try lia.
    rewrite (map2_get set_y e_y (fun a => a)); auto; [apply map_id|rewrite map_length; lia].
Qed.

Lemma dboot_drawn estimator cluster bm n jd sd fr ms p q1 q0 :
  dboot_fit nl nk realloc estimator cluster gen bm n jd sd = (fr, Ok ms) ->
  match bm with Some p0 => p = p0 | None => estimator 0%nat jd sd = Ok p end ->
  (forall t, dchoices_ok nl (gen t)) -> (forall l k, 0 <= dS p T2s l k) ->
  dtype_shares nl nk realloc p q1 q0 ->
  (forall k1 k2, (k1 < nk)%nat -> (k2 < nk)%nat -> prob_row nl (q1 (k1 + nk * k2)%nat)) ->
  (forall k, (k < nk)%nat -> prob_row nl (q0 k)) ->
  length ms = n /\
  forall t d, (t < n)%nat -> exists jt st jc sc c Lm Ls,
    estimator (S t) jt st = Ok (nth t ms d) /\ same_rows jd jt /\ same_rows sd st /\
    cluster t jc sc = Ok c /\ same_rows jd jc /\ same_rows sd sc /\
    ewages jc = ewages jt /\ ewages sc = ewages st /\
    firm_types jt = map (fun q => Q4 (c (at1 q)) (c (at1 q)) (c (at4 q)) (c (at4 q))) (firm_ids jd) /\
    firm_types st = map (fun q => Q4 (c (at1 q)) (c (at1 q)) (c (at1 q)) (c (at1 q))) (firm_ids sd) /\
    ddrawn_from nl nk p q1 q0 (gen t) jd sd (ewages jt) (ewages st) Lm Ls.
Proof.
  intros E EP C Sp T P1 P0. destruct (dboot_fit_inv _ _ _ _ _ _ _ _ E) as (_ & L & p' & EP' & H).
  assert (p' = p) as -> by (destruct bm; congruence).
  split; auto. intros t d Ht.
  destruct (H t d Ht) as (jt & st & jc & sc & c & Lm & Ls & A1 & A2 & A3 & A4 & A5 & A6 & A7 & A8 & A9 & A10 & A11).
  exists jt, st, jc, sc, c, Lm, Ls. repeat (split; [assumption|]).
  apply (dsimulate_drawn nl nk p realloc); auto.
Qed.

(* ---- the variance decomposition ---- *)
Section Decomposition.
Variable fe : nat -> list erow -> list erow -> res (list R).
Variables J S0 : list erow.
Variable ty : bool.
(* jd is J0 but for wages and, if worker types are ids, worker ids *)
Definition vd_same (J0 jd : list erow) : Prop :=
  length jd = length J0 /\ firm_ids jd = firm_ids J0 /\ firm_types jd = firm_types J0 /\
  (ty = false -> worker_ids jd = worker_ids J0).

Lemma vd_same_refl J0 : vd_same J0 J0.
Proof. repeat split. Qed.

Definition ddecomposed (J0 S1 : list erow) (p : dpar) (t : nat) (m : list R) : Prop :=
  exists jt st Lm Ls,
    fe t jt st = Ok m /\ vd_same J0 jt /\ vd_same S1 st /\
    (ty = true -> worker_ids jt = Lm /\ worker_ids st = Ls) /\
    dsimulate nl nk p realloc (gen t) (map g14 J) (map g1_of S0) = Ok (ewages jt, ewages st, Lm, Ls).

Lemma dvd_round_ok J0 S1 p t jd sd fr m : length J0 = length J -> length S1 = length S0 ->
  vd_same J0 jd -> vd_same S1 sd ->
  dvd_round nl nk realloc gen fe ty p (map g14 J) (map g1_of S0) t jd sd = (fr, Ok m) ->
  vd_same J0 (fst fr) /\ vd_same S1 (snd fr) /\ ddecomposed J0 S1 p t m.
Proof.
  intros K1 K2 Fj Fs E. unfold dvd_round in E.
  destruct (dsimulate _ _ _ _ _ _ _) as [[[[yj ys] Lm] Ls]|e] eqn:ES; [|discriminate].
  destruct (dsimulate_lengths _ _ _ _ _ _ _ _ _ _ _ ES) as (L1 & L2 & L3 & L4).
  rewrite !map_length in *.
  assert (W : forall J0 jd L y, length L = length J0 -> length y = length J0 -> vd_same J0 jd ->
            vd_same J0 (map2 set_y y (if ty then map2 set_i L jd else jd)) /\
            ewages (map2 set_y y (if ty then map2 set_i L jd else jd)) = y /\
            (ty = true -> worker_ids (map2 set_y y (if ty then map2 set_i L jd else jd)) = L)).
  { clear. intros J0 jd L y HL Hy (A & B & C & D).
    assert (HM : length (if ty then map2 set_i L jd else jd) = length jd).
    { destruct ty; [rewrite length_map2; lia|reflexivity]. }
    unfold vd_same, firm_ids, firm_types, worker_ids, ewages in *.
    rewrite (map2_keep set_y e_j), (map2_keep set_y e_g), (map2_keep set_y e_i) by (auto; lia).
    rewrite (map2_get set_y e_y (fun a => a)) by (auto; lia). rewrite map_id, length_map2 by lia.
    destruct ty.
    - rewrite (map2_keep set_i e_j), (map2_keep set_i e_g), (map2_get set_i e_i (fun a => a)) by (auto; lia).
      rewrite map_id. repeat split; auto; try lia.
    - repeat split; auto; try lia. }
  destruct (W J0 jd Lm yj) as (V1 & V2 & V3); [lia|lia|exact Fj|].
  destruct (W S1 sd Ls ys) as (W1 & W2 & W3); [lia|lia|exact Fs|]. clear W.
  injection E as <- Em. cbn [fst snd]. split; auto. split; auto.
  eexists _, _, Lm, Ls. split; [exact Em|]. split; [exact V1|]. split; [exact W1|].
  split; [auto|]. rewrite V2, W2. exact ES.
Qed.

Lemma dvd_loop_ok J0 S1 p : length J0 = length J -> length S1 = length S0 ->
  forall n t jd sd out fr ms, vd_same J0 jd -> vd_same S1 sd ->
  dvd_loop nl nk realloc gen fe ty p (map g14 J) (map g1_of S0) n t jd sd out = (fr, Ok ms) ->
  vd_same J0 (fst fr) /\ vd_same S1 (snd fr) /\
  exists ms', ms = out ++ ms' /\ length ms' = n /\
    forall i d, (i < n)%nat -> ddecomposed J0 S1 p (t + i)%nat (nth i ms' d).
Proof.
  intros K1 K2. induction n as [|n IH]; intros t jd sd models fr ms Fj Fs E; simpl in E.
  - injection E as <- <-. split; auto. split; auto. exists []. rewrite app_nil_r. repeat split; auto. lia.
  - destruct (dvd_round _ _ _ _ _ _ _ _ _ _ _ _) as [[jd' sd'] [m|e]] eqn:ER; [|discriminate].
    destruct (dvd_round_ok _ _ _ _ _ _ _ _ K1 K2 Fj Fs ER) as (Fj' & Fs' & Sm). cbn [fst snd] in *.
    destruct (IH _ _ _ _ _ _ Fj' Fs' E) as (A & B & ms' & -> & L & H).
    split; auto. split; auto. exists (m :: ms'). rewrite <- app_assoc. split; auto. split; [simpl; lia|].
    intros [|i] d Hi; simpl.
    + now rewrite Nat.add_0_r.
    + replace (t + S i)%nat with (S t + i)%nat by lia. apply H. lia.
Qed.
End Decomposition.

(* The frames the regression starts from. *)
Definition with_types (cl : bool) (jd : list erow) : list erow :=
  if cl then map2 (fun q => set_j14 (fst q) (snd q)) (map g14 jd) jd else jd.
Definition with_type (cl : bool) (sd : list erow) : list erow :=
  if cl then map2 (fun k => set_j14 k k) (map g1_of sd) sd else sd.

Lemma with_types_map cl jd : with_types cl jd =
  if cl then map (fun f => set_j14 (at1 (e_g f)) (at4 (e_g f)) f) jd else jd.
Proof. destruct cl; auto. unfold with_types. induction jd; simpl; auto. f_equal; auto. Qed.
Lemma with_type_map cl jd : with_type cl jd =
  if cl then map (fun f => set_j14 (at1 (e_g f)) (at1 (e_g f)) f) jd else jd.
Proof. destruct cl; auto. unfold with_type. induction jd; simpl; auto. f_equal; auto. Qed.

(* What is left in the stayers' frame. *)
Definition j1_typed (f : erow) : erow :=
  mkerow (e_i f) (Q4 (at1 (e_g f)) (at2 (e_j f)) (at3 (e_j f)) (at1 (e_j f))) (e_g f) (e_y f).

Lemma dvd_fit_inv estimator fe cl ty bm n jd sd fr ms :
  dvd_fit nl nk realloc estimator gen fe cl ty bm n jd sd = (fr, Ok ms) ->
  fr = (jd, if cl then map j1_typed sd else sd) /\ length ms = n /\ (0 < n)%nat /\
  exists p, match bm with Some p0 => p = p0
            | None => estimator 0%nat (with_types cl jd) (with_type cl sd) = Ok p end /\
    forall t d, (t < n)%nat ->
      ddecomposed fe jd sd ty (with_types cl jd) (with_type cl sd) p t (nth t ms d).
Proof.
  intros E. unfold dvd_fit in E. fold (with_types cl jd) in E. fold (with_type cl sd) in E.
  assert (EP : exists p, match bm with Some p => Ok p
      | None => estimator 0%nat (with_types cl jd) (with_type cl sd) end = Ok p /\
    match bm with Some p0 => p = p0 | None => estimator 0%nat (with_types cl jd) (with_type cl sd) = Ok p end).
  { destruct bm as [p|]; eauto. destruct (estimator 0%nat _ _); [eauto|discriminate]. }
  destruct EP as (p & EP & EP'). rewrite EP in E.
  destruct (dvd_loop _ _ _ _ _ _ _ _ _ _ _ _ _ _) as [[jd' sd'] [out|e]] eqn:EL; [|discriminate].
  assert (K1 : length (with_types cl jd) = length jd).
  { rewrite with_types_map. destruct cl; [apply map_length|auto]. }
  assert (K2 : length (with_type cl sd) = length sd).
  { rewrite with_type_map. destruct cl; [apply map_length|auto]. }
  destruct (dvd_loop_ok fe jd sd ty (with_types cl jd) (with_type cl sd) p K1 K2 _ _ _ _ _ _ _
    (vd_same_refl _ _) (vd_same_refl _ _) EL) as (Fj & Fs & ms' & -> & L & H).
  cbn [fst snd] in *.
  assert (EO : ms = [] ++ ms' /\ ms' <> [] /\
    fr = (let j1 := map2 set_y (map e_y jd) jd' in
          let j2 := if cl then map2 (fun q => set_j14 (fst q) (snd q)) (map j14 jd) j1 else j1 in
          if ty then map2 set_i (map e_i jd) j2 else j2,
          let s1 := map2 set_y (map e_y sd) sd' in
          let s2 := if cl then map2 set_j4 (map j1_of sd) (map2 set_j4 (map j1_of sd) s1) else s1 in
          if ty then map2 set_i (map e_i sd) s2 else s2)).
  { simpl in E. destruct ms' as [|m ms']; [discriminate|]. injection E as E1 E2.
    subst ms. rewrite <- E1. repeat split. discriminate. }
  destruct EO as (-> & NE & ->).
  split; [|split; [exact L|split; [destruct ms'; [congruence|simpl in L; lia]|exists p; split; auto]]].
  destruct Fj as (A1 & A2 & A3 & A4), Fs as (B1 & B2 & B3 & B4).
  assert (M1 : length (map2 set_y (map e_y jd) jd') = length jd) by (rewrite length_map2; rewrite ?map_length; lia).
  assert (M2 : length (map2 set_y (map e_y sd) sd') = length sd) by (rewrite length_map2; rewrite ?map_length; lia).
  assert (N1 : length (if cl then map2 (fun q => set_j14 (fst q) (snd q)) (map j14 jd)
                (map2 set_y (map e_y jd) jd') else map2 set_y (map e_y jd) jd') = length jd).
  { destruct cl; auto. rewrite length_map2; rewrite ?map_length; lia. }
  assert (N2 : length (if cl then map2 set_j4 (map j1_of sd) (map2 set_j4 (map j1_of sd)
                (map2 set_y (map e_y sd) sd')) else map2 set_y (map e_y sd) sd') = length sd).
  { destruct cl; auto. rewrite length_map2; [|rewrite length_map2]; rewrite ?map_length; lia. }
  f_equal; cbv zeta.
  - set (u := map2 set_y (map e_y jd) jd') in *.
    assert (U1 : map e_j u = map e_j (with_types cl jd)).
    { unfold u. rewrite map2_keep by (auto; rewrite map_length; lia). exact A2. }
    assert (U2 : map e_g u = map e_g jd).
    { unfold u. rewrite map2_keep by (auto; rewrite map_length; lia). unfold firm_types in A3. rewrite A3.
      rewrite with_types_map. destruct cl; auto. apply map_keep. auto. }
    assert (U3 : ty = false -> map e_i u = map e_i jd).
    { intros T. unfold u. rewrite map2_keep by (auto; rewrite map_length; lia). unfold worker_ids in A4.
      rewrite (A4 T). rewrite with_types_map. destruct cl; auto. apply map_keep. auto. }
    assert (U4 : map e_y u = map e_y jd).
    { unfold u. rewrite (map2_get set_y e_y (fun a => a)); auto; [apply map_id|rewrite map_length; lia]. }
    set (v := if cl then _ else u) in *.
    assert (V : map e_j v = map e_j jd /\ map e_g v = map e_g jd /\ map e_y v = map e_y jd /\
                (ty = false -> map e_i v = map e_i jd)).
    { unfold v. destruct cl.
      - rewrite (map2_keep _ e_g), (map2_keep _ e_y), (map2_keep _ e_i) by (auto; rewrite map_length; lia).
        repeat split; auto. rewrite with_types_map in U1.
        clear - U1 M1. clearbody u. revert u U1 M1. induction jd as [|f J IH]; intros [|g u]; simpl; try lia; auto.
        intros U1 M1. injection U1 as Hg HT. f_equal; [|apply IH; auto]. rewrite Hg. simpl.
        unfold j14. destruct f as [i [a b c d] gg y]. reflexivity.
      - repeat split; auto. }
    destruct V as (V1 & V2 & V3 & V4).
    apply rows_ext; unfold worker_ids, firm_ids, firm_types, ewages; destruct ty;
      try (rewrite (map2_get set_i e_i (fun a => a)) by (auto; rewrite map_length; lia); apply map_id);
      try (rewrite map2_keep by (auto; rewrite map_length; lia)); auto.
  - set (u := map2 set_y (map e_y sd) sd') in *.
    assert (U1 : map e_j u = map e_j (with_type cl sd)).
    { unfold u. rewrite map2_keep by (auto; rewrite map_length; lia). exact B2. }
    assert (U2 : map e_g u = map e_g sd).
    { unfold u. rewrite map2_keep by (auto; rewrite map_length; lia). unfold firm_types in B3. rewrite B3.
      rewrite with_type_map. destruct cl; auto. apply map_keep. auto. }
    assert (U3 : ty = false -> map e_i u = map e_i sd).
    { intros T. unfold u. rewrite map2_keep by (auto; rewrite map_length; lia). unfold worker_ids in B4.
      rewrite (B4 T). rewrite with_type_map. destruct cl; auto. apply map_keep. auto. }
    assert (U4 : map e_y u = map e_y sd).
    { unfold u. rewrite (map2_get set_y e_y (fun a => a)); auto; [apply map_id|rewrite map_length; lia]. }
    set (v := if cl then _ else u) in *.
    assert (V : map e_j v = map e_j (if cl then map j1_typed sd else sd) /\ map e_g v = map e_g sd /\
                map e_y v = map e_y sd /\ (ty = false -> map e_i v = map e_i sd)).
    { unfold v. destruct cl.
      - assert (Q : length (map2 set_j4 (map j1_of sd) u) = length sd) by (rewrite length_map2; rewrite ?map_length; lia).
        rewrite !(map2_keep _ e_g), !(map2_keep _ e_y), !(map2_keep _ e_i)
          by (auto; rewrite map_length; lia).
        repeat split; auto. rewrite with_type_map in U1.
        clear - U1 M2. clearbody u. revert u U1 M2. induction sd as [|f J IH]; intros [|g u]; simpl; try lia; auto.
        intros U1 M1. injection U1 as Hg HT. f_equal; [|apply IH; auto]. rewrite Hg. simpl.
        unfold j1_of. reflexivity.
      - repeat split; auto. }
    destruct V as (V1 & V2 & V3 & V4).
    assert (X : map e_g (if cl then map j1_typed sd else sd) = map e_g sd /\
                map e_y (if cl then map j1_typed sd else sd) = map e_y sd /\
                map e_i (if cl then map j1_typed sd else sd) = map e_i sd).
    { destruct cl; auto. rewrite !map_keep; auto. }
    destruct X as (X1 & X2 & X3).
    apply rows_ext; unfold worker_ids, firm_ids, firm_types, ewages; rewrite ?X1, ?X2, ?X3; destruct ty;
      try (rewrite (map2_get set_i e_i (fun a => a)) by (auto; rewrite map_length; lia); apply map_id);
      try (rewrite map2_keep by (auto; rewrite map_length; lia)); auto.
Qed.

Lemma dvd_drawn estimator fe cl ty bm n jd sd fr ms p q1 q0 :
  dvd_fit nl nk realloc estimator gen fe cl ty bm n jd sd = (fr, Ok ms) -> bm = Some p ->
  (forall t, dchoices_ok nl (gen t)) -> (forall l k, 0 <= dS p T2s l k) ->
  dtype_shares nl nk realloc p q1 q0 ->
  (forall k1 k2, (k1 < nk)%nat -> (k2 < nk)%nat -> prob_row nl (q1 (k1 + nk * k2)%nat)) ->
  (forall k, (k < nk)%nat -> prob_row nl (q0 k)) ->
  length ms = n /\
  forall t d, (t < n)%nat -> exists jt st Lm Ls,
    fe t jt st = Ok (nth t ms d) /\
    firm_types jt = firm_types jd /\ firm_types st = firm_types sd /\
    map j14 jt = (if cl then map g14 jd else map j14 jd) /\
    map j1_of st = (if cl then map g1_of sd else map j1_of sd) /\
    worker_ids jt = (if ty then Lm else worker_ids jd) /\
    worker_ids st = (if ty then Ls else worker_ids sd) /\
    ddrawn_from nl nk p q1 q0 (gen t) jd sd (ewages jt) (ewages st) Lm Ls.
Proof.
  intros E -> C Sp T P1 P0. destruct (dvd_fit_inv _ _ _ _ _ _ _ _ _ _ E) as (_ & L & _ & p' & -> & H).
  split; auto. intros t d Ht.
  destruct (H t d Ht) as (jt & st & Lm & Ls & A1 & (A2 & A3 & A4 & A5) & (B2 & B3 & B4 & B5) & A6 & A7).
  exists jt, st, Lm, Ls. split; [exact A1|].
  assert (G : forall a b, firm_ids a = firm_ids b -> map j14 a = map j14 b).
  { intros a b Hab. transitivity (map (fun q => (at1 q, at4 q)) (firm_ids a)).
    - unfold firm_ids. now rewrite map_map.
    - rewrite Hab. unfold firm_ids. now rewrite map_map. }
  assert (G' : forall a b, firm_ids a = firm_ids b -> map j1_of a = map j1_of b).
  { intros a b Hab. transitivity (map (fun q => at1 q) (firm_ids a)).
    - unfold firm_ids. now rewrite map_map.
    - rewrite Hab. unfold firm_ids. now rewrite map_map. }
  split. { rewrite A4, with_types_map. destruct cl; auto. unfold firm_types. now rewrite map_keep. }
  split. { rewrite B4, with_type_map. destruct cl; auto. unfold firm_types. now rewrite map_keep. }
  split. { rewrite (G _ _ A3), with_types_map. destruct cl; auto. rewrite map_map. now apply map_ext. }
  split. { rewrite (G' _ _ B3), with_type_map. destruct cl; auto. rewrite map_map. now apply map_ext. }
  split.
  { destruct ty; [apply A6; reflexivity|]. rewrite (A5 eq_refl), with_types_map. destruct cl; auto.
    unfold worker_ids. now rewrite map_keep. }
  split.
  { destruct ty; [apply A6; reflexivity|]. rewrite (B5 eq_refl), with_type_map. destruct cl; auto.
    unfold worker_ids. now rewrite map_keep. }
  apply (dsimulate_drawn nl nk p realloc); auto.
Qed.

(* Firm types replace the firm ids of the first and the last period only. *)
Lemma dvd_ids estimator fe ty bm n jd sd fr ms :
  dvd_fit nl nk realloc estimator gen fe true ty bm n jd sd = (fr, Ok ms) ->
  forall t d, (t < n)%nat -> exists jt st,
    fe t jt st = Ok (nth t ms d) /\
    firm_ids jt = map (fun f => Q4 (at1 (e_g f)) (at2 (e_j f)) (at3 (e_j f)) (at4 (e_g f))) jd /\
    firm_ids st = map (fun f => Q4 (at1 (e_g f)) (at2 (e_j f)) (at3 (e_j f)) (at1 (e_g f))) sd.
Proof.
  intros E t d Ht. destruct (dvd_fit_inv _ _ _ _ _ _ _ _ _ _ E) as (_ & _ & _ & p & _ & H).
  destruct (H t d Ht) as (jt & st & Lm & Ls & A1 & (_ & A3 & _) & (_ & B3 & _) & _).
  exists jt, st. split; [exact A1|]. rewrite A3, B3, with_types_map, with_type_map.
  unfold firm_ids. rewrite !map_map. split; reflexivity.
Qed.
End DBoot.

(* ---- cases ---- *)
Definition e_par : dpar :=
  mkdpar (fun _ l k => INR l + INR k) (fun _ _ => 0) (fun _ _ _ => 1) (fun _ _ => 1)
         (fun _ _ => 1/2) (fun _ _ => 1/2) (fun _ _ => 1) (fun _ => 1) (1/2) (1/2) (1/2) (1/2).
Definition e_jd : list erow :=
  [mkerow 7 (Q4 5 5 6 6)%nat (Q4 0 0 1 1)%nat (Q4 9 9 9 9); mkerow 8 (Q4 6 6 5 5)%nat (Q4 1 1 0 0)%nat (Q4 9 9 9 9)].
Definition e_sd : list erow :=
  [mkerow 9 (Q4 5 5 5 5)%nat (Q4 0 0 0 0)%nat (Q4 9 9 9 9); mkerow 10 (Q4 6 6 6 6)%nat (Q4 1 1 1 1)%nat (Q4 9 9 9 9)].
Definition pick (row : nat -> R) : nat := if Rlt_dec 0 (row 0%nat) then 0%nat else 1%nat.
Definition e_rng : drng :=
  mkdrng (fun _ _ row n => repeat (pick row) n) (fun _ row n => repeat (pick row) n)
         (fun _ => Q4 0 0 0 0) (fun _ => Q4 0 0 0 0).
Definition e_cluster (j : nat) : nat := if Nat.eqb j 5 then 1%nat else 0%nat.

Lemma pick_ok row : prob_row 2 row -> (pick row < 2)%nat /\ 0 < row (pick row).
Proof.
  intros [H E]. unfold sumn, rsum in E. simpl in E. unfold pick.
  destruct (Rlt_dec 0 (row 0%nat)) as [L|L]; [split; [lia|exact L]|split; [lia|]].
  pose proof (H 0%nat ltac:(lia)). lra.
Qed.
Lemma e_choices : dchoices_ok 2 e_rng.
Proof.
  split; intros; simpl; (split; [apply repeat_length|]); apply Forall_forall;
    intros l Hl; apply repeat_spec in Hl; subst l; apply pick_ok; assumption.
Qed.
Lemma e_rows : Forall mover_row e_jd /\ Forall stayer_row e_sd.
Proof. split; repeat constructor; eexists; try eexists; reflexivity. Qed.

Lemma dboot_case : exists fr ms,
  dboot_fit 2 2 None (fun _ _ _ => Ok e_par) (fun _ _ _ => Ok e_cluster) (fun _ => e_rng) None 3 e_jd e_sd = (fr, Ok ms) /\
  Forall mover_row e_jd /\ Forall stayer_row e_sd /\ dchoices_ok 2 e_rng /\
  (forall l k, 0 <= dS e_par T2s l k) /\
  (forall k, prob_row 2 (dpk1 e_par k) /\ prob_row 2 (dpk0 e_par k)).
Proof.
  eexists. eexists. split; [reflexivity|]. split; [apply e_rows|]. split; [apply e_rows|].
  split; [apply e_choices|]. split; [intros; simpl; lra|].
  intros k. unfold prob_row, sumn, rsum. simpl. repeat split; intros; lra.
Qed.
Lemma dvd_case : exists fr ms,
  dvd_fit 2 2 (Some (true, RAll)) (fun _ _ _ => Ok e_par) (fun _ => e_rng) (fun _ _ _ => Ok [1]) true true (Some e_par) 2
    e_jd e_sd = (fr, Ok ms) /\
  exists q1 q0, dtype_shares 2 2 (Some (true, RAll)) e_par q1 q0 /\
    forall k, prob_row 2 (q1 k) /\ prob_row 2 (q0 k).
Proof.
  eexists. eexists. split; [reflexivity|]. eexists. eexists. split; [reflexivity|].
  intros k. unfold prob_row. cbn.
  unfold sumn, pk1_period1, pk1_period2, joint, row_sums, col_sums, pr, reshape3, sumn. cbn.
  split; split; intros; lra.
Qed.

(* An exception leaves the simulated wages and the types of the clustering. *)
Lemma dboot_error : exists fr,
  dboot_fit 2 2 None (fun t _ _ => match t with 0%nat => Ok e_par | _ => Err LinAlgError end) (fun _ _ _ => Ok e_cluster)
    (fun _ => e_rng) None 1 e_jd e_sd = (fr, Err LinAlgError) /\
  ewages (fst fr) <> ewages e_jd /\ firm_types (fst fr) <> firm_types e_jd.
Proof.
  eexists. split; [reflexivity|]. split.
  - intros H. apply (f_equal (fun l => at2 (nth 0 l (Q4 0 0 0 0)))) in H.
    cbn in H. unfold pick in H. destruct (Rlt_dec _ _); simpl in H; lra.
  - cbn. discriminate.
Qed.
Lemma dvd_error : exists fr,
  dvd_fit 2 2 None (fun _ _ _ => Ok e_par) (fun _ => e_rng) (fun _ _ _ => Err LinAlgError) true true (Some e_par) 1
    e_jd e_sd = (fr, Err LinAlgError) /\
  ewages (fst fr) <> ewages e_jd /\ firm_ids (fst fr) <> firm_ids e_jd /\ worker_ids (fst fr) <> worker_ids e_jd.
Proof.
  eexists. split; [reflexivity|]. split.
  - intros H. apply (f_equal (fun l => at2 (nth 0 l (Q4 0 0 0 0)))) in H.
    cbn in H. unfold pick in H. destruct (Rlt_dec _ _); simpl in H; lra.
  - cbn. split; [discriminate|]. unfold pick. destruct (Rlt_dec _ _); discriminate.
Qed.

Lemma dsimulate_unbound nl nk p per g gj gs : per = RSecond \/ per = RAll ->
  dsimulate nl nk p (Some (false, per)) g gj gs = Err UnboundLocalError.
Proof. intros H. unfold dsimulate. rewrite reallocate_unbound by exact H. reflexivity. Qed.

Lemma dvd_no_samples nl nk realloc estimator gen fe p jd sd :
  dvd_fit nl nk realloc estimator gen fe false false (Some p) 0 jd sd =
    ((map2 set_y (map e_y jd) jd, map2 set_y (map e_y sd) sd), Err IndexError).
Proof. reflexivity. Qed.

(* The stayers of e_sd come back at other firms. *)
Lemma dvd_not_restored nl nk realloc estimator gen fe ty bm n jd sd fr ms :
  dvd_fit nl nk realloc estimator gen fe true ty bm n jd sd = (fr, Ok ms) ->
  map (fun f => at1 (e_j f)) (snd fr) = map (fun f => at1 (e_g f)) sd /\
  (Exists (fun f => at1 (e_j f) <> at1 (e_g f)) sd -> snd fr <> sd).
Proof.
  intros E. destruct (dvd_fit_inv _ _ _ _ _ _ _ _ _ _ _ _ _ _ E) as (-> & _).
  cbn [snd]. split; [rewrite map_map; reflexivity|].
  clear E. intros X H. induction X as [f S0 N|f S0 X IH]; simpl in H; injection H as H1 H2.
  - apply N. rewrite <- H1 at 1. reflexivity.
  - auto.
Qed.

Lemma dvd_left nl nk realloc gen estimator fe cl ty bm n jd sd fr ms :
  dvd_fit nl nk realloc estimator gen fe cl ty bm n jd sd = (fr, Ok ms) ->
  fst fr = jd /\ (cl = false -> snd fr = sd) /\ length ms = n /\ (0 < n)%nat.
Proof.
  intros E. destruct (dvd_fit_inv _ _ _ _ _ _ _ _ _ _ _ _ _ _ E) as (-> & L & P & _).
  repeat split; auto. intros ->. reflexivity.
Qed.
