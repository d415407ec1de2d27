(* The data simulated from the dynamic model: proofs of the properties. *)
From Coq Require Import Permutation Sorted.
From Verif Require Import Base BaseLemmas UtilModel UtilSpec UtilQuantLemmas BLMModel BLMSpec SimModel SimSpec SimLemmas
  SimPropLemmas BLMRealModel DBLMModel DBLMSpec DBootModel DBootSpec DBootLemmas SimDModel SimDSpec SimDLemmas.
Local Open Scope R_scope.

(* ---- loops ---- *)
Lemma over_ok ps f a : over_periods ps f = Ok a -> forall p, In p ps -> f p = Ok (a p).
Proof.
  unfold over_periods. destruct (traverse _ ps) as [l|] eqn:E; [|discriminate]. cbn [bind]. intros [= <-].
  revert l E. induction ps as [|p0 ps IH]; intros l E p Hp; [destruct Hp|].
  cbn [traverse] in E. destruct (f p0) as [x|] eqn:Ex; [|discriminate]. cbn [bind] in E.
  destruct (traverse _ ps) as [l'|] eqn:E'; [|discriminate]. cbn [bind] in E. injection E as <-.
  unfold lookup. cbn [find fst]. destruct (dper_eqb p0 p) eqn:Eq.
  - apply dper_eqb_eq in Eq. subst p0. exact Ex.
  - destruct Hp as [->|Hp]; [|exact (IH l' eq_refl p Hp)].
    assert (dper_eqb p p = true) by now apply dper_eqb_eq. congruence.
Qed.

Lemma for_sum {C K V : Type} (Rel : C -> K -> Prop) (F : C -> V -> R) (g : nat -> V) (body : nat * K -> R -> res R) :
  (forall c k i a b, Rel c k -> body (i, k) a = Ok b -> b = a + F c (g i)) ->
  forall cs ks, Forall2 Rel cs ks -> forall s a b,
    for_each (combine (seq s (length ks)) ks) body a = Ok b ->
    b = a + rsum (map (fun cv => F (fst cv) (snd cv)) (combine cs (map g (seq s (length cs))))).
Proof.
  intros H cs ks H2. induction H2 as [|c k cs ks R H2 IH]; intros s a b E.
  - cbn in E. injection E as <-. cbn. ring.
  - cbn [length seq combine for_each] in E. destruct (body (s, k) a) as [a'|] eqn:Eb; [|discriminate].
    cbn [bind] in E. apply IH in E. cbn [length seq map combine rsum fst snd].
    rewrite (H c k s a a' R Eb) in E. rewrite E. ring.
Qed.

Lemma wages_row q ps y A S cats ctss rows z code x ys :
  wages q ps y A S cats ctss rows z code x = Ok ys ->
  length ys = length rows /\
  forall r s, nth_error rows r = Some s -> exists a v,
    (forall p, In p ps -> A_sum (length rows) A cats ctss p r (s_l s) (type_in s p)
       (fun c => code c (second p) r) (fun c => x c (second p) r) = Ok (a p)) /\
    (forall p, In p ps -> S_sum_sq (length rows) S cats ctss p r (s_l s) (type_in s p)
       (fun c => code c (second p) r) = Ok (v p)) /\
    nth r ys (Q4 0 0 0 0) = y q a v (z r).
Proof.
  intros E. apply traverse_nth in E. destruct E as [L E]. rewrite length_enumerate in L. split; [exact L|].
  intros r s Hr. destruct (E r (r, s)) as (w & Hw & Ew).
  { now rewrite nth_error_enumerate, Hr. }
  destruct (over_periods ps _) as [a|] eqn:Ea in Ew; [|discriminate]. cbn [bind] in Ew.
  destruct (over_periods ps _) as [v|] eqn:Ev in Ew; [|discriminate]. cbn [bind] in Ew. injection Ew as <-.
  exists a, v. split; [exact (over_ok _ _ _ Ea)|]. split; [exact (over_ok _ _ _ Ev)|].
  now apply nth_error_nth.
Qed.

(* ---- entries ---- *)
Lemma idx2_entry a l k v : idx2 a l k = Ok v -> v = entry a l k.
Proof. destruct a; try discriminate. cbn. destruct (_ && _); [|discriminate]. now intros [= <-]. Qed.
Lemma idx1_entry a k v : idx1 a k = Ok v -> forall l, v = entry a l k.
Proof.
  destruct a; cbn; [discriminate| |];
    match goal with |- (if ?b then _ else _) = _ -> _ => destruct b end; try discriminate; now intros [= <-].
Qed.
Lemma idx1_not2 a k : is2 a -> exists e, idx1 a k = Err e.
Proof. intros (r & c & f & ->). unfold idx1. destruct (k <? r)%nat; eexists; reflexivity. Qed.

Definition brow (p : dper) (l : nat) : nat := if is_b p then 0%nat else l.
Lemma base_entry d p l k v : base d p l k = Ok v -> v = entry (get d p) (brow p l) k.
Proof.
  unfold base, brow. destruct (is_b p); intros E; [now apply idx1_entry|now apply idx2_entry].
Qed.

(* ---- control variables ---- *)
Section Controls.
Variables (nl : nat) (o : opts).
Definition cat_rel (c : catspec) (k : ctrl) : Prop :=
  gen_cat nl o c = Ok (c_A k, c_S k) /\ c_int k = cat_int c.
Definition cts_rel (c : ctsspec) (k : ctrl) : Prop :=
  gen_cts nl o c = Ok (c_A k, c_S k) /\ c_int k = cts_int c.

Lemma cats_rel cats cc :
  traverse (fun c => bind (gen_cat nl o c) (fun '(A, Sg) => Ok (mkctrl (cat_int c) A Sg))) cats = Ok cc ->
  Forall2 cat_rel cats cc.
Proof.
  revert cc. induction cats as [|c cats IH]; intros cc E; cbn [traverse] in E; [injection E as <-; constructor|].
  destruct (gen_cat nl o c) as [[A Sg]|] eqn:G; [|discriminate]. cbn [bind] in E.
  destruct (traverse _ cats) as [cc'|] eqn:E'; [|discriminate]. cbn [bind] in E. injection E as <-.
  constructor; [|now apply IH]. split; [exact G|reflexivity].
Qed.
Lemma ctss_rel ctss ct :
  traverse (fun c => bind (gen_cts nl o c) (fun '(A, Sg) => Ok (mkctrl (cts_int c) A Sg))) ctss = Ok ct ->
  Forall2 cts_rel ctss ct.
Proof.
  revert ct. induction ctss as [|c ctss IH]; intros ct E; cbn [traverse] in E; [injection E as <-; constructor|].
  destruct (gen_cts nl o c) as [[A Sg]|] eqn:G; [|discriminate]. cbn [bind] in E.
  destruct (traverse _ ctss) as [ct'|] eqn:E'; [|discriminate]. cbn [bind] in E. injection E as <-.
  constructor; [|now apply IH]. split; [exact G|reflexivity].
Qed.

Lemma off_pa p : is_b p = false -> off o p = false.
Proof. now destruct p as [[]|[]]. Qed.

Lemma cat_term_effect c k f a p l code v : c_int k = cat_int c ->
  a = (if off o p then zeroed (cat_arr nl c f p) else cat_arr nl c f p) ->
  cat_term k a p l code = Ok v -> v = cat_effect o (cat_int c) f p l code.
Proof.
  intros I -> E. unfold cat_term, interacted, cat_effect, cat_arr in *. rewrite I in E.
  destruct (cat_int c && negb (is_b p)) eqn:B.
  - apply Bool.andb_true_iff in B. destruct B as [_ B]. apply Bool.negb_true_iff in B. rewrite (off_pa p B) in *.
    now apply idx2_entry in E.
  - destruct (off o p); cbn [zeroed idx1] in E; destruct (code <? cat_n c)%nat; try discriminate; now injection E as <-.
Qed.
Lemma cts_term_effect rows c k f a p r l v : c_int k = cts_int c ->
  a = (if off o p then Num 0 else cts_arr nl c f p) ->
  cts_term rows k a p r l = Ok v -> v = cts_effect o (cts_int c) f p l.
Proof.
  intros I -> E. unfold cts_term, interacted, cts_effect, cts_arr in *. rewrite I in E.
  destruct (cts_int c && negb (is_b p)) eqn:B.
  - apply Bool.andb_true_iff in B. destruct B as [_ B]. apply Bool.negb_true_iff in B. rewrite (off_pa p B) in *.
    now apply (idx1_entry _ _ _ E 0%nat).
  - destruct (off o p); cbn [spread Nat.eqb] in E; now injection E as <-.
Qed.

Variables (cats : list catspec) (ctss : list ctsspec) (cc ct : list ctrl).
Hypothesis Hcc : Forall2 cat_rel cats cc.
Hypothesis Hct : Forall2 cts_rel ctss ct.
Hypothesis Scc : Forall (fun c => stationary (cat_stat c) = false) cats.
Hypothesis Sct : Forall (fun c => stationary (cts_stat c) = false) ctss.

Lemma F2_and {A B} (P : A -> Prop) (Q : A -> B -> Prop) l m :
  Forall2 Q l m -> Forall P l -> Forall2 (fun a b => Q a b /\ P a) l m.
Proof.
  intros H. induction H; intros F; [constructor|]. inversion F; subst. constructor; [split; assumption|].
  now apply IHForall2.
Qed.

Variables (rows r : nat) (code : nat -> bool -> nat -> nat) (x : nat -> bool -> nat -> R).

Lemma in_jobs_job {A} p (f : bool -> A) : in_job p (in_jobs f) = f (second p).
Proof. unfold in_job, in_jobs. now destruct (second p). Qed.

Lemma A_sum_value A p l k v row :
  d_l row = l -> d_cat row = map (fun c => in_jobs (fun b => code c b r)) (range (length cc)) ->
  d_cts row = map (fun c => in_jobs (fun b => x c b r)) (range (length ct)) ->
  A_sum rows A cc ct p r l k (fun c => code c (second p) r) (fun c => x c (second p) r) = Ok v ->
  v = entry (get A p) (brow p l) k + ctrl_mean o cats ctss row p.
Proof.
  intros <- Dc Dx E. unfold A_sum in E. destruct (base A p (d_l row) k) as [a|] eqn:B; [|discriminate]. cbn [bind] in E.
  apply base_entry in B. destruct (for_each (enumerate cc) _ a) as [a'|] eqn:E1; [|discriminate]. cbn [bind] in E.
  unfold enumerate in E1, E.
  eapply (for_sum (fun c k => cat_rel c k /\ stationary (cat_stat c) = false)
            (fun c v => cat_effect o (cat_int c) (cat_A c) p (d_l row) (in_job p v))
            (fun i => in_jobs (fun b => code i b r))) in E1; [| |exact (F2_and _ _ _ _ Hcc Scc)].
  2:{ intros c k0 i a0 b0 [[G I] Sc] E0. cbn [fst snd] in E0.
      destruct (cat_term _ _ _ _ _) as [v0|] eqn:T; [|discriminate]. cbn [bind] in E0. injection E0 as <-.
      apply (cat_term_effect c k0 (cat_A c)) in T; [|exact I|exact (proj1 (gen_cat_plain _ _ _ _ _ Sc G p))].
      now rewrite T, in_jobs_job. }
  eapply (for_sum (fun c k => cts_rel c k /\ stationary (cts_stat c) = false)
            (fun c v => cts_effect o (cts_int c) (cts_A c) p (d_l row) * in_job p v)
            (fun i => in_jobs (fun b => x i b r))) in E; [| |exact (F2_and _ _ _ _ Hct Sct)].
  2:{ intros c k0 i a0 b0 [[G I] Sc] E0. cbn [fst snd] in E0.
      destruct (cts_term _ _ _ _ _ _) as [v0|] eqn:T; [|discriminate]. cbn [bind] in E0. injection E0 as <-.
      apply (cts_term_effect _ c k0 (cts_A c)) in T; [|exact I|exact (proj1 (gen_cts_plain _ _ _ _ _ Sc G p))].
      now rewrite T, in_jobs_job. }
  rewrite E, E1, B. unfold ctrl_mean, sum_over. rewrite Dc, Dx, (Forall2_length _ _ _ Hcc), (Forall2_length _ _ _ Hct).
  unfold range. ring.
Qed.

Lemma S_sum_value S p l k v row :
  d_l row = l -> d_cat row = map (fun c => in_jobs (fun b => code c b r)) (range (length cc)) ->
  d_cts row = map (fun c => in_jobs (fun b => x c b r)) (range (length ct)) ->
  S_sum_sq rows S cc ct p r l k (fun c => code c (second p) r) = Ok v ->
  v = entry (get S p) (brow p l) k ^ 2 + ctrl_sds o cats ctss row p.
Proof.
  intros <- Dc Dx E. unfold S_sum_sq in E. destruct (base S p (d_l row) k) as [a|] eqn:B; [|discriminate]. cbn [bind] in E.
  apply base_entry in B. destruct (for_each (enumerate cc) _ _) as [a'|] eqn:E1; [|discriminate]. cbn [bind] in E.
  unfold enumerate in E1, E.
  eapply (for_sum (fun c k => cat_rel c k /\ stationary (cat_stat c) = false)
            (fun c v => cat_effect o (cat_int c) (cat_S c) p (d_l row) (in_job p v))
            (fun i => in_jobs (fun b => code i b r))) in E1; [| |exact (F2_and _ _ _ _ Hcc Scc)].
  2:{ intros c k0 i a0 b0 [[G I] Sc] E0. cbn [fst snd] in E0.
      destruct (cat_term _ _ _ _ _) as [v0|] eqn:T; [|discriminate]. cbn [bind] in E0. injection E0 as <-.
      apply (cat_term_effect c k0 (cat_S c)) in T; [|exact I|exact (proj2 (gen_cat_plain _ _ _ _ _ Sc G p))].
      now rewrite T, in_jobs_job. }
  eapply (for_sum (fun c k => cts_rel c k /\ stationary (cts_stat c) = false)
            (fun c v => cts_effect o (cts_int c) (cts_S c) p (d_l row))
            (fun i => in_jobs (fun b => x i b r))) in E; [| |exact (F2_and _ _ _ _ Hct Sct)].
  2:{ intros c k0 i a0 b0 [[G I] Sc] E0. cbn [fst snd] in E0.
      destruct (cts_term _ _ _ _ _ _) as [v0|] eqn:T; [|discriminate]. cbn [bind] in E0. injection E0 as <-.
      apply (cts_term_effect _ c k0 (cts_S c)) in T; [|exact I|exact (proj2 (gen_cts_plain _ _ _ _ _ Sc G p))].
      now rewrite T. }
  rewrite E, E1, B. unfold ctrl_sds, sum_over. rewrite Dc, Dx, (Forall2_length _ _ _ Hcc), (Forall2_length _ _ _ Hct).
  unfold range. ring.
Qed.
End Controls.

(* ---- sums of standard deviations and of variances ---- *)
Lemma rsum_le_map {A} (F G : A -> R) l : (forall a, In a l -> F a <= G a) -> rsum (map F l) <= rsum (map G l).
Proof.
  induction l as [|a l IH]; intros H; cbn [map rsum]; [lra|].
  assert (F a <= G a) by (apply H; now left). assert (rsum (map F l) <= rsum (map G l)) by (apply IH; intros; apply H; now right). lra.
Qed.
Lemma rsum_lt_map {A} (F G : A -> R) l : l <> [] -> (forall a, In a l -> F a < G a) -> rsum (map F l) < rsum (map G l).
Proof.
  destruct l as [|a l]; [congruence|]. intros _ H. cbn [map rsum].
  assert (F a < G a) by (apply H; now left).
  assert (rsum (map F l) <= rsum (map G l)) by (apply rsum_le_map; intros; left; apply H; now right). lra.
Qed.
Lemma rsum_nonneg_map {A} (F : A -> R) l : (forall a, In a l -> 0 <= F a) -> 0 <= rsum (map F l).
Proof.
  induction l as [|a l IH]; intros H; cbn [map rsum]; [lra|].
  assert (0 <= F a) by (apply H; now left). assert (0 <= rsum (map F l)) by (apply IH; intros; apply H; now right). lra.
Qed.
Lemma in_combine_F {A B} (P : A -> Prop) l (m : list B) a b : Forall P l -> In (a, b) (combine l m) -> P a.
Proof. intros F H. apply in_combine_l in H. now apply (proj1 (Forall_forall _ _) F). Qed.

Lemma effect_cases o i f p l c : cat_effect o i f p l c = 0 \/ exists l', cat_effect o i f p l c = f p l' c.
Proof. unfold cat_effect. destruct (off o p); eauto. Qed.
Lemma effect_cases' o i f p l : cts_effect o i f p l = 0 \/ exists l', cts_effect o i f p l = f p l'.
Proof. unfold cts_effect. destruct (off o p); eauto. Qed.

Lemma sds_nonneg o cats ctss row p : sds (fun s => 0 <= s) cats ctss -> 0 <= ctrl_sds o cats ctss row p.
Proof.
  intros [H1 H2]. unfold ctrl_sds, sum_over. apply Rplus_le_le_0_compat; apply rsum_nonneg_map; intros [c v] Hc; cbn [fst snd].
  - apply in_combine_F with (P := fun c => forall p l k, 0 <= cat_S c p l k) in Hc; [|exact H1].
    destruct (effect_cases o (cat_int c) (cat_S c) p (d_l row) (in_job p v)) as [->|(l' & ->)]; [lra|apply Hc].
  - apply in_combine_F with (P := fun c => forall p l, 0 <= cts_S c p l) in Hc; [|exact H2].
    destruct (effect_cases' o (cts_int c) (cts_S c) p (d_l row)) as [->|(l' & ->)]; [lra|apply Hc].
Qed.
Lemma var_nonneg o cats ctss row p : 0 <= ctrl_var o cats ctss row p.
Proof.
  unfold ctrl_var, sum_over. apply Rplus_le_le_0_compat; apply rsum_nonneg_map; intros [c v] Hc; apply pow2_ge_0.
Qed.
Lemma sq_le s : 0 < s < 1 \/ s = 0 -> s ^ 2 <= s.
Proof. intros [H| ->]; nra. Qed.
Lemma sds_le o cats ctss row p : sds (fun s => 0 < s < 1) cats ctss ->
  ctrl_var o cats ctss row p <= ctrl_sds o cats ctss row p.
Proof.
  intros [H1 H2]. unfold ctrl_sds, ctrl_var, sum_over.
  apply Rplus_le_compat; apply rsum_le_map; intros [c v] Hc; cbn [fst snd]; apply sq_le.
  - apply in_combine_F with (P := fun c => forall p l k, 0 < cat_S c p l k < 1) in Hc; [|exact H1].
    destruct (effect_cases o (cat_int c) (cat_S c) p (d_l row) (in_job p v)) as [->|(l' & ->)]; [now right|left; apply Hc].
  - apply in_combine_F with (P := fun c => forall p l, 0 < cts_S c p l < 1) in Hc; [|exact H2].
    destruct (effect_cases' o (cts_int c) (cts_S c) p (d_l row)) as [->|(l' & ->)]; [now right|left; apply Hc].
Qed.
Lemma sds_lt o cats ctss row t : sds (fun s => 0 < s < 1) cats ctss -> cats <> [] \/ ctss <> [] ->
  length (d_cat row) = length cats -> length (d_cts row) = length ctss ->
  ctrl_var o cats ctss row (PA t) < ctrl_sds o cats ctss row (PA t).
Proof.
  intros [H1 H2] N L1 L2. unfold ctrl_sds, ctrl_var, sum_over.
  assert (sq_lt : forall s, 0 < s < 1 -> s ^ 2 < s) by (intros; nra).
  assert (Q1 : forall cv, In cv (combine cats (d_cat row)) ->
     cat_effect o (cat_int (fst cv)) (cat_S (fst cv)) (PA t) (d_l row) (in_job (PA t) (snd cv)) ^ 2
     < cat_effect o (cat_int (fst cv)) (cat_S (fst cv)) (PA t) (d_l row) (in_job (PA t) (snd cv))).
  { intros [c v] Hc. cbn [fst snd]. apply sq_lt.
    apply in_combine_F with (P := fun c => forall p l k, 0 < cat_S c p l k < 1) in Hc; [|exact H1].
    unfold cat_effect. cbn [off]. apply Hc. }
  assert (Q2 : forall cv, In cv (combine ctss (d_cts row)) ->
     cts_effect o (cts_int (fst cv)) (cts_S (fst cv)) (PA t) (d_l row) ^ 2
     < cts_effect o (cts_int (fst cv)) (cts_S (fst cv)) (PA t) (d_l row)).
  { intros [c v] Hc. cbn [fst snd]. apply sq_lt.
    apply in_combine_F with (P := fun c => forall p l, 0 < cts_S c p l < 1) in Hc; [|exact H2].
    unfold cts_effect. cbn [off]. apply Hc. }
  destruct N as [N|N].
  - apply Rplus_lt_le_compat; [apply rsum_lt_map; [|exact Q1]|apply rsum_le_map; intros; left; now apply Q2].
    destruct cats, (d_cat row); cbn in *; congruence.
  - apply Rplus_le_lt_compat; [apply rsum_le_map; intros; left; now apply Q1|apply rsum_lt_map; [|exact Q2]].
    destruct ctss, (d_cts row); cbn in *; congruence.
Qed.

(* ---- wages ---- *)
Definition rhos_of (p : dpar) (q : rhos) : Prop :=
  R12 p = r12 q /\ R43 p = r43 q /\ R32m p = r32m q /\ R32s p = r32s q.
Lemma mover_y_wages p q a v l k1 k2 z : rhos_of p q ->
  a (PA T12) = dA p T12 l k1 -> a (PA T43) = dA p T43 l k2 -> a (PA T2ma) = dA p T2ma l k1 ->
  a (PA T3ma) = dA p T3ma l k2 -> a (PB T2mb) = dAb p T2mb k2 -> a (PB T3mb) = dAb p T3mb k1 ->
  v (PA T12) = dS p T12 l k1 ^ 2 -> v (PA T43) = dS p T43 l k2 ^ 2 -> v (PA T2ma) = dS p T2ma l k1 ^ 2 ->
  v (PA T3ma) = dS p T3ma l k2 ^ 2 -> v (PB T2mb) = dSb p T2mb k2 ^ 2 -> v (PB T3mb) = dSb p T3mb k1 ^ 2 ->
  mover_y q a v z = mover_wages p l k1 k2 z.
Proof.
  intros (Q1 & Q2 & Q3 & _) ? ? ? ? ? ? ? ? ? ? ? ?. unfold mover_y, mover_wages. rewrite Q1, Q2, Q3. congruence.
Qed.
Lemma stayer_y_wages p q a v l k z : rhos_of p q ->
  a (PA T12) = dA p T12 l k -> a (PA T43) = dA p T43 l k -> a (PA T2ma) = dA p T2ma l k ->
  a (PA T3ma) = dA p T3ma l k -> a (PA T2s) = dA p T2s l k -> a (PA T3s) = dA p T3s l k ->
  v (PA T12) = dS p T12 l k ^ 2 -> v (PA T43) = dS p T43 l k ^ 2 -> v (PA T2ma) = dS p T2ma l k ^ 2 ->
  v (PA T3ma) = dS p T3ma l k ^ 2 -> v (PA T2s) = dS p T2s l k ^ 2 -> v (PA T3s) = dS p T3s l k ^ 2 ->
  stayer_y q a v z = stayer_wages p l k z.
Proof.
  intros (Q1 & Q2 & _ & Q4) ? ? ? ? ? ? ? ? ? ? ? ?. unfold stayer_y, stayer_wages. rewrite Q1, Q2, Q4. congruence.
Qed.
