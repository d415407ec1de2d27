(* Example data for SorkinProps.v and the two refutations. *)
From Coq Require Import Relations.
From Verif Require Import Base BaseLemmas SorkinModel SorkinSpec SorkinLemmas.
Local Open Scope R_scope.

Lemma fit_exact rows nf n V : firms_ok rows nf -> fit rows n 0 = Ok V -> fit rows (S n) 0 = Ok V ->
  exists v, V = log_values nf v /\ positive nf v /\ sumn nf v = 1 /\ flow_equations rows nf v.
Proof.
  intros OK H H'. destruct (fit_balanced rows nf OK n 0 V ltac:(lra) H H') as (v & E & P & S & B).
  exists v. repeat split; auto. now apply balanced_0.
Qed.

Lemma fit_no_iterations rows nf th : firms_ok rows nf -> fit rows 0 th = Err UnboundLocalError.
Proof. intro OK. rewrite (fit_eq rows nf OK). reflexivity. Qed.

(* A firm that movers only join gets more rows than columns; one they only leave
   fewer. *)
Lemma fit_only_joined rows r n th : In r rows -> mv_m r = true ->
  (forall r', In r' rows -> mv_m r' = true -> (mv_from r' < mv_to r)%nat) ->
  fit rows n th = Err IndexError.
Proof.
  intros I M B. unfold fit.
  assert (H : In r (mover_rows rows)) by (apply in_mover_rows; auto).
  assert (L : (n_cols rows < n_rows rows)%nat).
  { apply Nat.le_lt_trans with (mv_to r).
    - apply bound_le. intros i Hi. apply in_map_iff in Hi. destruct Hi as (r' & <- & Hr).
      apply in_mover_rows in Hr. now apply B.
    - apply bound_gt, in_map, H. }
  destruct (mover_rows rows); [destruct H|].
  cbv zeta. rewrite (proj2 (Nat.ltb_lt _ _) L). reflexivity.
Qed.

Lemma fit_only_left rows r n th : In r rows -> mv_m r = true -> (1 <= n)%nat ->
  (forall r', In r' rows -> mv_m r' = true -> (mv_to r' < mv_from r)%nat) ->
  fit rows n th = Err ValueError.
Proof.
  intros I M N B. unfold fit.
  assert (H : In r (mover_rows rows)) by (apply in_mover_rows; auto).
  assert (L : (n_rows rows < n_cols rows)%nat).
  { apply Nat.le_lt_trans with (mv_from r).
    - apply bound_le. intros i Hi. apply in_map_iff in Hi. destruct Hi as (r' & <- & Hr).
      apply in_mover_rows in Hr. now apply B.
    - apply bound_gt, in_map, H. }
  destruct (mover_rows rows); [destruct H|].
  cbv zeta. destruct (n_cols rows <? n_rows rows)%nat eqn:E; [apply Nat.ltb_lt in E; lia|].
  rewrite (proj2 (Nat.ltb_lt _ _) L). destruct n; [lia|reflexivity].
Qed.

(* ------------------------------------------------------------------ *)
(* Two firms; two movers from 0 to 1, one back. *)
Definition seesaw : list move := [mkmove true 0 1; mkmove true 1 0; mkmove true 0 1; mkmove false 1 1].

Lemma seesaw_ok : firms_ok seesaw 2.
Proof.
  split; [lia|]. split; [|split].
  - intros r I M. cbn in I. intuition (subst; cbn; try lia; discriminate).
  - intros k L. destruct k as [|[|k]]; [| |lia].
    + exists (mkmove true 0 1). cbn; auto.
    + exists (mkmove true 1 0). cbn; auto.
  - intros k L. destruct k as [|[|k]]; [| |lia].
    + exists (mkmove true 1 0). cbn; auto.
    + exists (mkmove true 0 1). cbn; auto.
Qed.

Lemma seesaw_connected : strongly_connected seesaw 2.
Proof.
  intros j k Lj Lk.
  assert (A : goes seesaw 0 1) by (exists (mkmove true 0 1); cbn; auto).
  assert (B : goes seesaw 1 0) by (exists (mkmove true 1 0); cbn; auto).
  destruct j as [|[|j]]; [| |lia]; destruct k as [|[|k]]; try lia; first [apply rt_refl|now apply rt_step].
Qed.

Lemma sumn_2 f : sumn 2 f = f 0%nat + f 1%nat.
Proof. rewrite !sumn_S, sumn_0. lra. Qed.

Lemma seesaw_flow v : flow_equations seesaw 2 v <-> v 1%nat = 2 * v 0%nat.
Proof.
  unfold flow_equations, inflow, outflow. split.
  - intro H. specialize (H 0%nat ltac:(lia)). rewrite !sumn_2 in H. cbn in H. lra.
  - intros E k L. destruct k as [|[|k]]; [| |lia]; rewrite !sumn_2; cbn; lra.
Qed.

Lemma seesaw_in v k : (k < 2)%nat ->
  inflow seesaw 2 v k = (if (k =? 0)%nat then v 1%nat else 2 * v 0%nat) /\
  out seesaw 2 k = (if (k =? 0)%nat then 2 else 1).
Proof.
  intro L. unfold inflow, out. rewrite !sumn_2. destruct k as [|[|k]]; [| |lia]; cbn; split; lra.
Qed.

Lemma seesaw_next v : positive 2 v ->
  next_guess seesaw 2 v 0%nat = v 1%nat / (v 1%nat + 4 * v 0%nat) /\
  next_guess seesaw 2 v 1%nat = 4 * v 0%nat / (v 1%nat + 4 * v 0%nat).
Proof.
  intro P. assert (A := P 0%nat ltac:(lia)). assert (B := P 1%nat ltac:(lia)).
  rewrite !(next_eq seesaw 2 seesaw_ok) by (try assumption; lia).
  unfold scale. rewrite sumn_2.
  destruct (seesaw_in v 0 ltac:(lia)) as [-> ->]. destruct (seesaw_in v 1 ltac:(lia)) as [-> ->].
  cbn [Nat.eqb]. split; field; lra.
Qed.

Definition half_half (v : nat -> R) : Prop := v 0%nat = 1 / 2 /\ v 1%nat = 1 / 2.
Definition one_four (v : nat -> R) : Prop := v 0%nat = 1 / 5 /\ v 1%nat = 4 / 5.

Lemma pos_half v : half_half v -> positive 2 v.
Proof. intros [A B] k L. destruct k as [|[|k]]; [| |lia]; lra. Qed.
Lemma pos_four v : one_four v -> positive 2 v.
Proof. intros [A B] k L. destruct k as [|[|k]]; [| |lia]; lra. Qed.

Lemma half_four v : half_half v -> one_four (next_guess seesaw 2 v).
Proof.
  intro H. destruct (seesaw_next v (pos_half v H)) as [E F]. destruct H as [A B].
  rewrite A, B in E, F. split; [rewrite E|rewrite F]; field.
Qed.
Lemma four_half v : one_four v -> half_half (next_guess seesaw 2 v).
Proof.
  intro H. destruct (seesaw_next v (pos_four v H)) as [E F]. destruct H as [A B].
  rewrite A, B in E, F. split; [rewrite E|rewrite F]; field.
Qed.

Lemma big_change th g v : th < 3 / 5 ->
  (half_half v /\ one_four g) \/ (one_four v /\ half_half g) -> small_change 2 th g v = false.
Proof.
  intros T H. destruct (small_change 2 th g v) eqn:E; [|reflexivity]. exfalso.
  assert (E0 := proj1 (small_spec 2 th g v) E 0%nat ltac:(lia)). destruct E0 as [_ E0].
  destruct H as [[[A B] [C D]]|[[A B] [C D]]]; rewrite A, C in E0.
  - replace ((1 / 5 - 1 / 2) / (1 / 2)) with (- (3 / 5)) in E0 by field.
    rewrite Rabs_Ropp, Rabs_right in E0 by lra. lra.
  - replace ((1 / 2 - 1 / 5) / (1 / 5)) with (3 / 2) in E0 by field.
    rewrite Rabs_right in E0 by lra. lra.
Qed.

Lemma seesaw_iterate n th new v : th < 3 / 5 ->
  (half_half v -> (new = None \/ new = Some v) -> (new <> None \/ (0 < n)%nat) ->
     exists g, iterate n seesaw 2 th new v = Ok g /\ if Nat.even n then half_half g else one_four g)
  /\ (one_four v -> new = Some v ->
     exists g, iterate n seesaw 2 th new v = Ok g /\ if Nat.even n then one_four g else half_half g).
Proof.
  intro T. revert new v. induction n as [|n IH]; intros new v; split.
  - intros H [->| ->] N; [destruct N; [congruence|lia]|]. exists v. split; [reflexivity|exact H].
  - intros H ->. exists v. split; [reflexivity|exact H].
  - intros H _ _. assert (G := half_four v H). cbn [iterate]. cbv zeta.
    rewrite big_change by (auto).
    destruct (proj2 (IH (Some (next_guess seesaw 2 v)) (next_guess seesaw 2 v)) G eq_refl) as (g & E & R).
    exists g. split; [exact E|]. rewrite Nat.even_succ, <- Nat.negb_even. now destruct (Nat.even n).
  - intros H _. assert (G := four_half v H). cbn [iterate]. cbv zeta.
    rewrite big_change by (auto).
    destruct (proj1 (IH (Some (next_guess seesaw 2 v)) (next_guess seesaw 2 v)) G) as (g & E & R);
      [now right|left; discriminate|].
    exists g. split; [exact E|]. rewrite Nat.even_succ, <- Nat.negb_even. now destruct (Nat.even n).
Qed.

Lemma log_values_2 v : log_values 2 v = [Some (ln (v 0%nat)); Some (ln (v 1%nat))].
Proof. reflexivity. Qed.

Lemma seesaw_fit n th : th < 3 / 5 -> (1 <= n)%nat ->
  fit seesaw n th = Ok (if Nat.even n then [Some (ln (1 / 2)); Some (ln (1 / 2))]
                        else [Some (ln (1 / 5)); Some (ln (4 / 5))]).
Proof.
  intros T N. rewrite (fit_eq seesaw 2 seesaw_ok).
  destruct (proj1 (seesaw_iterate n th None (start 2) T)) as (g & E & R).
  - unfold start, half_half. cbn. lra.
  - now left.
  - right; lia.
  - rewrite E. cbn [bind]. f_equal. rewrite log_map.
    + rewrite log_values_2. destruct (Nat.even n); destruct R as [-> ->]; reflexivity.
    + destruct (Nat.even n); [now apply pos_half|now apply pos_four].
Qed.

Lemma seesaw_refuted : exists rows nf,
  firms_ok rows nf /\ strongly_connected rows nf
  /\ (exists w, positive nf w /\ sumn nf w = 1 /\ flow_equations rows nf w)
  /\ forall n th, (1 <= n)%nat -> th < 3 / 5 ->
       fit rows n th <> fit rows (S n) th
       /\ exists v, positive nf v /\ fit rows n th = Ok (log_values nf v)
            /\ ~ flow_equations rows nf v.
Proof.
  exists seesaw, 2%nat. split; [exact seesaw_ok|]. split; [exact seesaw_connected|]. split.
  - exists (fun k => if (k =? 0)%nat then 1 / 3 else 2 / 3). split; [|split].
    + intros k _. destruct (k =? 0)%nat; lra.
    + rewrite sumn_2. cbn. lra.
    + apply seesaw_flow. cbn. lra.
  - intros n th N T. split.
    + rewrite !seesaw_fit by (try assumption; lia). rewrite Nat.even_succ, <- Nat.negb_even.
      assert (D : ln (1 / 2) <> ln (1 / 5)) by (intro E; apply ln_inv in E; lra).
      destruct (Nat.even n); cbn [negb]; intro E; injection E; intros; congruence.
    + exists (fun k => if Nat.even n then 1 / 2 else if (k =? 0)%nat then 1 / 5 else 4 / 5).
      split; [|split].
      * intros k _. destruct (Nat.even n); [lra|]. destruct (k =? 0)%nat; lra.
      * rewrite seesaw_fit by assumption. rewrite log_values_2. now destruct (Nat.even n).
      * intro F. apply seesaw_flow in F. destruct (Nat.even n); cbn in F; lra.
Qed.

(* ------------------------------------------------------------------ *)
(* The comparison with the firm effects. *)
Lemma concat_psi_shift (psi : list R) k : (k < length psi)%nat ->
  nth 0 psi 0 = 0 ->
  nth k (concat_psi (tl psi)) 0 = nth (if (k =? length psi - 1)%nat then 0 else S k) psi 0.
Proof.
  intros L Z. destruct psi as [|p psi]; [cbn in L; lia|]. cbn [length tl] in *. unfold concat_psi.
  destruct (k =? S (length psi) - 1)%nat eqn:E.
  - apply Nat.eqb_eq in E. rewrite app_nth2 by lia. replace (k - length psi)%nat with 0%nat by lia.
    now rewrite Z.
  - apply Nat.eqb_neq in E. rewrite app_nth1 by lia. reflexivity.
Qed.

Lemma corr_example : corrcoef [0; 1; 3] [0; 1; 3] = 1 /\ attrition_corr [1; 3] [0; 1; 3] = - (1 / 2).
Proof.
  unfold attrition_corr, corrcoef, np_cov, lmean, concat_psi. cbn [app length rsum map2].
  replace (INR 3) with 3 by (cbn; lra).
  set (c := ((0 - (0 + (1 + (3 + 0))) / 3) * (0 - (0 + (1 + (3 + 0))) / 3)
    + ((1 - (0 + (1 + (3 + 0))) / 3) * (1 - (0 + (1 + (3 + 0))) / 3)
    + ((3 - (0 + (1 + (3 + 0))) / 3) * (3 - (0 + (1 + (3 + 0))) / 3) + 0))) / (3 - 1)).
  assert (C : c = 7 / 3) by (unfold c; field). rewrite C.
  split.
  - rewrite sqrt_square by lra. field.
  - match goal with |- ?n / sqrt (7 / 3 * ?d) = _ =>
      replace d with (7 / 3) by field; replace n with (- (7 / 6)) by field end.
    rewrite sqrt_square by lra. field.
Qed.

Lemma attrition_refuted : exists psi V : list R,
  nth 0 psi 0 = 0 /\ V = psi /\ corrcoef V psi = 1 /\ attrition_corr (tl psi) V = - (1 / 2).
Proof. exists [0; 1; 3], [0; 1; 3]. destruct corr_example as [A B]. cbn [tl nth]. auto. Qed.

(* ------------------------------------------------------------------ *)
(* Data for which the iteration stops: one mover stays at firm 0 for a row, two
   at firm 1; one moves from 1 to 0 and two from 0 to 1. *)
Definition settled : list move :=
  [mkmove true 0 0; mkmove true 1 1; mkmove true 1 1; mkmove true 1 0; mkmove true 0 1; mkmove true 0 1;
   mkmove false 0 0].

Lemma settled_ok : firms_ok settled 2.
Proof.
  split; [lia|]. split; [|split].
  - intros r I M. cbn in I. intuition (subst; cbn; try lia; discriminate).
  - intros k L. destruct k as [|[|k]]; [| |lia].
    + exists (mkmove true 0 0). cbn; auto.
    + exists (mkmove true 1 1). cbn; auto.
  - intros k L. destruct k as [|[|k]]; [| |lia].
    + exists (mkmove true 0 0). cbn; auto.
    + exists (mkmove true 1 1). cbn; auto.
Qed.
Lemma settled_connected : strongly_connected settled 2.
Proof.
  intros j k Lj Lk.
  assert (A : goes settled 0 1) by (exists (mkmove true 0 1); cbn; tauto).
  assert (B : goes settled 1 0) by (exists (mkmove true 1 0); cbn; tauto).
  destruct j as [|[|j]]; [| |lia]; destruct k as [|[|k]]; try lia; first [apply rt_refl|now apply rt_step].
Qed.

Lemma settled_next v : positive 2 v ->
  next_guess settled 2 v 0%nat = 1 / 3 /\ next_guess settled 2 v 1%nat = 2 / 3.
Proof.
  intro P. assert (A := P 0%nat ltac:(lia)). assert (B := P 1%nat ltac:(lia)).
  rewrite !(next_eq settled 2 settled_ok) by (try assumption; lia).
  unfold scale, inflow, out. rewrite !sumn_2. cbn. split; field; lra.
Qed.

Lemma settled_fit n : (2 <= n)%nat -> fit settled n 0 = Ok [Some (ln (1 / 3)); Some (ln (2 / 3))].
Proof.
  intro N. rewrite (fit_eq settled 2 settled_ok). destruct n as [|[|n]]; try lia.
  assert (P0 := start_pos settled 2 settled_ok).
  set (g := next_guess settled 2 (start 2)).
  destruct (settled_next (start 2) P0) as [A B]. fold g in A, B.
  assert (P1 : positive 2 g) by (apply (next_pos settled 2 settled_ok); exact P0).
  set (h := next_guess settled 2 g).
  destruct (settled_next g P1) as [C D]. fold h in C, D.
  assert (P2 : positive 2 h) by (apply (next_pos settled 2 settled_ok); exact P1).
  change (iterate (S (S n)) settled 2 0 None (start 2))
    with (if small_change 2 0 g (start 2) then Ok g
          else if small_change 2 0 h g then Ok h else iterate n settled 2 0 (Some h) h).
  assert (S2 : small_change 2 0 h g = true).
  { apply small_spec. intros k L. destruct k as [|[|k]]; [| |lia].
    - rewrite A, C. split; [lra|]. replace ((1 / 3 - 1 / 3) / (1 / 3)) with 0 by field. rewrite Rabs_R0. lra.
    - rewrite B, D. split; [lra|]. replace ((2 / 3 - 2 / 3) / (2 / 3)) with 0 by field. rewrite Rabs_R0. lra. }
  rewrite S2. destruct (small_change 2 0 g (start 2)); cbn [bind]; f_equal;
    rewrite log_map by assumption; rewrite log_values_2; [rewrite A, B|rewrite C, D]; reflexivity.
Qed.

(* ---- a firm that nobody joins ---- *)
Lemma iterate_is_next n rows nf th new prev g :
  iterate n rows nf th new prev = Ok g ->
  (exists v, g = next_guess rows nf v) \/ new = Some g.
Proof.
  revert new prev. induction n as [|n IH]; cbn; intros new prev H.
  - destruct new; [injection H as ->; now right|discriminate].
  - destruct (small_change _ _ _ _); [injection H as <-; left; eauto|].
    destruct (IH _ _ H) as [E|E]; [now left|injection E as <-; left; eauto].
Qed.

Lemma never_joined rows k n th V :
  (forall r, In r rows -> mv_m r = true -> mv_to r <> k) ->
  fit rows n th = Ok V -> (k < length V)%nat -> nth_error V k = Some None.
Proof.
  intros H E L. unfold fit in E. destruct (mover_rows rows) as [|r0 rs0] eqn:Er; [discriminate|].
  destruct (_ <? _)%nat; [discriminate|]. destruct (_ <? _)%nat; [destruct n; discriminate|].
  destruct (iterate n rows (n_rows rows) th None _) as [g|] eqn:Ei; [|discriminate].
  cbn [bind] in E. injection E as <-. rewrite map_length in L.
  unfold range in *. rewrite seq_length in L.
  rewrite nth_error_map, (nth_error_nth' _ 0%nat) by (now rewrite seq_length). rewrite seq_nth by exact L.
  cbn [option_map Nat.add]. f_equal. destruct (has_inf rows); [reflexivity|].
  destruct (iterate_is_next _ _ _ _ _ _ _ Ei) as [(v & ->)|Ev]; [|discriminate].
  assert (Z : forall j, M0 rows k j = 0).
  { intros j. unfold M0. replace (filter _ (mover_rows rows)) with (@nil move); [reflexivity|].
    symmetry. apply length_zero_iff_nil.
    destruct (filter _ (mover_rows rows)) as [|r l] eqn:Ef; [reflexivity|].
    exfalso. assert (In r (r :: l)) as Hr by now left. rewrite <- Ef in Hr.
    apply filter_In in Hr as [Hr Hb]. apply andb_prop in Hb as [_ Hb]. apply Nat.eqb_eq in Hb.
    apply in_mover_rows in Hr as [Hr Hm]. exact (H r Hr Hm Hb). }
  unfold np_log, next_guess.
  assert (E0 : sumn (n_rows rows) (fun j => lhs rows k j * v j) = 0).
  { apply sumn_zero. intros j _. unfold lhs. rewrite Z. ring. }
  rewrite E0, Rabs_R0. destruct (Req_EM_T _ 0) as [_|N]; [reflexivity|].
  exfalso. apply N. unfold Rdiv. ring.
Qed.
