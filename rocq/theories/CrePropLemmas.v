(* Glue between the lemmas and the CRE properties, and the example data. *)
From Verif Require Import Base BaseLemmas CreModel CreSpec CreLemmas CreWithinLemmas CreTotLemmas.
Local Open Scope R_scope.

Lemma between_linked nc jd : clusters_below nc jd -> (nonsingular (nc - 1) (Mc jd) <-> all_linked nc jd).
Proof. intros B. split; [apply nonsingular_linked|apply linked_nonsingular]; auto. Qed.

Lemma leave_out_excludes cl dm r r' : firm_cluster cl dm -> In r dm -> In r' dm ->
  comparable1 r r' -> r' <> r /\ m_j2 r' <> m_j2 r.
Proof.
  intros F I I' [E N]. split.
  - intros ->. auto.
  - intros K. apply N. rewrite (proj2 (F r I)), (proj2 (F r' I')), K. auto.
Qed.

Lemma all_moments1 dm ds rows lo1 lo2 :
  picks (fun r => exists r', In r' dm /\ comparable1 r r') dm rows ->
  (forall r l, In r dm -> picks (comparable1 r) dm l -> lo1 r = average m_y1 l /\ lo2 r = average m_y2 l) ->
  let m := within_moments dm ds in
  y1m1_y1m1 m = sample_cov m_y1 lo1 rows /\ y2m1_y1m1 m = sample_cov m_y2 lo1 rows /\
  y2m1_y2m1 m = sample_cov m_y2 lo2 rows.
Proof.
  intros K L. cbn zeta. unfold within_moments. cbn [y1m1_y1m1 y2m1_y1m1 y2m1_y2m1].
  split; [|split]; apply moment1; auto; intros r l I J; apply (L r l I J).
Qed.
Lemma all_moments2 dm ds rows lo1 lo2 :
  picks (fun r => exists r', In r' dm /\ comparable2 r r') dm rows ->
  (forall r l, In r dm -> picks (comparable2 r) dm l -> lo1 r = average m_y1 l /\ lo2 r = average m_y2 l) ->
  let m := within_moments dm ds in
  y1m2_y1m2 m = sample_cov m_y1 lo1 rows /\ y2m2_y1m2 m = sample_cov m_y2 lo1 rows /\
  y2m2_y2m2 m = sample_cov m_y2 lo2 rows.
Proof.
  intros K L. cbn zeta. unfold within_moments. cbn [y1m2_y1m2 y2m2_y1m2 y2m2_y2m2].
  split; [|split]; apply moment2; auto; intros r l I J; apply (L r l I J).
Qed.

Lemma merged_iff dm r :
  (existsb (fun r' => m_j1 r' =? s_j1 r)%nat dm && existsb (fun r' => m_j2 r' =? s_j1 r)%nat dm) = true
  <-> left_and_joined dm r.
Proof.
  rewrite andb_true_iff, !existsb_exists. unfold left_and_joined.
  split; intros [(x & I & E) (y & J & F)]; split; [exists x|exists y|exists x|exists y];
    rewrite ?Nat.eqb_eq in *; auto.
Qed.

Lemma filter_filter {A} (f g : A -> bool) l : filter f (filter g l) = filter (fun x => g x && f x) l.
Proof. induction l as [|x l IH]; auto. cbn [filter]. destruct (g x) eqn:E; cbn [filter andb]; rewrite IH; auto. Qed.

Lemma stayers_moment dm ds rows lo :
  picks (fun r => left_and_joined dm r /\
           exists i j r', i <> j /\ nth_error ds i = Some r /\ nth_error ds j = Some r' /\ s_j1 r' = s_j1 r) ds rows ->
  (forall i r l, nth_error ds i = Some r -> picks (fun r' => s_j1 r' = s_j1 r) (remove_at i ds) l -> lo r = average s_y1 l) ->
  y1s_y1s (within_moments dm ds) = sample_cov s_y1 lo rows.
Proof.
  intros K L. unfold within_moments. cbn [y1s_y1s]. unfold merged. rewrite filter_filter, qcov_sample.
  assert (Rem : forall i (r' : stayer), In r' (remove_at i ds) <-> exists j, i <> j /\ nth_error ds j = Some r').
  { clear. intros i r'. unfold remove_at. revert i. induction ds as [|x l IH]; intros i.
    - destruct i; cbn; split; [tauto|intros (j & _ & E); destruct j; discriminate|tauto|intros (j & _ & E); destruct j; discriminate].
    - destruct i as [|i].
      + cbn [firstn skipn app]. split.
        * intros I. apply In_nth_error in I. destruct I as (j & E). exists (S j). split; auto.
        * intros (j & D & E). destruct j as [|j]; [congruence|]. apply (nth_error_In l j E).
      + change (In r' (x :: (firstn i l ++ skipn (S i) l)) <-> exists j, S i <> j /\ nth_error (x :: l) j = Some r').
        cbn [In]. rewrite IH. split.
        * intros [->|(j & D & E)]; [exists 0%nat|exists (S j)]; split; auto.
        * intros (j & D & E). destruct j as [|j]; [left; injection E; auto|]. right. exists j. split; auto. }
  assert (W : forall r, In r ds ->
    ((existsb (fun r' => m_j1 r' =? s_j1 r)%nat dm && existsb (fun r' => m_j2 r' =? s_j1 r)%nat dm) && gtb (nsj ds r) 1 = true
     <-> left_and_joined dm r /\
         exists i j r', i <> j /\ nth_error ds i = Some r /\ nth_error ds j = Some r' /\ s_j1 r' = s_j1 r)).
  { intros r I. rewrite andb_true_iff, merged_iff. apply and_iff_compat_l. split.
    - intros G. apply In_nth_error in I. destruct I as (i & E). apply (coworker_iff ds i r E) in G.
      destruct G as (r' & J & F). apply Rem in J. destruct J as (j & D & E'). exists i, j, r'. auto.
    - intros (i & j & r' & D & E & E' & F). apply (coworker_iff ds i r E). exists r'. split; auto. apply Rem. exists j. auto. }
  rewrite <- (picks_filter _ _ _ _ W K). apply sample_cov_ext; auto.
  intros r I. destruct (picks_in_l _ _ _ K r I) as [J [_ (i & j & r' & D & E & E' & F)]].
  assert (Q := filter_picks (fun r' => s_j1 r' = s_j1 r) (same_firm r) (remove_at i ds) (fun x _ => Nat.eqb_eq _ _)).
  rewrite (L i r _ E Q). apply (y1s_lo_spec ds i r _ E Q). apply (picks_nonempty _ _ _ Q).
  exists r'. split; auto. apply Rem. exists j. auto.
Qed.

(* The moments of stayers with movers, for the stayers of such firms *)
Lemma mean_of_picks {A} (sel : A -> bool) (P : A -> Prop) f l others :
  (forall x, sel x = true <-> P x) -> picks P l others -> mean_of sel f l = average f others.
Proof. intros E K. rewrite (picks_filter P sel l others (fun x _ => E x) K). reflexivity. Qed.

Lemma stayers_movers_moments dm ds rows l1 l2 j1 j2 :
  picks (left_and_joined dm) ds rows ->
  (forall r l, picks (fun r' => m_j1 r' = s_j1 r) dm l -> l1 r = average m_y1 l /\ l2 r = average m_y2 l) ->
  (forall r l, picks (fun r' => m_j2 r' = s_j1 r) dm l -> j1 r = average m_y1 l /\ j2 r = average m_y2 l) ->
  let m := within_moments dm ds in
  y1s_y1m1 m = sample_cov s_y1 l1 rows /\ y1s_y2m1 m = sample_cov s_y1 l2 rows /\
  y1s_y1m2 m = sample_cov s_y1 j1 rows /\ y1s_y2m2 m = sample_cov s_y1 j2 rows.
Proof.
  intros K L J. cbn zeta. unfold within_moments. cbn [y1s_y1m1 y1s_y2m1 y1s_y1m2 y1s_y2m2].
  unfold merged. rewrite !filter_filter, !qcov_sample.
  assert (W1 : forall r, In r ds ->
    ((existsb (fun r' => m_j1 r' =? s_j1 r)%nat dm && existsb (fun r' => m_j2 r' =? s_j1 r)%nat dm)
      && gtb (count_of (fun r' => m_j1 r' =? s_j1 r)%nat dm) 0 = true <-> left_and_joined dm r)).
  { intros r _. rewrite andb_true_iff, merged_iff. split; [tauto|]. intros Q. split; auto.
    destruct Q as [(x & I & E) _]. apply Nat.eqb_eq in E.
    assert (Z := count_pos (fun r' => m_j1 r' =? s_j1 r)%nat dm x I E). unfold gtb. destruct (Rlt_dec _ _); auto. }
  assert (W2 : forall r, In r ds ->
    ((existsb (fun r' => m_j1 r' =? s_j1 r)%nat dm && existsb (fun r' => m_j2 r' =? s_j1 r)%nat dm)
      && gtb (count_of (fun r' => m_j2 r' =? s_j1 r)%nat dm) 0 = true <-> left_and_joined dm r)).
  { intros r _. rewrite andb_true_iff, merged_iff. split; [tauto|]. intros Q. split; auto.
    destruct Q as [_ (x & I & E)]. apply Nat.eqb_eq in E.
    assert (Z := count_pos (fun r' => m_j2 r' =? s_j1 r)%nat dm x I E). unfold gtb. destruct (Rlt_dec _ _); auto. }
  rewrite <- (picks_filter _ _ _ _ W1 K), <- (picks_filter _ _ _ _ W2 K).
  assert (F1 := fun r => filter_picks (fun r' => m_j1 r' = s_j1 r) (fun r' => m_j1 r' =? s_j1 r)%nat dm (fun x _ => Nat.eqb_eq _ _)).
  assert (F2 := fun r => filter_picks (fun r' => m_j2 r' = s_j1 r) (fun r' => m_j2 r' =? s_j1 r)%nat dm (fun x _ => Nat.eqb_eq _ _)).
  split; [|split; [|split]]; apply sample_cov_ext; auto; intros r _.
  - rewrite (proj1 (L r _ (F1 r))). reflexivity.
  - rewrite (proj2 (L r _ (F1 r))). reflexivity.
  - rewrite (proj1 (J r _ (F2 r))). reflexivity.
  - rewrite (proj2 (J r _ (F2 r))). reflexivity.
Qed.

Lemma shift_all spsolve b nc jd sd :
  let jd' := map (shift_mover b) jd in
  let sd' := map (shift_stayer b) sd in
  clusters_below nc jd -> stayers_below nc sd -> all_linked nc jd -> solved spsolve nc jd -> solved spsolve nc jd' ->
  let '(t, pw, mom) := fit spsolve nc false jd sd in
  let '(t', pw', mom') := fit spsolve nc false jd' sd' in
  mom' = mom /\ pw' = pw /\ var_wt t' = var_wt t /\ cov_wt t' = cov_wt t.
Proof.
  intros jd' sd' B Bs C H H'. unfold fit. unfold jd', sd'.
  rewrite (shift_net_movers spsolve b nc jd B C H H'), (shift_net_stayers spsolve b nc jd sd B Bs C H H').
  unfold collect. cbn [var_wt cov_wt]. rewrite !map_length. auto.
Qed.

Lemma level_all spsolve b nc jd sd :
  let jd' := map (shift_mover (fun _ => b)) jd in
  let sd' := map (shift_stayer (fun _ => b)) sd in
  clusters_below nc jd -> stayers_below nc sd -> all_linked nc jd -> solved spsolve nc jd -> solved spsolve nc jd' ->
  fst (fst (fit spsolve nc false jd' sd')) = fst (fst (fit spsolve nc false jd sd)).
Proof.
  intros jd' sd' B Bs C H H'.
  assert (S := shift_all spsolve (fun _ => b) nc jd sd B Bs C H H'). fold jd' sd' in S.
  assert (T := fit_tot spsolve nc false jd sd). assert (T' := fit_tot spsolve nc false jd' sd'). cbn zeta in T, T'.
  assert (D : forall j s, let '(t, pw, mom) := fit spsolve nc false j s in tot_var t = var_bw t + var_wt t /\ tot_cov t = cov_bw t + cov_wt t)
    by (intros; unfold fit, collect; cbn; auto).
  assert (D1 := D jd sd). assert (D2 := D jd' sd').
  destruct (fit spsolve nc false jd sd) as [[t pw] mom], (fit spsolve nc false jd' sd') as [[t' pw'] mom'].
  cbn [fst]. destruct S as (_ & _ & S1 & S2), T as (T1 & T2 & T3), T' as (T1' & T2' & T3'), D1 as [D1 D1'], D2 as [D2 D2'].
  set (F := fun x : row => match x with inl r => inl (shift_stayer (fun _ => b) r) | inr r => inr (shift_mover (fun _ => b) r) end : row).
  assert (X : cross_section sd' jd' = map F (cross_section sd jd)).
  { unfold cross_section, sd', jd'. rewrite map_app, !map_map. auto. }
  rewrite X in *. set (rows := cross_section sd jd) in *.
  assert (Av : forall f, average f (map F rows) = average (fun x => f (F x)) rows).
  { intros f. unfold average. rewrite map_map, map_length. auto. }
  assert (Sc : forall f g, sample_cov f g (map F rows) = sample_cov (fun x => f (F x)) (fun x => g (F x)) rows).
  { intros f g. unfold sample_cov. rewrite !Av, map_map, map_length. auto. }
  assert (Pv : pop_var row_wage (map F rows) = pop_var row_wage rows).
  { destruct rows as [|x0 l0] eqn:R0; [reflexivity|]. rewrite <- R0 in *.
    unfold pop_var. rewrite map_map, map_length, Av.
    rewrite (average_shift row_wage (fun x => row_wage (F x)) b rows).
    - f_equal. apply rsum_map_ext. intros [r|r] _; cbn; ring.
    - congruence.
    - intros [r|r] _; reflexivity. }
  assert (In1 : forall x, In x rows -> (row_cluster x < nc)%nat).
  { intros x I. apply in_app_or in I. destruct I as [I|I]; apply in_map_iff in I; destruct I as (r & <- & I); [apply (Bs r I)|apply (B r I)]. }
  assert (A1 : forall x, In x rows -> Afill spsolve nc false jd' (row_cluster (F x)) = Afill spsolve nc false jd (row_cluster x) + 0).
  { intros x I. replace (row_cluster (F x)) with (row_cluster x) by (destruct x; auto).
    unfold jd'. rewrite (shift_Afill spsolve (fun _ => b) nc jd B C H H') by auto. ring. }
  rewrite Sc in T2', T3'.
  rewrite (sample_cov_shift (fun x => Afill spsolve nc false jd (row_cluster x)) (fun x => Afill spsolve nc false jd (row_cluster x)) _ _ 0 0) in T2' by auto.
  rewrite (sample_cov_shift (fun x => Afill spsolve nc false jd (row_cluster x))
    (fun x => match x with inl r => s_mx false (Afill spsolve nc false jd) sd r | inr r => m_mx false (Afill spsolve nc false jd) jd r end) _ _ 0 b) in T3'; auto.
  - destruct t, t'. cbn in *. rewrite Pv in T1'. f_equal; congruence.
  - intros x I. apply in_app_or in I. destruct I as [I|I]; apply in_map_iff in I; destruct I as (r & <- & I); cbn [F].
    + apply (shift_s_mx spsolve (fun _ => b) nc jd sd B Bs C H H' r I).
    + apply (shift_m_mx spsolve (fun _ => b) nc jd B C H H' r I).
Qed.

Lemma var_y_gap spsolve a nc jd sd : clusters_below nc jd -> stayers_below nc sd -> all_linked nc jd ->
  solved spsolve nc jd -> exact_wages a (fun _ _ => 0) (fun _ => 0) jd sd ->
  (2 <= length sd + length jd)%nat ->
  let t := fst (fst (fit spsolve nc false jd sd)) in
  let n := INR (length sd + length jd) in
  var_y t = (n - 1) / n * tot_var t.
Proof.
  intros B Bs C H X N t n.
  destruct (exact_totals spsolve a _ _ nc jd sd B Bs C H X) as (T1 & _ & _ & _ & T2).
  fold t in T1, T2. rewrite T1, T2. clear T1 T2.
  assert (L : length (cross_section sd jd) = (length sd + length jd)%nat)
    by (unfold cross_section; rewrite app_length, !map_length; auto).
  rewrite pop_var_sample by lia. rewrite L. fold n. f_equal.
  apply sample_cov_ext; intros x I; apply in_app_or in I; destruct I as [I|I]; apply in_map_iff in I;
    destruct I as (r & <- & I); cbn; try (rewrite (proj2 X r I); ring); rewrite (proj1 (proj1 X r I)); ring.
Qed.

(* Example data: two clusters, a mover each way, two stayers *)
Definition ex_jd : list mover := [mkmv 1 3 0 1 0 1; mkmv 4 2 1 0 1 0].
Definition ex_sd : list stayer := [mkst 5 0 0; mkst 7 1 1].
Definition ex_solve (n : nat) (M : nat -> nat -> R) (b : nat -> R) (i : nat) : R := b 0%nat / M 0%nat 0%nat.
Definition ex_a (k : nat) : R := match k with O => 0 | _ => 2 end.
Definition ex_c (k l : nat) : R := match k with O => 1 | _ => 2 end.

Lemma ex_below : clusters_below 2 ex_jd.
Proof. intros r [<-|[<-|[]]]; cbn; lia. Qed.
Lemma ex_sbelow : stayers_below 2 ex_sd.
Proof. intros r [<-|[<-|[]]]; cbn; lia. Qed.
Lemma ex_linked : all_linked 2 ex_jd.
Proof.
  intros [|[|k]] Hk; [|constructor|lia].
  apply (linked_move ex_jd (mkmv 1 3 0 1 0 1) 1); [left; auto|constructor].
Qed.
Lemma ex_solved : solved ex_solve 2 ex_jd.
Proof.
  intros [|i] Hi; [|cbn in Hi; lia]. unfold sumn, range. cbn [Nat.sub seq map rsum]. unfold ex_solve.
  assert (Mc ex_jd 0 0 = 2) by (unfold Mc, Jc; cbn; ring). rewrite H. field.
Qed.
Lemma ex_exact : exact_wages ex_a ex_c (fun _ => 5) ex_jd ex_sd.
Proof. split; intros r [<-|[<-|[]]]; cbn; try split; ring. Qed.

(* The shifted example *)
Lemma ex_solved_shift b : solved ex_solve 2 (map (shift_mover b) ex_jd).
Proof.
  assert (E : Mc (map (shift_mover b) ex_jd) 0 0 = 2) by (unfold Mc, Jc; cbn; ring).
  intros i Hi. assert (i = 0)%nat by lia. subst i. unfold sumn, range.
  revert E. generalize (map (shift_mover b) ex_jd). intros l E. cbn [Nat.sub seq map rsum]. unfold ex_solve.
  rewrite E. field.
Qed.

(* Stayers of a firm that nobody joins *)
Definition st_dm : list mover := [mkmv 0 0 0 1 0 1; mkmv 0 0 1 0 1 0; mkmv 0 0 2 0 2 0].
Definition st_ds : list stayer := [mkst 1 0 0; mkst 1 0 0; mkst (-1) 1 1; mkst (-1) 1 1; mkst 3 2 2; mkst 3 2 2].
Definition st_rows : list stayer := [mkst 1 0 0; mkst 1 0 0; mkst (-1) 1 1; mkst (-1) 1 1].

Lemma st_lo i r l : nth_error st_ds i = Some r -> picks (fun r' => s_j1 r' = s_j1 r) (remove_at i st_ds) l ->
  s_y1 r = average s_y1 l.
Proof.
  intros E K. rewrite (picks_filter _ (same_firm r) _ _ (fun x _ => Nat.eqb_eq _ _) K). clear K.
  do 6 (destruct i as [|i]; [cbn in E; injection E as <-; unfold average; cbn; field|]).
  destruct i; discriminate.
Qed.
Lemma st_coworker r : In r st_ds ->
  exists i j r', i <> j /\ nth_error st_ds i = Some r /\ nth_error st_ds j = Some r' /\ s_j1 r' = s_j1 r.
Proof.
  intros [<-|[<-|[<-|[<-|[<-|[<-|[]]]]]]].
  - exists 0%nat, 1%nat, (mkst 1 0 0). cbn. auto.
  - exists 0%nat, 1%nat, (mkst 1 0 0). cbn. auto.
  - exists 2%nat, 3%nat, (mkst (-1) 1 1). cbn. auto.
  - exists 2%nat, 3%nat, (mkst (-1) 1 1). cbn. auto.
  - exists 4%nat, 5%nat, (mkst 3 2 2). cbn. auto.
  - exists 4%nat, 5%nat, (mkst 3 2 2). cbn. auto.
Qed.
Lemma picks_all {A} (P : A -> Prop) l : (forall x, In x l -> P x) -> picks P l l.
Proof. induction l; intros H; constructor; [apply H; left; auto|apply IHl; intros; apply H; right; auto]. Qed.

Lemma st_refuted : exists dm ds rows lo,
  picks (fun r => exists i j r', i <> j /\ nth_error ds i = Some r /\ nth_error ds j = Some r' /\ s_j1 r' = s_j1 r) ds rows /\
  (forall i r l, nth_error ds i = Some r -> picks (fun r' => s_j1 r' = s_j1 r) (remove_at i ds) l -> lo r = average s_y1 l) /\
  y1s_y1s (within_moments dm ds) <> sample_cov s_y1 lo rows.
Proof.
  exists st_dm, st_ds, st_ds, s_y1. split; [apply picks_all, st_coworker|]. split; [apply st_lo|].
  rewrite (stayers_moment st_dm st_ds st_rows s_y1).
  - unfold sample_cov, average. cbn. lra.
  - assert (L : forall r, In r st_rows -> left_and_joined st_dm r).
    { intros r [<-|[<-|[<-|[<-|[]]]]]; split.
      - exists (mkmv 0 0 0 1 0 1). cbn; auto.
      - exists (mkmv 0 0 1 0 1 0). cbn; auto.
      - exists (mkmv 0 0 0 1 0 1). cbn; auto.
      - exists (mkmv 0 0 1 0 1 0). cbn; auto.
      - exists (mkmv 0 0 1 0 1 0). cbn; auto.
      - exists (mkmv 0 0 0 1 0 1). cbn; auto.
      - exists (mkmv 0 0 1 0 1 0). cbn; auto.
      - exists (mkmv 0 0 0 1 0 1). cbn; auto. }
    assert (N : ~ left_and_joined st_dm (mkst 3 2 2)).
    { intros [_ (r & [<-|[<-|[<-|[]]]] & E)]; discriminate. }
    unfold st_ds. do 4 (apply picks_in; [split; [apply L; cbn; tauto|apply st_coworker; cbn; tauto]|]).
    apply picks_out; [tauto|]. apply picks_out; [tauto|]. constructor.
  - apply st_lo.
Qed.

(* Random variables: a firm effect and an independent effect of the other firm *)
Definition ex_space : space.
Proof.
  refine (mkspace 4 (fun _ => 1 / 4) _ _).
  - intros; lra.
  - unfold sumn. cbn. lra.
Defined.
Definition zero : rv := fun _ => 0.
Definition ex_psi : rv := fun i => match i with 0%nat | 1%nat => 1 | _ => -1 end.
Definition ex_to : rv := fun i => match i with 0%nat | 2%nat => 1 | _ => -1 end.
(* no worker effects and no noise *)
Definition ex_story : story :=
  mkstory ex_psi zero zero zero zero zero zero ex_to zero zero zero zero zero zero zero zero zero zero zero zero zero.

Lemma cov_zero_l P X : cov P zero X = 0.
Proof.
  unfold cov, expect, zero. rewrite (sumn_zero _ (fun i => sp_p P i * (0 * X i))) by (intros; ring).
  rewrite (sumn_zero _ (fun i => sp_p P i * 0)) by (intros; ring). ring.
Qed.
Lemma cov_zero_r P X : cov P X zero = 0.
Proof. rewrite cov_sym. apply cov_zero_l. Qed.
Lemma ex_cov_psi_to : cov ex_space ex_psi ex_to = 0.
Proof. unfold cov, expect, sumn. cbn. lra. Qed.
Lemma ex_cov_psi : cov ex_space ex_psi ex_psi = 1.
Proof. unfold cov, expect, sumn. cbn. lra. Qed.
Lemma ex_cov_to : cov ex_space ex_to ex_to = 1.
Proof. unfold cov, expect, sumn. cbn. lra. Qed.

Lemma unc_zero P l : uncorrelated P zero l.
Proof. intros Y _. split; [apply cov_zero_l|apply cov_zero_r]. Qed.

Lemma unc_to l : (forall Y, In Y l -> Y = zero \/ Y = ex_psi) -> uncorrelated ex_space ex_to l.
Proof.
  intros H Y I. destruct (H Y I) as [->| ->]; [rewrite cov_zero_l, cov_zero_r; auto|].
  rewrite (cov_sym ex_space ex_to ex_psi), ex_cov_psi_to. auto.
Qed.

Lemma ex_independent : independent_story ex_space ex_story.
Proof.
  unfold independent_story. cbn [es es' to to' e1 e2 e1' e2' from from' f1 f2 f1' f2' As As' Am Am' Bm Bm' psi ex_story].
  unfold stayer_vars, stayer_vars', leaver_vars, leaver_vars', joiner_vars, joiner_vars'.
  cbn [es es' to to' e1 e2 e1' e2' from from' f1 f2 f1' f2' As As' Am Am' Bm Bm' psi ex_story app].
  assert (T : forall l, (forall Y, In Y l -> Y = zero \/ Y = ex_psi) ->
     forall X, In X [ex_to; zero; zero] -> uncorrelated ex_space X l).
  { intros l H X [<-|[<-|[<-|[]]]]; try apply unc_zero. apply unc_to. auto. }
  assert (Z : forall l X, In X [zero; zero; zero] -> uncorrelated ex_space X l).
  { intros l X [<-|[<-|[<-|[]]]]; apply unc_zero. }
  split; [apply unc_zero|]. split; [apply unc_zero|]. split.
  { apply T. cbn. intuition congruence. }
  split; [apply Z|]. split; [apply Z|]. split; [apply Z|].
  rewrite !cov_zero_l. split; auto. split; auto. split; auto.
  split; [rewrite ex_cov_to, ex_cov_psi; auto|]. split.
  - apply unc_to. cbn. intuition congruence.
  - intros Y [<-|[<-|[]]]; rewrite cov_zero_l, cov_zero_r; auto.
Qed.

Definition ex_moments (P : space) (s : story) : moments :=
  mkmom (cov P (w_s s) (w_s' s)) 0 0 0
    (cov P (w_s s) (w1_leaver s)) (cov P (w_s s) (w2_leaver s))
    (cov P (w1_leaver s) (w1_leaver' s)) (cov P (w2_leaver s) (w1_leaver' s)) (cov P (w2_leaver s) (w2_leaver' s))
    (cov P (w_s s) (w1_joiner s)) (cov P (w_s s) (w2_joiner s))
    (cov P (w1_joiner s) (w1_joiner' s)) (cov P (w2_joiner s) (w1_joiner' s)) (cov P (w2_joiner s) (w2_joiner' s))
    (cov P (sub (w2_leaver s) (w1_leaver s)) (sub (w2_leaver s) (w1_leaver s))) 0.
Lemma ex_population P s : population P s (ex_moments P s).
Proof. unfold population, ex_moments. cbn. tauto. Qed.

Lemma within_good P s m : independent_story P s -> population P s m ->
  let w := within_params m in
  cov_Am1Am1 w = cov P (Am s) (Am' s) /\ cov_Am1Psi1 w = cov P (Am s) (psi s) /\
  var_psi_m1 w = cov P (psi s) (psi s) /\
  cov_Am2Am2 w = cov P (Bm s) (Bm' s) /\ cov_Am2Psi2 w = cov P (Bm s) (psi s) /\
  var_psi_m2 w = cov P (psi s) (psi s) /\
  cov_AsAm1 w = cov P (As s) (Am s) /\ cov_AsAm2 w = cov P (As s) (Bm s) /\
  var_psi w = cov P (psi s) (psi s) /\
  var_eps w = cov P (sub (e2 s) (e1 s)) (sub (e2 s) (e1 s)).
Proof. intros I M w. assert (H := within_values P s I m M). cbn zeta in H. fold w in H. tauto. Qed.

Lemma within_stayers P s m : independent_story P s -> population P s m ->
  let w := within_params m in
  cov_AsPsi1 w = 2 * cov P (As s) (psi s) + cov P (psi s) (psi s) /\
  cov_AsAs w = cov P (As s) (As' s) - 2 * cov P (As s) (psi s) - 2 * cov P (psi s) (psi s).
Proof. intros I M w. assert (H := within_values P s I m M). cbn zeta in H. fold w in H. tauto. Qed.

Lemma within_refuted : exists P s m,
  independent_story P s /\ population P s m /\
  (forall i, As s i = 0 /\ As' s i = 0) /\ cov P (As s) (psi s) = 0 /\ cov P (As s) (As' s) = 0 /\
  cov_AsPsi1 (within_params m) = 1 /\ cov_AsAs (within_params m) = -2.
Proof.
  exists ex_space, ex_story, (ex_moments ex_space ex_story).
  assert (I := ex_independent). assert (M := ex_population ex_space ex_story).
  destruct (within_stayers _ _ _ I M) as [H1 H2]. rewrite H1, H2. cbn [As As' psi ex_story].
  rewrite !cov_zero_l, ex_cov_psi.
  split; [exact I|]. split; [exact M|]. split; [intros; split; reflexivity|]. split; [reflexivity|]. split; [reflexivity|]. split; lra.
Qed.

(* The totals add the overstated covariance with the share of stayers *)
Lemma cov_wt_overstated P s m ns mn psis mx Yq : independent_story P s -> population P s m -> (0 < ns + mn)%nat ->
  cov_wt (collect (within_params m) ns mn psis mx Yq) =
  (INR ns * cov P (As s) (psi s) + INR mn * cov P (Am s) (psi s)) / INR (ns + mn)
  + INR ns / INR (ns + mn) * (cov P (As s) (psi s) + cov P (psi s) (psi s)).
Proof.
  intros I M N. destruct (within_stayers _ _ _ I M) as [H1 _]. destruct (within_good _ _ _ I M) as (_ & H2 & _).
  unfold collect. cbn [cov_wt]. rewrite H1, H2. field. apply not_0_INR. lia.
Qed.

Lemma totals_add {X} P s m ns mn (f g : X -> R) rows Yq : independent_story P s -> population P s m -> (0 < ns + mn)%nat ->
  let t := collect (within_params m) ns mn (map f rows) (map g rows) Yq in
  tot_var t = sample_cov f f rows + cov P (psi s) (psi s) /\
  tot_cov t = sample_cov f g rows + cov_wt t.
Proof.
  intros I M N t. unfold t, collect. cbn [tot_var tot_cov cov_wt].
  pose proof (within_good _ _ _ I M) as W. cbn zeta in W.
  change (var1 (map f rows)) with (qcov f f rows). change (cov1 (map f rows) (map g rows)) with (qcov f g rows).
  rewrite !qcov_sample. split; [|reflexivity]. f_equal. tauto.
Qed.

Lemma prior_refuted : exists cl A jd sd j, firm_cluster cl jd /\ (exists r, In r sd /\ s_j1 r = j /\ s_g1 r = cl j) /\
  Mud A jd j <> A (cl j).
Proof.
  exists (fun j => match j with 0%nat => 0%nat | 1%nat => 1%nat | _ => 0%nat end), (fun k => match k with O => -2 | _ => 0 end),
    ex_jd, [mkst 1 0 2], 2%nat.
  split; [intros r [<-|[<-|[]]]; cbn; auto|]. split; [exists (mkst 1 0 2); cbn; auto|].
  rewrite Mud_absent; [lra|]. intros r [<-|[<-|[]]]; cbn; lia.
Qed.
