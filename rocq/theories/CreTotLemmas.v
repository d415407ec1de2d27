(* Proofs about the CRE model: cluster means, shifts, totals, within parameters. *)
From Coq Require Import Permutation.
From Verif Require Import Base BaseLemmas CreModel CreSpec CreLemmas CreWithinLemmas.
Local Open Scope R_scope.

Lemma filter_map_comm {A B} (F : A -> B) (sel : B -> bool) (sel' : A -> bool) l :
  (forall x, sel (F x) = sel' x) -> filter sel (map F l) = map F (filter sel' l).
Proof.
  intros H. induction l as [|x l IH]; auto. cbn [map filter]. rewrite H, IH. destruct (sel' x); auto.
Qed.

(* Net wages average zero *)
Lemma mean_dev {A} (sel : A -> bool) (f m : A -> R) l :
  (forall x, In x l -> sel x = true -> m x = mean_of sel f l) ->
  rsum (map (fun x => f x - m x) (filter sel l)) = 0.
Proof.
  intros H. destruct (Req_dec (count_of sel l) 0) as [Z|Z].
  - unfold count_of in Z. destruct (filter sel l) as [|x k]; auto.
    cbn [length] in Z. rewrite S_INR in Z. assert (P := pos_INR (length k)). lra.
  - rewrite (rsum_map_ext _ (fun x => f x - mean_of sel f l)).
    + rewrite rsum_map_minus, rsum_map_const, <- count_sum by auto. unfold count_of. ring.
    + intros x I. apply filter_In in I. rewrite H; tauto.
Qed.

Lemma movers_mean_zero A jd g1 g2 :
  rsum (map (fun r => m_y1 r + m_y2 r)
    (filter (fun r => (m_g1 r =? g1) && (m_g2 r =? g2))%nat (net_movers false A jd))) = 0.
Proof.
  unfold net_movers. set (F := fun r => mkmv _ _ _ _ _ _).
  set (sel := fun r => ((m_g1 r =? g1) && (m_g2 r =? g2))%nat).
  rewrite (filter_map_comm F sel sel) by reflexivity. rewrite map_map.
  rewrite (rsum_map_ext _ (fun r => 2 * (m_half A r - m_mx false A jd r))).
  - rewrite rsum_map_scal, mean_dev; [ring|]. intros r I S. unfold sel in S.
    apply andb_true_iff in S. destruct S as [S1 S2]. apply Nat.eqb_eq in S1. apply Nat.eqb_eq in S2.
    unfold m_mx, sel. rewrite S1, S2. auto.
  - intros r I. unfold F, m_half. cbn. field.
Qed.

Lemma stayers_mean_zero A sd g :
  rsum (map s_y1 (filter (fun r => s_g1 r =? g)%nat (net_stayers false A sd))) = 0.
Proof.
  unfold net_stayers. set (F := fun r => mkst _ _ _). set (sel := fun r => (s_g1 r =? g)%nat).
  rewrite (filter_map_comm F sel sel) by reflexivity. rewrite map_map.
  rewrite (rsum_map_ext _ (fun r => s_rest A r - s_mx false A sd r)).
  - apply mean_dev. intros r I S. unfold sel in S. apply Nat.eqb_eq in S. unfold s_mx, sel. rewrite S. auto.
  - intros r I. unfold F, s_rest. cbn. ring.
Qed.

Lemma wo_btw_zero spsolve nc jd k : Afill spsolve nc true jd k = 0.
Proof. unfold Afill. destruct (k <? nc - 1)%nat; ring. Qed.
Lemma wo_btw_movers A jd : (forall k, A k = 0) -> net_movers true A jd = jd.
Proof.
  intros Z. unfold net_movers. rewrite <- (map_id jd) at 2. apply map_ext. intros r. rewrite !Z. unfold m_mx.
  destruct r; cbn. f_equal; ring.
Qed.
Lemma wo_btw_stayers A sd : (forall k, A k = 0) -> net_stayers true A sd = sd.
Proof.
  intros Z. unfold net_stayers. rewrite <- (map_id sd) at 2. apply map_ext. intros r. rewrite !Z. unfold s_mx.
  destruct r; cbn. f_equal; ring.
Qed.

(* Averages of shifted values *)
Lemma mean_of_shift {A} (sel : A -> bool) (f g : A -> R) c l x : In x l -> sel x = true ->
  (forall y, In y l -> g y = f y + c) -> mean_of sel g l = mean_of sel f l + c.
Proof.
  intros I S H. assert (P := count_pos sel l x I S). unfold mean_of.
  rewrite (rsum_map_ext g (fun y => f y + c)).
  - rewrite rsum_map_plus, rsum_map_const. fold (count_of sel l). field. lra.
  - intros y J. apply filter_In in J. apply H. tauto.
Qed.

Lemma mean_of_map {A B} (F : A -> B) (sel : B -> bool) (sel' : A -> bool) (f : B -> R) l :
  (forall x, sel (F x) = sel' x) -> mean_of sel f (map F l) = mean_of sel' (fun x => f (F x)) l.
Proof.
  intros H. unfold mean_of, count_of. rewrite (filter_map_comm F sel sel' l H), map_map, map_length. auto.
Qed.

Section Shift.
Variable spsolve : nat -> (nat -> nat -> R) -> (nat -> R) -> nat -> R.
Variables (b : nat -> R) (nc : nat) (jd : list mover) (sd : list stayer).
Let jd' := map (shift_mover b) jd.
Let sd' := map (shift_stayer b) sd.
Hypothesis B : clusters_below nc jd.
Hypothesis Bs : stayers_below nc sd.
Hypothesis C : all_linked nc jd.
Hypothesis H : solved spsolve nc jd.
Hypothesis H' : solved spsolve nc jd'.
Let A := Afill spsolve nc false jd.
Let A' := Afill spsolve nc false jd'.

Lemma shift_below : clusters_below nc jd'.
Proof. intros r I. apply in_map_iff in I. destruct I as (r0 & <- & I). apply (B r0 I). Qed.
Lemma shift_linked : all_linked nc jd'.
Proof.
  intros k Hk. assert (L := C k Hk). clear -L. induction L as [|r k I L IH|r k I L IH]; [constructor| |].
  - apply (linked_move jd' (shift_mover b r) k); [apply in_map; auto|exact IH].
  - apply (linked_back jd' (shift_mover b r) k); [apply in_map; auto|exact IH].
Qed.
Lemma shift_ssr x : ssr x jd' = ssr (fun k => x k - b k) jd.
Proof. unfold ssr, jd'. rewrite map_map. apply rsum_map_ext. intros r _.
  unfold shift_mover. cbn [m_y1 m_y2 m_g1 m_g2]. ring. Qed.

Lemma shift_Afill k : (k < nc)%nat -> A' k = A k + b k - b (nc - 1)%nat.
Proof.
  intros Hk. unfold A'.
  rewrite (Afill_unique spsolve nc jd' (fun k => A k + b k)); auto.
  - replace (A (nc - 1)%nat) with 0 by (symmetry; apply Afill_last). ring.
  - apply shift_below.
  - apply shift_linked.
  - rewrite !shift_ssr. apply Rle_trans with (ssr A jd).
    + right. unfold ssr. apply rsum_map_ext. intros r _. ring.
    + apply Afill_minimises; auto.
Qed.

Lemma shift_half r : In r jd -> m_half A' (shift_mover b r) = m_half A r + b (nc - 1)%nat.
Proof.
  intros I. destruct (B r I) as [B1 B2]. unfold m_half, shift_mover. cbn [m_y1 m_y2 m_g1 m_g2].
  rewrite !shift_Afill by auto. field.
Qed.
Lemma shift_rest r : In r sd -> s_rest A' (shift_stayer b r) = s_rest A r + b (nc - 1)%nat.
Proof.
  intros I. unfold s_rest, shift_stayer. cbn [s_y1 s_g1]. rewrite shift_Afill by (apply Bs; auto). ring.
Qed.

Lemma shift_m_mx r : In r jd -> m_mx false A' jd' (shift_mover b r) = m_mx false A jd r + b (nc - 1)%nat.
Proof.
  intros I. unfold m_mx, jd'.
  rewrite (mean_of_map (shift_mover b) _ (fun r' => (m_g1 r' =? m_g1 r) && (m_g2 r' =? m_g2 r))%nat) by reflexivity.
  apply (mean_of_shift _ _ _ _ _ r I).
  - rewrite !Nat.eqb_refl. auto.
  - intros y J. apply shift_half. auto.
Qed.
Lemma shift_s_mx r : In r sd -> s_mx false A' sd' (shift_stayer b r) = s_mx false A sd r + b (nc - 1)%nat.
Proof.
  intros I. unfold s_mx, sd'.
  rewrite (mean_of_map (shift_stayer b) _ (fun r' => s_g1 r' =? s_g1 r)%nat) by reflexivity.
  apply (mean_of_shift _ _ _ _ _ r I).
  - rewrite Nat.eqb_refl. auto.
  - intros y J. apply shift_rest. auto.
Qed.

Lemma shift_net_movers : net_movers false A' jd' = net_movers false A jd.
Proof.
  unfold net_movers. unfold jd' at 3. rewrite map_map. apply map_ext_in. intros r I. destruct (B r I).
  rewrite shift_m_mx by auto. unfold shift_mover. cbn [m_y1 m_y2 m_g1 m_g2 m_j1 m_j2].
  rewrite !shift_Afill by auto. f_equal; ring.
Qed.
Lemma shift_net_stayers : net_stayers false A' sd' = net_stayers false A sd.
Proof.
  unfold net_stayers. unfold sd' at 2. rewrite map_map. apply map_ext_in. intros r I.
  rewrite shift_s_mx by auto. unfold shift_stayer. cbn [s_y1 s_g1 s_j1].
  rewrite shift_Afill by (apply Bs; auto). f_equal; ring.
Qed.
End Shift.

(* Totals *)
Lemma average_shift {X} (f g : X -> R) c l : l <> [] -> (forall x, In x l -> g x = f x + c) ->
  average g l = average f l + c.
Proof.
  intros N E. unfold average. rewrite (rsum_map_ext g (fun x => f x + c) l E), rsum_map_plus, rsum_map_const.
  field. apply not_0_INR. destruct l; [congruence|cbn; lia].
Qed.
Lemma sample_cov_shift {X} (f g f' g' : X -> R) c d l :
  (forall x, In x l -> f' x = f x + c) -> (forall x, In x l -> g' x = g x + d) ->
  sample_cov f' g' l = sample_cov f g l.
Proof.
  intros E E'. destruct l as [|x0 l0] eqn:L; [reflexivity|]. rewrite <- L in *.
  assert (l <> []) by congruence.
  unfold sample_cov. rewrite (average_shift f f' c l), (average_shift g g' d l) by auto. f_equal.
  apply rsum_map_ext. intros x I. rewrite E, E' by auto. ring.
Qed.

Lemma fit_tot spsolve nc w jd sd :
  let A := Afill spsolve nc w jd in
  let rows := cross_section sd jd in
  let '(t, pw, mom) := fit spsolve nc w jd sd in
  var_y t = pop_var row_wage rows /\
  var_bw t = sample_cov (fun x => A (row_cluster x)) (fun x => A (row_cluster x)) rows /\
  cov_bw t = sample_cov (fun x => A (row_cluster x))
     (fun x => match x with inl r => s_mx w A sd r | inr r => m_mx w A jd r end) rows.
Proof.
  intros A rows. unfold fit. fold A. unfold collect. cbn [var_y var_bw cov_bw].
  assert (M : forall (f : stayer -> R) (g : mover -> R),
    map f sd ++ map g jd = map (fun x : row => match x with inl r => f r | inr r => g r end) rows).
  { intros f g. unfold rows, cross_section. rewrite map_app, !map_map. auto. }
  rewrite !M. unfold var1. split; [|split].
  - change (fun x : row => match x with inl r => s_y1 r | inr r => m_y1 r end) with row_wage.
    unfold var0, pop_var, mean, average. rewrite map_map, !map_length. f_equal.
    apply rsum_map_ext. intros x _. generalize (rsum (map row_wage rows) / INR (length rows)). intros. ring.
  - change (cov1 (map ?f rows) (map ?g rows)) with (qcov f g rows). rewrite qcov_sample.
    apply sample_cov_ext; intros [r|r] _; auto.
  - change (cov1 (map ?f rows) (map ?g rows)) with (qcov f g rows). rewrite qcov_sample.
    apply sample_cov_ext; intros [r|r] _; auto.
Qed.

(* Exact wages *)
Lemma sample_cov_zero {X} (f g : X -> R) l : (forall x, In x l -> f x = 0) -> sample_cov f g l = 0.
Proof.
  intros Z. unfold sample_cov. rewrite rsum_zero; [unfold Rdiv; ring|].
  intros x I. unfold average. rewrite (rsum_zero f l Z), (Z x I). unfold Rdiv. ring.
Qed.
Lemma qcov_zero {X} (f g : X -> R) l : (forall x, In x l -> f x = 0) -> qcov f g l = 0.
Proof. intros Z. rewrite qcov_sample. apply sample_cov_zero. auto. Qed.
Lemma var1_zero {X} (f : X -> R) l : (forall x, In x l -> f x = 0) -> var1 (map f l) = 0.
Proof. intros Z. apply (qcov_zero f f l Z). Qed.

Lemma filter_in_l {X} (sel : X -> bool) l (P : X -> Prop) : (forall x, In x l -> P x) -> forall x, In x (filter sel l) -> P x.
Proof. intros H x I. apply filter_In in I. apply H. tauto. Qed.

Lemma moments_zero dm ds : (forall r, In r dm -> m_y1 r = 0) -> (forall r, In r dm -> m_y2 r = 0) ->
  (forall r, In r ds -> s_y1 r = 0) ->
  within_moments dm ds = mkmom 0 0 0 0 0 0 0 0 0 0 0 0 0 0 0 0.
Proof.
  intros Z1 Z2 Zs. assert (Zm : forall r, In r (merged dm ds) -> s_y1 r = 0) by (apply filter_in_l; auto).
  unfold within_moments.
  assert (Q : forall X (f g : X -> R) sel l, (forall x, In x l -> f x = 0) -> qcov f g (filter sel l) = 0)
    by (intros; apply qcov_zero, filter_in_l; auto).
  rewrite !Q by auto. rewrite !var1_zero; auto.
  intros x I. apply filter_In in I. rewrite Z1, Z2 by tauto. ring.
Qed.

Lemma mean_of_const {X} (sel : X -> bool) (f : X -> R) c l x : In x l -> sel x = true ->
  (forall y, In y l -> sel y = true -> f y = c) -> mean_of sel f l = c.
Proof.
  intros I S H. assert (P := count_pos sel l x I S). unfold mean_of.
  rewrite (rsum_map_ext f (fun _ => c)).
  - rewrite rsum_map_const. fold (count_of sel l). field. lra.
  - intros y J. apply filter_In in J. apply H; tauto.
Qed.

Section Exact.
Variable spsolve : nat -> (nat -> nat -> R) -> (nat -> R) -> nat -> R.
Variables (a : nat -> R) (c : nat -> nat -> R) (d : nat -> R) (nc : nat) (jd : list mover) (sd : list stayer).
Hypothesis B : clusters_below nc jd.
Hypothesis Bs : stayers_below nc sd.
Hypothesis C : all_linked nc jd.
Hypothesis H : solved spsolve nc jd.
Hypothesis X : exact_wages a c d jd sd.
Let A := Afill spsolve nc false jd.

Lemma exact_Afill k : (k < nc)%nat -> A k = a k - a (nc - 1)%nat.
Proof.
  apply Afill_recovery; auto. intros r I. destruct (proj1 X r I) as [-> ->]. ring.
Qed.
Lemma exact_m_mx r : In r jd -> m_mx false A jd r = c (m_g1 r) (m_g2 r) + a (nc - 1)%nat.
Proof.
  intros I. unfold m_mx. apply (mean_of_const _ _ _ _ r I).
  - rewrite !Nat.eqb_refl. auto.
  - intros y J S. apply andb_true_iff in S. destruct S as [S1 S2]. apply Nat.eqb_eq in S1. apply Nat.eqb_eq in S2.
    destruct (B y J). unfold m_half. rewrite !exact_Afill by auto. destruct (proj1 X y J) as [-> ->].
    rewrite S1, S2. field.
Qed.
Lemma exact_s_mx r : In r sd -> s_mx false A sd r = d (s_g1 r) + a (nc - 1)%nat.
Proof.
  intros I. unfold s_mx. apply (mean_of_const _ _ _ _ r I).
  - rewrite !Nat.eqb_refl. auto.
  - intros y J S. apply Nat.eqb_eq in S. unfold s_rest. rewrite exact_Afill by (apply Bs; auto).
    rewrite (proj2 X y J), S. ring.
Qed.

Lemma exact_moments :
  within_moments (net_movers false A jd) (net_stayers false A sd) = mkmom 0 0 0 0 0 0 0 0 0 0 0 0 0 0 0 0.
Proof.
  apply moments_zero.
  - intros r I. apply in_map_iff in I. destruct I as (r0 & <- & I). cbn [m_y1]. destruct (B r0 I).
    rewrite exact_m_mx, exact_Afill, (proj1 (proj1 X r0 I)) by auto. ring.
  - intros r I. apply in_map_iff in I. destruct I as (r0 & <- & I). cbn [m_y2]. destruct (B r0 I).
    rewrite exact_m_mx, exact_Afill, (proj2 (proj1 X r0 I)) by auto. ring.
  - intros r I. apply in_map_iff in I. destruct I as (r0 & <- & I). cbn [s_y1].
    rewrite exact_s_mx, exact_Afill, (proj2 X r0 I) by auto. ring.
Qed.

Lemma exact_totals :
  let rows := cross_section sd jd in
  let t := fst (fst (fit spsolve nc false jd sd)) in
  tot_var t = sample_cov (fun x => a (row_cluster x)) (fun x => a (row_cluster x)) rows /\
  tot_cov t = sample_cov (fun x => a (row_cluster x)) (row_worker c d) rows /\
  var_wt t = 0 /\ cov_wt t = 0 /\
  var_y t = pop_var row_wage rows.
Proof.
  intros rows t. assert (F := fit_tot spsolve nc false jd sd). cbn zeta in F. fold A rows in F.
  destruct (fit spsolve nc false jd sd) as [[t0 pw] mom] eqn:E. subst t. cbn [fst].
  destruct F as (F1 & F2 & F3).
  assert (Rb : forall x, In x rows -> (row_cluster x < nc)%nat).
  { intros x I. apply in_app_or in I. destruct I as [I|I]; apply in_map_iff in I; destruct I as (r & <- & I).
    - apply (Bs r I).
    - apply (B r I). }
  assert (T : tot_var t0 = var_bw t0 + var_wt t0 /\ tot_cov t0 = cov_bw t0 + cov_wt t0 /\ var_wt t0 = 0 /\ cov_wt t0 = 0).
  { unfold fit in E. fold A in E. rewrite exact_moments in E. injection E as E _ _. rewrite <- E.
    unfold collect, within_params. cbn. repeat split; unfold Rdiv; ring. }
  destruct T as (T1 & T2 & T3 & T4). rewrite T1, T2, T3, T4, F1, F2, F3. repeat split; auto.
  - rewrite Rplus_0_r. apply (sample_cov_shift _ _ _ _ (- a (nc - 1)%nat) (- a (nc - 1)%nat));
      intros x I; rewrite exact_Afill by auto; ring.
  - rewrite Rplus_0_r. apply (sample_cov_shift _ _ _ _ (- a (nc - 1)%nat) (a (nc - 1)%nat)).
    + intros x I. rewrite exact_Afill by auto. ring.
    + intros x I. apply in_app_or in I. destruct I as [I|I]; apply in_map_iff in I; destruct I as (r & <- & I); cbn [row_worker].
      * apply exact_s_mx. auto.
      * apply exact_m_mx. auto.
Qed.
End Exact.

Lemma pop_var_sample {X} (f : X -> R) l : (2 <= length l)%nat ->
  pop_var f l = (INR (length l) - 1) / INR (length l) * sample_cov f f l.
Proof.
  intros L. unfold pop_var, sample_cov.
  rewrite (rsum_map_ext _ (fun r => (f r - average f l) * (f r - average f l))) by (intros; ring).
  assert (2 <= INR (length l)) by (change 2 with (INR 2); apply le_INR; auto).
  field. lra.
Qed.

(* Covariances *)
Section Cov.
Variable P : space.
Lemma expect_add X Y : expect P (add X Y) = expect P X + expect P Y.
Proof. unfold expect, add. rewrite <- sumn_plus. apply sumn_ext. intros; ring. Qed.
Lemma cov_sym X Y : cov P X Y = cov P Y X.
Proof. unfold cov. rewrite (Rmult_comm (expect P X)). f_equal. unfold expect. apply sumn_ext. intros; ring. Qed.
Lemma cov_add_l X Y Z : cov P (add X Y) Z = cov P X Z + cov P Y Z.
Proof.
  unfold cov. rewrite expect_add.
  assert (E : expect P (fun i => add X Y i * Z i) = expect P (fun i => X i * Z i) + expect P (fun i => Y i * Z i)).
  { rewrite <- expect_add. unfold expect, add. apply sumn_ext. intros; ring. }
  rewrite E. ring.
Qed.
Lemma cov_add_r X Y Z : cov P X (add Y Z) = cov P X Y + cov P X Z.
Proof. rewrite cov_sym, cov_add_l, (cov_sym Y), (cov_sym Z). auto. Qed.
Lemma expect_sub X Y : expect P (sub X Y) = expect P X - expect P Y.
Proof. unfold expect, sub. rewrite <- sumn_minus. apply sumn_ext. intros; ring. Qed.
Lemma cov_sub_l X Y Z : cov P (sub X Y) Z = cov P X Z - cov P Y Z.
Proof.
  unfold cov. rewrite expect_sub.
  assert (E : expect P (fun i => sub X Y i * Z i) = expect P (fun i => X i * Z i) - expect P (fun i => Y i * Z i)).
  { rewrite <- expect_sub. unfold expect, sub. apply sumn_ext. intros; ring. }
  rewrite E. ring.
Qed.
Lemma cov_sub_r X Y Z : cov P X (sub Y Z) = cov P X Y - cov P X Z.
Proof. rewrite cov_sym, cov_sub_l, (cov_sym Y), (cov_sym Z). auto. Qed.
Lemma cov_nonneg X : 0 <= cov P X X.
Proof.
  assert (E : cov P X X = expect P (fun i => (X i - expect P X) ^ 2)).
  { unfold cov. set (m := expect P X).
    assert (expect P (fun i => (X i - m) ^ 2) = expect P (fun i => X i * X i) - 2 * m * expect P X + m ^ 2 * sumn (sp_n P) (sp_p P)).
    { unfold expect. rewrite <- !sumn_scal, <- sumn_minus, <- sumn_plus. apply sumn_ext. intros; ring. }
    rewrite H, (sp_one P). fold m. ring. }
  rewrite E. apply sumn_nonneg. intros i Hi. apply Rmult_le_pos; [apply sp_nonneg; auto|apply pow2_ge_0].
Qed.

Variable s : story.
Hypothesis I : independent_story P s.
Variable m : moments.
Hypothesis M : population P s m.

Ltac in_list := cbn [app]; solve [repeat first [left; reflexivity | right]].
Lemma within_values :
  let w := within_params m in
  cov_Am1Am1 w = cov P (Am s) (Am' s) /\ cov_Am1Psi1 w = cov P (Am s) (psi s) /\
  var_psi_m1 w = cov P (psi s) (psi s) /\
  cov_Am2Am2 w = cov P (Bm s) (Bm' s) /\ cov_Am2Psi2 w = cov P (Bm s) (psi s) /\
  var_psi_m2 w = cov P (psi s) (psi s) /\
  cov_AsAm1 w = cov P (As s) (Am s) /\ cov_AsAm2 w = cov P (As s) (Bm s) /\
  var_psi w = cov P (psi s) (psi s) /\
  psi_plus_cov1 w = cov P (As s) (psi s) + cov P (psi s) (psi s) /\
  psi_plus_cov2 w = cov P (As s) (psi s) + cov P (psi s) (psi s) /\
  var_eps w = cov P (sub (e2 s) (e1 s)) (sub (e2 s) (e1 s)) /\
  cov_AsPsi1 w = 2 * cov P (As s) (psi s) + cov P (psi s) (psi s) /\
  cov_AsAs w = cov P (As s) (As' s) - 2 * cov P (As s) (psi s) - 2 * cov P (psi s) (psi s).
Proof.
  destruct I as (Ies & Ies' & Ito & Ito' & Ifr & Ifr' & Es & Em & Eb & Et & Ite & Ipe).
  destruct M as (M1 & M2 & M3 & M4 & M5 & M6 & M7 & M8 & M9 & M10 & M11 & M12).
  assert (Z1 : forall X Y, In X [to s; e1 s; e2 s] -> In Y (leaver_vars' s ++ stayer_vars s) -> cov P X Y = 0 /\ cov P Y X = 0)
    by (intros X Y JX JY; apply (Ito X JX Y JY)).
  assert (Z2 : forall X Y, In X [to' s; e1' s; e2' s] -> In Y (leaver_vars s) -> cov P X Y = 0 /\ cov P Y X = 0)
    by (intros X Y JX JY; apply (Ito' X JX Y JY)).
  assert (Z3 : forall X Y, In X [from s; f1 s; f2 s] -> In Y (joiner_vars' s ++ stayer_vars s) -> cov P X Y = 0 /\ cov P Y X = 0)
    by (intros X Y JX JY; apply (Ifr X JX Y JY)).
  assert (Z4 : forall X Y, In X [from' s; f1' s; f2' s] -> In Y (joiner_vars s) -> cov P X Y = 0 /\ cov P Y X = 0)
    by (intros X Y JX JY; apply (Ifr' X JX Y JY)).
  assert (Z5 : forall X Y, In X [es s] -> In Y (stayer_vars' s ++ leaver_vars s ++ joiner_vars s) -> cov P X Y = 0 /\ cov P Y X = 0)
    by (intros X Y [<-|[]] JY; apply (Ies Y JY)).
  assert (Z6 : forall X Y, In X [es' s] -> In Y (stayer_vars s) -> cov P X Y = 0 /\ cov P Y X = 0)
    by (intros X Y [<-|[]] JY; apply (Ies' Y JY)).
  assert (Z7 : forall X Y, In X [to s] -> In Y [e1 s; e2 s] -> cov P X Y = 0 /\ cov P Y X = 0)
    by (intros X Y [<-|[]] JY; apply (Ite Y JY)).
  assert (Z8 : forall X Y, In X [psi s] -> In Y [e1 s; e2 s] -> cov P X Y = 0 /\ cov P Y X = 0)
    by (intros X Y [<-|[]] JY; apply (Ipe Y JY)).
  clear I M Ies Ies' Ito Ito' Ifr Ifr' Ite Ipe.
  unfold leaver_vars, leaver_vars', joiner_vars, joiner_vars', stayer_vars, stayer_vars' in *.
  unfold w_s, w_s', w1_leaver, w2_leaver, w1_leaver', w2_leaver', w1_joiner, w2_joiner, w1_joiner', w2_joiner' in *.
  rewrite ?cov_sub_l, ?cov_sub_r, ?cov_add_l, ?cov_add_r in *.
  Ltac kill Z1 H := repeat match type of H with context [cov _ ?X ?Y] =>
    first [ rewrite (proj1 (Z1 X Y ltac:(in_list) ltac:(in_list))) in H
          | rewrite (proj2 (Z1 Y X ltac:(in_list) ltac:(in_list))) in H ] end.
  Ltac kills Z1 Z2 Z3 Z4 Z5 Z6 Z7 Z8 H :=
    kill Z1 H; kill Z2 H; kill Z3 H; kill Z4 H; kill Z5 H; kill Z6 H; kill Z7 H; kill Z8 H.
  kills Z1 Z2 Z3 Z4 Z5 Z6 Z7 Z8 M1. kills Z1 Z2 Z3 Z4 Z5 Z6 Z7 Z8 M2. kills Z1 Z2 Z3 Z4 Z5 Z6 Z7 Z8 M3.
  kills Z1 Z2 Z3 Z4 Z5 Z6 Z7 Z8 M4. kills Z1 Z2 Z3 Z4 Z5 Z6 Z7 Z8 M5. kills Z1 Z2 Z3 Z4 Z5 Z6 Z7 Z8 M6.
  kills Z1 Z2 Z3 Z4 Z5 Z6 Z7 Z8 M7. kills Z1 Z2 Z3 Z4 Z5 Z6 Z7 Z8 M8. kills Z1 Z2 Z3 Z4 Z5 Z6 Z7 Z8 M9.
  kills Z1 Z2 Z3 Z4 Z5 Z6 Z7 Z8 M10. kills Z1 Z2 Z3 Z4 Z5 Z6 Z7 Z8 M11. kills Z1 Z2 Z3 Z4 Z5 Z6 Z7 Z8 M12.
  rewrite ?(cov_sym (psi s) (Am s)), ?(cov_sym (psi s) (Am' s)), ?(cov_sym (psi s) (Bm s)), ?(cov_sym (psi s) (Bm' s)),
    ?(cov_sym (psi s) (As s)), ?(cov_sym (psi s) (As' s)) in *.
  assert (N := cov_nonneg (sub (e2 s) (e1 s))). rewrite !cov_sub_l, !cov_sub_r in N.
  unfold within_params. cbn -[Rmax]. rewrite M1, M2, M3, M4, M5, M6, M7, M8, M9, M10, M11, M12.
  repeat match goal with |- _ /\ _ => split end; try lra.
  rewrite Rmax_right; lra.
Qed.
End Cov.

(* The prior means *)
Lemma NoDup_app_snoc {X} (l : list X) x : NoDup l -> ~ In x l -> NoDup (l ++ [x]).
Proof.
  intros N H. apply (Permutation_NoDup (l := x :: l)); [|constructor; auto]. apply Permutation_cons_append.
Qed.
Lemma drop_dup_gen l acc : NoDup acc ->
  let out := fold_left (fun acc p => if existsb (fun q => (fst q =? fst p) && (snd q =? snd p))%nat acc then acc
                          else acc ++ [p]) l acc in
  NoDup out /\ forall p, In p out <-> In p acc \/ In p l.
Proof.
  revert acc. induction l as [|p l IH]; intros acc N; cbn [fold_left].
  - split; auto. intros q. cbn. tauto.
  - assert (E : existsb (fun q => (fst q =? fst p) && (snd q =? snd p))%nat acc = true <-> In p acc).
    { rewrite existsb_exists. split.
      - intros (q & J & K). apply andb_true_iff in K. destruct K as [K1 K2].
        apply Nat.eqb_eq in K1. apply Nat.eqb_eq in K2. destruct p, q. cbn in *. subst. auto.
      - intros J. exists p. rewrite !Nat.eqb_refl. auto. }
    destruct (existsb _ acc) eqn:D.
    + destruct (IH acc N) as [N' K]. split; auto. intros q. rewrite K. cbn.
      assert (In p acc) by tauto. intuition congruence.
    + assert (~ In p acc) by (intros J; apply E in J; congruence).
      destruct (IH (acc ++ [p])) as [N' K].
      { apply NoDup_app_snoc; auto. }
      split; auto. intros q. rewrite K, in_app_iff. cbn. tauto.
Qed.

Lemma NoDup_all_eq {X} (x : X) l : NoDup l -> In x l -> (forall y, In y l -> y = x) -> l = [x].
Proof.
  intros N I E. destruct l as [|y [|z l]].
  - destruct I.
  - rewrite (E y (or_introl eq_refl)). auto.
  - exfalso. inversion N; subst. apply H1. left.
    rewrite (E y (or_introl eq_refl)), (E z (or_intror (or_introl eq_refl))). auto.
Qed.

Lemma pairs_in jd p : In p (pairs jd) <-> exists r, In r jd /\ (p = (m_j1 r, m_g1 r) \/ p = (m_j2 r, m_g2 r)).
Proof.
  unfold pairs, drop_duplicates. rewrite (proj2 (drop_dup_gen _ [] (NoDup_nil _)) p). cbn [In].
  rewrite in_app_iff, !in_map_iff. split.
  - intros [[]|[(r & E & J)|(r & E & J)]]; exists r; auto.
  - intros (r & J & [E|E]); right; [left|right]; exists r; auto.
Qed.

Lemma Mud_spec A cl jd j : firm_cluster cl jd -> (exists r, In r jd /\ (m_j1 r = j \/ m_j2 r = j)) ->
  Mud A jd j = A (cl j).
Proof.
  intros F (r & J & K). unfold Mud.
  rewrite (NoDup_all_eq (j, cl j) (filter (fun p => fst p =? j)%nat (pairs jd))).
  - cbn. ring.
  - apply NoDup_filter. apply (proj1 (drop_dup_gen _ [] (NoDup_nil _))).
  - apply filter_In. cbn. rewrite Nat.eqb_refl. split; auto. apply pairs_in. exists r. split; auto.
    destruct (F r J) as [F1 F2]. destruct K as [<-|<-]; rewrite ?F1, ?F2; auto.
  - intros [x y] L. apply filter_In in L. destruct L as [L E]. cbn in E. apply Nat.eqb_eq in E. subst x.
    apply pairs_in in L. destruct L as (r' & J' & [E|E]); injection E as E1 E2; destruct (F r' J') as [F1 F2]; subst; congruence.
Qed.

Lemma Mud_absent A jd j : (forall r, In r jd -> m_j1 r <> j /\ m_j2 r <> j) -> Mud A jd j = 0.
Proof.
  intros N. unfold Mud. replace (filter _ _) with (@nil (nat * nat)); auto.
  destruct (filter (fun p => fst p =? j)%nat (pairs jd)) as [|p l] eqn:E; auto. exfalso.
  assert (L : In p (p :: l)) by (left; auto). rewrite <- E in L. apply filter_In in L. destruct L as [L K].
  apply Nat.eqb_eq in K. apply pairs_in in L. destruct L as (r & J & [->| ->]); destruct (N r J); cbn in K; congruence.
Qed.
