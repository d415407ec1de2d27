(* Lemmas about the bootstrap. *)
From Coq Require Import Lra ZifyNat.
From Verif Require Import Base BaseLemmas UtilModel UtilSpec BLMModel BLMEMModel BLMSpec BLMSortLemmas BLMRealModel
  BootModel BootSpec.
Local Open Scope R_scope.

(* ---- drawn types -------------------------------------------------------------- *)

Lemma set_at_length i v l : length (set_at i v l) = length l.
Proof. revert i; induction l as [|x l IH]; intros [|i]; simpl; auto. Qed.
Lemma nth_set_at i v l r : (i < length l)%nat ->
  nth r (set_at i v l) 0%nat = if Nat.eqb r i then v else nth r l 0%nat.
Proof.
  revert i r; induction l as [|x l IH]; intros [|i] [|r] H; simpl in *; try lia; auto.
  apply IH. lia.
Qed.

Lemma assign_length L rows vals : length (assign L rows vals) = length L.
Proof.
  unfold assign. revert L. generalize (combine rows vals) as rv.
  induction rv as [|q rv IH]; intros L; simpl; auto. rewrite IH. apply set_at_length.
Qed.

(* Each row of the block gets one of the values, the others keep theirs. *)
Lemma assign_in rows : forall vals L r (P : nat -> Prop), length vals = length rows -> Forall P vals ->
  (forall i, In i rows -> (i < length L)%nat) -> In r rows -> P (nth r (assign L rows vals) 0%nat).
Proof.
  assert (K : forall rv L r (P : nat -> Prop), (forall q, In q rv -> (fst q < length L)%nat /\ P (snd q)) ->
    In r (map fst rv) \/ P (nth r L 0%nat) ->
    P (nth r (fold_left (fun L rv => set_at (fst rv) (snd rv) L) rv L) 0%nat)).
  { induction rv as [|q rv IH]; intros L r P H D; simpl in *.
    - tauto.
    - destruct (H q (or_introl eq_refl)) as [B V]. apply IH.
      + intros q' Hq'. rewrite set_at_length. apply H. auto.
      + rewrite nth_set_at by auto. destruct (Nat.eqb_spec r (fst q)) as [->|N]; [auto|].
        destruct D as [[D|D]|D]; auto. congruence. }
  intros vals L r P Lv F B I. unfold assign. apply K.
  - intros [i v] Hq. pose proof (in_combine_l _ _ _ _ Hq). pose proof (in_combine_r _ _ _ _ Hq).
    rewrite Forall_forall in F. simpl. auto.
  - left. clear -Lv I. revert vals Lv; induction rows as [|x rows IH]; intros [|v vals] Lv; simpl in *; try lia; auto.
    destruct I as [I|I]; auto.
Qed.
Lemma assign_out rows vals : forall L r, ~ In r rows -> (forall i, In i rows -> (i < length L)%nat) ->
  nth r (assign L rows vals) 0%nat = nth r L 0%nat.
Proof.
  unfold assign. revert vals. induction rows as [|x rows IH]; intros [|v vals] L r N B; simpl; auto.
  rewrite IH.
  - rewrite nth_set_at by (apply B; now left). destruct (Nat.eqb_spec r x); auto. exfalso. apply N. left. auto.
  - intros I. apply N. now right.
  - intros i Hi. rewrite set_at_length. apply B. now right.
Qed.

Lemma in_where {A} (f : A -> bool) (l : list A) d r :
  In r (where_ f l) <-> (r < length l)%nat /\ f (nth r l d) = true.
Proof.
  unfold where_. rewrite in_map_iff. split.
  - intros ([i x] & <- & H). apply filter_In in H. destruct H as [H E]. simpl in *.
    destruct (In_nth _ _ (0%nat, d) H) as (n & Hn & En).
    rewrite combine_length, length_range in Hn.
    rewrite combine_nth in En by apply length_range. rewrite nth_range in En by lia.
    inversion En; subst. split; [lia|auto].
  - intros [H E]. exists (r, nth r l d). split; auto. apply filter_In. split; auto.
    replace (r, nth r l d) with (nth r (combine (range (length l)) l) (0%nat, d)).
    + apply nth_In. rewrite combine_length, length_range. lia.
    + rewrite combine_nth by apply length_range. now rewrite nth_range.
Qed.

(* A loop over blocks: each row is assigned by the block it is in. *)
Lemma blocks_typed {B A} (blocks : list B) (sel : B -> A -> bool) (vals : B -> nat -> list nat)
    (P : A -> nat -> Prop) (data : list A) (d : A) :
  (forall b, In b blocks -> length (vals b (length (where_ (sel b) data))) = length (where_ (sel b) data) /\
     forall x, sel b x = true -> Forall (P x) (vals b (length (where_ (sel b) data)))) ->
  forall L, length L = length data ->
  let out := fold_left (fun L b => assign L (where_ (sel b) data) (vals b (length (where_ (sel b) data)))) blocks L in
  length out = length data /\
  forall r, (r < length data)%nat ->
    ((exists b, In b blocks /\ sel b (nth r data d) = true) \/ P (nth r data d) (nth r L 0%nat)) ->
    P (nth r data d) (nth r out 0%nat).
Proof.
  induction blocks as [|b blocks IH]; intros H L HL; simpl.
  - split; auto. intros r Hr [(b & [] & _)|Q]; auto.
  - destruct (IH (fun b' Hb' => H b' (or_intror Hb'))
      (assign L (where_ (sel b) data) (vals b (length (where_ (sel b) data))))) as [IL IP].
    { now rewrite assign_length. }
    split; auto. intros r Hr D. apply IP; auto.
    assert (Bd : forall i, In i (where_ (sel b) data) -> (i < length L)%nat).
    { intros i Hi. apply (in_where _ _ d) in Hi. lia. }
    destruct (sel b (nth r data d)) eqn:E.
    + right. destruct (H b (or_introl eq_refl)) as [Lv F].
      apply assign_in; auto. apply (in_where _ _ d). auto.
    + destruct D as [(b' & [->|Hb'] & Eb')|Q].
      * congruence.
      * left. eauto.
      * right. rewrite assign_out; auto. intros I. apply (in_where _ _ d) in I. destruct I. congruence.
Qed.

Lemma draw_movers_ok nl nk pk1 g gj : choices_ok nl g ->
  (forall k1 k2, (k1 < nk)%nat -> (k2 < nk)%nat -> prob_row nl (pk1 (k1 + nk * k2)%nat)) ->
  Forall (fun q => (fst q < nk)%nat /\ (snd q < nk)%nat) gj ->
  length (draw_movers nk pk1 g gj) = length gj /\
  forall r, (r < length gj)%nat ->
    let q := nth r gj (0, 0)%nat in
    (nth r (draw_movers nk pk1 g gj) 0 < nl)%nat /\
    0 < pk1 (fst q + nk * snd q)%nat (nth r (draw_movers nk pk1 g gj) 0%nat).
Proof.
  intros [C _] Pr F. unfold draw_movers.
  destruct (blocks_typed (list_prod (range nk) (range nk))
    (fun kk (q : nat * nat) => Nat.eqb (fst q) (fst kk) && Nat.eqb (snd q) (snd kk))
    (fun kk n => ch_m g (fst kk) (snd kk) (draw_row nk pk1 (fst kk) (snd kk)) n)
    (fun q l => (l < nl)%nat /\ 0 < pk1 (fst q + nk * snd q)%nat l) gj (0, 0)%nat) with (L := map (fun _ => 0%nat) gj) as [HL HP].
  - intros [k1 k2] Hk. apply in_prod_iff in Hk. unfold range in Hk. rewrite !in_seq in Hk. simpl.
    destruct (C k1 k2 (draw_row nk pk1 k1 k2) (length (where_ (fun q => Nat.eqb (fst q) k1 && Nat.eqb (snd q) k2) gj))) as [A B].
    { apply Pr; lia. }
    split; auto. intros q E. apply andb_true_iff in E. rewrite !Nat.eqb_eq in E. destruct E as [-> ->]. exact B.
  - apply map_length.
  - split; auto. intros r Hr. apply HP; auto. left.
    rewrite Forall_forall in F. destruct (F (nth r gj (0, 0)%nat) (nth_In _ _ Hr)) as [F1 F2].
    exists (nth r gj (0, 0)%nat). rewrite !Nat.eqb_refl. split; auto.
    destruct (nth r gj (0, 0)%nat) as [a b]. apply in_prod; unfold range; apply in_seq; simpl in *; lia.
Qed.

Lemma draw_stayers_ok nl nk pk0 g gs : choices_ok nl g ->
  (forall k, (k < nk)%nat -> prob_row nl (pk0 k)) -> Forall (fun k => (k < nk)%nat) gs ->
  length (draw_stayers nk pk0 g gs) = length gs /\
  forall r, (r < length gs)%nat ->
    (nth r (draw_stayers nk pk0 g gs) 0 < nl)%nat /\
    0 < pk0 (nth r gs 0%nat) (nth r (draw_stayers nk pk0 g gs) 0%nat).
Proof.
  intros [_ C] Pr F. unfold draw_stayers.
  destruct (blocks_typed (range nk) (fun k q => Nat.eqb q k) (fun k n => ch_s g k (pk0 k) n)
    (fun k l => (l < nl)%nat /\ 0 < pk0 k l) gs 0%nat) with (L := map (fun _ => 0%nat) gs) as [HL HP].
  - intros k Hk. unfold range in Hk. apply in_seq in Hk.
    destruct (C k (pk0 k) (length (where_ (fun q => Nat.eqb q k) gs))) as [A B]; [apply Pr; lia|].
    split; auto. intros q E. apply Nat.eqb_eq in E. subst. exact B.
  - apply map_length.
  - split; auto. intros r Hr. apply HP; auto. left.
    rewrite Forall_forall in F. pose proof (F _ (nth_In gs 0%nat Hr)) as F1.
    exists (nth r gs 0%nat). rewrite Nat.eqb_refl. split; auto. unfold range. apply in_seq. lia.
Qed.

(* ---- wages ---------------------------------------------------------------------- *)

Lemma fold_cat l (Ac : list catpar) : forall c s,
  fold_left (fun s pn => match fst pn with
                         | Inter m => s + m l (snd pn)
                         | Shared v => s + v (snd pn)
                         end) (combine Ac c) s = s + rsum (map2 (fun c n => cat_at l n c) Ac c).
Proof.
  induction Ac as [|a Ac IH]; intros [|n c] s; simpl; try lra.
  rewrite IH. destruct a; simpl; lra.
Qed.
Lemma fold_cts l (Ax : list ctspar) : forall x s,
  fold_left (fun s px => match fst px with
                         | XInter v => s + v l * snd px
                         | XShared a => s + a * snd px
                         end) (combine Ax x) s = s + rsum (map2 (fun c x => cts_at l x c) Ax x).
Proof.
  induction Ax as [|a Ax IH]; intros [|n x] s; simpl; try lra.
  rewrite IH. destruct a; simpl; lra.
Qed.
Lemma fold_cat2 l (Ac : list catpar) : forall c s,
  fold_left (fun s pn => match fst pn with
                         | Inter m => s + m l (snd pn) ^ 2
                         | Shared v => s + v (snd pn) ^ 2
                         end) (combine Ac c) s = s + rsum (map2 (fun c n => cat_at l n c ^ 2) Ac c).
Proof.
  induction Ac as [|a Ac IH]; intros [|n c] s; cbn [combine fold_left map2 rsum fold_right]; try (simpl; lra).
  rewrite IH. destruct a; cbn [fst snd cat_at]; unfold rsum; simpl; lra.
Qed.
Lemma fold_cts2 l (Ax : list ctspar) : forall s,
  fold_left (fun s p => match p with
                        | XInter v => s + v l ^ 2
                        | XShared a => s + a ^ 2
                        end) Ax s = s + rsum (map (fun c => cts_sd l c ^ 2) Ax).
Proof.
  induction Ax as [|a Ax IH]; intros s; cbn [fold_left map]; [simpl; lra|].
  rewrite IH. destruct a; cbn [cts_sd]; unfold rsum; simpl; lra.
Qed.

Lemma no_controls p : any_controls p = false -> A1_cat p = [] /\ A1_cts p = [].
Proof. unfold any_controls. destruct (A1_cat p), (A1_cts p); auto; discriminate. Qed.

Lemma nil_len {A} (l : list A) : length l = 0%nat -> l = [].
Proof. destruct l; auto; discriminate. Qed.

Lemma wage1_eq p l k o z : shapes_ok p -> (forall l k, 0 <= S1 p l k) ->
  draw_wage1 p l k o z = mu1 p l (retyped k (g2 o) o) + sqrt (var1 p l (retyped k (g2 o) o)) / w1 o * z.
Proof.
  intros Sh Hs. unfold draw_wage1, mu1, var1, cat_sum, a_sum, s_sum_sq. cbn [g1 c1 x1 retyped].
  destruct (any_controls p) eqn:E.
  - now rewrite fold_cts, fold_cat, fold_cts2, fold_cat2.
  - apply no_controls in E. destruct E as [E1 E2], Sh as (L1 & _ & _ & L4 & _).
    rewrite E1 in L1. rewrite E2 in L4. apply nil_len in L1, L4. rewrite E1, E2, L1, L4. simpl.
    replace (S1 p l k * (S1 p l k * 1) + 0 + 0) with (Rsqr (S1 p l k)) by (unfold Rsqr; ring).
    rewrite sqrt_Rsqr by auto. lra.
Qed.
Lemma wage2_eq p l k o z : shapes_ok p -> (forall l k, 0 <= S2 p l k) ->
  draw_wage2 p l k o z = mu2 p l (retyped (g1 o) k o) + sqrt (var2 p l (retyped (g1 o) k o)) / w2 o * z.
Proof.
  intros Sh Hs. unfold draw_wage2, mu2, var2, cat_sum, a_sum, s_sum_sq. cbn [g2 c2 x2 retyped].
  destruct (any_controls p) eqn:E.
  - now rewrite fold_cts, fold_cat, fold_cts2, fold_cat2.
  - apply no_controls in E. destruct E as [E1 E2], Sh as (_ & L1 & L2 & _ & L3 & L4).
    rewrite E1 in L1, L2. rewrite E2 in L3, L4. apply nil_len in L1, L2, L3, L4. rewrite L1, L2, L3, L4. simpl.
    replace (S2 p l k * (S2 p l k * 1) + 0 + 0) with (Rsqr (S2 p l k)) by (unfold Rsqr; ring).
    rewrite sqrt_Rsqr by auto. lra.
Qed.

(* The weighted density is that of a standard deviation divided by the root of the
   weight. *)
Lemma weighted_density m s w : 0 < s -> 0 < w ->
  exists C, 0 < C /\ forall y, Rpower (normal_density y m s) w = C * normal_density y m (s / sqrt w).
Proof.
  intros Hs Hw. assert (Hp : 0 < sqrt (2 * PI)) by (apply sqrt_lt_R0; pose proof PI_RGT_0; lra).
  assert (Hq : 0 < sqrt w) by now apply sqrt_lt_R0.
  assert (Hd : 0 < s / sqrt w) by (apply Rdiv_lt_0_compat; auto).
  exists (Rpower (/ (s * sqrt (2 * PI))) w * (s / sqrt w * sqrt (2 * PI))). split.
  - apply Rmult_lt_0_compat; [apply exp_pos|]. apply Rmult_lt_0_compat; auto.
  - intros y. unfold normal_density.
    assert (Hi : 0 < / (s * sqrt (2 * PI))) by (apply Rinv_0_lt_compat, Rmult_lt_0_compat; auto).
    assert (Ea : Rpower (/ (s * sqrt (2 * PI)) * exp (- (y - m) ^ 2 / (2 * s ^ 2))) w
               = Rpower (/ (s * sqrt (2 * PI))) w * exp (w * (- (y - m) ^ 2 / (2 * s ^ 2)))).
    { unfold Rpower. rewrite ln_mult by (auto; apply exp_pos). rewrite ln_exp.
      rewrite Rmult_plus_distr_l, exp_plus. reflexivity. }
    rewrite Ea.
    replace (- (y - m) ^ 2 / (2 * (s / sqrt w) ^ 2)) with (w * (- (y - m) ^ 2 / (2 * s ^ 2))).
    + field. split; [lra|]. split; lra.
    + replace ((s / sqrt w) ^ 2) with (s ^ 2 / w).
      * field. split; lra.
      * replace ((s / sqrt w) ^ 2) with (s ^ 2 / (sqrt w * sqrt w)) by (field; lra).
        rewrite sqrt_sqrt by lra. reflexivity.
Qed.
