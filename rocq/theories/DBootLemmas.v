(* Lemmas about the bootstrap of the dynamic model. *)
From Coq Require Import Lra Lia ZifyNat.
From Verif Require Import Base BaseLemmas UtilModel UtilSpec BLMModel BLMSpec BLMSortLemmas BLMRealModel
  BootModel BootSpec BootLemmas DBLMModel DBLMSpec DBootModel DBootSpec.
Local Open Scope R_scope.

(* ---- wages ---- *)
Lemma mover_wages_ok p l k1 k2 z : mover_shocks p l k1 k2 (mover_wages p l k1 k2 z) z.
Proof.
  unfold mover_shocks, row_of, mover_wages, mean1, mean2, mean3, mean4, dvar1, dvar2, dvar3, dvar4, sq, sqb.
  cbn [at1 at2 at3 at4 dy1 dy2 dy3 dy4 dg1 dg4]. unfold mean2, dvar2.
  cbn [at1 at2 at3 at4 dy1 dy2 dy3 dy4 dg1 dg4]. repeat split; ring.
Qed.
Lemma stayer_wages_ok p l k z : 0 <= dS p T2s l k -> stayer_shocks p l k (stayer_wages p l k z) z.
Proof.
  intros H.
  unfold stayer_shocks, row_of, stayer_wages, smean1, smean3, smean4, svar1, svar3, svar4, sq.
  cbn [at1 at2 at3 at4 dy1 dy2 dy3 dy4 dg1 dg4].
  replace (sqrt (dS p T2s l k ^ 2)) with (dS p T2s l k) by (symmetry; apply sqrt_pow2; exact H).
  repeat split; ring.
Qed.

(* The wages determine the shocks and the shocks the wages. *)
Lemma mover_shocks_wages p l k1 k2 y z : mover_shocks p l k1 k2 y z -> y = mover_wages p l k1 k2 z.
Proof.
  unfold mover_shocks, row_of, mover_wages, mean1, mean2, mean3, mean4, dvar1, dvar2, dvar3, dvar4, sq, sqb.
  cbn [at1 at2 at3 at4 dy1 dy2 dy3 dy4 dg1 dg4]. unfold mean2, dvar2.
  destruct y as [a b c d]. cbn [at1 at2 at3 at4 dy1 dy2 dy3 dy4 dg1 dg4]. intros (H1 & H2 & H3 & H4).
  f_equal.
  - rewrite H1 at 1. rewrite H2. ring.
  - exact H2.
  - rewrite H3 at 1. rewrite H2. ring.
  - rewrite H4 at 1. rewrite H3. rewrite H2. ring.
Qed.
Lemma stayer_shocks_wages p l k y z : 0 <= dS p T2s l k ->
  stayer_shocks p l k y z -> y = stayer_wages p l k z.
Proof.
  intros H.
  unfold stayer_shocks, row_of, stayer_wages, smean1, smean3, smean4, svar1, svar3, svar4, sq.
  cbn [at1 at2 at3 at4 dy1 dy2 dy3 dy4 dg1 dg4].
  replace (sqrt (dS p T2s l k ^ 2)) with (dS p T2s l k) by (symmetry; apply sqrt_pow2; exact H).
  destruct y as [a b c d]. cbn [at1 at2 at3 at4 dy1 dy2 dy3 dy4 dg1 dg4]. intros (H1 & H2 & H3 & H4).
  f_equal.
  - rewrite H1 at 1. rewrite H2. ring.
  - exact H2.
  - rewrite H3 at 1. rewrite H2. ring.
  - rewrite H4 at 1. rewrite H3. rewrite H2. ring.
Qed.

Lemma density_scale m s z : 0 < s -> normal_density (m + s * z) m s * s = normal_density z 0 1.
Proof.
  intros H. unfold normal_density.
  replace (- (m + s * z - m) ^ 2 / (2 * s ^ 2)) with (- (z - 0) ^ 2 / (2 * 1 ^ 2)) by (field; lra).
  assert (sqrt (2 * PI) <> 0).
  { apply Rgt_not_eq, sqrt_lt_R0. pose proof PI_RGT_0. lra. }
  field. split; lra.
Qed.

(* Change of variables. *)
Lemma mover_change p l k1 k2 y z :
  let o := row_of y k1 k2 in
  let s1 := sqrt (dvar1 p (sq (dS p)) o l) in
  let s2 := sqrt (dvar2 (sq (dS p)) (sqb (dSb p)) o l) in
  let s3 := sqrt (dvar3 p (sq (dS p)) (sqb (dSb p)) o l) in
  let s4 := sqrt (dvar4 p (sq (dS p)) o l) in
  0 < s1 -> 0 < s2 -> 0 < s3 -> 0 < s4 ->
  mover_shocks p l k1 k2 y z ->
  dmover_density p o l * (s1 * s2 * s3 * s4) = shock_density z.
Proof.
  intros o s1 s2 s3 s4 P1 P2 P3 P4 (H1 & H2 & H3 & H4). fold o in H1, H2, H3, H4.
  fold s1 in H1. fold s2 in H2. fold s3 in H3. fold s4 in H4.
  unfold dmover_density, shock_density. fold s1 s2 s3 s4.
  change (dy1 o) with (at1 y). change (dy2 o) with (at2 y).
  change (dy3 o) with (at3 y). change (dy4 o) with (at4 y).
  rewrite <- (density_scale (mean1 p (dA p) o l) s1) by exact P1.
  rewrite <- (density_scale (mean2 (dA p) (dAb p) o l) s2) by exact P2.
  rewrite <- (density_scale (mean3 p (dA p) (dAb p) o l) s3) by exact P3.
  rewrite <- (density_scale (mean4 p (dA p) o l) s4) by exact P4.
  rewrite <- H1, <- H2, <- H3, <- H4. ring.
Qed.
Lemma stayer_change p l k y z :
  let o := row_of y k k in
  let s1 := sqrt (svar1 p o l) in
  let s2 := dS p T2s l k in
  let s3 := sqrt (svar3 p (sq (dS p)) o l) in
  let s4 := sqrt (svar4 p o l) in
  0 < s1 -> 0 < s2 -> 0 < s3 -> 0 < s4 ->
  stayer_shocks p l k y z ->
  dstayer_density p o l * (s1 * s2 * s3 * s4) = shock_density z.
Proof.
  intros o s1 s2 s3 s4 P1 P2 P3 P4 (H1 & H2 & H3 & H4). fold o in H1, H2, H3, H4.
  fold s1 in H1. fold s2 in H2. fold s3 in H3. fold s4 in H4.
  unfold dstayer_density, shock_density. fold s1 s3 s4.
  change (dy1 o) with (at1 y). change (dy2 o) with (at2 y).
  change (dy3 o) with (at3 y). change (dy4 o) with (at4 y). change (dg1 o) with k. fold s2.
  rewrite <- (density_scale (smean1 p o l) s1) by exact P1.
  rewrite <- (density_scale (dA p T2s l k) s2) by exact P2.
  rewrite <- (density_scale (smean3 p (dA p) o l) s3) by exact P3.
  rewrite <- (density_scale (smean4 p o l) s4) by exact P4.
  rewrite <- H1, <- H2, <- H3, <- H4. ring.
Qed.

(* ---- one call of _simulate_types_wages ---- *)
Lemma dsimulate_lengths nl nk p realloc g gj gs yj ys Lm Ls :
  dsimulate nl nk p realloc g gj gs = Ok (yj, ys, Lm, Ls) ->
  length yj = length gj /\ length ys = length gs /\ length Lm = length gj /\ length Ls = length gs.
Proof.
  unfold dsimulate. intros E.
  destruct (match realloc with Some (j, per) => _ | None => _ end) as [[q1 q0]|e]; simpl in E; try discriminate.
  destruct (negb _); try discriminate.
  assert (K : forall {B} (bs : list B) (f : B -> list nat) (v : B -> list nat) L,
    length (fold_left (fun L b => assign L (f b) (v b)) bs L) = length L).
  { induction bs as [|b bs IH]; intros f v L; simpl; auto. rewrite IH. apply assign_length. }
  injection E as <- <- <- <-. unfold ddraw_movers, ddraw_stayers, draw_movers, draw_stayers.
  rewrite (K _ _ (fun kk => where_ (fun q => Nat.eqb (fst q) (fst kk) && Nat.eqb (snd q) (snd kk)) gj)).
  rewrite (K _ _ (fun k => where_ (fun q => Nat.eqb q k) gs)).
  rewrite !map_length, !length_range. auto.
Qed.

Lemma choices_conv nl g : dchoices_ok nl g -> choices_ok nl (choices g).
Proof. intros H. exact H. Qed.

Lemma dsimulate_drawn nl nk p realloc g q1 q0 jd sd yj ys Lm Ls :
  dsimulate nl nk p realloc g (map g14 jd) (map g1_of sd) = Ok (yj, ys, Lm, Ls) ->
  dchoices_ok nl g -> (forall l k, 0 <= dS p T2s l k) ->
  dtype_shares nl nk realloc p q1 q0 ->
  (forall k1 k2, (k1 < nk)%nat -> (k2 < nk)%nat -> prob_row nl (q1 (k1 + nk * k2)%nat)) ->
  (forall k, (k < nk)%nat -> prob_row nl (q0 k)) ->
  ddrawn_from nl nk p q1 q0 g jd sd yj ys Lm Ls.
Proof.
  intros E C Sp T P1 P0.
  destruct (dsimulate_lengths _ _ _ _ _ _ _ _ _ _ _ E) as (L1 & L2 & L3 & L4).
  unfold dsimulate in E.
  assert (ER : match realloc with
               | Some (jointly, per) => reallocate nl nk jointly per (dNNm p) (dNNs p) (dpk1 p) (dpk0 p)
               | None => Ok (dpk1 p, dpk0 p) end = Ok (q1, q0)).
  { unfold dtype_shares in T. destruct realloc as [[j per]|]; auto. destruct T as [-> ->]. reflexivity. }
  rewrite ER in E. cbn [bind] in E. destruct (negb _) eqn:EN; [discriminate|].
  apply negb_false_iff, andb_true_iff in EN. destruct EN as [N1 N2].
  rewrite forallb_forall in N1, N2.
  assert (F1 : Forall (fun q => (fst q < nk)%nat /\ (snd q < nk)%nat) (map g14 jd)).
  { apply Forall_forall. intros q Hq. specialize (N1 q Hq). apply andb_true_iff in N1.
    rewrite !Nat.ltb_lt in N1. exact N1. }
  assert (F2 : Forall (fun k => (k < nk)%nat) (map g1_of sd)).
  { apply Forall_forall. intros q Hq. specialize (N2 q Hq). now apply Nat.ltb_lt. }
  destruct (draw_movers_ok nl nk q1 (choices g) (map g14 jd) (choices_conv _ _ C) P1 F1) as [_ M].
  destruct (draw_stayers_ok nl nk q0 (choices g) (map g1_of sd) (choices_conv _ _ C) P0 F2) as [_ N].
  rewrite !map_length in *.
  injection E as Ey Es Em El. fold (ddraw_movers nk q1 g) in M. fold (ddraw_stayers nk q0 g) in N.
  rewrite Em in M, Ey. rewrite El in N, Es.
  split; [lia|]. split; [lia|]. split; [lia|]. split; [lia|]. split.
  - intros r d y Hr k1 k2 l.
    assert (Q : nth r (map g14 jd) (0, 0)%nat = (k1, k2)).
    { rewrite (nth_map_in g14 jd r d) by lia. reflexivity. }
    specialize (M r Hr). cbv zeta in M. rewrite Q in M. cbn [fst snd] in M. destruct M as [M1 M2].
    split; [exact M1|]. split; [exact M2|].
    rewrite <- Ey. rewrite (nth_map_in _ (range (length jd)) r 0%nat) by (rewrite length_range; lia).
    rewrite nth_range by lia. cbv zeta. rewrite Q. cbn [fst snd]. fold l.
    apply mover_wages_ok.
  - intros r d y Hr k l.
    assert (Q : nth r (map g1_of sd) 0%nat = k).
    { rewrite (nth_map_in g1_of sd r d) by lia. reflexivity. }
    specialize (N r Hr). rewrite Q in N. destruct N as [N1' N2'].
    split; [exact N1'|]. split; [exact N2'|].
    rewrite <- Es. rewrite (nth_map_in _ (range (length sd)) r 0%nat) by (rewrite length_range; lia).
    rewrite nth_range by lia. rewrite Q. fold l. apply stayer_wages_ok. apply Sp.
Qed.

(* ---- columns ---- *)
Lemma map2_get {A B C} (upd : A -> C -> C) (get : C -> B) (h : A -> B) :
  (forall a f, get (upd a f) = h a) -> forall vals jd, length vals = length jd ->
  map get (map2 upd vals jd) = map h vals.
Proof.
  intros H. induction vals as [|a vals IH]; intros [|f jd] L; simpl in *; try lia; auto.
  rewrite H, IH by lia. reflexivity.
Qed.
Lemma map2_keep {A B C} (upd : A -> C -> C) (get : C -> B) :
  (forall a f, get (upd a f) = get f) -> forall vals jd, length vals = length jd ->
  map get (map2 upd vals jd) = map get jd.
Proof.
  intros H. induction vals as [|a vals IH]; intros [|f jd] L; simpl in *; try lia; auto.
  rewrite H, IH by lia. reflexivity.
Qed.
Lemma map_keep {B C} (upd : C -> C) (get : C -> B) :
  (forall f, get (upd f) = get f) -> forall jd, map get (map upd jd) = map get jd.
Proof. intros H jd. rewrite map_map. apply map_ext. exact H. Qed.

Lemma rows_ext (J J' : list erow) :
  worker_ids J' = worker_ids J -> firm_ids J' = firm_ids J -> firm_types J' = firm_types J ->
  ewages J' = ewages J -> J' = J.
Proof.
  revert J. induction J' as [|f J' IH]; intros [|f' J]; simpl; try discriminate; auto.
  intros H1 H2 H3 H4. injection H1 as H1 T1. injection H2 as H2 T2.
  injection H3 as H3 T3. injection H4 as H4 T4. f_equal; auto.
  destruct f, f'. simpl in *. congruence.
Qed.
