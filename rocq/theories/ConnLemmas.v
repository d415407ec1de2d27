(* Lemmas on the normalised Laplacian of a weighted graph and its eigenvalues. *)
From Coq Require Import Lra Lia Permutation Sorted.
From Verif Require Import Base BaseLemmas BLMModel BLMEMLemmas BLMRealModel BLMRealLemmas BLMRunModel BLMRunSpec
  BLMRunLemmas ConnModel ConnSpec.
Local Open Scope res_scope.
Local Open Scope R_scope.

Lemma sumn_zero_all n f : (forall i, (i < n)%nat -> 0 <= f i) -> sumn n f = 0 ->
  forall i, (i < n)%nat -> f i = 0.
Proof.
  intros P E i Hi.
  assert (Q : sumn n (fun j => if Nat.eqb j i then f i else 0) <= sumn n f).
  { apply sumn_le. intros j Hj. destruct (Nat.eqb_spec j i) as [->|]; [lra|auto]. }
  rewrite (sumn_single n i) in Q by (auto; intros j Hj N; destruct (Nat.eqb_spec j i); congruence || reflexivity).
  rewrite Nat.eqb_refl in Q. specialize (P i Hi). lra.
Qed.

Lemma bounded_search n (P : nat -> Prop) : (forall i, P i \/ ~ P i) ->
  (exists i, (i < n)%nat /\ P i) \/ (forall i, (i < n)%nat -> ~ P i).
Proof.
  intros D. induction n as [|n [(i & Hi & Z)|Z]].
  - right. lia.
  - left. exists i. split; [lia|auto].
  - destruct (D n) as [E|E]; [left; exists n; split; [lia|auto]|].
    right. intros i Hi. destruct (Nat.eq_dec i n) as [->|]; auto. apply Z. lia.
Qed.

Section Graph.
Variable nk : nat.
Variable W : mat.
Hypothesis W_pos : forall a b, (a < nk)%nat -> (b < nk)%nat -> 0 <= W a b.
Hypothesis W_sym : forall a b, (a < nk)%nat -> (b < nk)%nat -> W a b = W b a.
Hypothesis deg_pos : forall a, (a < nk)%nat -> 0 < degree nk W a.
Notation d := (degree nk W).
Notation L := (laplacian nk W).

Lemma root_pos a : (a < nk)%nat -> 0 < sqrt (d a).
Proof. intros H. apply sqrt_lt_R0. auto. Qed.
Lemma root_sq a : (a < nk)%nat -> sqrt (d a) * sqrt (d a) = d a.
Proof. intros H. apply sqrt_sqrt. specialize (deg_pos a H). lra. Qed.

Lemma L_sym a b : (a < nk)%nat -> (b < nk)%nat -> L a b = L b a.
Proof.
  intros Ha Hb. unfold laplacian. rewrite (W_sym a b Ha Hb), (Nat.eqb_sym a b).
  destruct (Nat.eqb b a); ring.
Qed.

Lemma delta_sum n (f : nat -> R) a : (a < n)%nat -> sumn n (fun b => (if Nat.eqb a b then 1 else 0) * f b) = f a.
Proof.
  intros H. rewrite (sumn_single n a); auto.
  - rewrite Nat.eqb_refl. ring.
  - intros j Hj N. destruct (Nat.eqb_spec a j); [congruence|ring].
Qed.

(* L x, with x = D^(1/2) u *)
Lemma L_apply u a : (a < nk)%nat ->
  sumn nk (fun b => L a b * (sqrt (d b) * u b)) = sqrt (d a) * u a - / sqrt (d a) * sumn nk (fun b => W a b * u b).
Proof.
  intros Ha. unfold laplacian.
  rewrite (sumn_ext nk _ (fun b => (if Nat.eqb a b then 1 else 0) * (sqrt (d b) * u b)
              - / sqrt (d a) * (W a b * u b))).
  - rewrite sumn_minus, sumn_scal, (delta_sum nk (fun b => sqrt (d b) * u b)) by auto. reflexivity.
  - intros b Hb. pose proof (root_pos b Hb). pose proof (root_pos a Ha). field. split; lra.
Qed.

(* The quadratic form, half the weighted sum of squared differences. *)
Lemma quad_form u :
  sumn nk (fun a => sqrt (d a) * u a * sumn nk (fun b => L a b * (sqrt (d b) * u b)))
  = sumn nk (fun a => sumn nk (fun b => W a b * (u a - u b) ^ 2)) / 2.
Proof.
  assert (E1 : sumn nk (fun a => sumn nk (fun b => W a b * u a ^ 2)) = sumn nk (fun a => d a * u a ^ 2)).
  { apply sumn_ext. intros a Ha. rewrite sumn_scal_r. reflexivity. }
  assert (E2 : sumn nk (fun a => sumn nk (fun b => W a b * u b ^ 2)) = sumn nk (fun a => d a * u a ^ 2)).
  { rewrite sumn_swap. rewrite <- E1. apply sumn_ext. intros a Ha. apply sumn_ext. intros b Hb.
    rewrite (W_sym b a); auto. }
  transitivity (sumn nk (fun a => d a * u a ^ 2) - sumn nk (fun a => sumn nk (fun b => W a b * (u a * u b)))).
  - rewrite <- sumn_minus. apply sumn_ext. intros a Ha. rewrite L_apply by auto.
    rewrite (sumn_ext nk (fun b => W a b * (u a * u b)) (fun b => u a * (W a b * u b))) by (intros; ring).
    rewrite sumn_scal. pose proof (root_pos a Ha).
    replace (d a * u a ^ 2) with (sqrt (d a) * sqrt (d a) * u a ^ 2) by (now rewrite root_sq). field. lra.
  - rewrite (sumn_ext nk (fun a => sumn nk (fun b => W a b * (u a - u b) ^ 2))
      (fun a => sumn nk (fun b => W a b * u a ^ 2) + sumn nk (fun b => W a b * u b ^ 2)
                - 2 * sumn nk (fun b => W a b * (u a * u b)))).
    + rewrite sumn_minus, sumn_plus, sumn_scal, E1, E2. lra.
    + intros a Ha. rewrite <- sumn_plus, <- sumn_scal, <- sumn_minus. apply sumn_ext. intros; ring.
Qed.
Lemma quad_form_2 u :
  sumn nk (fun a => sqrt (d a) * u a * sumn nk (fun b => L a b * (sqrt (d b) * u b)))
  = 2 * sumn nk (fun a => d a * u a ^ 2) - sumn nk (fun a => sumn nk (fun b => W a b * (u a + u b) ^ 2)) / 2.
Proof.
  rewrite quad_form.
  assert (E1 : sumn nk (fun a => sumn nk (fun b => W a b * u a ^ 2)) = sumn nk (fun a => d a * u a ^ 2)).
  { apply sumn_ext. intros a Ha. rewrite sumn_scal_r. reflexivity. }
  assert (E2 : sumn nk (fun a => sumn nk (fun b => W a b * u b ^ 2)) = sumn nk (fun a => d a * u a ^ 2)).
  { rewrite sumn_swap. rewrite <- E1. apply sumn_ext. intros a Ha. apply sumn_ext. intros b Hb.
    rewrite (W_sym b a); auto. }
  assert (E3 : sumn nk (fun a => sumn nk (fun b => W a b * (u a - u b) ^ 2))
             + sumn nk (fun a => sumn nk (fun b => W a b * (u a + u b) ^ 2))
             = 2 * (sumn nk (fun a => sumn nk (fun b => W a b * u a ^ 2))
                    + sumn nk (fun a => sumn nk (fun b => W a b * u b ^ 2)))).
  { rewrite <- !sumn_plus, <- sumn_scal. apply sumn_ext. intros a Ha.
    rewrite <- !sumn_plus, <- sumn_scal. apply sumn_ext. intros; ring. }
  rewrite E1, E2 in E3. lra.
Qed.

Section Eigen.
Variable V : mat.
Variable ev : nat -> R.
Hypothesis HV : forall i a, (i < nk)%nat -> (a < nk)%nat -> sumn nk (fun b => L a b * V i b) = ev i * V i a.
Hypothesis Vn : forall i j, (i < nk)%nat -> (j < nk)%nat ->
  sumn nk (fun a => V i a * V j a) = if Nat.eqb i j then 1 else 0.
Hypothesis Vc : forall a b, (a < nk)%nat -> (b < nk)%nat ->
  sumn nk (fun i => V i a * V i b) = if Nat.eqb a b then 1 else 0.

Definition uof (i a : nat) : R := V i a / sqrt (d a).
Lemma uof_ok i a : (a < nk)%nat -> sqrt (d a) * uof i a = V i a.
Proof. intros H. unfold uof. pose proof (root_pos a H). field. lra. Qed.

Lemma ev_form i : (i < nk)%nat ->
  ev i = sumn nk (fun a => sqrt (d a) * uof i a * sumn nk (fun b => L a b * (sqrt (d b) * uof i b))).
Proof.
  intros Hi. rewrite (sumn_ext nk _ (fun a => ev i * (V i a * V i a))).
  - rewrite sumn_scal, Vn by auto. rewrite Nat.eqb_refl. ring.
  - intros a Ha. rewrite uof_ok by auto.
    rewrite (sumn_ext nk _ (fun b => L a b * V i b)) by (intros b Hb; now rewrite uof_ok).
    rewrite HV by auto. ring.
Qed.
Lemma ev_pos i : (i < nk)%nat -> 0 <= ev i.
Proof.
  intros Hi. rewrite ev_form, quad_form by auto.
  assert (0 <= sumn nk (fun a => sumn nk (fun b => W a b * (uof i a - uof i b) ^ 2))); [|lra].
  apply sumn_nonneg. intros a Ha. apply sumn_nonneg. intros b Hb.
  apply Rmult_le_pos; [auto|apply pow2_ge_0].
Qed.
Lemma ev_le2 i : (i < nk)%nat -> ev i <= 2.
Proof.
  intros Hi. rewrite ev_form, quad_form_2 by auto.
  assert (0 <= sumn nk (fun a => sumn nk (fun b => W a b * (uof i a + uof i b) ^ 2))).
  { apply sumn_nonneg. intros a Ha. apply sumn_nonneg. intros b Hb.
    apply Rmult_le_pos; [auto|apply pow2_ge_0]. }
  assert (E : sumn nk (fun a => d a * uof i a ^ 2) = 1).
  { transitivity (sumn nk (fun a => V i a * V i a)).
    - apply sumn_ext. intros a Ha. rewrite <- (uof_ok i a Ha).
      replace (d a * uof i a ^ 2) with (sqrt (d a) * sqrt (d a) * uof i a ^ 2) by (now rewrite root_sq). ring.
    - rewrite Vn, Nat.eqb_refl by auto. reflexivity. }
  lra.
Qed.

(* A null vector takes the same value (after scaling) at both ends of an edge. *)
Lemma null_edge i a b : (i < nk)%nat -> ev i = 0 -> (a < nk)%nat -> (b < nk)%nat -> 0 < W a b ->
  uof i a = uof i b.
Proof.
  intros Hi E Ha Hb Hw. rewrite ev_form, quad_form in E by auto.
  assert (Z : sumn nk (fun a => sumn nk (fun b => W a b * (uof i a - uof i b) ^ 2)) = 0) by lra.
  assert (P : forall a b, (a < nk)%nat -> (b < nk)%nat -> 0 <= W a b * (uof i a - uof i b) ^ 2).
  { intros. apply Rmult_le_pos; [auto|apply pow2_ge_0]. }
  assert (Y : sumn nk (fun b => W a b * (uof i a - uof i b) ^ 2) = 0).
  { apply (sumn_zero_all nk (fun a => sumn nk (fun b => W a b * (uof i a - uof i b) ^ 2))); auto.
    intros j Hj. apply sumn_nonneg. auto. }
  assert (X : W a b * (uof i a - uof i b) ^ 2 = 0).
  { apply (sumn_zero_all nk (fun b => W a b * (uof i a - uof i b) ^ 2)); auto. }
  apply Rmult_integral in X as [X|X]; [lra|].
  assert (uof i a - uof i b = 0); [|lra].
  apply Rsqr_0_uniq. unfold Rsqr. rewrite <- X. ring.
Qed.

(* A graph with two null vectors falls apart. *)
Lemma one_null i j : (0 < nk)%nat -> (i < nk)%nat -> (j < nk)%nat -> i <> j ->
  ev i = 0 -> ev j = 0 -> falls_apart nk W.
Proof.
  intros H0 Hi Hj N Ei Ej.
  assert (C : forall i, (i < nk)%nat -> ev i = 0 ->
    falls_apart nk W \/ forall a, (a < nk)%nat -> uof i a = uof i 0%nat).
  { clear i j Hi Hj Ei Ej N. intros i Hi Ei.
    destruct (bounded_search nk (fun a => uof i a <> uof i 0%nat)) as [(a & Ha & E)|A].
    { intros a. destruct (Req_EM_T (uof i a) (uof i 0%nat)); tauto. }
    - left. exists (fun b => if Req_EM_T (uof i b) (uof i 0%nat) then true else false).
      split; [exists 0%nat; split; auto; now destruct (Req_EM_T (uof i 0%nat) (uof i 0%nat))|].
      split; [exists a; split; auto; now destruct (Req_EM_T (uof i a) (uof i 0%nat))|].
      intros x y Hx Hy Gx Gy.
      destruct (Req_EM_T (uof i x) (uof i 0%nat)) as [Ex|]; [|discriminate].
      destruct (Req_EM_T (uof i y) (uof i 0%nat)) as [|Ny]; [discriminate|].
      assert (Q : W x y = 0).
      { destruct (Rle_lt_or_eq_dec 0 (W x y) (W_pos x y Hx Hy)) as [P|P]; auto. exfalso. apply Ny.
        rewrite <- Ex. symmetry. apply null_edge; auto. }
      split; auto. rewrite <- W_sym; auto.
    - right. intros a Ha. specialize (A a Ha). destruct (Req_EM_T (uof i a) (uof i 0%nat)); tauto. }
  destruct (C i Hi Ei) as [|Ci]; auto. destruct (C j Hj Ej) as [|Cj]; auto. exfalso. clear C.
  pose proof (Vn i j Hi Hj) as O. destruct (Nat.eqb_spec i j) as [|_]; [auto|].
  assert (F : forall i j, (forall a, (a < nk)%nat -> uof i a = uof i 0%nat) ->
    (forall a, (a < nk)%nat -> uof j a = uof j 0%nat) ->
    sumn nk (fun a => V i a * V j a) = uof i 0%nat * uof j 0%nat * sumn nk d).
  { clear - deg_pos. intros i j Ci Cj. rewrite <- sumn_scal. apply sumn_ext. intros a Ha.
    rewrite <- (uof_ok i a Ha), <- (uof_ok j a Ha), (Ci a Ha), (Cj a Ha).
    replace (uof i 0%nat * uof j 0%nat * d a) with (uof i 0%nat * uof j 0%nat * (sqrt (d a) * sqrt (d a)))
      by (now rewrite root_sq). ring. }
  pose proof (Vn i i Hi Hi) as Ni. rewrite Nat.eqb_refl in Ni.
  pose proof (Vn j j Hj Hj) as Nj. rewrite Nat.eqb_refl in Nj.
  rewrite F in O, Ni, Nj by auto.
  assert (Z : (uof i 0%nat * uof i 0%nat * sumn nk d) * (uof j 0%nat * uof j 0%nat * sumn nk d)
            = (uof i 0%nat * uof j 0%nat * sumn nk d) * (uof i 0%nat * uof j 0%nat * sumn nk d)) by ring.
  rewrite Ni, Nj, O in Z. lra.
Qed.

(* x = sum of its coordinates times the basis *)
Lemma expand x a : (a < nk)%nat ->
  x a = sumn nk (fun i => sumn nk (fun b => V i b * x b) * V i a).
Proof.
  intros Ha. rewrite (sumn_ext nk _ (fun i => sumn nk (fun b => V i b * x b * V i a)))
    by (intros i Hi; now rewrite sumn_scal_r).
  rewrite sumn_swap. rewrite (sumn_ext nk _ (fun b => (if Nat.eqb a b then 1 else 0) * x b)).
  - symmetry. apply (delta_sum nk x a Ha).
  - intros b Hb. rewrite <- (Vc a b Ha Hb), <- sumn_scal_r. apply sumn_ext. intros; ring.
Qed.
(* null vectors are combinations of null vectors of the basis *)
Lemma null_coord x i : (i < nk)%nat ->
  (forall a, (a < nk)%nat -> sumn nk (fun b => L a b * x b) = 0) ->
  ev i <> 0 -> sumn nk (fun b => V i b * x b) = 0.
Proof.
  intros Hi N E.
  assert (Z : ev i * sumn nk (fun b => V i b * x b) = 0).
  { rewrite <- sumn_scal.
    rewrite (sumn_ext nk _ (fun b => sumn nk (fun a => L b a * V i a * x b))).
    - rewrite sumn_swap. apply sumn_zero. intros a Ha.
      rewrite (sumn_ext nk _ (fun b => V i a * (L a b * x b))).
      + rewrite sumn_scal, N by auto. ring.
      + intros b Hb. rewrite (L_sym b a) by auto. ring.
    - intros b Hb. rewrite sumn_scal_r, HV by auto. ring. }
  apply Rmult_integral in Z as [Z|Z]; [contradiction|exact Z].
Qed.

(* A graph in two pieces has two null vectors. *)
Lemma two_null : falls_apart nk W -> exists i j, (i < nk)%nat /\ (j < nk)%nat /\ i <> j /\ ev i = 0 /\ ev j = 0.
Proof.
  intros (G & (a0 & Ha0 & Ga0) & (b0 & Hb0 & Gb0) & Cut).
  set (x := fun a => sqrt (d a) * (if G a then 1 else 0)).
  set (y := fun a => sqrt (d a) * (if G a then 0 else 1)).
  assert (Nx : forall a, (a < nk)%nat -> sumn nk (fun b => L a b * x b) = 0).
  { intros a Ha. unfold x. rewrite (L_apply (fun b => if G b then 1 else 0)) by auto.
    pose proof (root_pos a Ha).
    assert (E : sumn nk (fun b => W a b * (if G b then 1 else 0)) = d a * (if G a then 1 else 0)).
    { unfold degree. rewrite <- sumn_scal_r. apply sumn_ext. intros b Hb.
      destruct (G a) eqn:Ea, (G b) eqn:Eb; try ring.
      - destruct (Cut a b Ha Hb Ea Eb) as [-> _]. ring.
      - destruct (Cut b a Hb Ha Eb Ea) as [_ ->]. ring. }
    rewrite E. pose proof (root_sq a Ha) as Q. set (s := sqrt (d a)) in *. rewrite <- Q. field. lra. }
  assert (Ny : forall a, (a < nk)%nat -> sumn nk (fun b => L a b * y b) = 0).
  { intros a Ha. unfold y. rewrite (L_apply (fun b => if G b then 0 else 1)) by auto.
    pose proof (root_pos a Ha).
    assert (E : sumn nk (fun b => W a b * (if G b then 0 else 1)) = d a * (if G a then 0 else 1)).
    { unfold degree. rewrite <- sumn_scal_r. apply sumn_ext. intros b Hb.
      destruct (G a) eqn:Ea, (G b) eqn:Eb; try ring.
      - destruct (Cut a b Ha Hb Ea Eb) as [-> _]. ring.
      - destruct (Cut b a Hb Ha Eb Ea) as [_ ->]. ring. }
    rewrite E. pose proof (root_sq a Ha) as Q. set (s := sqrt (d a)) in *. rewrite <- Q. field. lra. }
  (* find a coordinate of x that is not 0, then one of y *)
  assert (F : forall z, (exists a, (a < nk)%nat /\ z a <> 0) ->
    exists i, (i < nk)%nat /\ sumn nk (fun b => V i b * z b) <> 0).
  { intros z (a & Ha & Za).
    assert (D : forall n, (exists i, (i < n)%nat /\ sumn nk (fun b => V i b * z b) <> 0) \/
                          (forall i, (i < n)%nat -> sumn nk (fun b => V i b * z b) = 0)).
    { induction n as [|n [(i & Hi & Z)|Z]].
      - right. lia.
      - left. exists i. split; [lia|auto].
      - destruct (Req_EM_T (sumn nk (fun b => V n b * z b)) 0) as [E|E].
        + right. intros i Hi. destruct (Nat.eq_dec i n) as [->|]; auto. apply Z. lia.
        + left. exists n. split; [lia|auto]. }
    destruct (D nk) as [H|Z]; auto. exfalso. apply Za. rewrite (expand z a Ha).
    apply sumn_zero. intros i Hi. rewrite Z by auto. ring. }
  destruct (F x) as (i & Hi & Xi).
  { exists a0. split; auto. unfold x. rewrite Ga0. pose proof (root_pos a0 Ha0). lra. }
  assert (Ei : ev i = 0).
  { destruct (Req_EM_T (ev i) 0) as [|N]; auto. exfalso. apply Xi. apply null_coord; auto. }
  set (cx := sumn nk (fun b => V i b * x b)) in *.
  set (cy := sumn nk (fun b => V i b * y b)).
  (* y minus its share along x is not 0 and null, and has no coordinate along V i if
     scaled so *)
  destruct (F (fun a => cx * y a - cy * x a)) as (j & Hj & Xj).
  { exists b0. split; auto. unfold x, y. rewrite Gb0. pose proof (root_pos b0 Hb0). nra. }
  exists i, j. split; auto. split; auto. split.
  - intros <-. apply Xj.
    rewrite (sumn_ext nk _ (fun b => cx * (V i b * y b) - cy * (V i b * x b))) by (intros; ring).
    rewrite sumn_minus, !sumn_scal. fold cx cy. ring.
  - split; auto. destruct (Req_EM_T (ev j) 0) as [|N]; auto. exfalso. apply Xj.
    apply null_coord; auto. intros a Ha.
    rewrite (sumn_ext nk _ (fun b => cx * (L a b * y b) - cy * (L a b * x b))) by (intros; ring).
    rewrite sumn_minus, !sumn_scal, Nx, Ny by auto. ring.
Qed.
End Eigen.
End Graph.
