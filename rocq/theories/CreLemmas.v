(* Proofs about the CRE model. *)
From Coq Require Import Classical ClassicalDescription Permutation.
From Verif Require Import Base BaseLemmas CreModel CreSpec.
Local Open Scope R_scope.

(* Sums *)
Lemma sumn_rsum_swap {A} n (f : A -> nat -> R) l :
  sumn n (fun j => rsum (map (fun r => f r j) l)) = rsum (map (fun r => sumn n (f r)) l).
Proof.
  induction l as [|r l IH]; cbn [map rsum].
  - apply sumn_zero. auto.
  - rewrite sumn_plus, IH. reflexivity.
Qed.

Lemma rsum_zero_nonneg {A} (f : A -> R) l : (forall x, In x l -> 0 <= f x) -> rsum (map f l) = 0 ->
  forall x, In x l -> f x = 0.
Proof.
  induction l as [|y l IH]; cbn [map rsum]; intros H E x I; [destruct I|].
  assert (0 <= f y) by (apply H; left; auto).
  assert (0 <= rsum (map f l)).
  { apply rsum_nonneg. intros z J. apply in_map_iff in J. destruct J as (w & <- & J). apply H. right. auto. }
  destruct I as [<-|I]; [lra|]. apply IH; auto; [intros; apply H; right; auto|lra].
Qed.

Lemma ind_sum n g (a : nat -> R) : (g < n)%nat -> sumn n (fun k => ind (g =? k)%nat * a k) = a g.
Proof.
  intros H. rewrite (sumn_single n g); auto.
  - rewrite Nat.eqb_refl. cbn [ind]. ring.
  - intros i _ D. destruct (Nat.eqb_spec g i); [congruence|]. cbn [ind]. ring.
Qed.
Lemma ind_sum_out n g (a : nat -> R) : (n <= g)%nat -> sumn n (fun k => ind (g =? k)%nat * a k) = 0.
Proof.
  intros H. apply sumn_zero. intros i Hi. destruct (Nat.eqb_spec g i); [lia|]. cbn [ind]. ring.
Qed.

Definition lin (n : nat) (r : mover) (a : nat -> R) : R := sumn n (fun k => Jc r k * a k).

Lemma lin_eq nc r a : (m_g1 r < nc)%nat -> (m_g2 r < nc)%nat -> a (nc - 1)%nat = 0 ->
  lin (nc - 1) r a = a (m_g2 r) - a (m_g1 r).
Proof.
  intros H1 H2 Z. unfold lin, Jc.
  rewrite (sumn_ext _ _ (fun k => ind (m_g2 r =? k)%nat * a k - ind (m_g1 r =? k)%nat * a k))
    by (intros; ring).
  rewrite sumn_minus.
  assert (G : forall g, (g < nc)%nat -> sumn (nc - 1) (fun k => ind (g =? k)%nat * a k) = a g).
  { intros g Hg. destruct (Nat.eq_dec g (nc - 1)) as [->|].
    - rewrite Z. apply ind_sum_out. lia.
    - apply ind_sum. lia. }
  rewrite !G; auto.
Qed.

Lemma lin_minus n r a b : lin n r (fun k => a k - b k) = lin n r a - lin n r b.
Proof. unfold lin. rewrite <- sumn_minus. apply sumn_ext. intros; ring. Qed.

Lemma Mc_apply jd n i a : sumn n (fun j => Mc jd i j * a j) = rsum (map (fun r => Jc r i * lin n r a) jd).
Proof.
  unfold Mc.
  rewrite (sumn_ext _ _ (fun j => rsum (map (fun r => Jc r i * Jc r j * a j) jd))).
  2:{ intros j _. rewrite <- rsum_map_scal_r. reflexivity. }
  rewrite (sumn_rsum_swap n (fun r j => Jc r i * Jc r j * a j)).
  apply rsum_map_ext. intros r _. unfold lin. rewrite <- sumn_scal. apply sumn_ext. intros; ring.
Qed.

Lemma solves_normal jd n A : solves n (Mc jd) (JY jd) A <->
  forall i, (i < n)%nat -> rsum (map (fun r => Jc r i * (Yc r - lin n r A)) jd) = 0.
Proof.
  unfold solves. split; intros H i Hi; specialize (H i Hi).
  - rewrite Mc_apply in H. unfold JY in H.
    rewrite (rsum_map_ext _ (fun r => Jc r i * Yc r - Jc r i * lin n r A)) by (intros; ring).
    rewrite rsum_map_minus. lra.
  - rewrite Mc_apply. unfold JY.
    rewrite (rsum_map_ext _ (fun r => Jc r i * Yc r - Jc r i * lin n r A)) in H by (intros; ring).
    rewrite rsum_map_minus in H. lra.
Qed.

Lemma normal_cross jd n A b : solves n (Mc jd) (JY jd) A ->
  rsum (map (fun r => lin n r b * (Yc r - lin n r A)) jd) = 0.
Proof.
  intros H0. assert (H := proj1 (solves_normal jd n A) H0).
  rewrite (rsum_map_ext _ (fun r => sumn n (fun k => Jc r k * (Yc r - lin n r A) * b k))).
  2:{ intros r _. unfold lin at 1. rewrite <- sumn_scal_r. apply sumn_ext. intros; ring. }
  rewrite <- (sumn_rsum_swap n (fun r k => Jc r k * (Yc r - lin n r A) * b k)).
  apply sumn_zero. intros k Hk. rewrite rsum_map_scal_r, H by auto. ring.
Qed.

Lemma ssr_decompose jd n A b : solves n (Mc jd) (JY jd) A ->
  rsum (map (fun r => (Yc r - lin n r b) ^ 2) jd) =
  rsum (map (fun r => (Yc r - lin n r A) ^ 2) jd) + rsum (map (fun r => (lin n r A - lin n r b) ^ 2) jd).
Proof.
  intros H. rewrite <- rsum_map_plus.
  assert (C := normal_cross jd n A (fun k => A k - b k) H).
  assert (E : rsum (map (fun r => (Yc r - lin n r b) ^ 2) jd) =
     rsum (map (fun r => ((Yc r - lin n r A) ^ 2 + (lin n r A - lin n r b) ^ 2)
        + 2 * (lin n r (fun k => A k - b k) * (Yc r - lin n r A))) jd)).
  { apply rsum_map_ext. intros r _. rewrite lin_minus. ring. }
  rewrite E, rsum_map_plus, (rsum_map_scal 2), C. ring.
Qed.

Section Solve.
Variable spsolve : nat -> (nat -> nat -> R) -> (nat -> R) -> nat -> R.
Lemma Afill_last nc w jd : Afill spsolve nc w jd (nc - 1) = 0.
Proof. unfold Afill. rewrite Nat.ltb_irrefl. auto. Qed.

Lemma solved_Afill nc jd : solved spsolve nc jd -> solves (nc - 1) (Mc jd) (JY jd) (Afill spsolve nc false jd).
Proof.
  intros H i Hi. rewrite <- (H i Hi). apply sumn_ext. intros j Hj. unfold Afill.
  apply Nat.ltb_lt in Hj. rewrite Hj. auto.
Qed.

Definition norm_last (nc : nat) (b : nat -> R) : nat -> R := fun k => b k - b (nc - 1)%nat.

Lemma ssr_lin nc jd b : clusters_below nc jd ->
  ssr b jd = rsum (map (fun r => (Yc r - lin (nc - 1) r (norm_last nc b)) ^ 2) jd).
Proof.
  intros B. apply rsum_map_ext. intros r I. destruct (B r I) as [B1 B2].
  rewrite lin_eq; auto; unfold norm_last, Yc; [|ring]. f_equal. ring.
Qed.

Lemma norm_last_id nc b k : b (nc - 1)%nat = 0 -> norm_last nc b k = b k.
Proof. unfold norm_last. intros ->. ring. Qed.

Lemma lin_ext n r a b : (forall k, (k < n)%nat -> a k = b k) -> lin n r a = lin n r b.
Proof. intros H. apply sumn_ext. intros i Hi. rewrite H; auto. Qed.

Lemma ssr_gap nc jd b : clusters_below nc jd -> solved spsolve nc jd ->
  let A := Afill spsolve nc false jd in
  ssr b jd = ssr A jd +
   rsum (map (fun r => ((A (m_g2 r) - A (m_g1 r)) - (b (m_g2 r) - b (m_g1 r))) ^ 2) jd).
Proof.
  intros B H A. rewrite !(ssr_lin nc) by auto.
  rewrite (ssr_decompose jd (nc - 1) (norm_last nc A)).
  - f_equal. apply rsum_map_ext. intros r I. destruct (B r I). rewrite !lin_eq; auto; unfold norm_last; try ring.
  - intros i Hi. rewrite <- (solved_Afill nc jd H i Hi). apply sumn_ext. intros j _.
    rewrite norm_last_id; auto. apply Afill_last.
Qed.

Lemma Afill_minimises nc jd b : clusters_below nc jd -> solved spsolve nc jd ->
  ssr (Afill spsolve nc false jd) jd <= ssr b jd.
Proof.
  intros B H. rewrite (ssr_gap nc jd b B H).
  assert (0 <= rsum (map (fun r => ((Afill spsolve nc false jd (m_g2 r) - Afill spsolve nc false jd (m_g1 r))
      - (b (m_g2 r) - b (m_g1 r))) ^ 2) jd)); [|lra].
  apply rsum_nonneg. intros x I. apply in_map_iff in I. destruct I as (r & <- & _). apply pow2_ge_0.
Qed.

Lemma linked_same jd (d : nat -> R) a k : (forall r, In r jd -> d (m_g1 r) = d (m_g2 r)) ->
  linked jd a k -> d a = d k.
Proof. intros H. induction 1 as [|r k I L IH|r k I L IH]; auto; rewrite <- IH; [|symmetry]; apply H; auto. Qed.

Lemma Afill_unique nc jd b : clusters_below nc jd -> solved spsolve nc jd -> all_linked nc jd ->
  ssr b jd <= ssr (Afill spsolve nc false jd) jd ->
  forall k, (k < nc)%nat -> Afill spsolve nc false jd k = b k - b (nc - 1)%nat.
Proof.
  intros B H C L k Hk. rewrite (ssr_gap nc jd b B H) in L.
  set (A := Afill spsolve nc false jd) in *.
  set (f := fun r => ((A (m_g2 r) - A (m_g1 r)) - (b (m_g2 r) - b (m_g1 r))) ^ 2) in *.
  assert (N : forall r, In r jd -> 0 <= f r) by (intros; apply pow2_ge_0).
  assert (Z : rsum (map f jd) = 0).
  { assert (0 <= rsum (map f jd)); [|lra].
    apply rsum_nonneg. intros x I. apply in_map_iff in I. destruct I as (r & <- & I). auto. }
  assert (S := linked_same jd (fun k => A k - b k) k (nc - 1)).
  cbn beta in S.
  assert (Al : A (nc - 1)%nat = 0) by apply Afill_last.
  rewrite Al in S. enough (A k - b k = 0 - b (nc - 1)%nat) by lra. apply S; [|apply C; auto].
  - intros r I. assert (E := rsum_zero_nonneg f jd N Z r I). unfold f in E.
    assert ((A (m_g2 r) - A (m_g1 r)) - (b (m_g2 r) - b (m_g1 r)) = 0); [|lra].
    destruct (Req_dec ((A (m_g2 r) - A (m_g1 r)) - (b (m_g2 r) - b (m_g1 r))) 0); auto.
    exfalso. apply (pow_nonzero _ 2) in H0. auto.
Qed.

Lemma Afill_recovery nc jd a : clusters_below nc jd -> solved spsolve nc jd -> all_linked nc jd ->
  noise_free a jd -> forall k, (k < nc)%nat -> Afill spsolve nc false jd k = a k - a (nc - 1)%nat.
Proof.
  intros B H C N. apply Afill_unique; auto.
  assert (E : ssr a jd = 0).
  { unfold ssr. apply rsum_zero. intros r I. rewrite (N r I). ring. }
  rewrite E. apply rsum_nonneg. intros x I. apply in_map_iff in I. destruct I as (r & <- & _). apply pow2_ge_0.
Qed.
End Solve.

(* Linked clusters make the system solvable in one way only, and conversely. *)
Definition zero_wages (r : mover) : mover := mkmv 0 0 (m_g1 r) (m_g2 r) (m_j1 r) (m_j2 r).

Lemma homogeneous nc jd x : clusters_below nc jd -> solves (nc - 1) (Mc jd) (fun _ => 0) x ->
  forall r, In r jd -> lin (nc - 1) r x = 0.
Proof.
  intros B H.
  assert (Z : rsum (map (fun r => lin (nc - 1) r x * lin (nc - 1) r x) jd) = 0).
  { rewrite (rsum_map_ext _ (fun r => sumn (nc - 1) (fun k => Jc r k * lin (nc - 1) r x * x k))).
    2:{ intros r _. unfold lin at 1. rewrite <- sumn_scal_r. apply sumn_ext. intros; ring. }
    rewrite <- (sumn_rsum_swap (nc - 1) (fun r k => Jc r k * lin (nc - 1) r x * x k)).
    apply sumn_zero. intros k Hk. rewrite rsum_map_scal_r, <- Mc_apply, (H k Hk). ring. }
  intros r I. assert (E := rsum_zero_nonneg _ jd (fun r _ => Rle_0_sqr _) Z r I). cbn beta in E.
  apply Rsqr_0_uniq. exact E.
Qed.

Lemma linked_nonsingular nc jd : clusters_below nc jd -> all_linked nc jd -> nonsingular (nc - 1) (Mc jd).
Proof.
  intros B C x H i Hi.
  set (y := fun k => if (k <? nc - 1)%nat then x k else 0).
  assert (Yl : y (nc - 1)%nat = 0) by (unfold y; rewrite Nat.ltb_irrefl; auto).
  assert (S : y i = y (nc - 1)%nat).
  { apply (linked_same jd y); [|apply C; lia]. intros r I. destruct (B r I).
    assert (E := homogeneous nc jd x B H r I).
    rewrite (lin_ext _ _ x y) in E.
    - rewrite lin_eq in E; auto. lra.
    - intros k Hk. unfold y. apply Nat.ltb_lt in Hk. rewrite Hk. auto. }
  rewrite Yl in S. unfold y in S. apply Nat.ltb_lt in Hi. rewrite Hi in S. auto.
Qed.

Lemma nonsingular_linked nc jd : clusters_below nc jd -> nonsingular (nc - 1) (Mc jd) -> all_linked nc jd.
Proof.
  intros B N k Hk. destruct (Nat.eq_dec k (nc - 1)) as [->|D]; [constructor|].
  apply NNPP. intros L.
  set (y := fun k => if excluded_middle_informative (linked jd k (nc - 1)) then 0 else 1).
  assert (E : forall r, In r jd -> y (m_g1 r) = y (m_g2 r)).
  { intros r I. unfold y.
    destruct (excluded_middle_informative (linked jd (m_g1 r) (nc - 1))) as [H|H],
             (excluded_middle_informative (linked jd (m_g2 r) (nc - 1))) as [H'|H']; auto.
    - exfalso. apply H'. apply linked_back; auto.
    - exfalso. apply H. apply linked_move; auto. }
  assert (Y0 : y (nc - 1)%nat = 0).
  { unfold y. destruct (excluded_middle_informative _) as [|n]; auto. exfalso. apply n. constructor. }
  assert (Z : y k = 0).
  { apply (N y); [|lia]. intros i Hi. rewrite Mc_apply. apply rsum_zero. intros r I. destruct (B r I).
    rewrite lin_eq; auto. rewrite (E r I). ring. }
  unfold y in Z. destruct (excluded_middle_informative (linked jd k (nc - 1))) as [|n]; [auto|lra].
Qed.
