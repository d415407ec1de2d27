(* Lemmas about forward and back substitution, and about symmetric positive definite
   matrices and their factors. *)
From Verif Require Import Base BaseLemmas IcholModel IcholSpec IcholLemmas IcholColLemmas.
Local Open Scope R_scope.
Local Open Scope nat_scope.

Lemma for_down_inv {St} (n : nat) (body : nat -> St -> res St) (Inv : nat -> St -> Prop) s0 :
  Inv n s0 ->
  (forall m s, m < n -> Inv (m + 1) s -> exists s', body m s = Ok s' /\ Inv m s') ->
  exists s', for_each (rev (range n)) body s0 = Ok s' /\ Inv 0 s'.
Proof.
  unfold range. revert s0; induction n as [|n IH]; intros s0 H0 Hstep.
  - exists s0; split; [reflexivity|assumption].
  - rewrite seq_S, rev_app_distr. cbn [rev app plus for_each].
    destruct (Hstep n s0) as [s1 [E1 I1]]; [lia|now replace (n + 1) with (S n) by lia|].
    rewrite E1. cbn [bind]. apply IH; [assumption|]. intros m s Hm. apply Hstep. lia.
Qed.

(* a sum over positions as a sum over rows *)
Lemma colsum_rows n v r p q (f : nat -> R) : p <= q -> (forall idx, p <= idx < q -> r idx < n) ->
  sumn n (fun k => colsum v r p q k * f k)%R = rsum (map (fun idx => v idx * f (r idx))%R (range2 p q)).
Proof.
  intros Hpq H. unfold colsum.
  transitivity (sumn n (fun k => rsum (map (fun idx => (if r idx =? k then v idx else 0) * f k)%R (range2 p q)))).
  { apply sumn_ext. intros k Hk. now rewrite rsum_map_scal_r. }
  assert (G : forall l, (forall idx, In idx l -> r idx < n) ->
    sumn n (fun k => rsum (map (fun idx => (if r idx =? k then v idx else 0) * f k)%R l)) =
    rsum (map (fun idx => v idx * f (r idx))%R l)).
  { induction l as [|a l IH]; intros Hl; cbn [map rsum].
    - apply sumn_zero; reflexivity.
    - rewrite sumn_plus, IH by (intros; apply Hl; now right). f_equal.
      rewrite (sumn_single n (r a)).
      + now rewrite Nat.eqb_refl.
      + apply Hl; now left.
      + intros i Hi Hne. destruct (Nat.eqb_spec (r a) i); [congruence|ring]. }
  apply G. intros idx Hi. apply in_range2 in Hi. now apply H.
Qed.

Section Apply.
Variables (n : nat) (L : csc).
Notation v := (aval (cv L)).
Notation r := (aval (cr L)).
Notation p := (aval (cp L)).
Notation M := (mcol v r p).
Hypothesis C : cols n n r p.
Hypothesis lenp : alen (cp L) = n + 1.
Hypothesis lenv : p n <= alen (cv L).
Hypothesis lenr : p n <= alen (cr L).
Hypothesis diag_nz : forall j, j < n -> M j j <> 0%R.

Lemma at_diag j : j < n -> v (p j) = M j j.
Proof.
  intros Hj. rewrite <- (c_diag _ _ _ _ C j Hj) at 2. symmetry. apply (mcol_at n n); [assumption|assumption|].
  pose proof (c_lt _ _ _ _ C j Hj). lia.
Qed.
Lemma below j i : j < n -> j < i -> colsum v r (p j + 1) (p (j + 1)) i = M i j.
Proof.
  intros Hj Hi. unfold mcol. pose proof (c_lt _ _ _ _ C j Hj).
  rewrite (colsum_split _ _ (p j) (p j + 1)) by lia. rewrite (colsum_S _ _ (p j) (p j)) by lia.
  rewrite colsum_nil, (c_diag _ _ _ _ C) by assumption. destruct (Nat.eqb_spec j i); [lia|ring].
Qed.
Lemma above j i : j < n -> i <= j -> colsum v r (p j + 1) (p (j + 1)) i = 0%R.
Proof.
  intros Hj Hi. apply colsum_zero. intros idx Hx.
  destruct (c_row _ _ _ _ C j idx Hj ltac:(lia) ltac:(lia)). lia.
Qed.

Lemma backsub_L_ok b : alen b = n ->
  exists x, backsub_L L n b = Ok x /\ alen x = n /\
    forall i, i < n -> sumn n (fun k => M i k * aval x k)%R = aval b i.
Proof.
  intros Hb. unfold backsub_L.
  match goal with |- context [for_each (range n) ?body ?s] =>
    destruct (for_range_inv n body (fun j x => alen x = n /\ forall i, i < n ->
      aval b i = (sumn j (fun k => M i k * aval x k) + (if i <? j then 0 else aval x i))%R) s)
      as [x [E [Lx I]]] end.
  - split; [assumption|]. intros i Hi. rewrite sumn_0. destruct (Nat.ltb_spec i 0); [lia|ring].
  - intros j x Hj [Lx I]. pose proof (c_lt _ _ _ _ C j Hj) as Hlt.
    pose proof (cols_le _ _ _ _ (j + 1) n C ltac:(lia) ltac:(lia)) as Hle.
    run. rewrite at_diag by assumption. rewrite fdiv_ok by auto. cbn [bind]. run.
    set (temp := (aval x j / M j j)%R). set (x1 := upd x j temp).
    match goal with |- context [for_each (range2 ?a ?c) ?body ?s] =>
      destruct (for_range2_inv a c body (fun idx y => alen y = n /\ forall i, i < n ->
        aval y i = (aval x1 i - colsum v r (p j + 1) idx i * temp)%R) s)
        as [y [Ey [Ly Iy]]] end.
    + lia.
    + split; [assumption|]. intros i Hi. rewrite colsum_nil. ring.
    + intros idx y H1 H2 [Ly Iy]. destruct (c_row _ _ _ _ C j idx Hj ltac:(lia) H2) as [R1 R2].
      run. eexists; split; [reflexivity|]. split; [assumption|]. intros i Hi.
      rewrite colsum_S by lia. destruct (Nat.eq_dec i (r idx)) as [->|Hne].
      * rewrite upd_eq, Iy, Nat.eqb_refl by assumption. ring.
      * rewrite upd_neq, Iy by assumption. destruct (Nat.eqb_spec (r idx) i); [congruence|ring].
    + exists y. split; [exact Ey|]. split; [assumption|].
      assert (Yj : aval y j = temp).
      { rewrite Iy, above by lia. unfold x1. rewrite upd_eq. ring. }
      assert (Yo : forall i, i < n -> i < j -> aval y i = aval x i).
      { intros i Hi Hij. rewrite Iy, above by lia. unfold x1. rewrite upd_neq by lia. ring. }
      assert (Yb : forall i, i < n -> j < i -> aval y i = (aval x i - M i j * temp)%R).
      { intros i Hi Hij. rewrite Iy, below by lia. unfold x1. rewrite upd_neq by lia. ring. }
      intros i Hi. rewrite (I i Hi). replace (j + 1) with (S j) by lia. rewrite sumn_S, Yj.
      rewrite (sumn_ext j (fun k => M i k * aval y k)%R (fun k => M i k * aval x k)%R)
        by (intros k Hk; rewrite Yo by lia; reflexivity).
      destruct (Nat.ltb_spec i j), (Nat.ltb_spec i (S j)); try lia.
      * rewrite (mcol_lower n n) by (assumption || lia). ring.
      * assert (i = j) as -> by lia. unfold temp. field. auto.
      * rewrite Yb by lia. ring.
  - exists x. split; [exact E|]. split; [assumption|]. intros i Hi. rewrite (I i Hi).
    destruct (Nat.ltb_spec i n); [ring|lia].
Qed.

Lemma backsub_LT_ok b : alen b = n ->
  exists x, backsub_LT L n b = Ok x /\ alen x = n /\
    forall i, i < n -> sumn n (fun k => M k i * aval x k)%R = aval b i.
Proof.
  intros Hb. unfold backsub_LT.
  match goal with |- context [for_each (rev (range n)) ?body ?s] =>
    destruct (for_down_inv n body (fun m x => alen x = n /\
      (forall i, i < m -> aval x i = aval b i) /\
      (forall i, m <= i -> i < n -> sumn n (fun k => M k i * aval x k)%R = aval b i)) s)
      as [x [E [Lx [_ I]]]] end.
  - split; [assumption|]. split; [reflexivity|]. intros; lia.
  - intros j x Hj [Lx [Ib I]]. pose proof (c_lt _ _ _ _ C j Hj) as Hlt.
    pose proof (cols_le _ _ _ _ (j + 1) n C ltac:(lia) ltac:(lia)) as Hle.
    run.
    match goal with |- context [for_each (range2 ?a ?c) ?body ?s] =>
      destruct (for_range2_inv a c body (fun idx y =>
        y = (aval x j - rsum (map (fun idx => v idx * aval x (r idx))%R (range2 a idx)))%R) s)
        as [y [Ey Iy]] end.
    + lia.
    + rewrite range2_nil. simpl. ring.
    + intros idx y H1 H2 Iy. destruct (c_row _ _ _ _ C j idx Hj ltac:(lia) H2) as [R1 R2].
      run. eexists; split; [reflexivity|]. rewrite range2_S, map_app, rsum_app, Iy by lia. simpl. ring.
    + rewrite Ey. cbn [bind]. run. rewrite at_diag by assumption. rewrite fdiv_ok by auto. cbn [bind]. run.
      eexists; split; [reflexivity|]. split; [assumption|].
      rewrite <- (colsum_rows n v r (p j + 1) (p (j + 1)) (aval x)) in Iy.
      2: lia. 2: { intros idx Hx. destruct (c_row _ _ _ _ C j idx Hj ltac:(lia) ltac:(lia)); assumption. }
      set (z := (y / M j j)%R).
      assert (Off : forall i, i < n -> j < i -> sumn n (fun k => M k i * aval (upd x j z) k)%R =
                 sumn n (fun k => M k i * aval x k)%R).
      { intros i Hi Hji. apply sumn_ext. intros k Hk. destruct (Nat.eq_dec k j) as [->|].
        - rewrite (mcol_lower n n) by (assumption || lia). ring.
        - now rewrite upd_neq. }
      split.
      * intros i Hi. rewrite upd_neq by lia. apply Ib; lia.
      * intros i H1 H2. destruct (Nat.eq_dec i j) as [->|]; [|rewrite Off by lia; apply I; lia].
        transitivity (M j j * z + sumn n (fun k => colsum v r (p j + 1) (p (j + 1)) k * aval x k))%R.
        { transitivity (sumn n (fun k => (if k =? j then M j j * z else 0) +
                          colsum v r (p j + 1) (p (j + 1)) k * aval x k)%R).
          - apply sumn_ext. intros k Hk. destruct (Nat.eqb_spec k j) as [->|Hne].
            + change (M j j * aval (upd x j z) j = M j j * z + colsum v r (p j + 1) (p (j + 1)) j * aval x j)%R.
              rewrite upd_eq, above by lia. ring.
            + change (M k j * aval (upd x j z) k = 0 + colsum v r (p j + 1) (p (j + 1)) k * aval x k)%R.
              rewrite upd_neq by assumption. destruct (Nat.lt_ge_cases j k).
              * rewrite below by lia. ring.
              * rewrite above by lia. rewrite (mcol_lower n n) by (assumption || lia). ring.
          - rewrite sumn_plus. f_equal. rewrite (sumn_single n j); [now rewrite Nat.eqb_refl|assumption|].
            intros i Hi Hne. now destruct (Nat.eqb_spec i j). }
        rewrite <- (Ib j) by lia. unfold z. rewrite Iy. field. auto.
  - exists x. split; [exact E|]. split; [assumption|]. intros i Hi. apply I; lia.
Qed.

Lemma apply_ok b : alen b = n ->
  exists x, apply L b = Ok x /\ alen x = n /\
    forall i, i < n -> sumn n (fun k => M i k * sumn n (fun m => M m k * aval x m))%R = aval b i.
Proof.
  intros Hb. destruct (backsub_L_ok b Hb) as [y [Ey [Ly Iy]]].
  destruct (backsub_LT_ok y Ly) as [x [Ex [Lx Ix]]].
  exists x. unfold apply. rewrite Hb, Ey. cbn [bind]. split; [exact Ex|]. split; [assumption|].
  intros i Hi. rewrite <- (Iy i Hi). apply sumn_ext. intros k Hk. now rewrite Ix.
Qed.
End Apply.

(* ---- L L' ---- *)
Local Open Scope R_scope.
Lemma square_mulv n L x i :
  mulv n (square n L) x i = sumn n (fun k => L i k * sumn n (fun m => L m k * x m)).
Proof.
  unfold mulv, square.
  transitivity (sumn n (fun j => sumn n (fun k => L i k * (L j k * x j)))).
  - apply sumn_ext. intros j _. rewrite <- sumn_scal_r. apply sumn_ext. intros; ring.
  - rewrite sumn_swap. apply sumn_ext. intros k _. apply sumn_scal.
Qed.
Lemma dot_square n L x y :
  dot n x (mulv n (square n L) y) =
  sumn n (fun k => sumn n (fun m => L m k * x m) * sumn n (fun m => L m k * y m)).
Proof.
  unfold dot.
  transitivity (sumn n (fun i => sumn n (fun k => L i k * x i * sumn n (fun m => L m k * y m)))).
  - apply sumn_ext. intros i _. rewrite square_mulv, <- sumn_scal. apply sumn_ext. intros; ring.
  - rewrite sumn_swap. apply sumn_ext. intros k _. apply sumn_scal_r.
Qed.
Lemma dot_ext n x y x' y' : (forall i, (i < n)%nat -> x i = x' i) -> (forall i, (i < n)%nat -> y i = y' i) ->
  dot n x y = dot n x' y'.
Proof. intros H1 H2. apply sumn_ext. intros i Hi. now rewrite H1, H2. Qed.
Lemma dot_comm n x y : dot n x y = dot n y x.
Proof. apply sumn_ext. intros; ring. Qed.
Lemma sumn_sq_zero n f : sumn n (fun k => f k * f k) = 0 -> forall k, (k < n)%nat -> f k = 0.
Proof.
  induction n as [|n IH]; intros H k Hk; [lia|]. rewrite sumn_S in H.
  assert (0 <= sumn n (fun k => f k * f k)) by (apply sumn_nonneg; intros; apply Rle_0_sqr).
  pose proof (Rle_0_sqr (f n)) as Q. unfold Rsqr in Q.
  destruct (Nat.eq_dec k n) as [->|].
  - apply Rsqr_0_uniq. unfold Rsqr. lra.
  - apply IH; [lra|lia].
Qed.
Lemma sumn_cut n m f : (m <= n)%nat -> (forall k, (m <= k)%nat -> (k < n)%nat -> f k = 0) -> sumn n f = sumn m f.
Proof.
  intros H Z. induction H as [|n H IH]; [reflexivity|].
  rewrite sumn_S, IH, Z by (try lia; intros; apply Z; lia). ring.
Qed.
