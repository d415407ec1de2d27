(* Proofs about the matrix helpers, logsumexp and the normal densities. *)
From Verif Require Import Base BaseLemmas UtilModel UtilSpec UtilStatLemmas UtilQuantLemmas.
Local Open Scope R_scope.

(* ---- diagonal products ---- *)
Lemma bdim_same n : bdim n n = Ok n.
Proof. unfold bdim. now rewrite Nat.eqb_refl. Qed.

Lemma bdim_1_l n : bdim 1 n = Ok n.
Proof. unfold bdim. destruct (Nat.eqb_spec 1 n); [now subst|reflexivity]. Qed.

Lemma bdim_1_r n : bdim n 1 = Ok n.
Proof. unfold bdim. destruct (Nat.eqb_spec n 1); [now subst|reflexivity]. Qed.

Lemma bidx_in n i : (i < n)%nat -> bidx n i = i.
Proof. unfold bidx. intros. destruct (Nat.eqb_spec n 1); [lia|reflexivity]. Qed.

Lemma DxM_vec d m :
  length d = nr m ->
  exists p, DxM (DVec d) m = Ok p /\ nr p = nr m /\ nc p = nc m /\
    forall i j, (i < nr m)%nat -> (j < nc m)%nat -> ent p i j = nth i d 0 * ent m i j.
Proof.
  intros Hd. unfold DxM, np_multiply. cbn [nr nc row_of transpose ent].
  rewrite bdim_1_l, Hd, bdim_same. cbn [bind rmap].
  eexists; split; [reflexivity|]. cbn [nr nc ent transpose].
  repeat split. intros i j Hi Hj. rewrite !bidx_in by assumption. reflexivity.
Qed.

Lemma MxD_vec d m :
  length d = nc m ->
  exists p, MxD m (DVec d) = Ok p /\ nr p = nr m /\ nc p = nc m /\
    forall i j, (i < nr m)%nat -> (j < nc m)%nat -> ent p i j = ent m i j * nth j d 0.
Proof.
  intros Hd. unfold MxD, np_multiply. cbn [nr nc row_of ent].
  rewrite bdim_1_r, Hd, bdim_same. cbn [bind].
  eexists; split; [reflexivity|]. cbn [nr nc ent].
  repeat split. intros i j Hi Hj. rewrite !bidx_in by assumption. reflexivity.
Qed.

Lemma DxM_scalar c m :
  exists p, DxM (DScalar c) m = Ok p /\ nr p = nr m /\ nc p = nc m /\
    forall i j, ent p i j = c * ent m i j.
Proof.
  unfold DxM. destruct (Req_EM_T c 1) as [->|].
  - exists m; repeat split. intros; lra.
  - eexists; split; [reflexivity|]. repeat split.
Qed.

Lemma MxD_scalar c m :
  exists p, MxD m (DScalar c) = Ok p /\ nr p = nr m /\ nc p = nc m /\
    forall i j, ent p i j = ent m i j * c.
Proof.
  unfold MxD. destruct (Req_EM_T c 1) as [->|].
  - exists m; repeat split. intros; lra.
  - eexists; split; [reflexivity|]. repeat split. intros; simpl; lra.
Qed.

Lemma DxSP_vec d sp :
  csc_wf sp -> length d = s_nr sp ->
  exists p, DxSP (DVec d) sp = Ok p /\ csc_wf p
    /\ nr (dense p) = s_nr sp /\ nc (dense p) = s_nc sp /\
    forall i j, (i < s_nr sp)%nat -> (j < s_nc sp)%nat ->
      ent (dense p) i j = nth i d 0 * ent (dense sp) i j.
Proof.
  intros (H1 & H2 & H3 & H4) Hd. unfold DxSP.
  rewrite (traverse_ok _ (fun i => nth i d 0)).
  2:{ intros i Hi. specialize (H3 i Hi). eapply getitem_nat; [reflexivity|].
      apply nth_error_nth'. lia. }
  cbn [bind]. eexists; split; [reflexivity|].
  assert (Hlen : length (map2 Rmult (map (fun i => nth i d 0) (s_indices sp)) (s_data sp))
                 = length (s_data sp)).
  { rewrite length_map2; rewrite map_length; congruence. }
  split; [|split; [reflexivity|split; [reflexivity|]]].
  - repeat split; cbn [s_data s_indices s_indptr s_nr s_nc].
    + congruence.
    + exact H2.
    + exact H3.
    + apply H4; assumption.
    + rewrite Hlen. apply H4; assumption.
  - intros i j Hi Hj. unfold dense. cbn [ent s_data s_indices s_indptr].
    rewrite <- rsum_map_scal. apply rsum_map_ext. intros p Hp.
    unfold range2 in Hp. apply in_seq in Hp.
    specialize (H4 j Hj). rewrite Nat.add_1_r in H4.
    destruct (Nat.eqb_spec (nth p (s_indices sp) 0%nat) i) as [<-|]; [|lra].
    rewrite (nth_map2 _ _ _ _ 0 0) by (rewrite ?map_length; lia).
    rewrite (nth_map_in _ _ _ 0%nat) by lia. reflexivity.
Qed.

Lemma DxSP_scalar c sp :
  csc_wf sp ->
  exists p, DxSP (DScalar c) sp = Ok p
    /\ nr (dense p) = s_nr sp /\ nc (dense p) = s_nc sp /\
    forall i j, (i < s_nr sp)%nat -> (j < s_nc sp)%nat ->
      ent (dense p) i j = c * ent (dense sp) i j.
Proof.
  intros (H1 & H2 & H3 & H4). unfold DxSP. destruct (Req_EM_T c 1) as [->|].
  - exists sp. repeat split. intros; lra.
  - eexists; split; [reflexivity|]. split; [reflexivity|split; [reflexivity|]].
    intros i j Hi Hj. unfold dense; cbn [ent s_data s_indices s_indptr].
    rewrite <- rsum_map_scal. apply rsum_map_ext. intros p Hp.
    unfold range2 in Hp. apply in_seq in Hp.
    specialize (H4 j Hj). rewrite Nat.add_1_r in H4.
    destruct (nth p (s_indices sp) 0 =? i)%nat; [|lra].
    rewrite (nth_map_in _ _ _ 0) by lia. reflexivity.
Qed.

Lemma SPxD_vec d sp :
  length d = s_nc sp ->
  exists p, SPxD sp (DVec d) = Ok p /\ nr p = s_nr sp /\ nc p = s_nc sp /\
    forall i j, (i < s_nr sp)%nat -> (j < s_nc sp)%nat ->
      ent p i j = ent (dense sp) i j * nth j d 0.
Proof. intros Hd. exact (MxD_vec d (dense sp) Hd). Qed.

Lemma SPxD_scalar c sp :
  exists p, SPxD sp (DScalar c) = Ok p /\ nr p = s_nr sp /\ nc p = s_nc sp /\
    forall i j, ent p i j = ent (dense sp) i j * c.
Proof. exact (MxD_scalar c (dense sp)). Qed.

(* ---- as true matrix products ---- *)
Lemma diagm_mul d m i j :
  (i < length d)%nat -> ent (matmul (diagm d) m) i j = nth i d 0 * ent m i j.
Proof.
  intros Hi. cbn [matmul diagm ent nc].
  rewrite (sumn_single _ i).
  - now rewrite Nat.eqb_refl.
  - exact Hi.
  - intros k _ Hk. destruct (Nat.eqb_spec i k); [congruence|lra].
Qed.

Lemma mul_diagm d m i j :
  (j < length d)%nat -> nc m = length d ->
  ent (matmul m (diagm d)) i j = ent m i j * nth j d 0.
Proof.
  intros Hj Hc. cbn [matmul diagm ent nc]. rewrite Hc.
  rewrite (sumn_single _ j).
  - now rewrite Nat.eqb_refl.
  - exact Hj.
  - intros k _ Hk. destruct (Nat.eqb_spec k j); [congruence|lra].
Qed.

Lemma DxM_matmul d m :
  length d = nr m -> exists p, DxM (DVec d) m = Ok p /\ mat_eq p (matmul (diagm d) m).
Proof.
  intros Hd. destruct (DxM_vec d m Hd) as (p & E & H1 & H2 & H3). exists p.
  split; [exact E|]. split; [cbn; congruence|]. split; [exact H2|].
  intros i j Hi Hj. rewrite diagm_mul, H3 by lia. reflexivity.
Qed.

Lemma MxD_matmul d m :
  length d = nc m -> exists p, MxD m (DVec d) = Ok p /\ mat_eq p (matmul m (diagm d)).
Proof.
  intros Hd. destruct (MxD_vec d m Hd) as (p & E & H1 & H2 & H3). exists p.
  split; [exact E|]. split; [exact H1|]. split; [cbn; congruence|].
  intros i j Hi Hj. rewrite mul_diagm, H3 by lia. reflexivity.
Qed.

Lemma DxSP_matmul d sp :
  csc_wf sp -> length d = s_nr sp ->
  exists p, DxSP (DVec d) sp = Ok p /\ csc_wf p
            /\ mat_eq (dense p) (matmul (diagm d) (dense sp)).
Proof.
  intros Hw Hd. destruct (DxSP_vec d sp Hw Hd) as (p & E & Hp & H1 & H2 & H3).
  exists p. split; [exact E|]. split; [exact Hp|].
  split; [cbn [matmul diagm nr]; congruence|]. split; [exact H2|].
  intros i j Hi Hj. rewrite diagm_mul by lia. apply H3; lia.
Qed.

Lemma SPxD_matmul d sp :
  length d = s_nc sp ->
  exists p, SPxD sp (DVec d) = Ok p /\ mat_eq p (matmul (dense sp) (diagm d)).
Proof. intros Hd. exact (MxD_matmul d (dense sp) Hd). Qed.

(* ---- diag_of_prod ---- *)
Lemma row_sums_nth m i :
  (i < nr m)%nat -> nth_error (row_sums m) i = Some (sumn (nc m) (ent m i)).
Proof.
  intros Hi. unfold row_sums. rewrite nth_error_map, nth_error_range by exact Hi.
  reflexivity.
Qed.

(* The branch that multiplies, when the product is square. *)
Lemma diag_branch m1 m2 :
  (nr m2 <= nc m1)%nat -> nr m1 = nc m2 ->
  exists l, rmap row_sums (np_multiply (first_cols (nr m2) m1) (transpose m2)) = Ok l
    /\ length l = nr m1
    /\ forall i, (i < nr m1)%nat ->
         nth_error l i = Some (sumn (nr m2) (fun k => ent m1 i k * ent m2 k i)).
Proof.
  intros H1 H2. unfold np_multiply. cbn [nr nc first_cols transpose ent].
  rewrite H2, bdim_same, Nat.min_l, bdim_same by exact H1. cbn [bind rmap].
  eexists; split; [reflexivity|]. split.
  - unfold row_sums. rewrite map_length. unfold range. now rewrite seq_length.
  - intros i Hi. rewrite row_sums_nth by exact Hi. cbn [nr nc ent].
    f_equal. apply sumn_ext. intros k Hk. rewrite !bidx_in by lia. reflexivity.
Qed.

Lemma diag_of_prod_spec fuel m1 m2 :
  nc m1 = nr m2 -> nr m1 = nc m2 -> (1 <= fuel)%nat ->
  exists l, diag_of_prod fuel m1 m2 = Ok l /\ length l = nr m1
    /\ forall i, (i < nr m1)%nat ->
         nth_error l i = Some (sumn (nc m1) (fun k => ent m1 i k * ent m2 k i)).
Proof.
  intros H1 H2 Hf. destruct fuel as [|fuel]; [lia|]. cbn [diag_of_prod].
  destruct (Nat.ltb_spec (nc m1) (nr m2)); [lia|].
  destruct (diag_branch m1 m2) as [l [E [Hl Hn]]]; [lia|exact H2|].
  exists l. rewrite H1. auto.
Qed.

(* The recursion stops after at most one swap, on any shapes. *)
Lemma diag_of_prod_terminates m1 m2 fuel :
  diag_of_prod (S (S fuel)) m1 m2 <> Err OutOfFuel.
Proof.
  assert (G : forall a b, rmap row_sums (np_multiply a b) <> Err OutOfFuel).
  { intros a b. unfold np_multiply, bdim.
    repeat match goal with
    | |- context [if ?c then _ else _] => destruct c
    end; cbn [bind rmap]; discriminate. }
  cbn [diag_of_prod]. destruct (Nat.ltb_spec (nc m1) (nr m2)).
  - cbn [nr nc transpose]. destruct (Nat.ltb_spec (nr m2) (nc m1)); [lia|apply G].
  - apply G.
Qed.

(* The documented use with excess columns or rows: the product is cut at the
   shorter inner dimension. *)
Lemma diag_of_prod_cut m1 m2 fuel :
  nr m1 = nc m2 ->
  exists l, diag_of_prod (S (S fuel)) m1 m2 = Ok l /\ length l = nr m1
    /\ forall i, (i < nr m1)%nat ->
         nth_error l i
         = Some (sumn (Nat.min (nc m1) (nr m2)) (fun k => ent m1 i k * ent m2 k i)).
Proof.
  intros H2. cbn [diag_of_prod]. destruct (Nat.ltb_spec (nc m1) (nr m2)).
  - cbn [nr nc transpose]. destruct (Nat.ltb_spec (nr m2) (nc m1)); [lia|].
    destruct (diag_branch (transpose m2) (transpose m1)) as [l [E [Hl Hn]]];
      [cbn; lia|cbn; congruence|].
    cbn [nr nc transpose ent] in *. exists l. split; [exact E|].
    split; [congruence|]. intros i Hi. rewrite Hn by lia. f_equal.
    rewrite Nat.min_l by lia. apply sumn_ext. intros; lra.
  - destruct (diag_branch m1 m2) as [l [E [Hl Hn]]]; [lia|exact H2|].
    exists l. rewrite Nat.min_r by lia. auto.
Qed.

(* ---- logsumexp ---- *)
Lemma fold_Rmax_ge l x : x <= fold_left Rmax l x.
Proof.
  revert x; induction l as [|y l IH]; intros x; simpl; [lra|].
  apply Rle_trans with (Rmax x y); [apply Rmax_l|apply IH].
Qed.

Lemma fold_Rmax_in l x y : In y l -> y <= fold_left Rmax l x.
Proof.
  revert x; induction l as [|z l IH]; intros x; simpl; [tauto|].
  intros [->|H]; [|now apply IH].
  apply Rle_trans with (Rmax x y); [apply Rmax_r|apply fold_Rmax_ge].
Qed.

Lemma fold_Rmax_mem l x : In (fold_left Rmax l x) (x :: l).
Proof.
  revert x; induction l as [|y l IH]; intros x; simpl; [now left|].
  destruct (IH (Rmax x y)) as [E|H].
  - rewrite <- E. unfold Rmax. destruct (Rle_dec x y); auto.
  - auto.
Qed.

Lemma logsumexp_spec a :
  a <> [] -> logsumexp a = Ok (ln (rsum (map exp a))).
Proof.
  destruct a as [|x l]; [congruence|]. intros _. unfold logsumexp.
  set (M := fold_left Rmax l x).
  assert (E : rsum (map (fun y => exp (y - M)) (x :: l))
              = exp (- M) * rsum (map exp (x :: l))).
  { rewrite <- rsum_map_scal. apply rsum_map_ext. intros y _.
    rewrite <- exp_plus. f_equal. lra. }
  rewrite E.
  assert (Hp : 0 < rsum (map exp (x :: l))).
  { apply rsum_pos; [discriminate|]. intros y Hy.
    apply in_map_iff in Hy as [z [<- _]]. apply exp_pos. }
  rewrite ln_mult by (try apply exp_pos; exact Hp). rewrite ln_exp.
  f_equal. lra.
Qed.

(* No overflow: every exponent evaluated by the code is at most 0, one is 0. *)
Lemma logsumexp_safe a :
  a <> [] -> exists M, In M a /\ (forall y, In y a -> y - M <= 0)
    /\ logsumexp a = Ok (ln (rsum (map (fun y => exp (y - M)) a)) + M).
Proof.
  destruct a as [|x l]; [congruence|]. intros _.
  exists (fold_left Rmax l x). split; [apply fold_Rmax_mem|]. split; [|reflexivity].
  intros y [<-|Hy].
  - pose proof (fold_Rmax_ge l x); lra.
  - pose proof (fold_Rmax_in l x y Hy); lra.
Qed.

Lemma logsumexp_shift a c :
  logsumexp (map (fun y => y + c) a) = rmap (fun s => s + c) (logsumexp a).
Proof.
  destruct a as [|x l]; [reflexivity|].
  rewrite !logsumexp_spec by (simpl; discriminate). cbn [rmap].
  f_equal. rewrite map_map.
  assert (E : rsum (map (fun y => exp (y + c)) (x :: l))
              = exp c * rsum (map exp (x :: l))).
  { rewrite <- rsum_map_scal. apply rsum_map_ext. intros y _.
    rewrite <- exp_plus. f_equal. lra. }
  rewrite E.
  assert (Hp : 0 < rsum (map exp (x :: l))).
  { apply rsum_pos; [discriminate|]. intros y Hy.
    apply in_map_iff in Hy as [z [<- _]]. apply exp_pos. }
  rewrite ln_mult by (try apply exp_pos; exact Hp). rewrite ln_exp. lra.
Qed.

Lemma posterior_spec lp :
  lp <> [] ->
  exists q, posterior lp = Ok q /\ length q = length lp
    /\ (forall k y, nth_error lp k = Some y ->
          nth_error q k = Some (exp y / rsum (map exp lp)))
    /\ (forall x, In x q -> 0 < x) /\ rsum q = 1.
Proof.
  intros Hn. unfold posterior. rewrite logsumexp_spec by exact Hn. cbn [bind].
  assert (Hp : 0 < rsum (map exp lp)).
  { apply rsum_pos; [destruct lp; [congruence|discriminate]|]. intros y Hy.
    apply in_map_iff in Hy as [z [<- _]]. apply exp_pos. }
  assert (E : forall y, exp (y - ln (rsum (map exp lp))) = exp y / rsum (map exp lp)).
  { intros y. unfold Rminus. rewrite exp_plus, exp_Ropp, exp_ln by exact Hp. reflexivity. }
  eexists; split; [reflexivity|]. split; [apply map_length|]. split; [|split].
  - intros k y Hk. rewrite nth_error_map, Hk. simpl. now rewrite E.
  - intros x Hx. apply in_map_iff in Hx as [z [<- _]]. apply exp_pos.
  - rewrite (rsum_map_ext _ (fun y => exp y * / rsum (map exp lp)))
      by (intros; apply E).
    rewrite rsum_map_scal_r. field. lra.
Qed.

Lemma posterior_shift lp c :
  posterior (map (fun y => y + c) lp) = posterior lp.
Proof.
  unfold posterior. rewrite logsumexp_shift. destruct (logsumexp lp); simpl; [|reflexivity].
  rewrite map_map. f_equal. apply map_ext. intros y. f_equal. lra.
Qed.

(* ---- normal densities ---- *)
Lemma two_pi_pos : 0 < 2 * PI.
Proof. pose proof PI_RGT_0. lra. Qed.

Lemma ln_sqrt x : 0 < x -> ln (sqrt x) = / 2 * ln x.
Proof.
  intros Hx. assert (Hs : 0 < sqrt x) by now apply sqrt_lt_R0.
  assert (E : ln x = ln (sqrt x * sqrt x)) by (rewrite sqrt_sqrt; [reflexivity|lra]).
  rewrite ln_mult in E by exact Hs. lra.
Qed.

Lemma lognormpdf_sd x mu sd :
  0 < sd -> lognormpdf x mu (Some sd) None = Ok (ln (normal_density x mu sd)).
Proof.
  intros Hsd. unfold lognormpdf, normal_density, logpi. f_equal.
  assert (Hq : 0 < sqrt (2 * PI)) by apply sqrt_lt_R0, two_pi_pos.
  assert (Hm : 0 < sd * sqrt (2 * PI)) by now apply Rmult_lt_0_compat.
  rewrite (ln_mult (/ (sd * sqrt (2 * PI))));
    [|now apply Rinv_0_lt_compat|apply exp_pos].
  rewrite ln_exp, ln_Rinv, (ln_mult sd), (ln_sqrt (2 * PI)) by (auto using two_pi_pos).
  unfold Rdiv. lra.
Qed.

Lemma lognormpdf_var x mu sd :
  0 < sd -> lognormpdf x mu None (Some (sd ^ 2)) = lognormpdf x mu (Some sd) None.
Proof.
  intros Hsd. unfold lognormpdf. f_equal.
  replace (ln (sd ^ 2)) with (2 * ln sd); [lra|].
  replace (sd ^ 2) with (sd * sd) by ring. rewrite ln_mult by exact Hsd. lra.
Qed.

Lemma lognormpdf_error x mu sd var :
  (lognormpdf x mu sd var = Err ValueError)
  <-> ((sd = None /\ var = None) \/ (sd <> None /\ var <> None)).
Proof.
  destruct sd, var; simpl; intuition (try congruence).
Qed.

Lemma fast_lognormpdf_spec x mu sd G :
  length x = length G -> length mu = length sd ->
  (forall g, In g G -> (g < length sd)%nat) ->
  exists l, fast_lognormpdf x mu sd G = Ok l /\ length l = length x
    /\ forall i xi g m s, nth_error x i = Some xi -> nth_error G i = Some g ->
         nth_error mu g = Some m -> nth_error sd g = Some s ->
         exists r, nth_error l i = Some r /\ lognormpdf xi m (Some s) None = Ok r.
Proof.
  intros Hx Hm HG. unfold fast_lognormpdf.
  rewrite (traverse_ok _ (fun p : R * nat =>
      logpi - ln (nth (snd p) sd 0) - (fst p - nth (snd p) mu 0) ^ 2
              / (2 * nth (snd p) sd 0 ^ 2))).
  2:{ intros [xi g] Hin. apply in_combine_r in Hin. specialize (HG g Hin).
      rewrite (getitem_nat _ _ g (ln (nth g sd 0))); [|reflexivity|].
      2:{ rewrite nth_error_map, nth_error_nth' with (d := 0) by lia. reflexivity. }
      cbn [bind].
      rewrite (getitem_nat _ _ g (nth g mu 0)); [|reflexivity|].
      2:{ apply nth_error_nth'. lia. }
      cbn [bind].
      rewrite (getitem_nat _ _ g (nth g sd 0 ^ 2)); [|reflexivity|].
      2:{ rewrite nth_error_map, nth_error_nth' with (d := 0) by lia. reflexivity. }
      reflexivity. }
  eexists; split; [reflexivity|]. split.
  - rewrite map_length, combine_length. lia.
  - intros i xi g m s Hxi Hg Hmg Hsg.
    assert (Hc : nth_error (combine x G) i = Some (xi, g)).
    { clear -Hxi Hg. revert G i Hxi Hg. induction x as [|a x IH];
        intros [|b G] [|i]; simpl; intros; try discriminate; [congruence|].
      eapply IH; eassumption. }
    rewrite nth_error_map, Hc. eexists; split; [reflexivity|].
    cbn [fst snd lognormpdf].
    rewrite (nth_error_nth _ _ 0 Hmg), (nth_error_nth _ _ 0 Hsg). reflexivity.
Qed.
