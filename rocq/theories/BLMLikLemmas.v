(* The E-step computes the likelihood of the mixture and Bayes posteriors. *)
From Verif Require Import Base BaseLemmas UtilModel UtilSpec UtilNumLemmas
  BLMModel BLMEMModel BLMSpec BLMSortLemmas.
From Coq Require Import Permutation.
Local Open Scope res_scope.
Local Open Scope R_scope.

(* ---- the sums over controls ---- *)
Lemma fold_left_add {A} (f : R -> A -> R) (g : A -> R) l s :
  (forall s e, f s e = s + g e) -> fold_left f l s = s + rsum (map g l).
Proof.
  intros H. revert s. induction l as [|x l IH]; intros s; simpl; [lra|].
  rewrite IH, H. lra.
Qed.

Lemma cat_total l (f : R -> R) Ac c :
  rsum (map (fun pn : catpar * nat =>
          match fst pn with Shared v => f (v (snd pn)) | Inter _ => 0 end) (combine Ac c))
  + rsum (map (fun pn : catpar * nat =>
          match fst pn with Inter m => f (m l (snd pn)) | Shared _ => 0 end) (combine Ac c))
  = rsum (map2 (fun a n => f (cat_at l n a)) Ac c).
Proof.
  rewrite map2_combine, <- rsum_map_plus. apply rsum_map_ext.
  intros [[m|v] n] _; simpl; lra.
Qed.
Lemma cts_total l Ax x :
  rsum (map (fun px : ctspar * R =>
          match fst px with XShared a => a * snd px | XInter _ => 0 end) (combine Ax x))
  + rsum (map (fun px : ctspar * R =>
          match fst px with XInter v => v l * snd px | XShared _ => 0 end) (combine Ax x))
  = rsum (map2 (fun a n => cts_at l n a) Ax x).
Proof.
  rewrite map2_combine, <- rsum_map_plus. apply rsum_map_ext.
  intros [[m|v] n] _; simpl; lra.
Qed.
Lemma ctssq_total l Sx :
  rsum (map (fun p => match p with XShared a => a ^ 2 | XInter _ => 0 end) Sx)
  + rsum (map (fun p => match p with XInter v => v l ^ 2 | XShared _ => 0 end) Sx)
  = rsum (map (fun c => cts_sd l c ^ 2) Sx).
Proof.
  rewrite <- rsum_map_plus. apply rsum_map_ext. intros [v|a] _; simpl; lra.
Qed.

Lemma sums_total l Ac Ax c x :
  sum_non_nl Ac Ax c x + sum_nl l Ac Ax c x
  = cat_sum l Ac c + rsum (map2 (fun a n => cts_at l n a) Ax x).
Proof.
  unfold sum_non_nl, sum_nl, cat_sum.
  rewrite (fold_left_add _ (fun pn : catpar * nat =>
    match fst pn with Shared v => v (snd pn) | Inter _ => 0 end) (combine Ac c) 0)
    by (intros s [[m|v] n]; simpl; lra).
  rewrite (fold_left_add _ (fun pn : catpar * nat =>
    match fst pn with Inter m => m l (snd pn) | Shared _ => 0 end) (combine Ac c) 0)
    by (intros s [[m|v] n]; simpl; lra).
  rewrite (fold_left_add _ (fun px : ctspar * R =>
    match fst px with XShared a => a * snd px | XInter _ => 0 end))
    by (intros s [[m|v] n]; simpl; lra).
  rewrite (fold_left_add _ (fun px : ctspar * R =>
    match fst px with XInter v => v l * snd px | XShared _ => 0 end))
    by (intros s [[m|v] n]; simpl; lra).
  rewrite <- cts_total, <- (cat_total l (fun v => v)). lra.
Qed.

Lemma sumsq_total l Sc Sx c :
  sumsq_non_nl Sc Sx c + sumsq_nl l Sc Sx c
  = rsum (map2 (fun a n => cat_at l n a ^ 2) Sc c) + rsum (map (fun c => cts_sd l c ^ 2) Sx).
Proof.
  unfold sumsq_non_nl, sumsq_nl.
  rewrite (fold_left_add _ (fun pn : catpar * nat =>
    match fst pn with Shared v => v (snd pn) ^ 2 | Inter _ => 0 end) (combine Sc c) 0)
    by (intros s [[m|v] n]; simpl; lra).
  rewrite (fold_left_add _ (fun pn : catpar * nat =>
    match fst pn with Inter m => m l (snd pn) ^ 2 | Shared _ => 0 end) (combine Sc c) 0)
    by (intros s [[m|v] n]; simpl; lra).
  rewrite (fold_left_add _ (fun p => match p with XShared a => a ^ 2 | XInter _ => 0 end))
    by (intros s [v|a]; simpl; lra).
  rewrite (fold_left_add _ (fun p => match p with XInter v => v l ^ 2 | XShared _ => 0 end))
    by (intros s [v|a]; simpl; lra).
  rewrite <- ctssq_total, <- (cat_total l (fun v => v ^ 2)). lra.
Qed.

(* ---- log densities ---- *)
Lemma lognormpdf_variance x mu v :
  0 < v -> lognormpdf x mu None (Some v) = Ok (ln (normal_density x mu (sqrt v))).
Proof.
  intros Hv. pose proof (sqrt_lt_R0 v Hv) as Hs.
  rewrite <- lognormpdf_sd by exact Hs. rewrite <- lognormpdf_var by exact Hs.
  replace (sqrt v ^ 2) with v; [reflexivity|].
  simpl. rewrite Rmult_1_r. symmetry. apply sqrt_sqrt. lra.
Qed.

Lemma sumsq_nonneg {A} (f : A -> R) l : 0 <= rsum (map (fun a => f a ^ 2) l).
Proof.
  apply rsum_nonneg. intros x Hx. apply in_map_iff in Hx as [a [<- _]]. apply pow2_ge_0.
Qed.
Lemma sumsq2_nonneg {A B} (f : A -> B -> R) l m : 0 <= rsum (map2 (fun a b => f a b ^ 2) l m).
Proof. rewrite map2_combine. apply (sumsq_nonneg (fun p => f (fst p) (snd p))). Qed.

Lemma var1_pos p l o : 0 < S1 p l (g1 o) -> 0 < var1 p l o.
Proof.
  intros H. unfold var1. pose proof (pow_lt _ 2 H).
  pose proof (sumsq_nonneg (cts_sd l) (S1_cts p)).
  pose proof (sumsq2_nonneg (fun c n => cat_at l n c) (S1_cat p) (c1 o)). lra.
Qed.
Lemma var2_pos p l o : 0 < S2 p l (g2 o) -> 0 < var2 p l o.
Proof.
  intros H. unfold var2. pose proof (pow_lt _ 2 H).
  pose proof (sumsq_nonneg (cts_sd l) (S2_cts p)).
  pose proof (sumsq2_nonneg (fun c n => cat_at l n c) (S2_cat p) (c2 o)). lra.
Qed.

Lemma any_controls_none p :
  shapes_ok p -> any_controls p = false ->
  A1_cat p = [] /\ A2_cat p = [] /\ S1_cat p = [] /\ S2_cat p = [] /\
  A1_cts p = [] /\ A2_cts p = [] /\ S1_cts p = [] /\ S2_cts p = [].
Proof.
  unfold shapes_ok, any_controls. intros (H1 & H2 & H3 & H4 & H5 & H6) E.
  destruct (A1_cat p); [|discriminate]. destruct (A1_cts p); [|discriminate].
  simpl in *. repeat split; auto; apply length_zero_iff_nil; assumption.
Qed.

Definition nd1 (p : par) (l : nat) (o : obs) : R :=
  normal_density (y1 o) (mu1 p l o) (sqrt (var1 p l o)).
Definition nd2 (p : par) (l : nat) (o : obs) : R :=
  normal_density (y2 o) (mu2 p l o) (sqrt (var2 p l o)).

Lemma list_from_nth {A} (f : A -> R) (data : list A) (l : list R) :
  length l = length data ->
  (forall i a, nth_error data i = Some a -> nth_error l i = Some (f a)) ->
  l = map f data.
Proof.
  intros Hl H. apply nth_error_ext'. intros i. rewrite nth_error_map.
  destruct (nth_error data i) eqn:E; simpl; [now apply H|].
  apply nth_error_None in E. apply nth_error_None. lia.
Qed.

Lemma nth_error_map_range (f : nat -> R) n i :
  (i < n)%nat -> nth_error (map f (range n)) i = Some (f i).
Proof. intros H. rewrite nth_error_map, nth_error_range by exact H. reflexivity. Qed.

Lemma fast_col nk (y : obs -> R) (g : obs -> nat) (mu sd : nat -> R) data :
  (forall o, In o data -> (g o < nk)%nat /\ 0 < sd (g o)) ->
  fast_lognormpdf (map y data) (map mu (range nk)) (map sd (range nk)) (map g data)
  = Ok (map (fun o => ln (normal_density (y o) (mu (g o)) (sd (g o)))) data).
Proof.
  intros H.
  destruct (fast_lognormpdf_spec (map y data) (map mu (range nk)) (map sd (range nk)) (map g data))
    as (l & -> & Hlen & Hl).
  - now rewrite !map_length.
  - now rewrite !map_length.
  - intros k Hk. apply in_map_iff in Hk as [o [<- Ho]]. rewrite map_length, length_range.
    now apply H.
  - f_equal. apply list_from_nth; [now rewrite Hlen, map_length|].
    intros i o Ho. destruct (H o (nth_error_In _ _ Ho)) as [Hg Hs].
    destruct (Hl i (y o) (g o) (mu (g o)) (sd (g o))) as (r & -> & Er).
    + now rewrite nth_error_map, Ho.
    + now rewrite nth_error_map, Ho.
    + now apply nth_error_map_range.
    + now apply nth_error_map_range.
    + rewrite lognormpdf_sd in Er by exact Hs. congruence.
Qed.

Lemma sqrt_sq_pos s : 0 < s -> sqrt (s ^ 2 + 0 + 0) = s.
Proof. intros H. rewrite !Rplus_0_r. simpl. rewrite Rmult_1_r. apply sqrt_square. lra. Qed.

Lemma lp1_col_spec nk p data l :
  shapes_ok p -> (forall o, In o data -> (g1 o < nk)%nat /\ 0 < S1 p l (g1 o)) ->
  lp1_col nk p data l = Ok (map (fun o => ln (nd1 p l o)) data).
Proof.
  intros Hsh H. unfold lp1_col. destruct (any_controls p) eqn:E.
  - apply traverse_ok. intros o Ho. destruct (H o Ho) as [_ Hs].
    rewrite !Rplus_assoc, sums_total, sumsq_total, <- !Rplus_assoc.
    apply (lognormpdf_variance (y1 o) (mu1 p l o) (var1 p l o)). now apply var1_pos.
  - rewrite fast_col by exact H. f_equal. apply map_ext_in. intros o Ho.
    destruct (any_controls_none p Hsh E) as (E1 & E2 & E3 & E4 & E5 & E6 & E7 & E8).
    destruct (H o Ho) as [_ Hs].
    unfold nd1, mu1, var1, cat_sum. rewrite E1, E3, E5, E7. cbn [map2 map rsum].
    rewrite sqrt_sq_pos by exact Hs. now rewrite !Rplus_0_r.
Qed.
Lemma lp2_col_spec nk p data l :
  shapes_ok p -> (forall o, In o data -> (g2 o < nk)%nat /\ 0 < S2 p l (g2 o)) ->
  lp2_col nk p data l = Ok (map (fun o => ln (nd2 p l o)) data).
Proof.
  intros Hsh H. unfold lp2_col. destruct (any_controls p) eqn:E.
  - apply traverse_ok. intros o Ho. destruct (H o Ho) as [_ Hs].
    rewrite !Rplus_assoc, sums_total, sumsq_total, <- !Rplus_assoc.
    apply (lognormpdf_variance (y2 o) (mu2 p l o) (var2 p l o)). now apply var2_pos.
  - rewrite fast_col by exact H. f_equal. apply map_ext_in. intros o Ho.
    destruct (any_controls_none p Hsh E) as (E1 & E2 & E3 & E4 & E5 & E6 & E7 & E8).
    destruct (H o Ho) as [_ Hs].
    unfold nd2, mu2, var2, cat_sum. rewrite E2, E4, E6, E8. cbn [map2 map rsum].
    rewrite sqrt_sq_pos by exact Hs. now rewrite !Rplus_0_r.
Qed.

Lemma rows_of_map (data : list obs) nl (f : nat -> obs -> R) :
  rows_of (length data) (map (fun l => map (f l) data) (range nl))
  = map (fun o => map (fun l => f l o) (range nl)) data.
Proof.
  unfold rows_of. apply nth_error_ext'. intros i. rewrite !nth_error_map.
  destruct (nth_error data i) as [o|] eqn:E.
  - assert (Hi : (i < length data)%nat) by (apply nth_error_Some; congruence).
    rewrite nth_error_range by exact Hi. simpl. f_equal. rewrite map_map.
    apply map_ext. intros l. apply nth_error_nth. now rewrite nth_error_map, E.
  - apply nth_error_None in E. rewrite (proj2 (nth_error_None _ i)); [reflexivity|].
    now rewrite length_range.
Qed.

Lemma map2_map_r {A B C} (f : A -> B -> C) (g : A -> B) l :
  map2 f l (map g l) = map (fun a => f a (g a)) l.
Proof. induction l as [|x l IH]; simpl; [reflexivity|]. now rewrite IH. Qed.
Lemma combine_map2 {A B C} (f : A -> B) (g : A -> C) l :
  combine (map f l) (map g l) = map (fun a => (f a, g a)) l.
Proof. induction l as [|x l IH]; simpl; [reflexivity|]. now rewrite IH. Qed.

Definition lp_entry (nk : nat) (p : par) (l : nat) (o : obs) : R :=
  ln (pk1 p (KK nk o) l) + w1 o * ln (nd1 p l o) + w2 o * ln (nd2 p l o).

Lemma lp_movers_spec nl nk p data :
  shapes_ok p -> Forall (mover_ok nl nk p) data ->
  lp_movers nl nk p data
  = Ok (map (fun o => map (fun l => lp_entry nk p l o) (range nl)) data).
Proof.
  intros Hsh H. rewrite Forall_forall in H. unfold lp_movers.
  rewrite (traverse_ok _ (fun l => map (lp_entry nk p l) data)).
  - cbn [bind]. now rewrite rows_of_map.
  - intros l Hl. apply in_seq in Hl. unfold lp_col.
    rewrite lp1_col_spec; [|exact Hsh|].
    2:{ intros o Ho. destruct (H o Ho) as [[? ?] Q]. split; [assumption|]. apply Q. lia. }
    cbn [bind]. rewrite lp2_col_spec; [|exact Hsh|].
    2:{ intros o Ho. destruct (H o Ho) as [[? ?] Q]. split; [assumption|]. apply Q. lia. }
    cbn [bind]. rewrite combine_map2, map2_map_r. reflexivity.
Qed.

Lemma exp_lp_entry nk p l o :
  0 < pk1 p (KK nk o) l ->
  exp (lp_entry nk p l o) = pk1 p (KK nk o) l * mover_density p o l.
Proof.
  intros H. unfold lp_entry, mover_density, Rpower.
  rewrite !exp_plus, exp_ln by exact H. unfold nd1, nd2. ring.
Qed.

Lemma rsum_exp_entry nl nk p o :
  (forall l, (l < nl)%nat -> 0 < pk1 p (KK nk o) l) ->
  rsum (map exp (map (fun l => lp_entry nk p l o) (range nl)))
  = mixture nl (pk1 p (KK nk o)) (mover_density p o).
Proof.
  intros H. rewrite map_map. unfold mixture, sumn. apply rsum_map_ext.
  intros l Hl. apply in_seq in Hl. apply exp_lp_entry. apply H. lia.
Qed.

Lemma map_range_nonempty {A} (f : nat -> A) n : (0 < n)%nat -> map f (range n) <> [].
Proof. destruct n; [lia|]. discriminate. Qed.

Lemma logsumexp_entry nl nk p o :
  (0 < nl)%nat -> mover_ok nl nk p o ->
  logsumexp (map (fun l => lp_entry nk p l o) (range nl))
  = Ok (ln (mixture nl (pk1 p (g1 o + nk * g2 o)%nat) (mover_density p o))).
Proof.
  intros Hn [_ H]. rewrite logsumexp_spec by (now apply map_range_nonempty).
  rewrite rsum_exp_entry; [reflexivity|]. intros l Hl. now apply H.
Qed.

Lemma posterior_list lp :
  lp <> [] -> posterior lp = Ok (map (fun y => exp y / rsum (map exp lp)) lp).
Proof.
  intros Hn. destruct (posterior_spec lp Hn) as (q & -> & Hl & Hq & _ & _). f_equal.
  apply list_from_nth; [exact Hl|]. intros i y Hy. now apply Hq.
Qed.

Lemma posterior_entry nl nk p o :
  (0 < nl)%nat -> mover_ok nl nk p o ->
  posterior (map (fun l => lp_entry nk p l o) (range nl))
  = Ok (map (fun l => pk1 p (g1 o + nk * g2 o)%nat l * mover_density p o l
          / mixture nl (pk1 p (g1 o + nk * g2 o)%nat) (mover_density p o)) (range nl)).
Proof.
  intros Hn [_ H]. rewrite posterior_list by (now apply map_range_nonempty).
  rewrite rsum_exp_entry by (intros l Hl; now apply H). rewrite map_map. f_equal.
  apply map_ext_in. intros l Hl. apply in_seq in Hl.
  rewrite exp_lp_entry; [reflexivity|]. apply H. lia.
Qed.

Lemma movers_likelihood nl nk p data :
  (0 < nl)%nat -> shapes_ok p -> Forall (mover_ok nl nk p) data ->
  (lp <- lp_movers nl nk p data ;; mean_lse lp) = Ok (movers_loglik nl nk p data).
Proof.
  intros Hn Hsh H. rewrite lp_movers_spec by assumption. cbn [bind]. unfold mean_lse.
  rewrite Forall_forall in H.
  rewrite (traverse_ok _ (fun row => ln (rsum (map exp row)))).
  2:{ intros row Hr. apply in_map_iff in Hr as [o [<- _]].
      apply logsumexp_spec. now apply map_range_nonempty. }
  cbn [bind]. unfold movers_loglik. rewrite !map_length. do 2 f_equal.
  rewrite map_map. apply rsum_map_ext. intros o Ho.
  rewrite rsum_exp_entry; [reflexivity|]. intros l Hl. now apply (H o Ho).
Qed.

Lemma movers_posteriors nl nk p data :
  (0 < nl)%nat -> shapes_ok p -> Forall (mover_ok nl nk p) data ->
  (lp <- lp_movers nl nk p data ;; posteriors lp)
  = Ok (map (fun o => map (fun l => pk1 p (g1 o + nk * g2 o)%nat l * mover_density p o l
          / mixture nl (pk1 p (g1 o + nk * g2 o)%nat) (mover_density p o)) (range nl)) data).
Proof.
  intros Hn Hsh H. rewrite lp_movers_spec by assumption. cbn [bind]. unfold posteriors.
  rewrite (traverse_ok _ (fun row => map (fun y => exp y / rsum (map exp row)) row)).
  2:{ intros row Hr. apply in_map_iff in Hr as [o [<- _]].
      apply posterior_list. now apply map_range_nonempty. }
  rewrite map_map. f_equal. apply map_ext_in. intros o Ho.
  rewrite Forall_forall in H.
  pose proof (posterior_entry nl nk p o Hn (H o Ho)) as E.
  rewrite posterior_list in E by (now apply map_range_nonempty). congruence.
Qed.

(* ---- relabelling does not change the likelihood ---- *)
Lemma cat_sum_relabelled nl s l Ac Ac' ns (f : R -> R) :
  (l < nl)%nat -> Forall2 (cat_relabelled nl s) Ac Ac' ->
  rsum (map2 (fun c n => f (cat_at l n c)) Ac' ns)
  = rsum (map2 (fun c n => f (cat_at (s l) n c)) Ac ns).
Proof.
  intros Hl F. revert ns. induction F as [|a b Ac Ac' H F IH]; intros [|n ns]; simpl; auto.
  rewrite IH. f_equal. f_equal. destruct a, b; simpl in *; auto; contradiction.
Qed.
Lemma cts_sum_relabelled nl s l Ax Ax' xs :
  (l < nl)%nat -> Forall2 (cts_relabelled nl s) Ax Ax' ->
  rsum (map2 (fun c x => cts_at l x c) Ax' xs) = rsum (map2 (fun c x => cts_at (s l) x c) Ax xs).
Proof.
  intros Hl F. revert xs. induction F as [|a b Ax Ax' H F IH]; intros [|n xs]; simpl; auto.
  rewrite IH. f_equal. destruct a, b; simpl in *; try contradiction;
  rewrite H by auto; reflexivity.
Qed.
Lemma cts_sq_relabelled nl s l Ax Ax' :
  (l < nl)%nat -> Forall2 (cts_relabelled nl s) Ax Ax' ->
  rsum (map (fun c => cts_sd l c ^ 2) Ax') = rsum (map (fun c => cts_sd (s l) c ^ 2) Ax).
Proof.
  intros Hl F. induction F as [|a b Ax Ax' H F IH]; cbn [map rsum]; auto.
  rewrite IH. f_equal. destruct a, b; cbn [cts_sd]; simpl in H; try contradiction;
  rewrite H by auto; reflexivity.
Qed.

Lemma mu1_relabelled nl nk s t p p' o o' l :
  relabelled nl nk s t p p' -> same_row nk t o o' -> (l < nl)%nat ->
  mu1 p' l o' = mu1 p (s l) o.
Proof.
  intros H (Hg & _ & E1 & _ & _ & _ & _ & _ & Ec & _ & Ex & _) Hl. unfold mu1, cat_sum.
  rewrite (proj1 (r_A _ _ _ _ _ _ H l _ Hl Hg)), E1, Ec, Ex.
  rewrite (cat_sum_relabelled nl s l _ _ _ (fun v => v) Hl (r_A1_cat _ _ _ _ _ _ H)).
  now rewrite (cts_sum_relabelled nl s l _ _ _ Hl (r_A1_cts _ _ _ _ _ _ H)).
Qed.
Lemma mu2_relabelled nl nk s t p p' o o' l :
  relabelled nl nk s t p p' -> same_row nk t o o' -> (l < nl)%nat ->
  mu2 p' l o' = mu2 p (s l) o.
Proof.
  intros H (_ & Hg & _ & E1 & _ & _ & _ & _ & _ & Ec & _ & Ex) Hl. unfold mu2, cat_sum.
  rewrite (proj2 (r_A _ _ _ _ _ _ H l _ Hl Hg)), E1, Ec, Ex.
  rewrite (cat_sum_relabelled nl s l _ _ _ (fun v => v) Hl (r_A2_cat _ _ _ _ _ _ H)).
  now rewrite (cts_sum_relabelled nl s l _ _ _ Hl (r_A2_cts _ _ _ _ _ _ H)).
Qed.
Lemma var1_relabelled nl nk s t p p' o o' l :
  relabelled nl nk s t p p' -> same_row nk t o o' -> (l < nl)%nat ->
  var1 p' l o' = var1 p (s l) o.
Proof.
  intros H (Hg & _ & E1 & _ & _ & _ & _ & _ & Ec & _ & Ex & _) Hl. unfold var1.
  rewrite (proj1 (r_S _ _ _ _ _ _ H l _ Hl Hg)), E1, Ec.
  rewrite (cat_sum_relabelled nl s l _ _ _ (fun v => v ^ 2) Hl (r_S1_cat _ _ _ _ _ _ H)).
  now rewrite (cts_sq_relabelled nl s l _ _ Hl (r_S1_cts _ _ _ _ _ _ H)).
Qed.
Lemma var2_relabelled nl nk s t p p' o o' l :
  relabelled nl nk s t p p' -> same_row nk t o o' -> (l < nl)%nat ->
  var2 p' l o' = var2 p (s l) o.
Proof.
  intros H (_ & Hg & _ & E1 & _ & _ & _ & _ & _ & Ec & _ & Ex) Hl. unfold var2.
  rewrite (proj2 (r_S _ _ _ _ _ _ H l _ Hl Hg)), E1, Ec.
  rewrite (cat_sum_relabelled nl s l _ _ _ (fun v => v ^ 2) Hl (r_S2_cat _ _ _ _ _ _ H)).
  now rewrite (cts_sq_relabelled nl s l _ _ Hl (r_S2_cts _ _ _ _ _ _ H)).
Qed.

Lemma density_relabelled nl nk s t p p' o o' l :
  relabelled nl nk s t p p' -> same_row nk t o o' -> (l < nl)%nat ->
  mover_density p' o' l = mover_density p o (s l) /\
  stayer_density p' o' l = stayer_density p o (s l).
Proof.
  intros H Ho Hl. unfold mover_density, stayer_density.
  rewrite (mu1_relabelled nl nk s t p p' o o' l H Ho Hl).
  rewrite (mu2_relabelled nl nk s t p p' o o' l H Ho Hl).
  rewrite (var1_relabelled nl nk s t p p' o o' l H Ho Hl).
  rewrite (var2_relabelled nl nk s t p p' o o' l H Ho Hl).
  destruct Ho as (_ & _ & _ & _ & -> & -> & -> & -> & _). auto.
Qed.

Lemma mixture_relabelled nl nk s t p p' o o' :
  relabelling nl s -> relabelled nl nk s t p p' -> same_row nk t o o' ->
  mixture nl (pk1 p' (g1 o' + nk * g2 o')%nat) (mover_density p' o')
  = mixture nl (pk1 p (g1 o + nk * g2 o)%nat) (mover_density p o).
Proof.
  intros Hs H Ho. unfold mixture.
  rewrite <- (relabelling_sumn nl s
    (fun l => pk1 p (g1 o + nk * g2 o)%nat l * mover_density p o l) Hs).
  apply sumn_ext. intros l Hl.
  destruct (density_relabelled nl nk s t p p' o o' l H Ho Hl) as [-> _].
  destruct Ho as (H1 & H2 & E1 & E2 & _).
  rewrite (r_pk1 _ _ _ _ _ _ H) by assumption. now rewrite E1, E2.
Qed.
Lemma stayer_mixture_relabelled nl nk s t p p' o o' :
  relabelling nl s -> relabelled nl nk s t p p' -> same_row nk t o o' ->
  mixture nl (pk0 p' (g1 o')) (stayer_density p' o')
  = mixture nl (pk0 p (g1 o)) (stayer_density p o).
Proof.
  intros Hs H Ho. unfold mixture.
  rewrite <- (relabelling_sumn nl s
    (fun l => pk0 p (g1 o) l * stayer_density p o l) Hs).
  apply sumn_ext. intros l Hl.
  destruct (density_relabelled nl nk s t p p' o o' l H Ho Hl) as [_ ->].
  destruct Ho as (H1 & H2 & E1 & E2 & _).
  rewrite (r_pk0 _ _ _ _ _ _ H) by assumption. now rewrite E1.
Qed.

Lemma rsum_Forall2 {A B} (P : A -> B -> Prop) (f : A -> R) (g : B -> R) l m :
  (forall a b, P a b -> f a = g b) -> Forall2 P l m -> rsum (map f l) = rsum (map g m).
Proof. intros H F. induction F; simpl; [reflexivity|]. rewrite IHF, (H _ _ H0). reflexivity. Qed.

Lemma Forall2_len {A B} (P : A -> B -> Prop) l m : Forall2 P l m -> length l = length m.
Proof. induction 1; simpl; congruence. Qed.

Lemma loglik_relabelled nl nk s t p p' data data' :
  relabelling nl s -> relabelled nl nk s t p p' -> Forall2 (same_row nk t) data data' ->
  movers_loglik nl nk p' data' = movers_loglik nl nk p data
  /\ stayers_loglik nl p' (pk0 p') data' = stayers_loglik nl p (pk0 p) data.
Proof.
  intros Hs H F. unfold movers_loglik, stayers_loglik.
  rewrite <- (Forall2_len _ _ _ F). split; f_equal; symmetry.
  - apply (rsum_Forall2 (same_row nk t)); [|exact F]. intros o o' Ho. f_equal. symmetry.
    now apply (mixture_relabelled nl nk s t).
  - apply (rsum_Forall2 (same_row nk t)); [|exact F]. intros o o' Ho. f_equal. symmetry.
    now apply (stayer_mixture_relabelled nl nk s t).
Qed.

Lemma mover_ok_relabelled nl nk s t p p' o o' :
  relabelling nl s -> relabelled nl nk s t p p' -> same_row nk t o o' ->
  mover_ok nl nk p o -> mover_ok nl nk p' o'.
Proof.
  intros Hs H (H1 & H2 & E1 & E2 & _) [_ Q]. split; [split; assumption|].
  intros l Hl. destruct (Q (s l) (relabelling_lt nl s l Hs Hl)) as (Q1 & Q2 & Q3).
  rewrite (r_pk1 _ _ _ _ _ _ H) by assumption.
  rewrite (proj1 (r_S _ _ _ _ _ _ H l _ Hl H1)), (proj2 (r_S _ _ _ _ _ _ H l _ Hl H2)).
  rewrite E1, E2. auto.
Qed.

Lemma shapes_relabelled nl nk s t p p' :
  relabelled nl nk s t p p' -> shapes_ok p -> shapes_ok p'.
Proof.
  intros H Q. unfold shapes_ok.
  rewrite <- (Forall2_len _ _ _ (r_A1_cat _ _ _ _ _ _ H)).
  rewrite <- (Forall2_len _ _ _ (r_A2_cat _ _ _ _ _ _ H)).
  rewrite <- (Forall2_len _ _ _ (r_S1_cat _ _ _ _ _ _ H)).
  rewrite <- (Forall2_len _ _ _ (r_S2_cat _ _ _ _ _ _ H)).
  rewrite <- (Forall2_len _ _ _ (r_A1_cts _ _ _ _ _ _ H)).
  rewrite <- (Forall2_len _ _ _ (r_A2_cts _ _ _ _ _ _ H)).
  rewrite <- (Forall2_len _ _ _ (r_S1_cts _ _ _ _ _ _ H)).
  rewrite <- (Forall2_len _ _ _ (r_S2_cts _ _ _ _ _ _ H)). exact Q.
Qed.

Lemma code_loglik_relabelled nl nk s t p p' data data' :
  (0 < nl)%nat -> shapes_ok p -> Forall (mover_ok nl nk p) data ->
  relabelling nl s -> relabelled nl nk s t p p' -> Forall2 (same_row nk t) data data' ->
  (lp <- lp_movers nl nk p' data' ;; mean_lse lp)
  = (lp <- lp_movers nl nk p data ;; mean_lse lp).
Proof.
  intros Hn Hsh Hok Hs H F. rewrite !movers_likelihood; try assumption.
  - f_equal. now apply (loglik_relabelled nl nk s t).
  - now apply (shapes_relabelled nl nk s t p).
  - clear Hsh. induction F; [constructor|]. inversion Hok; subst. constructor; [|auto].
    now apply (mover_ok_relabelled nl nk s t p p' x).
Qed.

(* ---- stayers ---- *)
Lemma lp_stable_spec nl nk p data :
  shapes_ok p ->
  (forall o, In o data -> (g1 o < nk)%nat /\ forall l, (l < nl)%nat -> 0 < S1 p l (g1 o)) ->
  lp_stable nl nk p data
  = Ok (map (fun o => map (fun l => w1 o * ln (nd1 p l o)) (range nl)) data).
Proof.
  intros Hsh H. unfold lp_stable.
  rewrite (traverse_ok _ (fun l => map (fun o => w1 o * ln (nd1 p l o)) data)).
  - cbn [bind]. now rewrite rows_of_map.
  - intros l Hl. apply in_seq in Hl. unfold stable_col.
    rewrite lp1_col_spec; [|exact Hsh|].
    2:{ intros o Ho. destruct (H o Ho) as [? Q]. split; [assumption|]. apply Q. lia. }
    cbn [bind]. now rewrite map2_map_r.
Qed.
