(* Concrete sorts and data for the cases of BsProps. *)
From Coq Require Import Sorted Permutation.
From Verif Require Import Base BaseLemmas UtilModel BsModel BsSpec BsLemmas BsSumLemmas BsClosedLemmas BsPropLemmas BsProp2Lemmas BsProp3Lemmas.
Local Open Scope R_scope.

Section Insertion.
Variable leb : brow -> brow -> bool.
Hypothesis total : forall r s, leb r s = true \/ leb s r = true.
Hypothesis trans : forall r s t, leb r s = true -> leb s t = true -> leb r t = true.
Fixpoint insert (r : brow) (l : list brow) : list brow :=
  match l with [] => [r] | s :: k => if leb r s then r :: s :: k else s :: insert r k end.
Definition isort (l : list brow) : list brow := fold_right insert [] l.

Lemma insert_perm r l : Permutation (insert r l) (r :: l).
Proof.
  induction l as [|s l IH]; cbn; auto. destruct (leb r s); auto. rewrite IH. apply perm_swap.
Qed.
Lemma insert_sorted r l : StronglySorted (fun a b => leb a b = true) l -> StronglySorted (fun a b => leb a b = true) (insert r l).
Proof.
  induction 1 as [|s l H IH F]; cbn; [constructor; constructor|]. destruct (leb r s) eqn:E.
  - constructor; [constructor; auto|]. constructor; auto. rewrite Forall_forall in *. intros t I. eapply trans; eauto.
  - constructor; auto. rewrite Forall_forall in *. intros t I. eapply Permutation_in in I; [|apply insert_perm].
    destruct I as [<-|I]; auto. destruct (total r s); congruence.
Qed.
Lemma isort_ok l : Permutation (isort l) l /\ StronglySorted (fun a b => leb a b = true) (isort l).
Proof.
  induction l as [|r l [P S]]; cbn; [split; constructor|]. split.
  - rewrite insert_perm. auto.
  - apply insert_sorted; auto.
Qed.
End Insertion.

Lemma sorted_weaken {A} (P Q : A -> A -> Prop) l : (forall a b, P a b -> Q a b) -> StronglySorted P l -> StronglySorted Q l.
Proof. intros H. induction 1; constructor; auto. rewrite Forall_forall in *. auto. Qed.

Definition sort_by_j : list brow -> list brow := isort (fun r s => (bj r <=? bj s)%nat).
Lemma sort_by_j_ok : is_sort_j sort_by_j.
Proof.
  intros l. unfold sort_by_j.
  destruct (isort_ok (fun r s => (bj r <=? bj s)%nat)) with (l := l) as [P S].
  - intros r s. rewrite !Nat.leb_le. lia.
  - intros r s t. rewrite !Nat.leb_le. lia.
  - split; auto. eapply sorted_weaken; [|exact S]. cbn. intros a b. apply Nat.leb_le.
Qed.
Definition sort_by_it : list brow -> list brow :=
  isort (fun r s => (bi r <? bi s)%nat || (bi r =? bi s)%nat && (bt r <=? bt s)%nat)%bool.
Lemma it_le r s : ((bi r <? bi s)%nat || (bi r =? bi s)%nat && (bt r <=? bt s)%nat)%bool = true <->
  (bi r < bi s)%nat \/ bi r = bi s /\ (bt r <= bt s)%nat.
Proof. rewrite Bool.orb_true_iff, Bool.andb_true_iff, Nat.ltb_lt, Nat.eqb_eq, Nat.leb_le. tauto. Qed.
Lemma sort_by_it_ok : is_sort_rows sort_by_it.
Proof.
  intros l. unfold sort_by_it.
  destruct (isort_ok (fun r s => (bi r <? bi s)%nat || (bi r =? bi s)%nat && (bt r <=? bt s)%nat)%bool) with (l := l) as [P S].
  - intros r s. rewrite !it_le. lia.
  - intros r s t. rewrite !it_le. lia.
  - split; auto. eapply sorted_weaken; [|exact S]. cbn. intros a b H. apply it_le in H. unfold before. lia.
Qed.

(* Two workers, two firms, every pair once. *)
Definition four (y0 y1 y2 y3 w0 w1 : R) : list brow :=
  [mkbrow 0 0 0 y0 w0 None; mkbrow 0 1 1 y1 w1 None; mkbrow 1 0 0 y2 1 None; mkbrow 1 1 1 y3 1 None].

Lemma four_units_i y0 y1 y2 y3 w0 w1 : lists_units bi [0; 1]%nat (four y0 y1 y2 y3 w0 w1).
Proof.
  split; [repeat constructor; cbn; lia|]. intros v. unfold four. cbn [In]. split.
  - intros [<-|[<-|[]]]; [exists (mkbrow 0 0 0 y0 w0 None)|exists (mkbrow 1 0 0 y2 1 None)]; auto 10.
  - intros (r & [<-|[<-|[<-|[<-|[]]]]] & <-); cbn; auto.
Qed.
Lemma four_units_j y0 y1 y2 y3 w0 w1 : lists_units bj [0; 1]%nat (four y0 y1 y2 y3 w0 w1).
Proof.
  split; [repeat constructor; cbn; lia|]. intros v. unfold four. cbn [In]. split.
  - intros [<-|[<-|[]]]; [exists (mkbrow 0 0 0 y0 w0 None)|exists (mkbrow 0 1 1 y1 w1 None)]; auto 10.
  - intros (r & [<-|[<-|[<-|[<-|[]]]]] & <-); cbn; auto.
Qed.
Lemma four_sorted y0 y1 y2 y3 w0 w1 : sorted_by bi (four y0 y1 y2 y3 w0 w1).
Proof. unfold four. repeat constructor; cbn; lia. Qed.
Lemma four_before y0 y1 y2 y3 w0 w1 : StronglySorted before (four y0 y1 y2 y3 w0 w1).
Proof. unfold four. repeat constructor; unfold before; cbn; lia. Qed.
Lemma four_two_i y0 y1 y2 y3 w0 w1 : two_obs bi (four y0 y1 y2 y3 w0 w1).
Proof. intros r [<-|[<-|[<-|[<-|[]]]]]; cbn; lia. Qed.
Lemma four_two_j y0 y1 y2 y3 w0 w1 : two_obs bj (four y0 y1 y2 y3 w0 w1).
Proof. intros r [<-|[<-|[<-|[<-|[]]]]]; cbn; lia. Qed.
Lemma four_positive y0 y1 y2 y3 w0 w1 : 0 < w0 -> 0 < w1 -> positive_weights (four y0 y1 y2 y3 w0 w1).
Proof. intros A B r [<-|[<-|[<-|[<-|[]]]]]; cbn; lra. Qed.
Lemma four_single y0 y1 y2 y3 w0 w1 : single_spells (four y0 y1 y2 y3 w0 w1).
Proof.
  intros p q r s. unfold four.
  destruct p as [|[|[|[|p]]]]; cbn; try (destruct p; discriminate); intros E; injection E as <-;
  (destruct q as [|[|[|[|q]]]]; cbn; try (destruct q; discriminate); intros F; injection F as <-; cbn; intros; auto; discriminate).
Qed.

Lemma four_variance y0 y1 y2 y3 w0 w1 : 
  pair_variance bi [0; 1]%nat (four y0 y1 y2 y3 w0 w1) = (2 * (y0 * y1) + 2 * (y2 * y3)) / 4 - ((y0 + y1 + y2 + y3) / 4) ^ 2.
Proof.
  unfold pair_variance, average, obs, four. cbn [filter bi Nat.eqb map rsum length distinct_pairs].
  cbn. field.
Qed.
Lemma four_variance_w y0 y1 y2 y3 w0 w1 : 0 < w0 -> 0 < w1 ->
  pair_variance_w bi [0; 1]%nat (four y0 y1 y2 y3 w0 w1) =
  ((w0 + w1) * (y0 * y1) + 2 * (y2 * y3)) / (w0 + w1 + 2) - ((w0 * y0 + w1 * y1 + y2 + y3) / (w0 + w1 + 2)) ^ 2.
Proof.
  intros A B. unfold pair_variance_w, waverage, obs, four. cbn [filter bi Nat.eqb map rsum].
  cbn. rewrite sqrt_1. pose proof (sqrt_lt_R0 _ A). pose proof (sqrt_lt_R0 _ B). field.
  repeat split; try lra; apply Rgt_not_eq; nra.
Qed.

(* C73 with weights *)
Lemma c73_refuted sort_j sort_rows : is_sort_j sort_j ->
  exists l c r after r' after', positive_weights l /\ sorted_by bi l /\ two_obs bi l /\ two_obs bj l /\ single_spells l /\
  fit sort_j sort_rows true true false true l = Ok (r, after) /\
  fit sort_j sort_rows true true false true (map (add_wage c) l) = Ok (r', after') /\
  r_mean r' = r_mean r + c /\ r_var_lambda r' <> r_var_lambda r.
Proof.
  intros S. set (l := four 1 0 0 0 1 4).
  assert (W : forall y0 y1 y2 y3, positive_weights (four y0 y1 y2 y3 1 4)) by (intros; apply four_positive; lra).
  destruct (c48_weighted sort_j sort_rows l _ _ S (four_sorted _ _ _ _ _ _) (four_units_i _ _ _ _ _ _) (four_units_j _ _ _ _ _ _) (W 1 0 0 0))
    as (r & a & E & (M & V & _)).
  destruct (c48_weighted sort_j sort_rows (map (add_wage 1) l) [0;1]%nat [0;1]%nat S (sorted_map bi (add_wage 1) l (fun _ => eq_refl) (four_sorted _ _ _ _ _ _))
     (lists_map bi (add_wage 1) _ l (fun _ => eq_refl) (four_units_i _ _ _ _ _ _)) (lists_map bj (add_wage 1) _ l (fun _ => eq_refl) (four_units_j _ _ _ _ _ _)))
    as (r' & a' & E' & (M' & V' & _)).
  { intros s I. apply in_map_iff in I. destruct I as (t & <- & I). exact (W 1 0 0 0 t I). }
  exists l, 1, r, a, r', a'. split; [apply W|]. split; [apply four_sorted|]. split; [apply four_two_i|]. split; [apply four_two_j|].
  split; [apply four_single|]. split; [exact E|]. split; [exact E'|]. split.
  - rewrite M, M'. unfold waverage, l. cbn. field.
  - rewrite V, V'. unfold l. change (map (add_wage 1) (four 1 0 0 0 1 4)) with (four (1+1) (0+1) (0+1) (0+1) 1 4).
    rewrite !four_variance_w by lra. lra.
Qed.

(* var(y) with weights *)
Lemma c74_var_y sort_j sort_rows alt : 
  exists l r after, positive_weights l /\ sorted_by bi l /\ two_obs bi l /\ two_obs bj l /\ (forall x, In x l -> by_ x = 1) /\
  fit sort_j sort_rows true true alt true l = Ok (r, after) /\ 0 < r_var_y r.
Proof.
  exists (four 1 1 1 1 1 4). eexists. eexists.
  split; [apply four_positive; lra|]. split; [apply four_sorted|]. split; [apply four_two_i|]. split; [apply four_two_j|].
  split; [intros x [<-|[<-|[<-|[<-|[]]]]]; reflexivity|]. split; [reflexivity|]. cbn [andb].
  assert (0 < var_y true (map weigh (four 1 1 1 1 1 4))).
  { rewrite var_y_weighted. unfold waverage, four. cbn. lra. }
  destruct alt; exact H.
Qed.

(* noise and repeated pairs *)
Definition repeated : list brow :=
  [mkbrow 0 0 0 0 1 None; mkbrow 0 0 1 0 1 None; mkbrow 1 0 0 0 1 None; mkbrow 1 0 1 0 1 None].
Definition shock (s : R) : nat -> R := fun p => if (p =? 0)%nat then s else 0.
Definition coin : list outcome := [mkout (1/2) (shock 1); mkout (1/2) (shock (-1))].

Lemma coin_space : is_space coin.
Proof. split; [intros o [<-|[<-|[]]]; cbn; lra|cbn; lra]. Qed.
Lemma coin_mean p : expect coin (fun y => y p) = 0.
Proof. unfold expect, coin, shock. cbn. destruct (p =? 0)%nat; lra. Qed.
Lemma coin_uncor p q : p <> q -> expect coin (fun y => y p * y q) = 0 * 0.
Proof.
  intros N. unfold expect, coin, shock. cbn. destruct (Nat.eqb_spec p 0), (Nat.eqb_spec q 0); subst; try lra. contradiction.
Qed.

Lemma repeated_cov y : pair_covariance (with_wages repeated y) =
  (y 1%nat * ((y 1%nat + y 2%nat + y 3%nat) / 3) + y 0%nat * ((y 0%nat + y 2%nat + y 3%nat) / 3)
   + y 3%nat * ((y 0%nat + y 1%nat + y 3%nat) / 3) + y 2%nat * ((y 0%nat + y 1%nat + y 2%nat) / 3)) / 4
  - ((y 0%nat + y 1%nat + y 2%nat + y 3%nat) / 4) ^ 2.
Proof.
  unfold pair_covariance, average, others, obs, remove_at, with_wages, repeated. cbn. field.
Qed.
Lemma repeated_units_i y : lists_units bi [0; 1]%nat (with_wages repeated y).
Proof.
  split; [repeat constructor; cbn; lia|]. intros v. unfold with_wages, repeated. cbn. split.
  - intros [<-|[<-|[]]]; [exists (mkbrow 0 0 0 (y 0%nat) 1 None)|exists (mkbrow 1 0 0 (y 2%nat) 1 None)]; auto 10.
  - intros (r & [<-|[<-|[<-|[<-|[]]]]] & <-); cbn; auto.
Qed.
Lemma repeated_units_j y : lists_units bj [0]%nat (with_wages repeated y).
Proof.
  split; [repeat constructor; cbn; lia|]. intros v. unfold with_wages, repeated. cbn. split.
  - intros [<-|[]]; exists (mkbrow 0 0 0 (y 0%nat) 1 None); auto 10.
  - intros (r & [<-|[<-|[<-|[<-|[]]]]] & <-); cbn; auto.
Qed.
Lemma repeated_sorted y : sorted_by bi (with_wages repeated y).
Proof. unfold with_wages, repeated. cbn. repeat constructor; cbn; lia. Qed.

Lemma c76_refuted sort_j sort_rows has_w alt weighted : is_sort_j sort_j -> (weighted && has_w)%bool = false ->
  exists l Om m est r0 after0, is_space Om /\ (forall p, expect Om (fun y => y p) = m p) /\
  (forall p q, p <> q -> expect Om (fun y => y p * y q) = m p * m q) /\ sorted_by bi l /\ two_obs bi l /\ two_obs bj l /\
  (forall y, exists after, fit sort_j sort_rows true has_w alt weighted (with_wages l y) = Ok (est y, after)) /\
  fit sort_j sort_rows true has_w alt weighted (with_wages l m) = Ok (r0, after0) /\
  r_cov r0 - mean_variance Om m (length l) < 0 < expect Om (fun y => r_cov (est y)).
Proof.
  intros S W. exists repeated, coin, (fun _ => 0).
  exists (fun y => if alt then fit_alternative sort_j false (with_wages repeated y) else fit_standard sort_j false (with_wages repeated y)).
  destruct (c48_unweighted sort_j sort_rows has_w alt weighted _ _ _ S (repeated_sorted (fun _ => 0)) (repeated_units_i _) (repeated_units_j _) W)
    as (r & a & E & (_ & _ & _ & _ & C & _)).
  exists r, a. split; [exact coin_space|]. split; [apply coin_mean|]. split; [apply coin_uncor|].
  split; [unfold repeated; repeat constructor; cbn; lia|].
  split; [intros x [<-|[<-|[<-|[<-|[]]]]]; cbn; lia|]. split; [intros x [<-|[<-|[<-|[<-|[]]]]]; cbn; lia|].
  split; [intros y; unfold fit; rewrite W; eexists; reflexivity|]. split; [exact E|].
  rewrite C, repeated_cov. split.
  - unfold mean_variance, expect, coin, average, shock. cbn. lra.
  - unfold expect, coin. cbn [map rsum prob wage_of].
    assert (F : forall y, r_cov (if alt then fit_alternative sort_j false (with_wages repeated y) else fit_standard sort_j false (with_wages repeated y))
       = pair_covariance (with_wages repeated y)).
    { intros y. apply (fit_closed sort_j (with_wages repeated y) _ _ alt S (repeated_sorted y) (repeated_units_i y) (repeated_units_j y)). }
    rewrite !F, !repeated_cov. unfold shock. cbn. lra.
Qed.

Lemma with_key key l y : same_key key -> map key (with_wages l y) = map key l.
Proof.
  intros H. unfold with_wages. rewrite map_map. change (fun x : nat * brow => _) with (fun x => key (G y x)).
  rewrite (map_ext _ (fun x => key (snd x))) by (intros; apply H). rewrite <- (map_map snd key). f_equal.
  unfold enumerate. generalize 0%nat. clear. induction l as [|x k IH]; intros s; cbn; f_equal; auto.
Qed.
Lemma lists_keys key vs l l' : map key l = map key l' -> lists_units key vs l -> lists_units key vs l'.
Proof.
  intros E [A B]. split; auto. intros v. rewrite B. 
  assert (K : forall k, (exists r, In r k /\ key r = v) <-> In v (map key k)).
  { intros k. rewrite in_map_iff. split; intros (r & I & J); exists r; auto. }
  rewrite !K, E. tauto.
Qed.
Lemma sorted_keys key l l' : map key l = map key l' -> sorted_by key l -> sorted_by key l'.
Proof.
  intros E H. revert l' E. induction H as [|r l H IH F]; intros [|s l'] E; try discriminate; constructor.
  - apply IH. injection E; auto.
  - injection E as E0 E. rewrite Forall_forall in *. intros t I. apply (in_map key) in I. rewrite <- E in I. apply in_map_iff in I.
    destruct I as (u & <- & I). rewrite <- E0. auto.
Qed.

Lemma c76_noise sort_j sort_rows has_w alt weighted l Om m est r0 after0 :
  is_sort_j sort_j -> sorted_by bi l -> (weighted && has_w)%bool = false ->
  is_space Om -> (forall p, (p < length l)%nat -> expect Om (fun y => y p) = m p) ->
  (forall p q, (p < length l)%nat -> (q < length l)%nat -> p <> q -> expect Om (fun y => y p * y q) = m p * m q) ->
  (forall y, exists after, fit sort_j sort_rows true has_w alt weighted (with_wages l y) = Ok (est y, after)) ->
  fit sort_j sort_rows true has_w alt weighted (with_wages l m) = Ok (r0, after0) ->
  expect Om (fun y => r_var_lambda (est y)) = r_var_lambda r0 - mean_variance Om m (length l) /\
  expect Om (fun y => r_var_mu (est y)) = r_var_mu r0 - mean_variance Om m (length l) /\
  (single_spells l -> expect Om (fun y => r_cov (est y)) = r_cov r0 - mean_variance Om m (length l)).
Proof.
  intros S So W Sp Me Un Es E0. 
  assert (X : forall y r a, fit sort_j sort_rows true has_w alt weighted (with_wages l y) = Ok (r, a) ->
     closed_form (with_wages l y) (appearance bi l) (appearance bj l) r).
  { intros y r a E. destruct (c48_unweighted sort_j sort_rows has_w alt weighted (with_wages l y) (appearance bi l) (appearance bj l) S) as (r1 & a1 & E1 & C); auto.
    - eapply sorted_keys; [symmetry; apply with_key|exact So]. intros ? ?; reflexivity.
    - eapply lists_keys; [symmetry; apply with_key|apply appearance_lists]. intros ? ?; reflexivity.
    - eapply lists_keys; [symmetry; apply with_key|apply appearance_lists]. intros ? ?; reflexivity.
    - rewrite E1 in E. injection E as <- <-. exact C. }
  destruct (X _ _ _ E0) as (_ & _ & V0 & M0 & C0 & _). rewrite V0, M0, C0.
  assert (Y : forall y, closed_form (with_wages l y) (appearance bi l) (appearance bj l) (est y)).
  { intros y. destruct (Es y) as [a E]. eapply X; eauto. }
  split; [|split].
  - rewrite <- (expect_variance Om m l Sp Me Un bi (appearance bi l)) by (intros ? ?; reflexivity).
    apply expect_ext. intros y. apply (Y y).
  - rewrite <- (expect_variance Om m l Sp Me Un bj (appearance bj l)) by (intros ? ?; reflexivity).
    apply expect_ext. intros y. apply (Y y).
  - intros Si. rewrite <- (expect_covariance Om m l Sp Me Un Si). apply expect_ext. intros y. apply (Y y).
Qed.
