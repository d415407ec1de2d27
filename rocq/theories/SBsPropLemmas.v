(* Proofs of the properties of SimBS. *)
From Verif Require Import Base BaseLemmas UtilModel UtilSpec BLMPropLemmas SBsModel SBsSpec SBsLemmas.
From Coq Require Import Permutation Sorted.
Local Open Scope res_scope.
Local Open Scope R_scope.

Lemma ssorted_nth {A} (le_ : A -> A -> Prop) d l : StronglySorted le_ l ->
  forall p q, (p < q < length l)%nat -> le_ (nth p l d) (nth q l d).
Proof.
  induction 1 as [|x l Hl IH Hx]; intros p q Hpq; [cbn in Hpq; lia|]. cbn [length] in Hpq. destruct q as [|q]; [lia|]. destruct p as [|p].
  - cbn. rewrite Forall_forall in Hx. apply Hx, nth_In. lia.
  - cbn. apply IH. lia.
Qed.
Lemma perm_nsum l l' : Permutation l l' -> nsum l = nsum l'.
Proof. induction 1; cbn in *; unfold nsum in *; cbn; lia. Qed.
Lemma perm_map_nth {A} (d : A) l : map (fun i => nth i l d) (range (length l)) = l.
Proof.
  apply nth_ext with (d := d) (d' := d); [now rewrite map_length, length_range|].
  rewrite map_length, length_range. intros i H. now rewrite nth_map_range.
Qed.
Lemma count_perm {A} (f : A -> bool) l l' : Permutation l l' -> count f l = count f l'.
Proof.
  unfold count. induction 1 as [|x l l' H IH|x y l|l1 l2 l3 H1 IH1 H2 IH2]; cbn; auto.
  - destruct (f x); cbn; congruence.
  - destruct (f x), (f y); reflexivity.
  - congruence.
Qed.
Lemma count_map {A B} (f : B -> bool) (h : A -> B) l : count f (map h l) = count (fun x => f (h x)) l.
Proof. unfold count. induction l as [|x l IH]; [reflexivity|]. cbn. destruct (f (h x)); cbn; now rewrite IH. Qed.
Lemma map_fst_combine {A B} (l : list A) (l' : list B) : length l = length l' -> map fst (combine l l') = l.
Proof. revert l'. induction l as [|x l IH]; intros [|y l']; cbn; intros; try discriminate; auto. now rewrite IH by lia. Qed.
Lemma map_snd_combine {A B} (l : list A) (l' : list B) : length l = length l' -> map snd (combine l l') = l'.
Proof. revert l'. induction l as [|x l IH]; intros [|y l']; cbn; intros; try discriminate; auto. now rewrite IH by lia. Qed.
Lemma in_nth_err {A} (l : list A) n d : (n < length l)%nat -> nth_error l n = Some (nth n l d).
Proof. apply nth_error_nth'. Qed.

Section Sim.
Variable argsort : list R -> list nat.
Hypothesis argsort_ok : forall l, is_argsort l (argsort l).
Variables (s : sbs) (g : sgen).

(* the matching of scores chi to firms with fs matches *)
Lemma match_spec chi fs : length chi = nsum fs ->
  let j := match_loop (argsort chi) fs (length chi) in
  length j = length chi /\ Permutation j (repeats fs) /\
  (forall r r', (r < length chi)%nat -> (r' < length chi)%nat -> nth r chi 0 < nth r' chi 0 -> (nth r j 0 <= nth r' j 0)%nat).
Proof.
  intros L j. destruct (argsort_ok chi) as [P S]. set (idx := argsort chi) in *.
  assert (H0 : length (repeat 0%nat (length chi)) = length chi) by apply repeat_length.
  destruct (loop_spec idx (length chi) P fs 0 _ 0 H0 ltac:(lia)) as (Hl & _ & Hp).
  change (length j = length chi) in Hl. split; [exact Hl|].
  assert (Hp' : forall p, (p < length chi)%nat -> nth (nth p idx 0%nat) j 0%nat = nth p (repeats fs) 0%nat).
  { intros p H. rewrite L in H. exact (Hp p H). }
  assert (Lr : length (repeats fs) = length chi) by (rewrite L; apply (rep_length 0)).
  pose proof (idx_len idx _ P) as Li. split.
  - rewrite <- (perm_map_nth 0%nat (repeats fs)), Lr.
    rewrite (map_ext_in _ (fun p => nth (nth p idx 0%nat) j 0%nat)).
    2:{ intros p H. apply in_seq in H. symmetry. apply Hp'. lia. }
    rewrite <- (map_map (fun p => nth p idx 0%nat) (fun r => nth r j 0%nat)). rewrite <- Li, perm_map_nth.
    rewrite <- (perm_map_nth 0%nat j) at 1. rewrite Hl. apply Permutation_map. now symmetry.
  - intros r r' Hr Hr' Hlt.
    assert (F : forall r, (r < length chi)%nat -> exists p, (p < length chi)%nat /\ nth p idx 0%nat = r).
    { intros x Hx. assert (I : In x idx) by (eapply Permutation_in; [symmetry; exact P|]; apply in_seq; lia).
      apply In_nth with (d := 0%nat) in I as (p & Hpl & E). exists p. split; [lia|exact E]. }
    destruct (F r Hr) as (p & Hpl & Ep). destruct (F r' Hr') as (q & Hql & Eq). rewrite <- Ep, <- Eq, !Hp' by assumption.
    destruct (lt_eq_lt_dec p q) as [[Hpq| ->]|Hpq]; [|lia|].
    + apply ssorted_nth; [apply (rep_sorted 0)|lia].
    + exfalso. pose proof (ssorted_nth _ 0 _ S q p) as X. rewrite map_length in X. specialize (X ltac:(lia)).
      assert (Y : forall k, (k < length chi)%nat -> nth k (map (fun i => nth i chi 0) idx) 0 = nth (nth k idx 0%nat) chi 0).
      { intros k Hk. rewrite (nth_indep _ 0 ((fun i => nth i chi 0) 0%nat)) by (rewrite map_length; lia).
        now rewrite (map_nth (fun i => nth i chi 0)). }
      rewrite !Y, Ep, Eq in X by assumption. lra.
Qed.

Definition score_of (s : sbs) (g : sgen) (r i : nat) : R :=
  sqrt (lambda_sq s) * z_lambda g i * rho s * sqrt (mu_sq s) / sqrt (lambda_sq s)
  + sqrt (mu_sq s) * sqrt (1 - rho s ^ 2) * z_chi g r.

Lemma simulate_spec_aux fuel rows : sbs_simulate argsort s g fuel = Ok rows ->
  exists ws fs firm, workers_firms fuel g = Ok (ws, fs) /\
  firstn (length (g_workers g)) ws = map (Nat.max 2) (g_workers g) /\
  firstn (length (g_firms g)) fs = map (Nat.max 2) (g_firms g) /\
  Forall (le 2) ws /\ Forall (le 2) fs /\
  matched ws fs firm (fun f => sqrt (mu_sq s) * z_mu g f) (score_of s g) (map (fun r => (b_i r, b_j r)) rows) /\
  forall r x, nth_error rows r = Some x ->
    let l := sqrt (lambda_sq s) * z_lambda g (b_i x) in let m := sqrt (mu_sq s) * z_mu g (firm (b_j x)) in
    b_y x = wage s l m (z_eps g r) /\ b_lambda x = coef_a s * l /\ b_mu x = coef_b s * m.
Proof.
  unfold sbs_simulate. destruct (workers_firms fuel g) as [[ws fs]|] eqn:E; [|discriminate]. cbn [bind].
  intros Hrows. injection Hrows as Hrows. apply equalize_spec in E as (Hsum & (xw & Ew & Hxw) & (xf & Ef & Hxf)).
  set (lam := map (fun i => sigma_lambda s * z_lambda g i) (range (length ws))) in *.
  set (mu := map (fun f => sigma_mu s * z_mu g f) (range (length fs))) in *.
  set (o := argsort mu) in *. set (is_ := repeats ws) in *.
  set (chi := map _ (enumerate is_)) in *.
  set (fs' := map (fun f => nth f fs 0%nat) o) in *.
  assert (Lmu : length mu = length fs) by (unfold mu; now rewrite map_length, length_range).
  destruct (argsort_ok mu) as [Po So]. fold o in Po, So. rewrite Lmu in Po.
  assert (Lo : length o = length fs) by (rewrite (Permutation_length Po); apply length_range).
  assert (Lfs' : length fs' = length fs) by (unfold fs'; now rewrite map_length).
  assert (Pfs : Permutation fs' fs).
  { unfold fs'. eapply perm_trans; [apply Permutation_map; exact Po|]. now rewrite perm_map_nth. }
  assert (Li : length is_ = nsum ws) by apply (rep_length 0).
  assert (Lchi : length chi = length is_).
  { unfold chi, enumerate. rewrite map_length, combine_length, seq_length. lia. }
  assert (Lchi' : length chi = nsum fs') by (rewrite (perm_nsum _ _ Pfs); lia).
  destruct (match_spec chi fs' Lchi') as (Lj & Pj & Aj). rewrite Lchi in Lj, Pj, Aj.
  set (js := match_loop (argsort chi) fs' (length is_)) in *.
  assert (Lij : length is_ = length js) by lia.
  set (W := map (fun n => Nat.max n 2) (g_workers g)) in *. set (F := map (fun n => Nat.max n 2) (g_firms g)) in *.
  assert (Lr : length rows = length is_).
  { rewrite <- Hrows, map_length. unfold enumerate. rewrite !combine_length, seq_length. lia. }
  assert (Hnth : forall r, (r < length is_)%nat -> nth_error rows r =
    Some (let i := nth r is_ 0%nat in let j := nth r js 0%nat in
          let l := nth i lam 0 in let m := nth j (map (fun f => nth f mu 0) o) 0 in
          mkbrow i j (wage s l m (z_eps g r)) (coef_a s * l) (coef_b s * m))).
  { intros r Hr. rewrite <- Hrows. rewrite nth_error_map.
    rewrite (in_nth_err _ r (0%nat, (0%nat, 0%nat))).
    2:{ unfold enumerate. rewrite !combine_length, seq_length. lia. }
    unfold enumerate. rewrite combine_nth by (rewrite seq_length; reflexivity).
    rewrite combine_nth by exact Lij. rewrite seq_nth by (rewrite combine_length; lia). reflexivity. }
  assert (Erows : map (fun r => (b_i r, b_j r)) rows = combine is_ js).
  { apply nth_ext with (d := (0, 0)%nat) (d' := (0, 0)%nat); [rewrite map_length, combine_length; lia|].
    rewrite map_length, Lr. intros r Hr. rewrite combine_nth by exact Lij.
    apply nth_error_nth. rewrite nth_error_map, Hnth by exact Hr. reflexivity. }
  assert (Hi : forall r, (r < length is_)%nat -> (nth r is_ 0 < length ws)%nat).
  { intros r Hr. assert (I : In (nth r is_ 0%nat) is_) by now apply nth_In. apply (rep_ge 0) in I. lia. }
  assert (Hj : forall r, (r < length is_)%nat -> (nth r js 0 < length fs)%nat).
  { intros r Hr. assert (I : In (nth r js 0%nat) js) by (apply nth_In; lia).
    eapply Permutation_in in I; [|exact Pj]. apply (rep_ge 0) in I. lia. }
  assert (Hmu : forall j, (j < length fs)%nat -> nth j (map (fun f => nth f mu 0) o) 0 = sigma_mu s * z_mu g (nth j o 0%nat)).
  { intros j H. rewrite (nth_indep _ 0 ((fun f => nth f mu 0) 0%nat)) by (rewrite map_length; lia).
    rewrite (map_nth (fun f => nth f mu 0)). unfold mu. rewrite nth_map_range; [reflexivity|]. now apply idx_lt. }
  exists ws, fs, (fun j => nth j o 0%nat). split; [reflexivity|].
  split. { rewrite Ew. rewrite firstn_app. unfold W. rewrite map_length, Nat.sub_diag. cbn [firstn]. rewrite app_nil_r.
    rewrite <- (map_length (fun n => Nat.max n 2) (g_workers g)), firstn_all. apply map_ext. intros; apply Nat.max_comm. }
  split. { rewrite Ef. rewrite firstn_app. unfold F. rewrite map_length, Nat.sub_diag. cbn [firstn]. rewrite app_nil_r.
    rewrite <- (map_length (fun n => Nat.max n 2) (g_firms g)), firstn_all. apply map_ext. intros; apply Nat.max_comm. }
  split. { rewrite Ew. apply Forall_app. split; [|exact Hxw]. apply Forall_forall. intros x Hx. apply in_map_iff in Hx as (y & <- & _). lia. }
  split. { rewrite Ef. apply Forall_app. split; [|exact Hxf]. apply Forall_forall. intros x Hx. apply in_map_iff in Hx as (y & <- & _). lia. }
  split.
  - rewrite Erows. constructor.
    + apply Forall_forall. intros [i j] I. apply In_nth with (d := (0, 0)%nat) in I as (r & Hr & Er).
      rewrite combine_length in Hr. rewrite combine_nth in Er by exact Lij. injection Er as <- <-.
      cbn [fst snd]. split; [apply Hi|apply Hj]; lia.
    + rewrite combine_length. fold (nsum ws) (nsum fs). lia.
    + intros i H. rewrite <- (count_map (Nat.eqb i) fst), map_fst_combine by exact Lij. exact (rep_count 0 ws i H).
    + intros j H. rewrite <- (count_map (Nat.eqb j) snd), map_snd_combine by exact Lij. rewrite (count_perm _ _ _ Pj).
      pose proof (rep_count 0 fs' j ltac:(lia)) as X. change (count (Nat.eqb j) (repeats fs') = nth j fs' 0%nat) in X. rewrite X.
      unfold fs'. rewrite (nth_indep _ 0%nat ((fun f => nth f fs 0%nat) 0%nat)) by (rewrite map_length; lia).
      now rewrite (map_nth (fun f => nth f fs 0%nat)).
    + rewrite <- Lo at 1. rewrite perm_map_nth. exact Po.
    + intros j j' [H1 H2]. destruct (Nat.eq_dec j j') as [->|Hne]; [lra|].
      pose proof (ssorted_nth _ 0 _ So j j') as X. rewrite map_length in X. specialize (X ltac:(lia)).
      rewrite !Hmu in X by lia. exact X.
    + intros r r' [i j] [i' j'] Hr Hr' Hlt. cbn [fst snd] in *.
      assert (B : (r < length is_)%nat) by (assert (X : nth_error (combine is_ js) r <> None) by congruence; apply nth_error_Some in X; rewrite combine_length in X; lia).
      assert (B' : (r' < length is_)%nat) by (assert (X : nth_error (combine is_ js) r' <> None) by congruence; apply nth_error_Some in X; rewrite combine_length in X; lia).
      apply nth_error_nth with (d := (0, 0)%nat) in Hr, Hr'. rewrite combine_nth in Hr, Hr' by exact Lij.
      injection Hr as <- <-. injection Hr' as <- <-. apply Aj; try assumption.
      assert (C : forall r, (r < length is_)%nat -> nth r chi 0 = score_of s g r (nth r is_ 0%nat)).
      { intros q Hq. unfold chi.
        set (f := fun ri : nat * nat => _). rewrite (nth_indep _ 0 (f (0, 0)%nat)) by (rewrite map_length; unfold enumerate; rewrite combine_length, seq_length; lia).
        rewrite map_nth. unfold enumerate. rewrite combine_nth by (apply seq_length). rewrite seq_nth by lia. unfold f. cbn [fst snd].
        unfold lam. rewrite nth_map_range by now apply Hi. reflexivity. }
      now rewrite !C.
  - intros r x Hx. assert (B : (r < length is_)%nat) by (rewrite <- Lr; apply nth_error_Some; congruence).
    rewrite Hnth in Hx by exact B. injection Hx as <-. cbn [b_i b_j b_y b_lambda b_mu].
    rewrite Hmu by now apply Hj. unfold lam. rewrite nth_map_range by now apply Hi. repeat split.
Qed.
Lemma simulate_spec fuel rows : sbs_simulate argsort s g fuel = Ok rows ->
  exists ws fs firm,
  firstn (length (g_workers g)) ws = map (Nat.max 2) (g_workers g) /\
  firstn (length (g_firms g)) fs = map (Nat.max 2) (g_firms g) /\
  Forall (le 2) ws /\ Forall (le 2) fs /\
  matched ws fs firm (fun f => sqrt (mu_sq s) * z_mu g f) (score_of s g) (map (fun r => (b_i r, b_j r)) rows) /\
  forall r x, nth_error rows r = Some x ->
    let l := sqrt (lambda_sq s) * z_lambda g (b_i x) in let m := sqrt (mu_sq s) * z_mu g (firm (b_j x)) in
    b_y x = wage s l m (z_eps g r) /\ b_lambda x = coef_a s * l /\ b_mu x = coef_b s * m.
Proof. intros H. destruct (simulate_spec_aux _ _ H) as (ws & fs & firm & _ & R). now exists ws, fs, firm. Qed.
End Sim.

(* ---- moments ---- *)
Section Moments.
Context {A : Type}.
Variables (omega : list A) (pr : A -> R).
Notation E := (expect omega pr).
Lemma expect_ext f h : (forall a, f a = h a) -> E f = E h.
Proof. intros H. unfold expect. f_equal. apply map_ext. intros a. now rewrite H. Qed.
Lemma expect_lin x y f h : E (fun a => x * f a + y * h a) = x * E f + y * E h.
Proof. unfold expect. induction omega as [|a l IH]; cbn; [lra|]. rewrite IH. lra. Qed.
Lemma expect_nonneg f : (forall a, In a omega -> 0 <= pr a) -> (forall a, 0 <= f a) -> 0 <= E f.
Proof.
  unfold expect. induction omega as [|a l IH]; intros Hp Hf; cbn; [lra|].
  assert (0 <= pr a * f a) by (apply Rmult_le_pos; [apply Hp; now left|apply Hf]).
  assert (0 <= rsum (map (fun a => pr a * f a) l)) by (apply IH; [|exact Hf]; intros b Hb; apply Hp; now right). lra.
Qed.
Lemma expect_sq3 a b c (l m e : A -> R) :
  E (fun w => (a * l w + b * m w + c * e w) ^ 2) =
  a ^ 2 * E (fun w => l w ^ 2) + b ^ 2 * E (fun w => m w ^ 2) + c ^ 2 * E (fun w => e w ^ 2)
  + 2 * a * b * E (fun w => l w * m w) + 2 * a * c * E (fun w => l w * e w) + 2 * b * c * E (fun w => m w * e w).
Proof. unfold expect. induction omega as [|w o IH]; cbn [map rsum fold_right]; [lra|]. unfold rsum in *. cbn [fold_right]. rewrite IH. ring. Qed.
Lemma expect_prod3 a b c (l m e h : A -> R) :
  E (fun w => (a * l w + b * m w + c * e w) * h w) =
  a * E (fun w => l w * h w) + b * E (fun w => m w * h w) + c * E (fun w => e w * h w).
Proof. unfold expect. induction omega as [|w o IH]; cbn [map rsum fold_right]; [lra|]. unfold rsum in *. cbn [fold_right]. rewrite IH. ring. Qed.
Lemma expect_lin3 a b c (l m e : A -> R) :
  E (fun w => a * l w + b * m w + c * e w) = a * E l + b * E m + c * E e.
Proof. unfold expect. induction omega as [|w o IH]; cbn [map rsum fold_right]; [lra|]. unfold rsum in *. cbn [fold_right]. rewrite IH. ring. Qed.

Variable s : sbs.
Hypothesis rho_in : -1 < rho s < 1.
Hypothesis l_pos : 0 < lambda_sq s.
Hypothesis m_pos : 0 < mu_sq s.
Let d_pos : 0 < 1 - rho s ^ 2. Proof. nra. Qed.
Let sl_pos : 0 < sigma_lambda s. Proof. now apply sqrt_lt_R0. Qed.
Let sm_pos : 0 < sigma_mu s. Proof. now apply sqrt_lt_R0. Qed.
Let sl2 : sigma_lambda s ^ 2 = lambda_sq s. Proof. unfold sigma_lambda. rewrite <- Rsqr_pow2, Rsqr_sqrt; lra. Qed.
Let sm2 : sigma_mu s ^ 2 = mu_sq s. Proof. unfold sigma_mu. rewrite <- Rsqr_pow2, Rsqr_sqrt; lra. Qed.

Lemma quotient_pos : 0 < quotient s.
Proof.
  unfold quotient. apply Rdiv_lt_0_compat; [|exact d_pos].
  replace (_ - _) with ((sigma_lambda s - rho s * sigma_mu s) ^ 2 + sigma_mu s ^ 2 * (1 - rho s ^ 2)) by ring.
  assert (0 < sigma_mu s ^ 2) by (apply pow_lt; exact sm_pos). assert (0 < sigma_mu s ^ 2 * (1 - rho s ^ 2)) by now apply Rmult_lt_0_compat.
  pose proof (pow2_ge_0 (sigma_lambda s - rho s * sigma_mu s)). lra.
Qed.
Lemma init_ok_iff : 0 <= sigma_wages s -> sbs_init s = Ok tt <-> quotient s <= sigma_wages s ^ 2.
Proof.
  intros Hw. unfold sbs_init. pose proof quotient_pos as Q.
  destruct (Rlt_dec (sigma_wages s) (sqrt (quotient s))) as [H|H].
  - split; [discriminate|]. intros L. exfalso.
    assert (X : sigma_wages s ^ 2 < sqrt (quotient s) ^ 2) by nra.
    rewrite <- (Rsqr_pow2 (sqrt _)), Rsqr_sqrt in X; lra.
  - split; [|reflexivity]. intros _. apply Rnot_lt_le in H.
    assert (X : sqrt (quotient s) ^ 2 <= sigma_wages s ^ 2) by (apply pow_incr; split; [apply sqrt_pos|exact H]).
    rewrite <- (Rsqr_pow2 (sqrt _)), Rsqr_sqrt in X; lra.
Qed.
Lemma coef_l : coef_a s * sigma_lambda s ^ 2 + coef_b s * (rho s * sigma_lambda s * sigma_mu s) = sigma_lambda s ^ 2.
Proof. unfold coef_a, coef_b. field. repeat split; try apply Rgt_not_eq; try apply Rlt_gt; assumption. Qed.
Lemma coef_m : coef_a s * (rho s * sigma_lambda s * sigma_mu s) + coef_b s * sigma_mu s ^ 2 = sigma_mu s ^ 2.
Proof. unfold coef_a, coef_b. field. repeat split; try apply Rgt_not_eq; try apply Rlt_gt; assumption. Qed.
Lemma coef_q : coef_a s * sigma_lambda s ^ 2 + coef_b s * sigma_mu s ^ 2 = quotient s.
Proof. unfold coef_a, coef_b, quotient. field. repeat split; try apply Rgt_not_eq; try apply Rlt_gt; assumption. Qed.

Lemma moments_thm l m z : 0 <= sigma_wages s -> sbs_init s = Ok tt ->
  moments omega pr l m z (sqrt (lambda_sq s)) (sqrt (mu_sq s)) (rho s) 1 ->
  let y w := wage s (l w) (m w) (z w) in
  E y = 0 /\ E (fun w => y w ^ 2) = sigma_wages s ^ 2 /\
  E (fun w => y w * l w) = lambda_sq s /\ E (fun w => y w * m w) = mu_sq s.
Proof.
  intros Hw Hi M y. fold (sigma_lambda s) (sigma_mu s) in M. apply (init_ok_iff Hw) in Hi. destruct M. subst y. unfold wage.
  pose proof coef_l as CL. pose proof coef_m as CM. pose proof coef_q as CQ.
  split; [rewrite expect_lin3, mo_l, mo_m, mo_e; ring|].
  split.
  { rewrite expect_sq3, mo_ll, mo_mm, mo_ee, mo_lm, mo_le, mo_me.
    assert (S2 : sigma_eps s ^ 2 = sigma_wages s ^ 2 - quotient s) by (unfold sigma_eps; rewrite <- Rsqr_pow2, Rsqr_sqrt; lra).
    rewrite S2.
    assert (X : coef_a s * (coef_a s * sigma_lambda s ^ 2 + coef_b s * (rho s * sigma_lambda s * sigma_mu s))
                + coef_b s * (coef_a s * (rho s * sigma_lambda s * sigma_mu s) + coef_b s * sigma_mu s ^ 2) = quotient s)
      by (rewrite CL, CM; exact CQ).
    rewrite <- X. ring. }
  split.
  - rewrite expect_prod3. rewrite (expect_ext (fun w => m w * l w) (fun w => l w * m w)) by (intros; ring).
    rewrite (expect_ext (fun w => z w * l w) (fun w => l w * z w)) by (intros; ring).
    rewrite (expect_ext (fun w => l w * l w) (fun w => l w ^ 2)) by (intros; ring).
    rewrite mo_ll, mo_lm, mo_le, <- sl2. lra.
  - rewrite expect_prod3. rewrite (expect_ext (fun w => z w * m w) (fun w => m w * z w)) by (intros; ring).
    rewrite (expect_ext (fun w => m w * m w) (fun w => m w ^ 2)) by (intros; ring).
    rewrite mo_mm, mo_lm, mo_me, <- sm2. lra.
Qed.

Lemma refused_thm l m y : 0 <= sigma_wages s -> sbs_init s = Err ValueError -> (forall w, In w omega -> 0 <= pr w) ->
  E (fun w => l w ^ 2) = lambda_sq s -> E (fun w => m w ^ 2) = mu_sq s ->
  E (fun w => l w * m w) = rho s * sqrt (lambda_sq s) * sqrt (mu_sq s) ->
  E (fun w => y w * l w) = lambda_sq s -> E (fun w => y w * m w) = mu_sq s ->
  sigma_wages s ^ 2 < E (fun w => y w ^ 2).
Proof.
  intros Hw Hi Hp ELL EMM ELM EYL EYM. fold (sigma_lambda s) (sigma_mu s) in ELM.
  assert (Q : sigma_wages s ^ 2 < quotient s).
  { apply Rnot_le_lt. intros L. apply (init_ok_iff Hw) in L. congruence. }
  pose proof (expect_nonneg (fun w => (- coef_a s * l w + - coef_b s * m w + 1 * y w) ^ 2) Hp (fun w => pow2_ge_0 _)) as N.
  rewrite expect_sq3 in N.
  rewrite (expect_ext (fun w => l w * y w) (fun w => y w * l w)) in N by (intros; ring).
  rewrite (expect_ext (fun w => m w * y w) (fun w => y w * m w)) in N by (intros; ring).
  rewrite ELL, EMM, ELM, EYL, EYM in N. rewrite <- sl2, <- sm2 in N.
  pose proof coef_l as CL. pose proof coef_m as CM. pose proof coef_q as CQ.
  set (a := coef_a s) in *. set (b := coef_b s) in *. set (L := sigma_lambda s) in *. set (M := sigma_mu s) in *.
  assert (X : a * (a * L ^ 2 + b * (rho s * L * M)) + b * (a * (rho s * L * M) + b * M ^ 2) = quotient s) by (rewrite CL, CM; exact CQ).
  nra.
Qed.

Lemma column_l_iff : coef_a s = 1 <-> rho s = 0 \/ sigma_mu s = rho s * sigma_lambda s.
Proof.
  assert (D : sigma_lambda s * (1 - rho s ^ 2) <> 0) by (apply Rgt_not_eq, Rmult_lt_0_compat; assumption).
  assert (X : coef_a s = 1 <-> sigma_lambda s - rho s * sigma_mu s = sigma_lambda s * (1 - rho s ^ 2)).
  { unfold coef_a. split; intros H; [|rewrite H; unfold Rdiv; now rewrite Rinv_r].
    apply (f_equal (fun x => x * (sigma_lambda s * (1 - rho s ^ 2)))) in H. unfold Rdiv in H. rewrite Rmult_assoc, Rinv_l in H by exact D. lra. }
  rewrite X. split.
  - intros H. assert (Z : rho s * (sigma_mu s - rho s * sigma_lambda s) = 0) by nra. apply Rmult_integral in Z as [Z|Z]; [now left|right; lra].
  - intros [H|H]; [rewrite H; ring|rewrite H; ring].
Qed.
Lemma column_m_iff : coef_b s = 1 <-> rho s = 0 \/ sigma_lambda s = rho s * sigma_mu s.
Proof.
  assert (D : sigma_mu s * (1 - rho s ^ 2) <> 0) by (apply Rgt_not_eq, Rmult_lt_0_compat; assumption).
  assert (X : coef_b s = 1 <-> sigma_mu s - rho s * sigma_lambda s = sigma_mu s * (1 - rho s ^ 2)).
  { unfold coef_b. split; intros H; [|rewrite H; unfold Rdiv; now rewrite Rinv_r].
    apply (f_equal (fun x => x * (sigma_mu s * (1 - rho s ^ 2)))) in H. unfold Rdiv in H. rewrite Rmult_assoc, Rinv_l in H by exact D. lra. }
  rewrite X. split.
  - intros H. assert (Z : rho s * (sigma_lambda s - rho s * sigma_mu s) = 0) by nra. apply Rmult_integral in Z as [Z|Z]; [now left|right; lra].
  - intros [H|H]; [rewrite H; ring|rewrite H; ring].
Qed.
End Moments.

(* the default parameters *)
Definition sbs_default : sbs := mksbs 1 1 2 (1 / 4).
Lemma default_sl : sigma_lambda sbs_default = 1. Proof. apply sqrt_1. Qed.
Lemma default_sm : sigma_mu sbs_default = 1. Proof. apply sqrt_1. Qed.
Lemma default_a : coef_a sbs_default = 4 / 5. Proof. unfold coef_a. rewrite default_sl, default_sm. cbn [rho sbs_default]. field. Qed.
Lemma default_b : coef_b sbs_default = 4 / 5. Proof. unfold coef_b. rewrite default_sl, default_sm. cbn [rho sbs_default]. field. Qed.
Lemma default_init : sbs_init sbs_default = Ok tt.
Proof.
  apply (init_ok_iff sbs_default); cbn [rho lambda_sq mu_sq sigma_wages sbs_default]; try lra.
  unfold quotient. rewrite default_sl, default_sm. cbn [rho sbs_default]. lra.
Qed.
Lemma default_columns argsort (argsort_ok : forall l, is_argsort l (argsort l)) g fuel rows x :
  sbs_simulate argsort sbs_default g fuel = Ok rows -> In x rows -> b_lambda x = 4 / 5 * (sqrt (lambda_sq sbs_default) * z_lambda g (b_i x)).
Proof.
  intros E I. destruct (simulate_spec argsort argsort_ok _ _ _ _ E) as (ws & fs & firm & _ & _ & _ & _ & _ & H).
  apply In_nth_error in I as [r Hr]. destruct (H r x Hr) as (_ & H2 & _). now rewrite H2, default_a.
Qed.

(* ---- a case ---- *)
(* three workers with 2, 3 and 2 matches, two firms with 3 and 2: a third firm is added *)
Definition case_gen : sgen := mksgen [1; 3; 2]%nat [3; 0]%nat (fun _ => 1%nat) (fun _ => 5%nat)
  (fun i => INR i - 1) (fun j => 1 - INR j) (fun r => INR r / 2) (fun _ => 1).
Lemma case_thm : exists rows, sbs_simulate isort sbs_default case_gen 2 = Ok rows /\ length rows = 7%nat /\
  count (fun r => 1 =? b_i r)%nat rows = 3%nat.
Proof.
  destruct (sbs_simulate isort sbs_default case_gen 2) as [rows|e] eqn:E.
  2:{ exfalso. unfold sbs_simulate, workers_firms in E. cbn in E. discriminate. }
  exists rows. split; [reflexivity|]. destruct (simulate_spec_aux isort isort_ok _ _ _ _ E) as (ws & fs & firm & W & _ & _ & _ & _ & M & _).
  cbn in W. injection W as <- <-. destruct M as [_ [T _] M _ _ _ _]. rewrite map_length in T. split; [exact T|].
  specialize (M 1%nat ltac:(cbn; lia)). now rewrite count_map in M.
Qed.

(* eight draws of -1 and 1, with correlation 1/4 of the first two *)
Definition draws8 : list (R * R * R) :=
  [(1, 1, 1); (1, 1, -1); (1, -1, 1); (1, -1, -1); (-1, 1, 1); (-1, 1, -1); (-1, -1, 1); (-1, -1, -1)].
Definition prob8 (w : R * R * R) : R := (1 + 1 / 4 * (fst (fst w) * snd (fst w))) / 8.
Lemma draws8_moments : moments draws8 prob8 (fun w => fst (fst w)) (fun w => snd (fst w)) (fun w => snd w)
  (sqrt (lambda_sq sbs_default)) (sqrt (mu_sq sbs_default)) (rho sbs_default) 1.
Proof.
  change (sqrt (lambda_sq sbs_default)) with (sigma_lambda sbs_default). change (sqrt (mu_sq sbs_default)) with (sigma_mu sbs_default).
  rewrite default_sl, default_sm. cbn [rho sbs_default].
  constructor; unfold expect, draws8, prob8; cbn [map fst snd]; unfold rsum; cbn [fold_right]; lra.
Qed.
Lemma case_refused : sbs_init (mksbs 1 1 1 (1 / 4)) = Err ValueError.
Proof.
  unfold sbs_init. destruct (Rlt_dec _ _) as [_|H]; [reflexivity|]. exfalso. apply H. cbn [sigma_wages].
  assert (Q : quotient (mksbs 1 1 1 (1 / 4)) = 8 / 5) by (unfold quotient, sigma_lambda, sigma_mu; cbn [lambda_sq mu_sq rho]; rewrite sqrt_1; field).
  rewrite Q. rewrite <- sqrt_1 at 1. apply sqrt_lt_1; lra.
Qed.
