(* Lists of arrays, predicted means and weighted least squares of the blocks of
   parameters. *)
From Verif Require Import Base BaseLemmas UtilModel UtilSpec ConsModel ConsSpec ConsLemmas ConsPropLemmas
  BLMModel BLMEMModel BLMSpec BLMSortLemmas BLMLikLemmas BLMFitModel BLMFitSpec BLMFitLemmas
  BLMGenModel BLMGenSpec BLMGenLemmas DBLMStepLemmas BLMCtlModel BLMCtlSpec.
From Coq Require Import FunctionalExtensionality.
Local Open Scope res_scope.
Local Open Scope R_scope.

(* ---- replacing an entry of a list ---- *)
Lemma put_from {A} (v : A) l : forall i j,
  map (fun ia => if (fst ia =? j)%nat then v else snd ia) (combine (seq i (length l)) l)
  = if ((i <=? j) && (j <? i + length l))%nat then lput (j - i) v l else l.
Proof.
  induction l as [|a l IH]; intros i j.
  - cbn [length seq combine map]. destruct ((i <=? j) && (j <? i + 0))%nat eqn:E; [|reflexivity].
    apply andb_prop in E as [E1 E2]. apply Nat.leb_le in E1. apply Nat.ltb_lt in E2. lia.
  - cbn [length seq combine map fst snd]. rewrite IH.
    destruct (Nat.eqb_spec i j) as [->|Hne].
    + replace (j - j)%nat with 0%nat by lia. rewrite Nat.leb_refl.
      replace (j <? j + S (length l))%nat with true by (symmetry; apply Nat.ltb_lt; lia).
      replace (S j <=? j)%nat with false by (symmetry; apply Nat.leb_gt; lia). reflexivity.
    + destruct (Nat.leb_spec i j) as [H|H].
      * replace (S i <=? j)%nat with true by (symmetry; apply Nat.leb_le; lia).
        replace (i + S (length l))%nat with (S i + length l)%nat by lia.
        cbn [andb]. destruct (j <? S i + length l)%nat; [|reflexivity].
        replace (j - i)%nat with (S (j - S i)) by lia. reflexivity.
      * replace (S i <=? j)%nat with false by (symmetry; apply Nat.leb_gt; lia). reflexivity.
Qed.
Lemma put_lput {A} j (v : A) l : (j < length l)%nat -> put j v l = lput j v l.
Proof.
  intros H. unfold put, enumerate. rewrite put_from. cbn [Nat.leb andb Nat.add].
  apply Nat.ltb_lt in H. now rewrite H, Nat.sub_0_r.
Qed.
Lemma length_lput {A} j (v : A) l : (j < length l)%nat -> length (lput j v l) = length l.
Proof.
  revert j. induction l as [|a l IH]; intros j H; cbn [length] in H; [lia|].
  destruct j; [reflexivity|]. cbn. f_equal. apply IH. lia.
Qed.
Lemma nth_lput {A} j i (v : A) l d : (j < length l)%nat ->
  nth i (lput j v l) d = if (i =? j)%nat then v else nth i l d.
Proof.
  revert j i. induction l as [|a l IH]; intros j i H; cbn [length] in H; [lia|].
  destruct j.
  - destruct i; reflexivity.
  - change (lput (S j) v (a :: l)) with (a :: lput j v l). destruct i; [reflexivity|].
    cbn [nth Nat.eqb]. apply IH. lia.
Qed.
Lemma Forall2_lput {A B} (P : A -> B -> Prop) la lb j v d :
  Forall2 P la lb -> (j < length la)%nat -> P (nth j la d) v -> Forall2 P la (lput j v lb).
Proof.
  intros F. revert j. induction F as [|a b la lb H F IH]; intros j Hj Hv; cbn [length] in Hj; [lia|].
  destruct j; [now constructor|]. change (lput (S j) v (b :: lb)) with (b :: lput j v lb).
  constructor; [exact H|]. apply IH; [lia|exact Hv].
Qed.
Lemma Forall2_at {A B} (P : A -> B -> Prop) la lb j d d' :
  Forall2 P la lb -> (j < length la)%nat -> P (nth j la d) (nth j lb d').
Proof.
  intros F. revert j. induction F as [|a b la lb H F IH]; intros j Hj; cbn [length] in Hj; [lia|].
  destruct j; [exact H|]. apply IH. lia.
Qed.
Lemma F2_length {A B} (P : A -> B -> Prop) la lb : Forall2 P la lb -> length lb = length la.
Proof. induction 1; cbn; congruence. Qed.

Lemma F2_impl {A B} (P Q : A -> B -> Prop) la lb :
  (forall a b, P a b -> Q a b) -> Forall2 P la lb -> Forall2 Q la lb.
Proof. intros H. induction 1; constructor; auto. Qed.

Lemma sum_lput {A B} (f : A -> B -> R) l ns j v d e :
  (j < length l)%nat -> (j < length ns)%nat ->
  rsum (map2 f (lput j v l) ns) = rsum (map2 f l ns) - f (nth j l d) (nth j ns e) + f v (nth j ns e).
Proof.
  revert ns j. induction l as [|a l IH]; intros ns j Hj Hn; cbn [length] in Hj; [lia|].
  destruct ns as [|n ns]; cbn [length] in Hn; [lia|]. destruct j.
  - cbn. lra.
  - change (lput (S j) v (a :: l)) with (a :: lput j v l). cbn [map2 rsum nth].
    rewrite IH by lia. lra.
Qed.

(* ---- effects shared by worker types ---- *)
Definition cat_sh (a : catpar) (n : nat) : R := match a with Shared v => v n | Inter _ => 0 end.
Definition cts_sh (a : ctspar) (x : R) : R := match a with XShared v => v * x | XInter _ => 0 end.
Lemma non_nl_sum Ac Ax c x :
  sum_non_nl Ac Ax c x = rsum (map2 cat_sh Ac c) + rsum (map2 cts_sh Ax x).
Proof.
  unfold sum_non_nl.
  rewrite (fold_left_add _ (fun pn : catpar * nat =>
    match fst pn with Shared v => v (snd pn) | Inter _ => 0 end) (combine Ac c) 0)
    by (intros s [[m|v] n]; simpl; lra).
  rewrite (fold_left_add _ (fun px : ctspar * R =>
    match fst px with XShared a => a * snd px | XInter _ => 0 end))
    by (intros s [[m|v] n]; simpl; lra).
  rewrite !map2_combine, Rplus_0_l. reflexivity.
Qed.

(* ---- weighted least squares ---- *)
Section WLS.
Variables (nl n : nat) (data : list obs) (ky : bool -> obs -> nat) (om z r : bool -> nat -> obs -> R).
Hypothesis ky_lt : forall t o, In o data -> (ky t o < n)%nat.

Lemma wls_period t a :
  2 * sumn nl (fun l => sumn n (fun k =>
    cell (ky t) data (fun o => om t l o * z t l o ^ 2) k * a l k ^ 2 / 2
    + - cell (ky t) data (fun o => om t l o * z t l o * r t l o) k * a l k))
  = rsum (map (fun o => sumn nl (fun l => om t l o * (r t l o - z t l o * a l (ky t o)) ^ 2)) data)
    - rsum (map (fun o => sumn nl (fun l => om t l o * r t l o ^ 2)) data).
Proof.
  rewrite (rows_to_cells nl n (ky t) data (fun l k o => om t l o * (r t l o - z t l o * a l k) ^ 2))
    by (intros; now apply ky_lt).
  rewrite (rows_to_cells nl n (ky t) data (fun l k o => om t l o * r t l o ^ 2)) by (intros; now apply ky_lt).
  rewrite <- sumn_minus, <- sumn_scal. apply sumn_ext. intros l _.
  rewrite <- sumn_minus, <- sumn_scal. apply sumn_ext. intros k _.
  replace (cell (ky t) data (fun o => om t l o * (r t l o - z t l o * a l k) ^ 2) k)
    with (a l k ^ 2 * cell (ky t) data (fun o => om t l o * z t l o ^ 2) k
          + (- (2 * a l k)) * cell (ky t) data (fun o => om t l o * z t l o * r t l o) k
          + cell (ky t) data (fun o => om t l o * r t l o ^ 2) k); [field|].
  rewrite <- !cell_scal, <- !cell_plus. apply cell_ext. intros. ring.
Qed.

Lemma wls_objective P q x (a : vals) :
  cells_are nl n P (fun l k => cell (ky false) data (fun o => om false l o * z false l o ^ 2) k)
                   (fun l k => cell (ky true) data (fun o => om true l o * z true l o ^ 2) k) ->
  cells_are nl n q (fun l k => cell (ky false) data (fun o => om false l o * z false l o * r false l o) k)
                   (fun l k => cell (ky true) data (fun o => om true l o * z true l o * r true l o) k) ->
  stacked nl n (a false) (a true) x ->
  2 * qobj P (map Ropp q) x
  = total nl data (fun t l o => om t l o * (r t l o - z t l o * a t l (ky t o)) ^ 2)
    - total nl data (fun t l o => om t l o * r t l o ^ 2).
Proof.
  intros HP Hq Hx. rewrite (qobj_cells nl n _ _ _ _ _ _ x _ _ HP (cells_opp _ _ _ _ _ Hq) Hx).
  rewrite Rmult_plus_distr_l, (wls_period false (a false)), (wls_period true (a true)).
  unfold total.
  assert (E : forall f : bool -> nat -> obs -> R,
    rsum (map (fun o => sumn nl (fun l => f false l o + f true l o)) data)
    = rsum (map (fun o => sumn nl (fun l => f false l o)) data)
      + rsum (map (fun o => sumn nl (fun l => f true l o)) data)).
  { intros f. rewrite <- rsum_map_plus. apply rsum_map_ext. intros o _. now rewrite <- sumn_plus. }
  rewrite (E (fun t l o => om t l o * (r t l o - z t l o * a t l (ky t o)) ^ 2)).
  rewrite (E (fun t l o => om t l o * r t l o ^ 2)). lra.
Qed.
End WLS.

(* ---- the solver on one block ---- *)
Section Solve.
Variable solver : list R -> list R -> problem -> qpres.
Hypothesis exact : exact_qp solver.
Hypothesis complete : complete_qp solver.
Variables (nl n : nat) (P q : list R) (qa : qp) (ok : (nat -> R) -> Prop) (obj : vals -> R) (K : R).
Hypothesis P_len : length P = (nl * n + nl * n)%nat.
Hypothesis qa_ok : forall x, accepts qa x <-> ok x.
Hypothesis ok_ext : forall x x', (forall i, (i < 2 * nl * n)%nat -> x i = x' i) -> ok x -> ok x'.
Hypothesis obj_ok : forall x (a : vals), stacked nl n (a false) (a true) x -> ok x ->
  2 * qobj P q x = obj a - K.

Definition unstack (x : list R) : vals := fun t => if t then half2 nl n x else half1 n x.
Definition can (a : vals) : Prop := exists x, stacked nl n (a false) (a true) x /\ ok x.

Lemma stacked_ext (a : vals) x x' : (forall i, (i < 2 * nl * n)%nat -> x i = x' i) ->
  stacked nl n (a false) (a true) x -> stacked nl n (a false) (a true) x'.
Proof.
  intros E H l k Hl Hk. destruct (H l k Hl Hk) as [<- <-]. pose proof (cell_index nl n l k Hl Hk).
  unfold eff. split; symmetry; apply E; lia.
Qed.
Definition cut (x : nat -> R) : list R := map x (range (length P)).
Lemma cut_nth x i : (i < 2 * nl * n)%nat -> x i = nth i (cut x) 0.
Proof.
  intros H. unfold cut. rewrite (nth_map_in _ _ _ 0%nat) by (rewrite length_range; lia).
  now rewrite nth_range by lia.
Qed.

Lemma solved_best :
  match solved solver P q qa with
  | QSol x => best can obj (unstack x) /\ ok (fun i => nth i x 0)
  | _ => forall a, ~ best can obj a
  end.
Proof.
  assert (Hno : (forall x, solved solver P q qa <> QSol x) -> forall a, ~ best can obj a).
  { intros Hs a [(x & Hx & Ox) Hb].
    destruct (complete P q (snd (solve false (length P) qa)) (cut x)) as (y & Ey).
    - assert (Oc : ok (fun i => nth i (cut x) 0)) by (apply (ok_ext x); [exact (cut_nth x)|exact Ox]).
      assert (Sc : stacked nl n (a false) (a true) (fun i => nth i (cut x) 0))
        by (apply (stacked_ext a x); [exact (cut_nth x)|exact Hx]).
      split; [unfold cut; now rewrite map_length, length_range|]. split.
      + apply qa_ok in Oc. apply Oc.
      + intros w Fw. assert (Ow : ok w) by (apply qa_ok; intros m; exact Fw).
        assert (Sw : stacked nl n (unstack (cut w) false) (unstack (cut w) true) w).
        { apply (stacked_ext (unstack (cut w)) (fun i => nth i (cut w) 0)).
          - intros i Hi. symmetry. now apply cut_nth.
          - apply halves_stacked. }
        pose proof (obj_ok _ a Sc Oc) as E1. pose proof (obj_ok _ _ Sw Ow) as E2.
        assert (L : obj a <= obj (unstack (cut w))) by (apply Hb; exists w; now split). lra.
    - apply (Hs y). exact Ey. }
  destruct (solved solver P q qa) as [x| |] eqn:E; [|apply Hno; discriminate..].
  destruct (exact _ _ _ _ E) as (L & F & O).
  assert (Ox : ok (fun i => nth i x 0)) by (apply qa_ok; intros m; exact F).
  assert (Sx : stacked nl n (unstack x false) (unstack x true) (fun i => nth i x 0)) by apply halves_stacked.
  split; [|exact Ox]. split.
  - exists (fun i => nth i x 0). now split.
  - intros b (w & Sw & Ow). pose proof (obj_ok _ _ Sx Ox) as E1. pose proof (obj_ok _ _ Sw Ow) as E2.
    assert (Fw : feasible (snd (solve false (length P) qa)) w) by (apply qa_ok in Ow; apply Ow).
    specialize (O w Fw). lra.
Qed.
End Solve.
