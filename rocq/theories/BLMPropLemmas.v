(* The statements of the BLM properties from the lemmas, and data for the
   examples. *)
From Verif Require Import Base BaseLemmas UtilModel UtilSpec UtilNumLemmas BLMModel BLMEMModel
  BLMSpec BLMSortLemmas BLMLikLemmas BLMNormLemmas BLMEMLemmas BLMStayLemmas.
From Coq Require Import Permutation Sorted.
Local Open Scope res_scope.
Local Open Scope R_scope.

(* ---- C37 ---- *)
Lemma sort_likelihood argsort pp nl nk (sf reverse : bool) p :
  (forall l, is_argsort l (argsort l)) -> (0 < nl)%nat -> shapes_ok p ->
  let p' := sort_parameters argsort pp nl nk sf reverse p in
  exists s t, relabelling nl s /\ relabelling nk t /\ (sf = false -> forall k, t k = k) /\
    forall data data',
      Forall (mover_ok nl nk p) data -> Forall2 (same_row nk t) data data' ->
      (lp <- lp_movers nl nk p' data' ;; mean_lse lp)
        = (lp <- lp_movers nl nk p data ;; mean_lse lp) /\
      stayers_loglik nl p' (pk0 p') data' = stayers_loglik nl p (pk0 p) data.
Proof.
  intros Ha Hn Hsh p'.
  destruct (sort_spec argsort Ha pp nl nk sf reverse p) as (s & t & Hs & Ht & Hid & Hr & _).
  exists s, t. repeat split; auto.
  - now apply (code_loglik_relabelled nl nk s t).
  - now apply (loglik_relabelled nl nk s t).
Qed.

(* ---- C38 ---- *)
Lemma normalize_props argsort pp nl nk cols A1 A2 A1c A2c :
  (forall l, is_argsort l (argsort l)) -> (0 < nl)%nat -> (0 < nk)%nat ->
  Forall2 cat_shape cols A1c -> Forall2 cat_shape cols A2c ->
  let '(B1, B2, B1c, B2c) := normalize argsort pp nl nk cols (A1, A2, A1c, A2c) in
  (forall l k ns, length ns = length cols ->
     B1 l k + cat_sum l B1c ns = A1 l k + cat_sum l A1c ns /\
     B2 l k + cat_sum l B2c ns = A2 l k + cat_sum l A2c ns) /\
  (forall l k k', B1 l k - B1 l k' = A1 l k - A1 l k' /\ B2 l k - B2 l k' = A2 l k - A2 l k') /\
  (exists k0, lowest pp nl nk k0 A1 A2 /\ lowest pp nl nk k0 B1 B2 /\
     reference_zero pp nl cols k0 B1 B2) /\
  Forall2 cat_shape cols B1c /\ Forall2 cat_shape cols B2c /\
  (forall c col b1 b2, nth_error cols c = Some col -> cc_stat col = true ->
     nth_error B1c c = Some b1 -> nth_error B2c c = Some b2 ->
     exists a1 a2, nth_error A1c c = Some a1 /\ nth_error A2c c = Some a2 /\
       (same_effects a1 a2 -> same_effects b1 b2)).
Proof.
  intros Ha Hl Hk F1 F2.
  pose proof (normalize_result argsort pp nl nk cols A1 A2 A1c A2c Hl F1 F2) as N.
  destruct (normalize argsort pp nl nk cols (A1, A2, A1c, A2c)) as [[[B1 B2] B1c] B2c].
  destruct N as ((d1 & d2 & M1 & M2 & S1 & S2) & G1 & G2 & St & Z).
  split.
  { intros l k ns Hn. rewrite (S1 l ns Hn), (S2 l ns Hn), M1, M2. split; ring. }
  split; [intros l k k'; rewrite !M1, !M2; split; ring|].
  split; [|auto].
  pose proof (min_firm_type_lowest argsort Ha pp nl nk A1 A2 Hk) as L.
  eexists. split; [exact L|]. split; [|exact Z].
  eapply firm_mean_shift; eassumption.
Qed.

(* ---- C39 and C40 ---- *)
Lemma start_inv nl nk p data :
  Forall (stayer_ok nl nk p) data ->
  (forall o, In o data -> sumn nl (pk0 p (g1 o)) = 1) ->
  inv nl data (fun k l => Some (pk0 p k l)).
Proof.
  intros Hok H1 o Ho. rewrite Forall_forall in Hok. destruct (Hok o Ho) as [_ Q]. split.
  - intros l Hl. eexists. split; [reflexivity|]. now apply Q.
  - apply (H1 o Ho).
Qed.

Lemma stayers_rows n nl nk d threshold p data :
  (0 < nl)%nat -> 1 <= d -> shapes_ok p -> Forall (stayer_ok nl nk p) data ->
  (forall o, In o data -> 0 < w1 o) ->
  (forall o, In o data -> sumn nl (pk0 p (g1 o)) = 1) ->
  (exists o, In o data /\ S (g1 o) = nk) ->
  exists pk lik liks, fit_stayers n nl nk d threshold p data = Ok (pk, lik, liks) /\
    (forall o, In o data -> exists r, (forall l, (l < nl)%nat -> pk (g1 o) l = Some (r l))
       /\ prob_row nl r) /\
    (n <> 0%nat -> forall k l, (k < nk)%nat -> (l < nl)%nat ->
       (forall o, In o data -> g1 o <> k) -> pk k l = None).
Proof.
  intros Hl Hd Hsh Hok Hw H1 Hlast. pose proof (start_inv nl nk p data Hok H1) as I0.
  rewrite Forall_forall in Hok.
  assert (Hg : forall o, In o data -> (g1 o < nk)%nat) by (intros o Ho; apply (Hok o Ho)).
  assert (HS : forall o l, In o data -> (l < nl)%nat -> 0 < S1 p l (g1 o)).
  { intros o l Ho Hll. now apply (proj2 (Hok o Ho)). }
  unfold fit_stayers. rewrite (lp_stable_stab nl nk p data Hsh Hg HS). cbn [bind].
  destruct (loop_ok nl nk d threshold p data Hl Hd Hg HS Hw n 0 _ None None [] I0 Hlast)
    as (pk & lik & liks & E & I & Nn).
  exists pk, lik, liks. split; [exact E|]. split.
  - intros o Ho. exists (from_nan pk (g1 o)). split.
    + intros l Hll. now apply (inv_at nl data pk o l I Ho).
    + split; [|now apply I]. intros l Hll. left. now apply (inv_at nl data pk o l I Ho).
  - intros Hn. apply Nn. right. auto.
Qed.

Lemma stayers_missing_last n nl nk d threshold p data :
  (0 < nl)%nat -> (0 < nk)%nat -> shapes_ok p -> Forall (stayer_ok nl nk p) data ->
  (forall o, In o data -> 0 < w1 o) ->
  (forall o, In o data -> sumn nl (pk0 p (g1 o)) = 1) ->
  (forall o, In o data -> S (g1 o) <> nk) ->
  fit_stayers (S n) nl nk d threshold p data = Err ValueError.
Proof.
  intros Hl Hk Hsh Hok Hw H1 Hlast. pose proof (start_inv nl nk p data Hok H1) as I0.
  rewrite Forall_forall in Hok.
  assert (Hg : forall o, In o data -> (g1 o < nk)%nat) by (intros o Ho; apply (Hok o Ho)).
  assert (HS : forall o l, In o data -> (l < nl)%nat -> 0 < S1 p l (g1 o)).
  { intros o l Ho Hll. now apply (proj2 (Hok o Ho)). }
  unfold fit_stayers. rewrite (lp_stable_stab nl nk p data Hsh Hg HS). cbn [bind stayers_loop].
  erewrite st_rows; [|eassumption..]. cbn [bind].
  erewrite st_mean; [|eassumption..]. cbn [bind].
  erewrite st_post; [|eassumption..]. cbn [bind close stayer_lik Nat.eqb].
  erewrite update_err; [|eassumption..]. reflexivity.
Qed.

Lemma stayers_monotone n nl nk threshold p data w :
  (0 < nl)%nat -> (0 < nk)%nat -> shapes_ok p -> Forall (stayer_ok nl nk p) data ->
  0 < w -> (forall o, In o data -> w1 o = w) ->
  (forall k, (k < nk)%nat -> sumn nl (pk0 p k) = 1) ->
  (forall k, (k < nk)%nat -> exists o, In o data /\ g1 o = k) ->
  exists pk lik ls r,
    fit_stayers n nl nk 1 threshold p data = Ok (pk, lik, map Some ls) /\
    (forall k l, (k < nk)%nat -> (l < nl)%nat -> pk k l = Some (r k l)) /\
    (forall k, (k < nk)%nat -> prob_row nl (r k)) /\
    (length ls <= n)%nat /\ (n <> 0%nat -> ls <> []) /\
    hd 0 (ls ++ [stayers_loglik nl p r data]) = stayers_loglik nl p (pk0 p) data /\
    Sorted Rle (ls ++ [stayers_loglik nl p r data]).
Proof.
  intros Hl Hk Hsh Hok Hw Hww H1 Hobs.
  assert (I0 : inv nl data (fun k l => Some (pk0 p k l))).
  { apply (start_inv nl nk p data Hok). intros o Ho. apply H1.
    rewrite Forall_forall in Hok. apply (Hok o Ho). }
  rewrite Forall_forall in Hok.
  assert (Hg : forall o, In o data -> (g1 o < nk)%nat) by (intros o Ho; apply (Hok o Ho)).
  assert (HS : forall o l, In o data -> (l < nl)%nat -> 0 < S1 p l (g1 o)).
  { intros o l Ho Hll. now apply (proj2 (Hok o Ho)). }
  assert (Hwp : forall o, In o data -> 0 < w1 o) by (intros o Ho; rewrite Hww; auto).
  unfold fit_stayers. rewrite (lp_stable_stab nl nk p data Hsh Hg HS). cbn [bind].
  destruct (loop_grows nl nk 1 threshold p data Hl (Rle_refl 1) Hg HS Hwp n w 0 _ None None []
      eq_refl Hk Hobs Hww I0) as (pk & lik & ls & E & I & L1 & L2 & Hh & Hs).
  exists pk, lik, ls, (from_nan pk). split; [exact E|]. split; [|split].
  - intros k l Hkk Hll. destruct (Hobs k Hkk) as (o & Ho & <-). now apply (inv_at nl data pk o l I Ho).
  - intros k Hkk. destruct (Hobs k Hkk) as (o & Ho & <-). split; [|now apply I].
    intros l Hll. left. now apply (inv_at nl data pk o l I Ho).
  - split; [exact L1|]. split; [exact L2|]. split; [exact Hh|exact Hs].
Qed.

(* ================================================================== *)
(* An argsort meeting the contract. *)
Fixpoint ins (v : nat -> R) (i : nat) (o : list nat) : list nat :=
  match o with
  | [] => [i]
  | j :: o' => if Rle_dec (v i) (v j) then i :: j :: o' else j :: ins v i o'
  end.
Definition isort (l : list R) : list nat :=
  fold_right (ins (fun i => nth i l 0)) [] (range (length l)).

Lemma ins_perm v i o : Permutation (ins v i o) (i :: o).
Proof.
  induction o as [|j o IH]; simpl; [auto|]. destruct (Rle_dec (v i) (v j)); [auto|].
  eapply Permutation_trans; [apply perm_skip; exact IH|]. apply perm_swap.
Qed.
Lemma ins_sorted v i o :
  StronglySorted Rle (map v o) -> StronglySorted Rle (map v (ins v i o)).
Proof.
  induction o as [|j o IH]; simpl; intros H; [constructor; constructor|].
  inversion H as [|? ? H1 H2]; subst.
  destruct (Rle_dec (v i) (v j)) as [L|L]; simpl.
  - constructor; [exact H|]. constructor; [exact L|].
    rewrite Forall_forall in *. intros x Hx. specialize (H2 x Hx). lra.
  - constructor; [auto|]. rewrite Forall_forall in *. intros x Hx.
    apply in_map_iff in Hx as (k & <- & Hk).
    apply (Permutation_in _ (ins_perm v i o)) in Hk as [<-|Hk]; [lra|].
    apply H2. now apply in_map.
Qed.
Lemma isort_ok l : is_argsort l (isort l).
Proof.
  unfold isort, is_argsort. generalize (range (length l)) as o.
  intros o. induction o as [|i o [IH1 IH2]]; simpl; [split; [auto|constructor]|].
  split; [|now apply ins_sorted].
  eapply Permutation_trans; [apply ins_perm|]. now apply perm_skip.
Qed.

(* Two worker types and two firm types, both in decreasing order of their
   effects, with one interacting control. *)
Definition ex_A : mat := fun l k =>
  match l, k with
  | O, O => 5 | O, _ => 4 | _, O => 2 | _, _ => 1
  end.
Definition ex_par : par :=
  mkpar ex_A ex_A (fun _ _ => 1) (fun _ _ => 1)
    [Inter (fun l n => INR l + INR n)] [Inter (fun l n => INR l + INR n)]
    [Inter (fun _ _ => 1)] [Inter (fun _ _ => 1)] [] [] [] []
    (fun _ _ => 1 / 2) (fun _ _ => 1 / 2) (fun _ _ => 1) (fun _ => 1).
Definition ex_row (a b : nat) : obs := mkobs 1 2 a b 1 1 [1%nat] [0%nat] [] [].
Definition ex_data : list obs := [ex_row 0 1; ex_row 1 0; ex_row 0 0; ex_row 1 1].

Lemma ex_shapes : shapes_ok ex_par.
Proof. repeat split. Qed.
Lemma ex_movers_ok : Forall (mover_ok 2 2 ex_par) ex_data.
Proof.
  unfold ex_data, ex_row. repeat (apply Forall_cons || apply Forall_nil);
    (split; [split; simpl; lia|intros l _; simpl; lra]).
Qed.
Lemma ex_stayers_ok : Forall (stayer_ok 2 2 ex_par) ex_data.
Proof.
  unfold ex_data, ex_row. repeat (apply Forall_cons || apply Forall_nil);
    (split; [simpl; lia|intros l _; simpl; lra]).
Qed.

(* the sorted parameters differ from the given ones *)
Lemma ex_sort_moves :
  let p' := sort_parameters isort PFirst 2 2 true false ex_par in
  worker_mean PFirst 2 ex_A ex_A 1 < worker_mean PFirst 2 ex_A ex_A 0 /\
  worker_mean PFirst 2 (A1 p') (A2 p') 0 <= worker_mean PFirst 2 (A1 p') (A2 p') 1 /\
  firm_mean PFirst 2 (A1 p') (A2 p') 0 <= firm_mean PFirst 2 (A1 p') (A2 p') 1.
Proof.
  intros p'. destruct (sort_spec isort isort_ok PFirst 2 2 true false ex_par)
    as (s & t & _ & _ & _ & _ & Hw & Hf).
  split; [|split].
  - unfold worker_mean, sumn. simpl. lra.
  - apply (Hw 0%nat 1%nat). lia.
  - apply (Hf eq_refl 0%nat 1%nat). lia.
Qed.

Definition ex_cols : list catcfg := [mkcat true true; mkcat false false].
Definition ex_cats : list catpar := [Inter (fun l n => INR l + INR n); Shared (fun n => INR n)].
Lemma ex_cats_shape : Forall2 cat_shape ex_cols ex_cats.
Proof. repeat constructor. Qed.

(* posteriors 1/2, 1/2 for each row *)
Definition ex_qi : list (list R) := map (fun _ => [1 / 2; 1 / 2]) ex_data.
Lemma ex_qi_ok : posteriors_ok 2 ex_data ex_qi.
Proof.
  split; [reflexivity|]. apply Forall_forall. intros row Hr.
  apply in_map_iff in Hr as (o & <- & _). split; [reflexivity|]. split.
  - intros x [<-|[<-|[]]]; lra.
  - simpl. lra.
Qed.
Lemma ex_pairs k1 k2 : (k1 < 2)%nat -> (k2 < 2)%nat -> exists o, In o ex_data /\ g1 o = k1 /\ g2 o = k2.
Proof.
  intros H1 H2. exists (ex_row k1 k2). split; [|split; reflexivity].
  destruct k1 as [|[|?]], k2 as [|[|?]]; try lia; simpl; auto.
Qed.
Lemma ex_weights o : In o ex_data -> w1 o = 1.
Proof. simpl. intuition (subst; reflexivity). Qed.
Lemma ex_weights2 o : In o ex_data -> w2 o = 1.
Proof. simpl. intuition (subst; reflexivity). Qed.
Lemma ex_types k : (k < 2)%nat -> exists o, In o ex_data /\ g1 o = k.
Proof. intros H. destruct (ex_pairs k 0 H) as (o & Ho & E & _); [lia|]. eauto. Qed.
Lemma ex_pk0 k : sumn 2 (pk0 ex_par k) = 1.
Proof. unfold sumn. simpl. lra. Qed.

(* stayers at firm type 1 only *)
Definition gap_par : par :=
  mkpar ex_A ex_A (fun _ _ => 1) (fun _ _ => 1) [] [] [] [] [] [] [] []
    (fun _ _ => 1 / 2) (fun _ _ => 1 / 2) (fun _ _ => 1) (fun _ => 1).
Definition gap_data : list obs := [mkobs 1 1 1 1 1 1 [] [] [] []].

Lemma stayers_nan :
  exists n nl nk d threshold p data pk lik liks k,
    (0 < nl)%nat /\ 1 <= d /\ shapes_ok p /\ Forall (stayer_ok nl nk p) data /\ data <> [] /\
    (forall o, In o data -> 0 < w1 o) /\
    (forall k, (k < nk)%nat -> prob_row nl (pk0 p k)) /\
    fit_stayers n nl nk d threshold p data = Ok (pk, lik, liks) /\
    (k < nk)%nat /\ forall l, (l < nl)%nat -> pk k l = None.
Proof.
  assert (Hok : Forall (stayer_ok 2 2 gap_par) gap_data).
  { constructor; [|constructor]. split; [simpl; lia|intros l _; simpl; lra]. }
  assert (Hw : forall o, In o gap_data -> 0 < w1 o) by (simpl; intuition (subst; simpl; lra)).
  destruct (stayers_rows 1 2 2 1 0 gap_par gap_data) as (pk & lik & liks & E & _ & Hn).
  - lia.
  - lra.
  - repeat split.
  - exact Hok.
  - exact Hw.
  - intros o _. unfold sumn. simpl. lra.
  - exists (mkobs 1 1 1 1 1 1 [] [] [] []). split; [now left|reflexivity].
  - exists 1%nat, 2%nat, 2%nat, 1, 0, gap_par, gap_data, pk, lik, liks, 0%nat.
    repeat split; auto; try lia; try lra; try discriminate.
    + intros l _. simpl. lra.
    + unfold sumn. simpl. lra.
    + intros l Hl. apply Hn; [discriminate|lia|exact Hl|].
      intros o [<-|[]]. discriminate.
Qed.
