(* Glue and example data for properties C41, C42, C43 and C45. *)
From Verif Require Import Base BaseLemmas ConsModel BLMModel BLMEMModel BLMRunModel BLMRealModel BLMFitModel
  BLMRunSpec BLMRunLemmas BLMRealLemmas.
From Coq Require Import Permutation.
Local Open Scope res_scope.
Local Open Scope R_scope.

(* ---- C42: fit_A with the fit_movers of the code ---- *)
Section FitA.
Variable argsort : list R -> list nat.
Variable qp_solver : list R -> list R -> problem -> qpres.
Variable pp : period.
Variables nl nk : nat.
Notation fit_movers_ := (fit_movers_ argsort qp_solver pp nl nk).
Notation fit_movers_obj := (fit_movers_obj argsort qp_solver pp nl nk).

Lemma only_a_raises c b min data p :
  do_a c = true -> do_s c = false -> n_iters (other c) <> 0%nat ->
  exists e, fit_movers_ c b min data p = Err e.
Proof.
  intros Ha Hs Hn. unfold BLMFitModel.fit_movers_.
  destruct (gen_constraints nl nk c) as [cons|e]; [|eexists; reflexivity]. cbn [bind].
  destruct (n_iters (other c)) as [|n]; [congruence|]. cbn [movers_loop].
  destruct (lp_movers nl nk _ data) as [lp|e]; [|eexists; reflexivity]. cbn [bind].
  destruct (mean_lse lp) as [m|e]; [|eexists; reflexivity]. cbn [bind].
  destruct (posteriors lp) as [qi|e]; [|eexists; reflexivity]. cbn [bind].
  unfold converged. cbn [andb]. unfold em_update.
  match goal with |- context [bind (if do_pk1 c then ?x else ?y) _] =>
    destruct (if do_pk1 c then x else y) as [p1|e]; [|eexists; reflexivity] end.
  cbn [bind]. rewrite Ha. cbn [andb Nat.ltb Nat.leb bind]. unfold m_step. rewrite Ha. cbn [orb].
  destruct (XwX nl nk p1 data qi) as [P|e]; [|eexists; reflexivity]. cbn [bind].
  destruct (update_A qp_solver nl nk c (fst cons) data qi P p1) as [pA|e]; [|eexists; reflexivity].
  cbn [bind]. unfold update_S. rewrite Hs. eexists; reflexivity.
Qed.

Lemma fit_A_raises data b (s : obj settings state) :
  n_iters (other (params s)) <> 0%nat ->
  exists e, snd (fit_A (fit_movers_obj data) b s) = Some e /\
    params (fst (fit_A (fit_movers_obj data) b s)) = set_updates true false false (params s).
Proof.
  intros Hn. unfold fit_A, fit_part, BLMFitModel.fit_movers_obj. cbn [with_params params rest].
  destruct (only_a_raises (set_updates true false false (params s)) b 0 data (st_par (rest s)))
    as [e E]; auto.
  rewrite E. exists e. split; reflexivity.
Qed.
End FitA.

(* A case: one worker type, one firm type, five iterations. *)
Definition ra_par : par :=
  let one : mat := fun _ _ => 1 in
  mkpar one one one one [] [] [] [] [] [] [] [] one one one (fun _ => 1).
Definition ra_cfg : cfg settings :=
  mkcfg true true true None (mkset 5 0 1 (1 / 10) false [] [] []).
Definition ra_state : obj settings state := mkobj ra_cfg (mkstate ra_par None []).
Lemma ra_changed : set_updates true false false ra_cfg <> ra_cfg.
Proof. unfold set_updates, ra_cfg. cbn. congruence. Qed.

(* ---- C43 ---- *)
Definition all_moves (nk : nat) (NN pk1 : mat) (l : nat) : R :=
  sumn nk (fun k1 => sumn nk (fun k2 => type_moves nk NN pk1 k1 k2 l)).

Lemma parts_run {X M} fit b (s : obj X M) m :
  let only a s_ k := mkcfg a s_ k (cons_a_all (params s)) (other (params s)) in
  (fit b (only true false false) (rest s) = (m, None) ->
     fit_A (as_method fit) b s = (mkobj (params s) m, None)) /\
  (fit b (only false true false) (rest s) = (m, None) ->
     fit_S (as_method fit) b s = (mkobj (params s) m, None)) /\
  (fit b (only false false true) (rest s) = (m, None) ->
     fit_pk (as_method fit) b s = (mkobj (params s) m, None)).
Proof.
  intros only. unfold fit_A, fit_S, fit_pk. rewrite !part_runs. fold (only true false false).
  fold (only false true false). fold (only false false true). repeat split; intros ->; reflexivity.
Qed.

Lemma stayer_proportions nk NN Ns pk1 pk0 per : per <> ROther ->
  exists pm, type_proportions nk SStayers per NN Ns pk1 pk0 = Ok pm /\ forall k l, pm k l = pk0 k l.
Proof.
  intros H. destruct per; try congruence; eexists; (split; [reflexivity|]); intros; cbn; try reflexivity. field.
Qed.

Lemma symmetric_shares nl nk NN Ns pk1 pk0 : counts_ok nk NN Ns -> props_ok nl nk pk1 pk0 ->
  symmetric nk NN ->
  exists p1 p2, type_proportions nk SMovers RFirst NN Ns pk1 pk0 = Ok p1 /\
    type_proportions nk SMovers RSecond NN Ns pk1 pk0 = Ok p2 /\
    forall k l, (k < nk)%nat ->
      p1 k l = type_arriving nk NN pk1 k l / sumn nk (fun a => NN a k) /\
      p2 k l = type_leaving nk NN pk1 k l / sumn nk (fun b => NN k b).
Proof.
  intros HC HP HS. do 2 eexists. split; [reflexivity|]. split; [reflexivity|]. intros k l Hk.
  unfold pk1_period1, pk1_period2, type_arriving, type_leaving, row_sums, col_sums. split; f_equal.
  - apply sumn_ext. intros b Hb. now apply symmetric_pairs.
  - apply sumn_ext. intros b Hb. now apply HS.
  - apply sumn_ext. intros a Ha. rewrite symmetric_pairs by assumption. reflexivity.
  - apply sumn_ext. intros b Hb. now apply HS.
Qed.

Lemma symmetric_shares_all nl nk NN Ns pk1 pk0 : counts_ok nk NN Ns -> props_ok nl nk pk1 pk0 ->
  symmetric nk NN ->
  exists p1 p2, type_proportions nk SAll RFirst NN Ns pk1 pk0 = Ok p1 /\
    type_proportions nk SAll RSecond NN Ns pk1 pk0 = Ok p2 /\
    forall k l, (k < nk)%nat ->
      p1 k l = (type_arriving nk NN pk1 k l + Ns k * pk0 k l) / (sumn nk (fun a => NN a k) + Ns k) /\
      p2 k l = (type_leaving nk NN pk1 k l + Ns k * pk0 k l) / (sumn nk (fun b => NN k b) + Ns k).
Proof.
  intros HC HP HS. destruct (symmetric_shares nl nk NN Ns pk1 pk0 HC HP HS) as (q1 & q2 & E1 & E2 & H).
  injection E1 as <-. injection E2 as <-.
  do 2 eexists. split; [reflexivity|]. split; [reflexivity|]. intros k l Hk.
  destruct (H k l Hk) as [H1 H2]. destruct HC as (_ & R1 & C1 & _). unfold joint. rewrite H1, H2.
  assert (Er : row_sums nk NN k = sumn nk (fun a => NN a k)) by (unfold row_sums; apply sumn_ext; intros; now apply HS).
  assert (Ec : col_sums nk NN k = sumn nk (fun b => NN k b)) by (unfold col_sums; apply sumn_ext; intros; now apply HS).
  rewrite Er, Ec. specialize (R1 k Hk). specialize (C1 k Hk). split; (f_equal; f_equal; field; lra).
Qed.

Lemma graph_differs :
  graph_weights 2 cx_NN cx_pk1 0 0%nat 1%nat
  = (type_moves 2 cx_NN cx_pk1 0 1 0 + type_moves 2 cx_NN cx_pk1 1 0 0) / 2
    / sumn 2 (fun k1 => sumn 2 (fun k2 => type_moves 2 cx_NN cx_pk1 k1 k2 0)) -> False.
Proof. destruct cx_graph as [-> ->]. lra. Qed.

(* ---- C45: what the common proportions are ---- *)
Lemma all_pr nk NN pk1 l : symmetric nk NN ->
  sumn nk (fun a => sumn nk (fun b => pr nk NN pk1 a b l)) = all_moves nk NN pk1 l.
Proof.
  intros HS. unfold all_moves. rewrite sumn_swap. apply sumn_ext. intros i Hi. apply sumn_ext.
  intros j Hj. now apply symmetric_pairs.
Qed.

Section Share.
Variables (nl nk : nat) (NN : mat) (Ns : nat -> R) (pk1 pk0 : mat).
Hypothesis HC : counts_ok nk NN Ns.
Hypothesis HS : symmetric nk NN.
Let nm := sumn nk (fun a => sumn nk (fun b => NN a b)).
Let ns := sumn nk Ns.

Lemma share_joint per : per = RFirst \/ per = RSecond ->
  exists r, reallocate nl nk true per NN Ns pk1 pk0 = Ok ((fun _ => r), (fun _ => r)) /\
    forall l, r l = (all_moves nk NN pk1 l + sumn nk (fun k => Ns k * pk0 k l)) / (nm + ns).
Proof.
  pose proof HC as [H0 [H1 [H2 [H3 H4]]]].
  intros [-> | ->]; unfold reallocate; cbn [bind]; eexists; (split; [reflexivity|]); intros l; cbn beta.
  - unfold nm, ns, row_sums. f_equal. rewrite <- all_pr by exact HS. rewrite <- sumn_plus.
    apply sumn_ext. intros k Hk. unfold joint, pk1_period1, row_sums.
    specialize (H1 k Hk). specialize (H3 k Hk). field. lra.
  - unfold nm, ns, col_sums. f_equal. rewrite <- all_pr by exact HS. rewrite sumn_swap, <- sumn_plus.
    apply sumn_ext. intros k Hk. unfold joint, pk1_period2, col_sums.
    specialize (H2 k Hk). specialize (H3 k Hk). field. lra.
Qed.

Lemma share_apart :
  exists r1 r0, reallocate nl nk false RFirst NN Ns pk1 pk0 = Ok ((fun _ => r1), (fun _ => r0)) /\
    forall l, r1 l = all_moves nk NN pk1 l / nm /\ r0 l = sumn nk (fun k => Ns k * pk0 k l) / ns.
Proof.
  pose proof HC as [H0 [H1 [H2 [H3 H4]]]].
  unfold reallocate; cbn [bind]; do 2 eexists; (split; [reflexivity|]); intros l; cbn beta.
  split; [|reflexivity]. unfold nm, row_sums. f_equal. rewrite <- all_pr by exact HS.
  apply sumn_ext. intros k Hk. unfold pk1_period1, row_sums. specialize (H1 k Hk). field. lra.
Qed.
End Share.

(* Symmetric counts: the counts of the counterexample, symmetrised. *)
Definition sy_NN : mat := fun a b => if (a =? b)%nat then 1 else 3.
Lemma sy_counts : counts_ok 2 sy_NN cx_Ns.
Proof.
  unfold counts_ok, sy_NN, cx_Ns.
  repeat split; intros; unfold sumn; simpl;
    repeat match goal with H : (_ < 2)%nat |- _ => apply lt2 in H as [->| ->] end; simpl; lra.
Qed.
Lemma sy_sym : symmetric 2 sy_NN.
Proof. intros a b _ _. unfold sy_NN. now rewrite Nat.eqb_sym. Qed.
Lemma sy_value : type_arriving 2 sy_NN cx_pk1 0 0 / sumn 2 (fun a => sy_NN a 0%nat) = 1 / 8 /\
  type_leaving 2 sy_NN cx_pk1 0 0 / sumn 2 (fun b => sy_NN 0%nat b) = 7 / 8.
Proof.
  unfold type_arriving, type_leaving, type_moves, prop_of, sy_NN, sumn. simpl. split; field.
Qed.

(* ---- C41: three models, one without a measure, ties in the likelihood ---- *)
Record run : Type := mkrun { r_lik : R; r_conn : option R }.
Definition ex_runs : list run :=
  [mkrun 1 (Some 5); mkrun 9 None; mkrun 3 (Some 1); mkrun 3 (Some 2)].
Lemma ex_runs_pick : exists f,
  select r_lik (fun m => [r_lik m]) r_conn ex_runs 2 = Ok f /\ f_model f = mkrun 3 (Some 2) /\
  f_liks_high f = [3; 3] /\ f_liks_low f = [1; 0].
Proof.
  unfold select, sorted_lik_models, ex_runs, sorted_desc, has_conn, conn_val. cbn.
  repeat (match goal with |- context [Rle_dec ?a ?b] =>
    destruct (Rle_dec a b) as [?H|?H]; try (exfalso; cbn in *; lra) end; cbn).
  all: eexists; repeat split; reflexivity.
Qed.
