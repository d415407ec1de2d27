(* C97: what fit_movers returns with control variables. *)
From Verif Require Import Base BaseLemmas UtilModel UtilSpec ConsModel ConsSpec ConsLemmas ConsPropLemmas
  BLMModel BLMEMModel BLMSpec BLMSortLemmas BLMNormLemmas BLMLikLemmas BLMEMLemmas BLMStayLemmas BLMRunModel
  BLMRunLemmas BLMPropLemmas BLMFitModel BLMFitSpec BLMFitLemmas BLMAscendLemmas
  BLMGenModel BLMGenSpec BLMGenLemmas BLMGenPropLemmas BLMCtlModel BLMCtlSpec BLMCtlLemmas BLMCtlStepLemmas
  BLMCtlRunLemmas.
From Coq Require Import FunctionalExtensionality.
Local Open Scope res_scope.
Local Open Scope R_scope.

(* choice of finitely many *)
Lemma fin_choice {A} (P : nat -> A -> Prop) n (a0 : A) : (forall k, (k < n)%nat -> exists a, P k a) ->
  exists f, forall k, (k < n)%nat -> P k (f k).
Proof.
  induction n as [|n IH]; intros H; [exists (fun _ => a0); lia|].
  destruct IH as [f Hf]; [intros; apply H; lia|]. destruct (H n ltac:(lia)) as [a Ha].
  exists (fun k => if (k =? n)%nat then a else f k). intros k Hk.
  destruct (Nat.eqb_spec k n) as [->|]; [exact Ha|]. apply Hf. lia.
Qed.

Section Fit.
Variable argsort : list R -> list nat.
Variable solver : list R -> list R -> problem -> qpres.
Variables (nl nk : nat) (cats ctss : list gcol) (data : list obs).
Hypothesis sorts : forall l, is_argsort l (argsort l).
Hypothesis exact : exact_qp solver.
Hypothesis complete : complete_qp solver.
Hypothesis nl_pos : (0 < nl)%nat.
Hypothesis nk_pos : (0 < nk)%nat.
Hypothesis cts_one : Forall (fun c => gc_n c = 1%nat) ctss.

Section Stored.
Variable s : gset.
Hypothesis D : ctl_data nk cats ctss data s.

Lemma same_refl p : same_model nl nk data (fun l => l) p p.
Proof. split; auto. Qed.
Lemma same_trans sg sg' p q r : relabelling nl sg' -> same_model nl nk data sg p q -> same_model nl nk data sg' q r ->
  same_model nl nk data (fun l => sg (sg' l)) p r.
Proof.
  intros R' (P1 & M1) (P2 & M2). assert (Hl : forall l, (l < nl)%nat -> (sg' l < nl)%nat) by (intros; now apply relabelling_lt).
  split.
  - intros k1 k2 l H1 H2 Hll. rewrite P2, P1; auto.
  - intros t l o Hll Ho. destruct (M2 t l o Hll Ho) as [-> ->]. apply M1; auto.
Qed.

Lemma sort_same p : exists sg, relabelling nl sg /\
  same_model nl nk data sg p (sort_parameters argsort (p_primary s) nl nk false false p).
Proof.
  destruct (sort_spec argsort sorts (p_primary s) nl nk false false p) as (sg & t & R1 & R2 & Ht & Hr & _).
  specialize (Ht eq_refl). exists sg. split; [exact R1|]. split.
  - intros k1 k2 l H1 H2 Hl. rewrite (r_pk1 _ _ _ _ _ _ Hr) by assumption. now rewrite !Ht.
  - intros t0 l o Hl Ho. destruct (row_ok nk cats ctss data s D o Ho) as ([d1 d2] & _).
    assert (Hsr : same_row nk t o o) by (unfold same_row; rewrite !Ht; repeat split; auto).
    destruct t0; cbn [mu var]; split;
      first [eapply mu2_relabelled|eapply var2_relabelled|eapply mu1_relabelled|eapply var1_relabelled]; eassumption.
Qed.

Lemma shapes_of (cs : list gcol) (l : list catpar) : Forall2 cat_kind cs l -> Forall2 cat_shape (map cfg_of cs) l.
Proof.
  induction 1 as [|col a cs l Ha F IH]; cbn [map]; constructor; [|exact IH]. destruct a; exact Ha.
Qed.
Definition cats_kinds (p : par) : Prop := Forall2 cat_kind cats (A1_cat p) /\ Forall2 cat_kind cats (A2_cat p).
Lemma kind_of_shape (cs : list gcol) l : Forall2 cat_shape (map cfg_of cs) l -> Forall2 cat_kind cs l.
Proof.
  revert l. induction cs as [|col cs IH]; intros l F; inversion F; subst; constructor; auto.
Qed.
Lemma norm_same p : cats_kinds p -> same_model nl nk data (fun l => l) p (norm_par argsort (p_primary s) nl nk cats p) /\
  cats_kinds (norm_par argsort (p_primary s) nl nk cats p).
Proof.
  intros [K1 K2]. unfold norm_par.
  pose proof (normalize_props argsort (p_primary s) nl nk (map cfg_of cats) (A1 p) (A2 p) (A1_cat p) (A2_cat p)
    sorts nl_pos nk_pos (shapes_of _ _ K1) (shapes_of _ _ K2)) as N.
  destruct (normalize argsort (p_primary s) nl nk (map cfg_of cats) (A1 p, A2 p, A1_cat p, A2_cat p)) as [[[B1 B2] B1c] B2c].
  destruct N as (N & _ & _ & F1 & F2 & _). split.
  - split; [reflexivity|]. intros t l o Hl Ho.
    pose proof (c_len nk cats ctss data s D t o Ho) as Hc. rewrite <- (map_length cfg_of) in Hc.
    destruct t; (split; [|reflexivity]); rewrite !mu_unfold; cbn [Ap Acatp Actsp gp cp xp] in *; f_equal;
      now apply (N l _ _ Hc).
  - split; cbn [A1_cat A2_cat]; now apply kind_of_shape.
Qed.
Lemma sort_kinds p : cats_kinds p -> cats_kinds (sort_parameters argsort (p_primary s) nl nk false false p).
Proof.
  intros [K1 K2].
  destruct (sort_spec argsort sorts (p_primary s) nl nk false false p) as (sg & t & _ & _ & _ & Hr & _).
  split; [apply (kind_rel sg _ _ (cat_relabelled nl sg) _ _ (cat_kind_rel nl sg) K1)
         |apply (kind_rel sg _ _ (cat_relabelled nl sg) _ _ (cat_kind_rel nl sg) K2)]; apply Hr.
Qed.
Lemma stored_same p : cats_kinds p -> exists sg, relabelling nl sg /\
  same_model nl nk data sg p (stored argsort s nl nk cats p).
Proof.
  intros K. unfold stored.
  set (p1 := match cats with [] => p | _ => norm_par argsort (p_primary s) nl nk cats p end).
  assert (H1 : same_model nl nk data (fun l => l) p p1 /\ cats_kinds p1).
  { pose proof (norm_same p K) as N. unfold p1. destruct cats; [split; [apply same_refl|exact K]|exact N]. }
  destruct H1 as [H1 K1]. destruct (sort_same p1) as (sg & Rg & H2). exists sg. split; [exact Rg|].
  pose proof (sort_kinds p1 K1) as K2. set (p2 := sort_parameters argsort (p_primary s) nl nk false false p1) in *.
  pose proof (norm_same p2 K2) as [H3 _].
  assert (H12 : same_model nl nk data sg p p2) by (exact (same_trans _ _ _ _ _ Rg H1 H2)).
  destruct cats; [exact H12|].
  exact (same_trans _ _ _ _ _ (id_relabelling nl) H12 H3).
Qed.
End Stored.

Lemma with_NNm_same sg p q f : same_model nl nk data sg p q -> same_model nl nk data sg p (set_NNm f q).
Proof. intros [P M]. split; [exact P|]. intros t l o Hl Ho. destruct (M t l o Hl Ho) as [H1 H2]. destruct t; split; assumption. Qed.

Section One.
Variable c : cset.
Notation s := (cs_gen c).
Hypothesis D : ctl_data nk cats ctss data s.
Hypothesis V : all_valid s nl nk (cats ++ ctss).
Hypothesis lb : 0 < p_lb s.
Hypothesis updates : cs_a c = true -> cs_s c = true.
Hypothesis prior : cs_pk1 c = true -> 1 <= cs_prior c /\ all_pairs nk data.

Lemma fit_ctl_ok (nnm : bool) k p : (p_force s = true -> (k < nk)%nat) -> ctl_par nl nk cats ctss s p ->
  fit_ctl argsort solver nl nk cats ctss data c nnm k p = Ok Stuck /\ p_force s = false /\ cats <> [] /\
    (k = 0%nat -> (2 <= cs_obs c)%nat -> exists qs, cycle_run nl nk cats ctss data s c p qs) \/
  exists p' qs pn sg,
    fit_ctl argsort solver nl nk cats ctss data c nnm k p
      = Ok (Finished p' (last_lik (recorded_liks nl nk data c (map fst qs))) (recorded_liks nl nk data c (map fst qs))) /\
    run nl nk cats ctss data s c k p qs pn /\ ctl_par nl nk cats ctss s pn /\
    relabelling nl sg /\ same_model nl nk data sg pn p' /\
    ((2 <= cs_obs c)%nat -> no_cycle nl nk cats data s c qs).
Proof.
  intros Hk G. unfold fit_ctl. rewrite (codes_true nl nk cats ctss data c nl_pos nk_pos D). cbn [negb].
  pose proof (sorted_good argsort nl nk cats ctss c sorts nl_pos nk_pos p false eq_refl G) as G0.
  pose proof (sort_spec argsort sorts (p_primary s) nl nk false false p) as Hsort. cbv zeta in Hsort.
  set (p0 := sort_parameters argsort (p_primary s) nl nk false false p) in *.
  destruct Hsort as (sg0 & t & R1 & _ & Ht & Hr & _). specialize (Ht eq_refl).
  set (mn := if p_force s then k else min_firm_type argsort (p_primary s) nl nk (A1 p0) (A2 p0)).
  assert (Lmn : (mn < nk)%nat).
  { unfold mn. destruct (p_force s); [now apply Hk|].
    now apply (min_firm_type_lowest argsort sorts (p_primary s) nl nk (A1 p0) (A2 p0)). }
  destruct (gen_ok nl nk cats ctss c nl_pos V mn Lmn) as (qa & qs & cols & Eg & _).
  rewrite Eg. cbn [bind]. rewrite (adj_of_sums cats ctss data p0) by exact (proj1 G0).
  pose proof (loop_ok argsort solver nl nk cats ctss data c sorts exact complete nl_pos nk_pos cts_one D V lb updates prior
    k Hk (cs_iters c) 0 (qa, qs, cols) p0 None mn [] None [] [] G0) as L.
  assert (No : (2 <= cs_obs c)%nat -> ~ cycling cats s c []).
  { intros Ho (_ & _ & k0 & r & E & Hrl & _). symmetry in E. apply app_eq_nil in E as [_ ->]. cbn in Hrl. lia. }
  assert (Ns : ~ settled c [] []) by (intros ((l0 & a & b & H & _) & _); destruct l0; discriminate).
  destruct L as [(E & Hf & Hcs & ps & pn & Pa & Hl & Hst)|(p' & lik' & ps & stop & E & G' & Pa & Hl & Hne & El & Hst)].
  { intros Hf. unfold mn. now rewrite Hf. }
  { exists mn. split; [exact Lmn|]. split; [exact Eg|]. reflexivity. }
  { reflexivity. }
  { reflexivity. }
  { congruence. }
  { reflexivity. }
  { intros _ _ _. unfold lastn. rewrite !skipn_nil. reflexivity. }
  { left. rewrite E. cbn [bind]. split; [reflexivity|]. split; [exact Hf|]. split; [exact Hcs|]. intros -> Ho. exists ps.
    exists sg0, p0, pn. split; [exact R1|]. split; [apply (relabelled_ext nl nk sg0 t); auto|]. split; [exact Pa|].
    split; [exact Hl|]. intros q1 q2 Eq. destruct q1 as [|x q1].
    - cbn [map]. split; [exact Ns|]. split; [intros H; destruct (No Ho H)|]. intros ->. subst ps. destruct Pa as [Pa _]. discriminate.
    - destruct (Hst (x :: q1) q2 Eq ltac:(discriminate)) as [H1 H2]. split; [exact H1|apply H2; lia]. }
  right. rewrite E. cbn [bind app] in *.
  assert (Er : forall l, rec_from nl nk data c 0 l = recorded_liks nl nk data c l) by reflexivity.
  rewrite Er in *.
  assert (El' : lik' = last_lik (recorded_liks nl nk data c (map fst ps))).
  { rewrite El. unfold last_lik. destruct (recorded_liks nl nk data c (map fst ps)); reflexivity. }
  rewrite El'.
  destruct (stored_same s D p') as (sg & Rg & Sm).
  { destruct G' as (K & _). split; [apply (K false)|apply (K true)]. }
  eexists _, ps, p', sg. split; [|split; [|split; [exact G'|split; [exact Rg|split]]]].
  - reflexivity.
  - exists sg0, p0, stop. split; [exact R1|]. split.
    { apply (relabelled_ext nl nk sg0 t); auto. }
    split; [exact Pa|]. split; [exact Hl|]. split; [exact Hne|].
    intros q1 q2 Eq. destruct q1 as [|x q1]; [|apply (fun H => proj1 (Hst _ _ Eq H)); discriminate].
    split.
    + intros ((l0 & a & b & H & _) & _). cbn in H. destruct l0; discriminate.
    + intros [-> ->]. subst ps. destruct Pa as [Pa _]. discriminate.
  - destruct nnm; [apply with_NNm_same|]; exact Sm.
  - intros Ho q1 q2 Eq Hc. destruct q1 as [|x q1]; [destruct (No Ho Hc)|].
    destruct (Hst (x :: q1) q2 Eq ltac:(discriminate)) as [H1 H2]. specialize (H2 ltac:(lia) Hc).
    split; [apply H2|]. apply H1. exact H2.
Qed.
End One.

Lemma lik_last p l : lik_of (p, last_lik l, l) = last l 0.
Proof. destruct l; reflexivity. Qed.

Section All.
Variable c : cset.
Notation s := (cs_gen c).
Hypothesis D : ctl_data nk cats ctss data s.
Hypothesis V : all_valid s nl nk (cats ++ ctss).
Hypothesis lb : 0 < p_lb s.
Hypothesis updates : cs_a c = true -> cs_s c = true.
Hypothesis prior : cs_pk1 c = true -> 1 <= cs_prior c /\ all_pairs nk data.

Lemma forced_ok (nnm : bool) p : ctl_par nl nk cats ctss s p ->
  exists p' k (ps : nat -> list (par * nat)) (pn : nat -> par) sg, 
    forced_fit argsort solver nl nk cats ctss data c nnm p
      = Ok (p', last_lik (recorded_liks nl nk data c (map fst (ps k))), recorded_liks nl nk data c (map fst (ps k))) /\
    (k < nk)%nat /\
    (forall j, (j < nk)%nat -> run nl nk cats ctss data (forced s) (cforced c) j p (ps j) (pn j) /\
       last (recorded_liks nl nk data c (map fst (ps j))) 0 <= last (recorded_liks nl nk data c (map fst (ps k))) 0) /\
    ctl_par nl nk cats ctss s (pn k) /\ relabelling nl sg /\ same_model nl nk data sg (pn k) p'.
Proof.
  intros G.
  assert (H : forall k, exists r : par * list (par * nat) * par * (nat -> nat), (k < nk)%nat ->
     let '(p', ps, pn, sg) := r in
     fit_ctl argsort solver nl nk cats ctss data (cforced c) false k p
      = Ok (Finished p' (last_lik (recorded_liks nl nk data (cforced c) (map fst ps))) (recorded_liks nl nk data (cforced c) (map fst ps))) /\
    run nl nk cats ctss data (forced s) (cforced c) k p ps pn /\ ctl_par nl nk cats ctss s pn /\ relabelling nl sg /\ same_model nl nk data sg pn p').
  { intros k. destruct (lt_dec k nk) as [Hk|Hk]; [|exists (p, [], p, fun l => l); contradiction].
    destruct (fit_ctl_ok (cforced c) D V lb updates prior false k p (fun _ => Hk) G)
      as [(_ & H & _)|(p' & ps & pn & sg & E & R & Gn & Rg & Sm & _)]; [discriminate|].
    exists (p', ps, pn, sg). intros _. auto. }
  destruct (fin_choice _ nk (p, @nil (par * nat), p, fun l : nat => l) (fun k _ => H k)) as [f Hf0].
  pose proof (fun k Hk => Hf0 k Hk Hk) as Hf. clear Hf0. cbn beta in Hf.
  set (ps := fun k => snd (fst (fst (f k)))).
  set (pn := fun k => snd (fst (f k))).
  set (m := fun k => (fst (fst (fst (f k))), last_lik (recorded_liks nl nk data c (map fst (ps k))), recorded_liks nl nk data c (map fst (ps k)))).
  destruct (force_min_best lik_of m (fun k =>
      r <- fit_ctl argsort solver nl nk cats ctss data (cforced c) false k p ;;
      match r with Finished p lik liks => Ok (p, lik, liks) | Stuck => Err AssertionError end) nk)
    as (k & Hk & E & Hb & _); [|exact nk_pos|].
  { intros k Hk. specialize (Hf k Hk). unfold m, ps. destruct (f k) as [[[p' pss] pnn] sg]. cbn [fst snd].
    destruct Hf as [-> _]. reflexivity. }
  unfold forced_fit. rewrite E. unfold m at 1. cbn [bind].
  pose proof (Hf k Hk) as Hfk.
  eexists _, k, ps, pn, (snd (f k)). split; [reflexivity|]. split; [exact Hk|]. split.
  - intros j Hj. specialize (Hf j Hj). specialize (Hb j Hj). unfold m in Hb. rewrite !lik_last in Hb.
    split; [|exact Hb]. unfold ps, pn. destruct (f j) as [[[p' pss] pnn] sg]. apply Hf.
  - unfold pn. destruct (f k) as [[[p' pss] pnn] sg]. cbn [fst snd]. destruct Hfk as (_ & _ & Gn & Rg & [P M]).
    split; [exact Gn|]. split; [exact Rg|]. 
    assert (Sm : same_model nl nk data sg pnn (mkpar (A1 p') (A2 p') (S1 p') (S2 p') (A1_cat p') (A2_cat p')
        (S1_cat p') (S2_cat p') (A1_cts p') (A2_cts p') (S1_cts p') (S2_cts p') (pk1 p') (pk0 p) (NNm p) (NNs p))).
    { split; [exact P|]. intros t l o Hl Ho. destruct (M t l o Hl Ho) as [H1 H2]. destruct t; split; assumption. }
    destruct nnm; [apply with_NNm_same|]; exact Sm.
Qed.

Lemma movers_ok (nnm : bool) p : ctl_par nl nk cats ctss s p ->
  exists p' qs pn sg,
    fit_movers_ctl argsort solver nl nk cats ctss data c nnm p
      = Ok (p', last_lik (recorded_liks nl nk data c (map fst qs)), recorded_liks nl nk data c (map fst qs)) /\
    ctl_par nl nk cats ctss s pn /\ relabelling nl sg /\ same_model nl nk data sg pn p' /\
    ((p_force s = false /\ run nl nk cats ctss data s c 0 p qs pn /\ ((2 <= cs_obs c)%nat -> no_cycle nl nk cats data s c qs)) \/
     ((p_force s = true \/ cats <> [] /\ ((2 <= cs_obs c)%nat -> exists qs0, cycle_run nl nk cats ctss data s c p qs0)) /\
      exists p1 k (runs : nat -> list (par * nat) * par), but_pk0 p p1 /\ (k < nk)%nat /\ runs k = (qs, pn) /\
        forall j, (j < nk)%nat ->
          run nl nk cats ctss data (forced s) (cforced c) j p1 (fst (runs j)) (snd (runs j)) /\
          last (recorded_liks nl nk data c (map fst (fst (runs j)))) 0 <= last (recorded_liks nl nk data c (map fst qs)) 0)).
Proof.
  intros G.
  assert (F : forall p1, but_pk0 p p1 ->
     p_force s = true \/ cats <> [] /\ ((2 <= cs_obs c)%nat -> exists qs0, cycle_run nl nk cats ctss data s c p qs0) ->
     exists p' qs pn sg, forced_fit argsort solver nl nk cats ctss data c nnm p1
      = Ok (p', last_lik (recorded_liks nl nk data c (map fst qs)), recorded_liks nl nk data c (map fst qs)) /\
    ctl_par nl nk cats ctss s pn /\ relabelling nl sg /\ same_model nl nk data sg pn p' /\
    ((p_force s = false /\ run nl nk cats ctss data s c 0 p qs pn /\ ((2 <= cs_obs c)%nat -> no_cycle nl nk cats data s c qs)) \/
     ((p_force s = true \/ cats <> [] /\ ((2 <= cs_obs c)%nat -> exists qs0, cycle_run nl nk cats ctss data s c p qs0)) /\
      exists p1 k (runs : nat -> list (par * nat) * par), but_pk0 p p1 /\ (k < nk)%nat /\ runs k = (qs, pn) /\
        forall j, (j < nk)%nat ->
          run nl nk cats ctss data (forced s) (cforced c) j p1 (fst (runs j)) (snd (runs j)) /\
          last (recorded_liks nl nk data c (map fst (fst (runs j)))) 0 <= last (recorded_liks nl nk data c (map fst qs)) 0))).
  { intros p1 [f Hf] Hw. destruct (forced_ok nnm p1) as (p' & k & ps & pn & sg & E & Hk & Hj & Gn & Rg & Sm).
    { subst p1. destruct G as (K & Hs & Hp). split; [intros t; destruct t; [exact (K true)|exact (K false)]|]. split.
      - intros b t l n Hb Hl Hn. specialize (Hs b t l n Hb Hl Hn). destruct b, t; exact Hs.
      - exact Hp. }
    exists p', (ps k), (pn k), sg. split; [exact E|]. split; [exact Gn|]. split; [exact Rg|]. split; [exact Sm|]. right.
    split; [exact Hw|]. exists p1, k, (fun j => (ps j, pn j)). split; [now exists f|]. split; [exact Hk|].
    split; [reflexivity|]. exact Hj. }
  unfold fit_movers_ctl. destruct (p_force s) eqn:Ef.
  - apply F; [exists (pk0 p); destruct p; reflexivity|now left].
  - destruct (fit_ctl_ok c D V lb updates prior nnm 0 p) as [(E & _ & Hc & Hy)|(p' & ps & pn & sg & E & R & Gn & Rg & Sm & Hy)];
      [congruence|exact G| |].
    + rewrite E. cbn [bind]. apply F; [|right; split; [exact Hc|now apply Hy]]. eexists. reflexivity.
    + rewrite E. cbn [bind]. exists p', ps, pn, sg. split; [reflexivity|]. split; [exact Gn|]. split; [exact Rg|]. split; [exact Sm|].
      left. split; [reflexivity|]. now split.
Qed.
Lemma movers_thm (nnm : bool) p : (2 <= cs_obs c)%nat -> ctl_par nl nk cats ctss s p ->
  exists p' qs pn sg,
    fit_movers_ctl argsort solver nl nk cats ctss data c nnm p
      = Ok (p', last_lik (recorded_liks nl nk data c (map fst qs)), recorded_liks nl nk data c (map fst qs)) /\
    ctl_par nl nk cats ctss s pn /\ relabelling nl sg /\ same_model nl nk data sg pn p' /\
    ((p_force s = false /\ run nl nk cats ctss data s c 0 p qs pn /\ no_cycle nl nk cats data s c qs) \/
     ((p_force s = true \/ exists qs0, cycle_run nl nk cats ctss data s c p qs0) /\
      exists p1 k (runs : nat -> list (par * nat) * par), but_pk0 p p1 /\ (k < nk)%nat /\ runs k = (qs, pn) /\
        forall j, (j < nk)%nat ->
          run nl nk cats ctss data (forced s) (cforced c) j p1 (fst (runs j)) (snd (runs j)) /\
          last (recorded_liks nl nk data c (map fst (fst (runs j)))) 0 <= last (recorded_liks nl nk data c (map fst qs)) 0)).
Proof.
  intros Ho G. destruct (movers_ok nnm p G) as (p' & qs & pn & sg & E & Gn & Rg & Sm & H).
  exists p', qs, pn, sg. split; [exact E|]. split; [exact Gn|]. split; [exact Rg|]. split; [exact Sm|].
  destruct H as [(Hf & R & Hn)|[Hw H]]; [left; auto|]. right. split; [|exact H].
  destruct Hw as [Hw|[_ Hw]]; [now left|right; now apply Hw].
Qed.
End All.
End Fit.

(* ---- update_a without update_s ---- *)
Section Only.
Variable argsort : list R -> list nat.
Variable solver : list R -> list R -> problem -> qpres.
Variables (nl nk : nat) (cats ctss : list gcol) (data : list obs).
Definition raises {A} (r : res A) : Prop := exists e, r = Err e.
Lemma bind_raises {A B} (r : res A) (f : A -> res B) : (forall a, raises (f a)) -> raises (x <- r ;; f x).
Proof. intros H. destruct r as [a|e]; [apply H|now exists e]. Qed.

Lemma only_A_step c qi cons p ya As : cs_a c = true -> cs_s c = false ->
  raises (m_step_ctl solver nl nk cats ctss data c qi cons p ya As).
Proof.
  intros Ha Hs. destruct cons as [[qa qs] cols]. unfold m_step_ctl. rewrite Ha, Hs. cbn [orb].
  apply bind_raises. intros [p1 P]. apply bind_raises. intros [[[p2 ya2] Pc] Px]. now eexists.
Qed.
Lemma only_A_loop c n iter cons p ya As pm seen lik liks : cs_a c = true -> cs_s c = false ->
  let r := ctl_loop argsort solver nl nk cats ctss data (S n) c iter cons p ya As None pm seen lik liks in
  raises r \/ r = Ok Stuck /\ p_force (cs_gen c) = false.
Proof.
  intros Ha Hs r. unfold r. cbn [ctl_loop].
  destruct (e_step nl nk data p As) as [lp|e]; [|left; now eexists]. cbn [bind].
  destruct (mean_lse lp) as [m|e]; [|left; now eexists]. cbn [bind].
  destruct (posteriors lp) as [qi|e]; [|left; now eexists]. cbn [bind converged andb].
  set (mn := if p_force (cs_gen c) then pm else _).
  destruct (cycle_check cats c iter mn seen) as [seen' st] eqn:Ec. destruct st.
  - right. split; [reflexivity|]. unfold cycle_check in Ec. destruct (p_force (cs_gen c)); [|reflexivity].
    cbn [negb] in Ec. rewrite andb_false_r in Ec. injection Ec. discriminate.
  - left. apply bind_raises. intros p1. apply bind_raises. intros cons'.
    destruct (only_A_step c qi cons' p1 ya As Ha Hs) as [e ->]. now eexists.
Qed.
Lemma only_A_fit c nnm k p : cs_a c = true -> cs_s c = false -> (0 < cs_iters c)%nat ->
  let r := fit_ctl argsort solver nl nk cats ctss data c nnm k p in
  raises r \/ r = Ok Stuck /\ p_force (cs_gen c) = false.
Proof.
  intros Ha Hs Hn r. unfold r, fit_ctl. destruct (negb (codes_ok cats data)); [left; now eexists|].
  set (p0 := sort_parameters _ _ _ _ _ _ p).
  set (mn := if p_force (cs_gen c) then k else _).
  destruct (gen_all (cs_gen c) nl nk cats ctss mn) as [cons|e]; [|left; now eexists]. cbn [bind].
  destruct (cs_iters c) as [|n]; [lia|].
  match goal with |- context [ctl_loop _ _ _ _ _ _ _ _ _ _ _ _ ?ya ?As _ _ _ _ _] =>
    destruct (only_A_loop c n 0 cons p0 ya As mn [] None [] Ha Hs) as [[e ->]|[-> Hf]] end.
  - left. now eexists.
  - right. split; [reflexivity|exact Hf].
Qed.
Lemma only_A_forced c nnm p : cs_a c = true -> cs_s c = false -> (0 < cs_iters c)%nat ->
  raises (forced_fit argsort solver nl nk cats ctss data c nnm p).
Proof.
  intros Ha Hs Hn. unfold forced_fit. unfold force_min. destruct nk as [|m] eqn:En; [now eexists|].
  change (range (S m)) with (0%nat :: seq 1 m). cbn [for_each].
  destruct (only_A_fit (cforced c) false 0 p Ha Hs Hn) as [[e E]|[_ Hf]]; [|discriminate].
  rewrite <- En. rewrite E. now eexists.
Qed.
Lemma only_A c nnm p : cs_a c = true -> cs_s c = false -> (0 < cs_iters c)%nat ->
  exists e, fit_movers_ctl argsort solver nl nk cats ctss data c nnm p = Err e.
Proof.
  intros Ha Hs Hn. unfold fit_movers_ctl. destruct (p_force (cs_gen c)); [now apply only_A_forced|].
  destruct (only_A_fit c nnm 0 p Ha Hs Hn) as [[e ->]|[-> _]]; [now eexists|]. cbn [bind]. now apply only_A_forced.
Qed.
End Only.
