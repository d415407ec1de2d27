(* Lemmas on the phases of the dynamic BLM estimation. *)
From Coq Require Import Permutation.
From Verif Require Import Base BaseLemmas UtilModel UtilSpec ConsModel ConsSpec BLMModel BLMSpec BLMRunModel
  BLMRunSpec BLMRunLemmas BLMSortLemmas
  BLMFitModel DBLMModel DBLMSpec DBLMEMSpec DBLMSortLemmas DBLMStepLemmas DBLMStep2Lemmas DBLMStep3Lemmas DBLMEMLemmas DBLMEM2Lemmas
  ConnModel ConnSpec ConnLemmas ConnPropLemmas DRunModel DRunSpec.
From Coq Require Import Lra Lia.
Local Open Scope res_scope.
Local Open Scope R_scope.

Lemma dcons_valid_phase nt nl nk c a s k cons d :
  dcons_valid nt nl nk c -> (forall o, In o cons -> valid nt nl nk o) -> dcons_valid nt nl nk (phase a s k cons d c).
Proof.
  intros H Hc o. cbn [phase dcons_a dcons_a_all dcons_s dcons_s_all]. rewrite !in_app_iff.
  intros [I|[I|[I|I]]]; [| |apply H|apply H]; [apply H| auto| |]; rewrite !in_app_iff; auto.
Qed.

Section Fits.
Variable argsort : list R -> list nat.
Hypothesis Ha : forall l, is_argsort l (argsort l).
Variable solver : nat -> mat -> list R -> problem -> qpres.
Hypothesis He : dexact solver.
Variables (pp : period) (nl nk : nat).
Hypothesis nl_pos : (0 < nl)%nat.
Variable data : list dobs.
Hypothesis Hft : firm_types nk data.
Hypothesis Hpairs : dall_pairs nk data.

Lemma ok_minv c p : dpar_ok nl nk c p -> minv nl nk c data p.
Proof.
  clear Hpairs. intros (HS & Hk1 & Hk0 & HA & HSb). split; [|split]; auto.
  intros o Ho. destruct (Hft o Ho) as [H1 H2]. split; auto. split; auto.
  intros l Hl. repeat split; auto.
Qed.

Lemma path_stayers c n iter prev p ls p' : mover_path solver nl nk c data n iter prev p ls p' ->
  dS p' T2s = dS p T2s /\ dS p' T3s = dS p T3s /\ dpk0 p' = dpk0 p.
Proof.
  clear. induction 1 as [| |n iter prev p p' liks p'' Hs _ IH]; auto.
  destruct (ms_stayers _ _ _ _ _ _ _ _ Hs) as (_ & _ & E1 & E2 & E3 & _).
  destruct IH as (F1 & F2 & F3). repeat split; congruence.
Qed.
Lemma path_lik c n iter prev p ls p' : mover_path solver nl nk c data n iter prev p ls p' ->
  (0 < n)%nat -> ls <> [].
Proof. clear. intros H Hn. destruct H; [lia|discriminate|discriminate]. Qed.

(* A fit ends, and with good estimates. *)
Lemma fit_good c b p : dcons_valid (nt_movers c) nl nk c -> 0 < ds_lower_bound c -> 1 <= dd_prior c ->
  dpar_ok nl nk c p ->
  exists q lik ls, dfit_movers argsort solver pp nl nk c b data p = Ok (q, lik, ls) /\ dpar_ok nl nk c q /\
    ((0 < dn_iters c)%nat -> exists v, lik = Some v) /\ (b = true -> dNNm q = dmover_counts data).
Proof.
  intros Hv Hlb Hd Hok. pose proof (ok_minv c p Hok) as Hm.
  destruct (dsort_spec argsort Ha pp nl nk false false p) as (s0 & t0 & Rs0 & _ & T0 & D0 & _).
  set (p0 := dsort_parameters argsort pp nl nk false false p) in *.
  assert (D0' : drelabelled nl nk s0 (fun k => k) p p0).
  { eapply drelabelled_ext; [reflexivity| |exact D0]. intros k _. symmetry. now apply T0. }
  pose proof (minv_relabelled nl nk c data s0 p p0 Rs0 D0' Hm) as Hm0.
  destruct (dgen_constraints_ok nl nk c true nl_pos Hv) as (qa & qs & Ec & _).
  destruct (loop_path argsort Ha solver He nl nk c data nl_pos Hv Hlb Hd (fun _ => Hpairs) pp (dn_iters c) 0 (qa, qs) p0
              None (dmin_firm_type argsort pp nl nk p0) None [] Ec Hm0)
    as (p1 & lik & ls & El & Hpath & Hm1 & Hl).
  destruct (dsort_spec argsort Ha pp nl nk false false p1) as (s1 & t1 & Rs1 & _ & T1 & D1 & O1 & _).
  set (p2 := dsort_parameters argsort pp nl nk false false p1) in *.
  assert (D1' : drelabelled nl nk s1 (fun k => k) p1 p2).
  { eapply drelabelled_ext; [reflexivity| |exact D1]. intros k _. symmetry. now apply T1. }
  pose proof (minv_relabelled nl nk c data s1 p1 p2 Rs1 D1' Hm1) as Hm2.
  assert (G : dpar_ok nl nk c p2).
  { destruct Hm2 as (HM & HA & HSb). destruct Hok as (PS & _ & P0 & _).
    destruct (path_stayers _ _ _ _ _ _ _ Hpath) as (E1 & E2 & E3).
    split; [|split; [|split; [|split; assumption]]].
    - intros t l k Hl' Hk. destruct (Hpairs k k Hk Hk) as (o & Ho & G1 & G4).
      destruct (HM o Ho) as (_ & _ & Q). destruct (Q l Hl') as (_ & Q1 & Q2 & Q3 & Q4).
      rewrite G1, G4 in *. destruct t; auto.
      + rewrite (dr_S _ _ _ _ _ _ D1'), E1, (dr_S _ _ _ _ _ _ D0') by (auto; now apply relabelling_lt).
        apply PS; auto. apply relabelling_lt; auto. now apply relabelling_lt.
      + rewrite (dr_S _ _ _ _ _ _ D1'), E2, (dr_S _ _ _ _ _ _ D0') by (auto; now apply relabelling_lt).
        apply PS; auto. apply relabelling_lt; auto. now apply relabelling_lt.
    - intros k1 k2 l H1 H2 Hl'. destruct (Hpairs k1 k2 H1 H2) as (o & Ho & G1 & G4).
      destruct (HM o Ho) as (_ & _ & Q). destruct (Q l Hl') as (Q0 & _). now rewrite G1, G4 in Q0.
    - intros k l Hk Hl'.
      rewrite (dr_pk0 _ _ _ _ _ _ D1'), E3, (dr_pk0 _ _ _ _ _ _ D0') by (auto; now apply relabelling_lt).
      apply P0; auto. apply relabelling_lt; auto. now apply relabelling_lt. }
  exists (if b then dset_NNm (dmover_counts data) p2 else p2), lik, ls.
  split; [|split; [|split]].
  - unfold dfit_movers. fold p0. rewrite Ec. cbn [bind]. rewrite El. cbn [bind app]. reflexivity.
  - destruct b; exact G.
  - intros Hn. rewrite Hl. pose proof (path_lik _ _ _ _ _ _ _ Hpath Hn) as N.
    destruct (rev ls) as [|v r] eqn:E; [|eauto]. exfalso. apply N.
    rewrite <- (rev_involutive ls), E. reflexivity.
  - intros ->. reflexivity.
Qed.

(* ---- fit_movers_cstr_uncstr ---- *)
Variable eig : nat -> mat -> res (list R).

Lemma set_up_phase a s k c : dset_up a s k c = phase a s k (dcons_a_all c) (d_X_diag c) c.
Proof. reflexivity. Qed.
Lemma set_cons_phase cs a s k cons d c : dset_cons cs (phase a s k cons d c) = phase a s k cs d c.
Proof. reflexivity. Qed.
Lemma set_up_phase2 a' s' k' a s k cons d c :
  dset_up a' s' k' (phase a s k cons d c) = phase a' s' k' cons d c.
Proof. reflexivity. Qed.
Lemma set_diag_phase d' a s k cons d c : dset_diag d' (phase a s k cons d c) = phase a s k cons d' c.
Proof. reflexivity. Qed.

Lemma counts_pos a b : (a < nk)%nat -> (b < nk)%nat -> 0 < dmover_counts data a b.
Proof.
  intros Ha' Hb. destruct (Hpairs a b Ha' Hb) as (o & Ho & G1 & G4). unfold dmover_counts.
  apply lt_0_INR.
  assert (I : In o (filter (fun o => (dg1 o =? a) && (dg4 o =? b))%nat data)).
  { apply filter_In. split; auto. now rewrite G1, G4, !Nat.eqb_refl. }
  destruct (filter _ data); [destruct I|]. simpl. lia.
Qed.

Lemma connect_good m c : eig_ok nk eig -> (2 <= nk)%nat -> dpar_ok nl nk c (m_par m) -> m_counted m = true ->
  dNNm (m_par m) = dmover_counts data ->
  exists v, connect_m eig nl nk m = Ok (mkdmodel (m_par m) true (m_lik m) (m_liks m) (Some v)) /\ 0 < v <= 2.
Proof.
  intros Eg Hk (_ & Pk & _) Hc HN. unfold connect_m. rewrite Hc, HN.
  assert (Mv : forall l a b, (l < nl)%nat -> (a < nk)%nat -> (b < nk)%nat ->
    0 < moves_of nk (dmover_counts data) (dpk1 (m_par m)) l a b).
  { intros l a b Hl Ha' Hb. unfold moves_of, type_moves, prop_of. apply Rmult_lt_0_compat; auto. now apply counts_pos. }
  destruct (conn_measure eig false nl nk (dmover_counts data) (dpk1 (m_par m)) Eg) as (v & E & B & Z); auto.
  - intros a b Ha' Hb. left. now apply counts_pos.
  - intros a b l Ha' Hb Hl. left. unfold prop_of. auto.
  - intros a b Ha' Hb. split; intros _; now apply counts_pos.
  - intros l Hl a Ha'. exists a. split; auto. pose proof (Mv l a a Hl Ha' Ha'). lra.
  - rewrite E. cbn [bind]. exists v. split; auto. split; [|apply B].
    assert (v <> 0); [|lra]. intros Z0. apply Z in Z0 as (l & Hl & G & (a & Ha' & Ga) & (b & Hb & Gb) & C).
    destruct (C a b Ha' Hb Ga Gb) as [Z1 _]. pose proof (Mv l a b Hl Ha' Hb). lra.
Qed.

Lemma range13 : range2 1 4 = [1; 2; 3]%nat. Proof. reflexivity. Qed.

Lemma first_ok c b all p : static_ok nl nk b -> dpar_ok nl nk c p -> dpar_ok nl nk c (initialize all b p).
Proof.
  clear Ha He Hft Hpairs. intros (K1 & K0) (PS & P1 & P0 & PA & PSb).
  split; [|split; [|split; [|split]]]; auto. unfold initialize. cbn [dAb]. destruct all; auto.
  split; reflexivity.
Qed.
Lemma first_spec b all p : first_estimates (Some b) all p (initialize all b p).
Proof.
  unfold first_estimates, initialize. destruct all; cbn; repeat split; auto.
  all: intros t N1 N2; destruct t; congruence || reflexivity.
Qed.

Lemma lin_valid c : (1 <? nl)%nat = true -> valid (nt_movers c) nl nk (CLinearAdditive None (nt_movers c)) \/ nk = 0%nat.
Proof.
  clear. intros H. apply Nat.ltb_lt in H. destruct nk as [|k]; [now right|left].
  cbn [valid]. split; auto. split; [lia|]. split; [lia|].
  unfold in_periods, periods. intros q Hq. unfold range in Hq. apply in_seq in Hq. lia.
Qed.
Lemma sta_valid c : valid (nt_movers c) nl nk (CStationaryFirmTypeVariation (Some [1; 2; 3]%nat) (nt_movers c)).
Proof.
  clear. cbn [valid]. split; auto. unfold periods1. intros q Hq.
  assert (4 <= nt_movers c)%nat.
  { unfold nt_movers, periods_movers. rewrite !app_length. simpl. lia. }
  simpl in Hq. lia.
Qed.

Lemma cstr_good c blm all m : eig_ok nk eig -> (2 <= nk)%nat ->
  dcons_valid (nt_movers c) nl nk c -> 0 < ds_lower_bound c -> 1 <= dd_prior c -> (0 < dn_iters c)%nat ->
  (forall b, blm = Some b -> static_ok nl nk b) -> dpar_ok nl nk c (m_par m) ->
  exists p0 p1 q lik ls v,
    first_estimates blm all (m_par m) p0 /\
    fits_in_turn (fun c p => dfit_movers argsort solver pp nl nk c false data p)
      (constrained_phases nl (match blm with Some _ => true | None => false end) c) p0 p1 /\
    dfit_movers argsort solver pp nl nk (last_phase c) true data p1 = Ok (q, Some lik, ls) /\
    dcstr_uncstr argsort solver eig pp nl nk false c true blm all data m
      = Ok (mkdmodel q true (Some lik) ls (Some v)) /\
    0 < v <= 2 /\ dpar_ok nl nk c q /\ dNNm q = dmover_counts data.
Proof.
  intros Eg Hk Hv Hlb Hd Hn Hs Hok.
  assert (U : forall o, In o (dcons_a_all c) -> valid (nt_movers c) nl nk o).
  { intros o Ho. apply Hv. rewrite !in_app_iff. auto. }
  (* one fit *)
  assert (Fit : forall a s k cons d b p, (forall o, In o cons -> valid (nt_movers c) nl nk o) -> dpar_ok nl nk c p ->
    exists q lik ls, dfit_movers argsort solver pp nl nk (phase a s k cons d c) b data p = Ok (q, Some lik, ls) /\
      dpar_ok nl nk c q /\ (b = true -> dNNm q = dmover_counts data)).
  { intros a s k cons d b p Hc Hp.
    destruct (fit_good (phase a s k cons d c) b p) as (q & lik & ls & E & G & L & N); auto.
    - now apply dcons_valid_phase.
    - destruct (L Hn) as (v & ->). exists q, v, ls. auto. }
  pose (p0 := match blm with Some b => initialize all b (m_par m) | None => m_par m end).
  assert (F0 : first_estimates blm all (m_par m) p0).
  { subst p0. destruct blm; [apply first_spec|reflexivity]. }
  assert (G0 : dpar_ok nl nk c p0).
  { subst p0. destruct blm; auto. apply first_ok; auto. }
  pose (ws := match blm with Some _ => true | None => false end).
  destruct (Fit false true (negb ws) (dcons_a_all c) (d_X_diag c) false p0 U G0) as (q1 & l1 & ls1 & E1 & G1 & _).
  assert (Step1 : forall (k : dsettings -> dmodel -> res dmodel),
    bind (match blm with
              | Some b =>
                  let m := mkdmodel (initialize all b (m_par m)) (m_counted m) (m_lik m)
                             (m_liks m) (m_conn m) in
                  let c := dset_up false true false c in
                  m <- fit_movers_m argsort solver pp nl nk false c false data m ;;
                  Ok (dset_up false true true c, m)
              | None =>
                  let c := dset_up false true true c in
                  m <- fit_movers_m argsort solver pp nl nk false c false data m ;; Ok (c, m)
              end) (fun '(c', m') => k c' m')
    = k (phase false true true (dcons_a_all c) (d_X_diag c) c)
        (mkdmodel q1 (m_counted m) (Some l1) ls1 (m_conn m))).
  { intros k. subst p0 ws. destruct blm as [b|]; cbn [negb] in E1; rewrite set_up_phase; unfold fit_movers_m;
      cbn [m_par]; cbv zeta; rewrite E1; cbn [bind orb m_counted m_conn]; reflexivity. }
  destruct (Nat.ltb_spec 1 nl) as [L|L].
  - destruct (lin_valid c) as [Vl|]; [now apply Nat.ltb_lt| |lia].
    destruct (Fit true true true (dcons_a_all c ++ [CLinearAdditive None (nt_movers c)]) (d_X_diag c) false q1)
      as (q2 & l2 & ls2 & E2 & G2 & _); auto.
    { intros o. rewrite in_app_iff. intros [I|[<-|[]]]; auto. }
    destruct (Fit true true true (dcons_a_all c ++ [CStationaryFirmTypeVariation (Some [1; 2; 3]%nat) (nt_movers c)])
      (d_X_diag c) false q2) as (q3 & l3 & ls3 & E3 & G3 & _); auto.
    { intros o. rewrite in_app_iff. intros [I|[<-|[]]]; auto. apply sta_valid. }
    destruct (Fit true true true (dcons_a_all c) ((1 + d_X_diag c) / 2) true q3) as (q4 & l4 & ls4 & E4 & G4 & N4); auto.
    destruct (connect_good (mkdmodel q4 true (Some l4) ls4 (m_conn m)) c) as (v & Ev & Bv); auto.
    exists p0, q3, q4, l4, ls4, v. split; auto. split; [|split; [exact E4|split; [|auto]]].
    + unfold constrained_phases. replace (1 <? nl)%nat with true by (symmetry; now apply Nat.ltb_lt).
      apply fit_next with (q := q1) (lik := Some l1) (liks := ls1); [exact E1|].
      apply fit_next with (q := q2) (lik := Some l2) (liks := ls2); [exact E2|].
      apply fit_next with (q := q3) (lik := Some l3) (liks := ls3); [exact E3|]. constructor.
    + unfold dcstr_uncstr. rewrite Step1. cbv zeta.
      replace (1 <? nl)%nat with true by (symmetry; now apply Nat.ltb_lt).
      rewrite set_up_phase2. cbn [phase up_s up_pk1]. fold (phase true true true (dcons_a_all c) (d_X_diag c) c).
      rewrite set_cons_phase. unfold fit_movers_m. cbn [m_par].
      fold (nt_movers c). rewrite E2. cbn [bind m_counted m_conn orb].
      rewrite range13, set_cons_phase. cbn [m_par]. rewrite E3. cbn [bind m_counted m_conn orb].
      rewrite set_cons_phase, set_diag_phase. cbn [m_par phase d_X_diag].
      replace (1 + (d_X_diag c - 1) / 2) with ((1 + d_X_diag c) / 2) by field.
      fold (phase true true true (dcons_a_all c) ((1 + d_X_diag c) / 2) c). rewrite E4. cbn [bind m_counted m_conn orb].
      exact Ev.
  - destruct (Fit true true true (dcons_a_all c) ((1 + d_X_diag c) / 2) true q1) as (q4 & l4 & ls4 & E4 & G4 & N4); auto.
    destruct (connect_good (mkdmodel q4 true (Some l4) ls4 (m_conn m)) c) as (v & Ev & Bv); auto.
    exists p0, q1, q4, l4, ls4, v. split; auto. split; [|split; [exact E4|split; [|auto]]].
    + unfold constrained_phases. replace (1 <? nl)%nat with false by (symmetry; apply Nat.ltb_ge; lia).
      apply fit_next with (q := q1) (lik := Some l1) (liks := ls1); [exact E1|]. constructor.
    + unfold dcstr_uncstr. rewrite Step1. cbv zeta.
      replace (1 <? nl)%nat with false by (symmetry; apply Nat.ltb_ge; lia). cbn [bind].
      rewrite set_up_phase2. cbn [phase up_s up_pk1]. fold (phase true true true (dcons_a_all c) (d_X_diag c) c).
      rewrite set_cons_phase, set_diag_phase. unfold fit_movers_m. cbn [m_par phase d_X_diag].
      replace (1 + (d_X_diag c - 1) / 2) with ((1 + d_X_diag c) / 2) by field.
      fold (phase true true true (dcons_a_all c) ((1 + d_X_diag c) / 2) c). rewrite E4. cbn [bind m_counted m_conn orb].
      exact Ev.
Qed.
End Fits.

(* ---- starting values ---- *)
Lemma new_par_ok nl nk c rho1 rho4 d : (0 < nl)%nat -> draws_ok nl nk d -> dpar_ok nl nk c (new_par nl c rho1 rho4 d).
Proof.
  intros Hn (HS & Hp). split; [|split; [|split; [|split]]]; cbn [new_par dS dpk1 dpk0 dAb dSb]; auto.
  - intros k l _ _. apply Rdiv_lt_0_compat; [lra|]. now apply lt_0_INR.
  - split; intros E k Hk; now rewrite E.
  - split; intros E k Hk; now rewrite E.
Qed.

Lemma path_movers solver nl nk c data n iter prev p ls q :
  stayer_path solver nl nk c data n iter prev p ls q -> same_movers p q.
Proof.
  assert (T : forall a b d, same_movers a b -> same_movers b d -> same_movers a d).
  { intros a b d (A1 & A2 & A3 & A4 & A5 & A6 & A7 & A8) (B1 & B2 & B3 & B4 & B5 & B6 & B7 & B8).
    split; [|intuition congruence]. intros t N1 N2. destruct (A1 t N1 N2), (B1 t N1 N2). split; congruence. }
  assert (Rf : forall a, same_movers a a). { intros a. unfold same_movers. intuition. }
  induction 1 as [| |n iter prev p p' ls p'' St _ IH]; auto.
  apply T with p'; auto. destruct St as [_ _ _ _ (M1 & M2 & M3 & M4 & M5 & M6 & M7) (C1 & _)].
  unfold same_movers. auto 10.
Qed.

Lemma enumerate_nth {A} (l : list A) i x : nth_error l i = Some x <-> In (i, x) (enumerate l).
Proof.
  unfold enumerate.
  assert (G : forall (l : list A) s, nth_error l i = Some x <-> In ((s + i)%nat, x) (combine (seq s (length l)) l)).
  { clear l. intros l. revert i. induction l as [|y l IH]; intros i s.
    - destruct i; simpl; split; [discriminate|tauto|discriminate|tauto].
    - cbn [length seq combine In]. destruct i as [|i]; cbn [nth_error].
      + split; [intros [= ->]; left; f_equal; lia|]. intros [[= _ ->]|I]; auto.
        apply in_combine_l in I. apply in_seq in I. lia.
      + rewrite (IH i (S s)). replace (s + S i)%nat with (S s + i)%nat by lia.
        split; [now right|]. intros [[= E _]|I]; auto. lia. }
  exact (G l 0%nat).
Qed.

Lemma Forall2_nth {A B} (P : A -> B -> Prop) l l' i x : Forall2 P l l' -> nth_error l i = Some x ->
  exists y, nth_error l' i = Some y /\ P x y.
Proof.
  intros F. revert i. induction F as [|a b l l' Pab _ IH]; intros [|i] E; try discriminate.
  - injection E as ->. now exists b.
  - now apply IH.
Qed.
Lemma nth_enumerate {A} (l : list A) i x : nth_error l i = Some x -> nth_error (enumerate l) i = Some (i, x).
Proof.
  unfold enumerate. assert (G : forall (l : list A) i s, nth_error l i = Some x ->
    nth_error (combine (seq s (length l)) l) i = Some ((s + i)%nat, x)); [|exact (G l i 0%nat)].
  clear. induction l as [|y l IH]; intros [|i] s E; try discriminate; cbn [length seq combine nth_error].
  - injection E as ->. f_equal. f_equal. lia.
  - rewrite (IH i (S s) E). f_equal. f_equal. lia.
Qed.
Lemma length_enumerate {A} (l : list A) : length (enumerate l) = length l.
Proof. unfold enumerate. rewrite combine_length, seq_length. lia. Qed.
Lemma Forall2_len {A B} (P : A -> B -> Prop) l l' : Forall2 P l l' -> length l = length l'.
Proof. induction 1; simpl; congruence. Qed.

Section Est.
Variable argsort : list R -> list nat.
Hypothesis Ha : forall l, is_argsort l (argsort l).
Variable solver : nat -> mat -> list R -> problem -> qpres.
Hypothesis He : dexact solver.
Variable eig : nat -> mat -> res (list R).
Variables (pp : period) (nl nk : nat).
Hypothesis nl_pos : (0 < nl)%nat.
Hypothesis Eg : eig_ok nk eig.
Hypothesis Hk : (2 <= nk)%nat.
Variables (jdata sdata : list dobs) (c : dsettings) (blm : option static) (rho1 rho4 : R).
Hypothesis Hj : firm_types nk jdata.
Hypothesis Hpairs : dall_pairs nk jdata.
Hypothesis Hs : firm_types nk sdata.
Hypothesis Hf : up_pk0 c = true -> dall_firms nk sdata.
Hypothesis Hv : dcons_valid (nt_movers c) nl nk c.
Hypothesis Hv2 : dcons_valid 2 nl nk c.
Hypothesis Hlb : 0 < ds_lower_bound c.
Hypothesis Hd : 1 <= dd_prior c.
Hypothesis Hd2 : 1 <= dd_prior_stayers c.
Hypothesis Hn : (0 < dn_iters c)%nat.
Hypothesis Hb : forall b, blm = Some b -> static_ok nl nk b.
Notation run i d := (run_one (fun b all m => dcstr_uncstr argsort solver eig pp nl nk false c true b all jdata m)
  (new_model nl c rho1 rho4) blm i d).

Lemma even_mod i : (i mod 2 =? 0)%nat = Nat.even i.
Proof.
  destruct (Nat.even i) eqn:E.
  - apply Nat.even_spec in E as (k & ->). apply Nat.eqb_eq. rewrite Nat.mul_comm. now apply Nat.mod_mul.
  - apply Nat.eqb_neq. intros Z. rewrite <- Nat.negb_odd in E. apply Bool.negb_false_iff, Nat.odd_spec in E as (k & ->).
    rewrite Nat.add_comm, Nat.mul_comm, Nat.mod_add in Z by lia. discriminate.
Qed.

Lemma fit_one_run i d : fit_one argsort solver eig pp nl nk false c blm jdata rho1 rho4 i d = run i d.
Proof.
  unfold fit_one, run_one. rewrite even_mod. destruct (Nat.even i); reflexivity.
Qed.

Lemma run_good i d : draws_ok nl nk d -> exists m lik v, run i d = Ok m /\ has_measures lik v m /\ 0 < v <= 2 /\
  dpar_ok nl nk c (m_par m) /\ dNNm (m_par m) = dmover_counts jdata.
Proof.
  intros Hdr. unfold run_one.
  destruct (cstr_good argsort Ha solver He pp nl nk nl_pos jdata Hj Hpairs eig c
    (if Nat.even i then blm else None) (Nat.even i && (i =? 0)%nat) (new_model nl c rho1 rho4 d))
    as (p0 & p1 & q & lik & ls & v & _ & _ & _ & E & B & G & N); auto.
  - intros b. destruct (Nat.even i); [apply Hb|discriminate].
  - now apply new_par_ok.
  - eexists _, lik, v. split; [exact E|]. split; [now split|]. auto.
Qed.

Lemma estimate_good starts nb : Forall (draws_ok nl nk) starts ->
  exists models,
    (length models = length starts) /\
    (forall i d, nth_error starts i = Some d -> exists m lik v, nth_error models i = Some m /\ run i d = Ok m /\
       has_measures lik v m /\ 0 < v <= 2) /\
    ((length starts < nb)%nat -> destimate argsort solver eig pp nl nk false c blm rho1 rho4 nb jdata sdata starts = Err ValueError) /\
    ((nb <= length starts)%nat -> nb = 0%nat ->
       destimate argsort solver eig pp nl nk false c blm rho1 rho4 nb jdata sdata starts = Err IndexError) /\
    ((0 < nb <= length starts)%nat ->
     exists f best low q lik ls,
       destimate argsort solver eig pp nl nk false c blm rho1 rho4 nb jdata sdata starts
         = Ok (f, (dset_NNs (dstayer_counts sdata) q, lik, ls)) /\
       Permutation (best ++ low) models /\ length best = nb /\
       (forall a b la va lb vb, In a best -> In b low -> has_measures la va a -> has_measures lb vb b -> lb <= la) /\
       In (f_model f) best /\
       (forall a la va lf vf, In a best -> has_measures la va a -> has_measures lf vf (f_model f) -> va <= vf) /\
       Forall2 (fun m r => m_lik m = Some r) best (f_liks_high f) /\
       Forall2 (fun m r => m_conn m = Some r) best (f_connectedness_high f) /\
       Forall2 (fun m r => m_lik m = Some r) low (f_liks_low f) /\
       Forall2 (fun m r => m_conn m = Some r) low (f_connectedness_low f) /\
       f_liks_all f = map m_liks (best ++ low) /\
       stayer_path solver nl nk c sdata (dn_iters_stayers c) 0 None (m_par (f_model f)) ls q /\
       lik = match rev ls with [] => None | l :: _ => Some l end /\
       same_movers (m_par (f_model f)) q).
Proof.
  intros Hst.
  destruct (traverse_exists (fun id => fit_one argsort solver eig pp nl nk false c blm jdata rho1 rho4 (fst id) (snd id))
    (fun id m => exists lik v, run (fst id) (snd id) = Ok m /\ has_measures lik v m /\ 0 < v <= 2 /\
      dpar_ok nl nk c (m_par m) /\ dNNm (m_par m) = dmover_counts jdata) (enumerate starts)) as (models & E & F).
  { intros [i d] I. cbn [fst snd]. rewrite fit_one_run. apply enumerate_nth in I.
    destruct (run_good i d) as (m & lik & v & G); [eapply Forall_forall; [exact Hst|eapply nth_error_In, I]|].
    exists m. split; [apply G|]. now exists lik, v. }
  assert (Len : length models = length starts) by (apply Forall2_len in F; now rewrite length_enumerate in F).
  assert (Good : Forall (fun m => exists lik v, has_measures lik v m /\ dpar_ok nl nk c (m_par m)) models).
  { clear - F. induction F as [|id m l ms (lik & v & _ & M & _ & G & _) _ IH]; constructor; auto. now exists lik, v. }
  exists models. split; auto. split.
  { intros i d Hi. apply nth_enumerate in Hi. destruct (Forall2_nth _ _ _ _ _ F Hi) as (m & Em & lik & v & G & M & B & _).
    exists m, lik, v. auto. }
  pose (val m := match m_lik m with Some v => v | None => 0 end).
  pose (pairs := map (fun m => (val m, m)) models).
  assert (E2 : traverse (fun m => match m_lik m with Some v => Ok (v, m) | None => Err TypeError end) models = Ok pairs).
  { apply traverse_ok. intros m I. rewrite Forall_forall in Good. destruct (Good m I) as (lik & v & (L & _) & _).
    unfold val. now rewrite L. }
  assert (Sn : map snd pairs = models).
  { unfold pairs. rewrite map_map. cbn [snd]. apply map_id. }
  pose proof (select_spec (@fst R dmodel) (fun vm => m_liks (snd vm)) (fun vm => m_conn (snd vm)) pairs nb) as Sp.
  assert (Fl : filter (fun vm : R * dmodel => match m_conn (snd vm) with Some _ => true | None => false end) pairs = pairs).
  { unfold pairs. clear - Good. induction Good as [|m l (lik & v & (_ & C) & _) _ IH]; auto. cbn. rewrite C. now f_equal. }
  cbv zeta in Sp.
  change (filter _ pairs) with (filter (fun vm : R * dmodel => match m_conn (snd vm) with Some _ => true | None => false end) pairs) in Sp.
  rewrite Fl in Sp.
  assert (Lp : length pairs = length starts) by (unfold pairs; now rewrite map_length).
  rewrite Lp in Sp. destruct Sp as (S1 & S2 & S3).
  unfold destimate. rewrite E. cbn [bind]. rewrite E2. cbn [bind].
  split; [intros H; now rewrite S1|]. split; [intros H H0; rewrite S2; auto|].
  intros Hnb. destruct S3 as (f & best & low & Ef & P & Lb & Hi & Inf & Hc & L1 & L2 & L3 & L4 & L5); auto.
  { intros Z. rewrite Z in Lp. simpl in Lp. lia. }
  rewrite Ef. cbn [bind].
  assert (Ib : forall x, In x (best ++ low) -> fst x = val (snd x) /\ In (snd x) models).
  { intros x I. apply (Permutation_in _ P) in I. unfold pairs in I. apply in_map_iff in I as (m & <- & I). now split. }
  assert (Mf : In (snd (f_model f)) models) by (apply Ib, in_or_app; now left).
  rewrite Forall_forall in Good. destruct (Good _ Mf) as (lf & vf & Mm & Gf).
  destruct (fit_stayers_path argsort Ha solver He nl nk c sdata nl_pos Hv2 Hlb Hd2 Hf true (m_par (snd (f_model f))))
    as (q & lik & ls & Eq & Hp & Hl).
  { intros o Ho. destruct (Hs o Ho) as (G1 & _). destruct Gf as (GS & _ & G0 & _).
    split; auto. intros l Hl. repeat split; auto. }
  cbn [f_model]. rewrite Eq. cbn [bind].
  assert (Lbn : length best = nb) by (rewrite Lb; lia).
  assert (Ll : length low = (length starts - nb)%nat).
  { apply Permutation_length in P. rewrite app_length in P. lia. }
  eexists _, (map snd best), (map snd low), q, lik, ls. split; [reflexivity|].
  cbn [f_model f_liks_high f_connectedness_high f_liks_low f_connectedness_low f_liks_all].
  split; [rewrite <- map_app, <- Sn; now apply Permutation_map|].
  split; [now rewrite map_length|].
  split.
  { intros a b la va lb vb IA IB (Ea & _) (Eb & _). apply in_map_iff in IA as (x & <- & IA), IB as (y & <- & IB).
    destruct (Ib x) as (Vx & _); [apply in_or_app; now left|]. destruct (Ib y) as (Vy & _); [apply in_or_app; now right|].
    specialize (Hi x y IA IB). rewrite Vx, Vy in Hi. unfold val in Hi. now rewrite Ea, Eb in Hi. }
  split; [now apply in_map|].
  split.
  { intros a la va lf' vf' IA (_ & Ca) (_ & Cf). apply in_map_iff in IA as (x & <- & IA).
    specialize (Hc x IA). unfold conn_val in Hc. now rewrite Ca, Cf in Hc. }
  assert (FL : forall l, (forall x, In x l -> In x (best ++ low)) -> Forall2 (fun m r => m_lik m = Some r) (map snd l) (map fst l)).
  { induction l as [|x l IH]; intros H; cbn [map]; constructor; [|apply IH; intros; apply H; now right].
    destruct (Ib x (H x (or_introl eq_refl))) as (Vx & I). rewrite Vx. unfold val.
    destruct (Good _ I) as (a & b & (-> & _) & _). reflexivity. }
  assert (FC : forall l, (forall x, In x l -> In x (best ++ low)) ->
    Forall2 (fun m r => m_conn m = Some r) (map snd l) (map (conn_val (fun vm : R * dmodel => m_conn (snd vm))) l)).
  { induction l as [|x l IH]; intros H; cbn [map]; constructor; [|apply IH; intros; apply H; now right].
    destruct (Ib x (H x (or_introl eq_refl))) as (_ & I). unfold conn_val.
    destruct (Good _ I) as (a & b & (_ & ->) & _). reflexivity. }
  rewrite L1, L2, L3, L4, L5, Lbn, Ll, !Nat.sub_diag. cbn [repeat]. rewrite !app_nil_r.
  split; [apply FL; intros; apply in_or_app; now left|]. split; [apply FC; intros; apply in_or_app; now left|].
  split; [apply FL; intros; apply in_or_app; now right|]. split; [apply FC; intros; apply in_or_app; now right|].
  split; [now rewrite <- map_app, map_map|]. split; auto. split; auto. eapply path_movers; eauto.
Qed.
End Est.
