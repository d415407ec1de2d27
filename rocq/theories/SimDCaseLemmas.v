(* Parameters of a run, and concrete runs. *)
From Coq Require Import Permutation Sorted FunctionalExtensionality.
From Verif Require Import Base BaseLemmas UtilModel UtilSpec UtilQuantLemmas BLMModel BLMSpec SimModel SimSpec SimLemmas
  SimPropLemmas SimParamLemmas BLMRealModel DBLMModel DBLMSpec DBootModel DBootSpec DBootLemmas SimDModel SimDSpec SimDLemmas
  SimDPropLemmas SimDRunLemmas SimDStatLemmas.
Local Open Scope R_scope.

Section Run.
Variables nl nk : nat.
Variable cm : nat -> nat -> nat.
Variable cs : nat -> nat.
Variable q : rhos.
Variable g : wdraws.
Variable argsort : list R -> list nat.
Variable sort : list R -> list R.
Hypothesis argsort_ok : forall l, is_argsort l (argsort l).
Hypothesis sort_ok : sorts_ok sort.
Variables (o : opts) (d : pdraws) (cats : list catspec) (ctss : list ctsspec) (fuel : nat).
Local Notation dsim := (dsim nl nk cm cs q g argsort sort o d cats ctss fuel).
Variables (jd sd : list drow) (A S : dict) (cc ct : list ctrl).
Hypothesis run : dsim = Ok (jd, sd, (A, S, cc, ct)).
Hypothesis plain : stationary (ostat o) = false.

Lemma par_entries :
  let As := dsort_A argsort sort nl nk (strictly o) (drawn_A o d) (drawn_Ab o d) in
  (forall u, dA (par_of A S q) u = fst As u) /\
  (forall b, dAb (par_of A S q) b = fun k => if off o (PB b) then 0 else snd As b k) /\
  (forall u, dS (par_of A S q) u = pd_S d u) /\
  (forall b, dSb (par_of A S q) b = fun k => if off o (PB b) then 0 else pd_Sb d b k).
Proof.
  pose proof (run_gen _ _ _ _ _ _ _ _ _ _ _ _ _ _ _ _ _ _ _ run) as G.
  pose proof (gen_plain argsort sort nl nk o d A S plain G) as H.
  destruct (dsort_A _ _ _ _ _ _ _) as [A0 Ab0]. cbn [fst snd par_of dA dAb dS dSb].
  repeat split; intros u; apply functional_extensionality; intros x.
  - apply functional_extensionality; intros y. rewrite (proj1 (H (PA u))). reflexivity.
  - rewrite (proj1 (H (PB u))). now destruct (off o (PB u)).
  - apply functional_extensionality; intros y. rewrite (proj2 (H (PA u))). reflexivity.
  - rewrite (proj2 (H (PB u))). now destruct (off o (PB u)).
Qed.

Lemma mean_drawn_eq u l k : mean_drawn o d u l k = drawn_A o d u l k.
Proof. unfold mean_drawn, drawn_A, drawn. now destruct (additive_ o). Qed.
Lemma mean_drawn_b_eq b k : mean_drawn_b o d b k = drawn_Ab o d b k.
Proof. unfold mean_drawn_b, drawn_Ab. now destruct (additive_ o). Qed.
Lemma run_order : strictly o = false ->
  let p := par_of A S q in
  increasing nl (row_mean nk (dA p T12)) /\ increasing nk (col_mean nl (dA p T12)) /\
  exists s t, relabelling nl s /\ relabelling nk t /\
    (forall u l k, dA p u l k = mean_drawn o d u (s l) (t k)) /\
    (forall b k, dAb p b k = if off o (PB b) then 0 else mean_drawn_b o d b (t k)).
Proof.
  intros H p. destruct par_entries as (E1 & E2 & _). rewrite H in E1, E2. subst p.
  destruct (dsort_A argsort sort nl nk false (drawn_A o d) (drawn_Ab o d)) as [A0 Ab0] eqn:D.
  destruct (dsort_plain argsort sort argsort_ok _ _ _ _ _ _ D) as (H1 & H2 & s & t & R1 & R2 & H3 & H4).
  cbn [fst snd] in E1, E2. rewrite !E1. split; [exact H1|]. split; [exact H2|]. exists s, t.
  split; [exact R1|]. split; [exact R2|]. split.
  - intros u l k. rewrite E1, mean_drawn_eq. apply H3.
  - intros b k. rewrite E2, H4, mean_drawn_b_eq. reflexivity.
Qed.
Lemma run_monotone : strictly o = true ->
  let p := par_of A S q in
  increasing nl (row_mean nk (dA p T12)) /\ (forall u l, increasing nk (dA p u l)) /\
  (forall b k, dAb p b k = if off o (PB b) then 0 else mean_drawn_b o d b k) /\
  exists s, relabelling nl s /\
    forall u l, Permutation (map (dA p u l) (range nk)) (map (mean_drawn o d u (s l)) (range nk)).
Proof.
  intros H p. destruct par_entries as (E1 & E2 & _). rewrite H in E1, E2. subst p.
  destruct (dsort_A argsort sort nl nk true (drawn_A o d) (drawn_Ab o d)) as [A0 Ab0] eqn:D.
  destruct (dsort_strict argsort sort argsort_ok sort_ok _ _ _ _ _ _ D) as (H1 & H2 & -> & s & R1 & H3).
  cbn [fst snd] in E1, E2. rewrite !E1. split; [exact H1|]. split; [intros u l; rewrite E1; apply H2|].
  split; [intros b k; now rewrite E2, mean_drawn_b_eq|]. exists s. split; [exact R1|]. intros u l. rewrite E1.
  erewrite (map_ext (mean_drawn o d u (s l))); [apply H3|]. intros k. apply mean_drawn_eq.
Qed.
Lemma run_sds : let p := par_of A S q in
  (forall u l k, dS p u l k = pd_S d u l k) /\ (forall b k, dSb p b k = if off o (PB b) then 0 else pd_Sb d b k).
Proof.
  destruct par_entries as (_ & _ & E3 & E4). intros p. subst p. split; intros; [now rewrite E3|now rewrite E4].
Qed.
Lemma run_additive : additive_ o = true -> forall u, additive nl nk (dA (par_of A S q) u).
Proof.
  intros H u. destruct par_entries as (E1 & _). rewrite E1.
  apply dsort_additive; [exact argsort_ok|exact sort_ok|]. now apply drawn_additive.
Qed.
End Run.

(* ---- concrete runs ---- *)
Definition no_stat : stat := mkstat false false false.
Definition is_ok {X} (r : res X) : bool := match r with Ok _ => true | Err _ => false end.
Lemma is_ok_inv {X} (r : res X) : is_ok r = true -> exists x, r = Ok x.
Proof. destruct r as [x|]; [eauto|discriminate]. Qed.

Definition dframe : wdraws := mkwdraws sim_draws (fun _ => Q4 1 1 1 1) (fun _ => Q4 1 1 1 1)
  (fun _ b r => if b then 1%nat else 0%nat) (fun _ b r => if b then 1%nat else 0%nat) (fun _ _ _ => 2) (fun _ _ _ => 2).
Definition dopts (str add e s : bool) (st : stat) : opts := mkopts str add e s st.
Definition dpars : pdraws := mkpdraws (fun _ l => INR l) (fun _ k => INR k) (fun _ l k => INR (l + k)) (fun _ k => INR k)
  (fun _ _ _ => / 2) (fun _ _ => / 2).
Definition dcat (int : bool) (st : stat) : catspec := mkcat 2 int st (fun _ _ v => INR v) (fun _ _ _ => / 2).
Definition dcts (int : bool) (st : stat) : ctsspec := mkcts int st (fun _ _ => 1) (fun _ _ => / 3).
Definition dq : rhos := mkrhos (/ 2) (/ 2) (/ 2) (/ 2).
Definition dcase argsort sort o cats ctss :=
  dsim 3 2 (fun _ _ => 1%nat) (fun _ => 3%nat) dq dframe argsort sort o dpars cats ctss 3.

Lemma dcase_ok argsort sort str add e s i1 i2 :
  exists x, dcase argsort sort (dopts str add e s no_stat) [dcat i1 no_stat] [dcts i2 no_stat] = Ok x.
Proof. apply is_ok_inv. destruct str, add, e, s, i1, i2; lazy; reflexivity. Qed.
Lemma dcase_plain argsort sort str add e s : exists x, dcase argsort sort (dopts str add e s no_stat) [] [] = Ok x.
Proof. apply is_ok_inv. destruct str, add, e, s; lazy; reflexivity. Qed.
Lemma dcase_stat argsort sort e s sA sS : 
  exists x, dcase argsort sort (dopts false false e s no_stat) [dcat false (mkstat sA sS false)] [dcts false (mkstat sA sS true)] = Ok x.
Proof. apply is_ok_inv. destruct e, s, sA, sS; lazy; reflexivity. Qed.

Lemma frame_case : exists jd sd,
  SimModel.simulate 2 (fun _ _ => 1%nat) (fun _ => 3%nat) no_wage no_wage no_wage no_wage sim_draws 3 = Ok (jd, sd) /\
  draws_ok 3 2 (fun _ _ => 1%nat) (fun _ => 3%nat) (employs sd) sim_draws.
Proof.
  eexists. eexists. split; [cbv -[INR Rplus Rmult IZR]; reflexivity|].
  set (sd := _ :: _). constructor.
  - intros [|[|k1]] [|[|k2]] H1 H2; try lia; split; auto; repeat constructor.
  - intros [|[|k]] H; try lia; split; auto; repeat constructor.
  - intros [|[|k]] H; try lia; reflexivity.
  - intros [|[|k]] H; try lia; (split; [reflexivity|]); repeat constructor; apply employs_b; reflexivity.
  - intros [|t] [|[|k]] H; try lia; (split; [reflexivity|]); repeat constructor; apply employs_b; reflexivity.
Qed.
Lemma dcase_draws argsort sort o cats ctss jd sd P : dcase argsort sort o cats ctss = Ok (jd, sd, P) ->
  draws_ok 3 2 (fun _ _ => 1%nat) (fun _ => 3%nat) (demploys sd) sim_draws.
Proof.
  destruct P as [[[A S] cc] ct]. intros E. unfold dcase in E.
  destruct (run_rows _ _ _ _ _ _ _ _ _ _ _ _ _ _ _ _ _ _ _ E) as (jd0 & sd0 & E0 & _ & Fs).
  pose proof (run_employs 2 _ _ dframe 3 sd _ _ E0 Fs) as I.
  destruct frame_case as (jd1 & sd1 & E1 & ok). cbn [frame dframe] in E0. rewrite E0 in E1. injection E1 as <- <-.
  apply (draws_ok_iff 3 2 _ _ (demploys sd) (employs sd0)); [|exact ok]. intros k j. symmetry. apply I.
Qed.

(* One worker type; the firm types are in the other order in every period but the
   first. *)
Definition down_draws : draws :=
  mkdraws (fun k1 k2 => [0%nat]) (fun _ _ _ => 0%R) (fun _ _ _ => 0%R)
          (fun k => [0; 0; 0]%nat) (fun _ _ => 0%R) (fun _ _ => 0%R)
          (fun k => [5; k; 5]%nat)
          (fun k => if (k =? 0)%nat then [0; 0]%nat else [2; 3]%nat)
          (fun t k => if (k =? 0)%nat then (if (t =? 0)%nat then [0; 1]%nat else [1; 0]%nat)
                    else (if (t =? 0)%nat then [2; 2]%nat else [3; 3]%nat)).
Definition down_pars : pdraws := mkpdraws (fun _ _ => 0) (fun _ _ => 0)
  (fun u => match u with T12 => fun _ k => if (k =? 0)%nat then 0 else 1 | _ => fun _ k => if (k =? 0)%nat then 1 else 0 end)
  (fun _ k => if (k =? 0)%nat then 1 else 0) (fun _ _ _ => / 2) (fun _ _ => / 2).
Definition down_frame : wdraws := mkwdraws down_draws (fun _ => Q4 1 1 1 1) (fun _ => Q4 1 1 1 1)
  (fun _ b r => 0%nat) (fun _ b r => 0%nat) (fun _ _ _ => 2) (fun _ _ _ => 2).
Lemma down_ok argsort sort str : exists jd sd A S cc ct,
  dsim 1 2 (fun _ _ => 1%nat) (fun _ => 3%nat) dq down_frame argsort sort (dopts str false true true no_stat) down_pars [] [] 3
  = Ok (jd, sd, (A, S, cc, ct)).
Proof.
  assert (H : exists x, dsim 1 2 (fun _ _ => 1%nat) (fun _ => 3%nat) dq down_frame argsort sort (dopts str false true true no_stat)
    down_pars [] [] 3 = Ok x) by (apply is_ok_inv; destruct str; lazy; reflexivity).
  destruct H as ([[jd sd] [[[A S] cc] ct]] & H). exists jd, sd, A, S, cc, ct. exact H.
Qed.
Lemma down_other argsort sort : (forall l, is_argsort l (argsort l)) -> 
  exists g d jd sd A S cc ct,
  dsim 1 2 (fun _ _ => 1%nat) (fun _ => 3%nat) dq g argsort sort (dopts false false true true no_stat) d [] [] 3
  = Ok (jd, sd, (A, S, cc, ct)) /\
  ~ increasing 2 (col_mean 1 (dA (par_of A S dq) T43)).
Proof.
  intros Ha. exists down_frame, down_pars.
  destruct (down_ok argsort sort false) as (jd & sd & A & S & cc & ct & E). exists jd, sd, A, S, cc, ct. split; [exact E|].
  destruct (par_entries _ _ _ _ _ _ _ _ _ _ _ _ _ _ _ _ _ _ _ E eq_refl) as (E1 & _). rewrite E1.
  rewrite dsort_as. exact (A2_not_increasing argsort sort Ha).
Qed.
Lemma down_b argsort sort : (forall l, is_argsort l (argsort l)) -> sorts_ok sort ->
  exists g d jd sd A S cc ct,
  dsim 1 2 (fun _ _ => 1%nat) (fun _ => 3%nat) dq g argsort sort (dopts true false true true no_stat) d [] [] 3
  = Ok (jd, sd, (A, S, cc, ct)) /\
  forall b, ~ increasing 2 (dAb (par_of A S dq) b).
Proof.
  intros Ha Hs. exists down_frame, down_pars.
  destruct (down_ok argsort sort true) as (jd & sd & A & S & cc & ct & E). exists jd, sd, A, S, cc, ct. split; [exact E|].
  destruct (run_monotone _ _ _ _ _ _ _ _ Ha Hs _ _ _ _ _ _ _ _ _ _ _ E eq_refl eq_refl) as (_ & _ & H & _).
  intros b I. specialize (I 0%nat 1%nat ltac:(lia)). rewrite !H in I. destruct b; cbn in I; lra.
Qed.

(* ---- recorded control variables --------------------------------------------------- *)

Lemma jobs_records {A} (f : nat -> bool -> A) n :
  drecords n (fun c => f c false) (fun c => f c true) (map (fun c => in_jobs (f c)) (range n)).
Proof.
  split; [rewrite map_length; unfold range; now rewrite seq_length|].
  intros c Hc. rewrite nth_error_map. unfold range.
  rewrite (nth_error_nth' _ 0%nat) by (now rewrite seq_length). rewrite seq_nth by assumption. reflexivity.
Qed.

Lemma dsim_records nl nk cm cs q g argsort sort o d cats ctss fuel jd sd A S cc ct :
  dsim nl nk cm cs q g argsort sort o d cats ctss fuel = Ok (jd, sd, (A, S, cc, ct)) ->
  (forall r row, nth_error jd r = Some row ->
     drecords (length cats) (fun c => catm g c false r) (fun c => catm g c true r) (d_cat row) /\
     drecords (length ctss) (fun c => ctsm g c false r) (fun c => ctsm g c true r) (d_cts row)) /\
  (forall r row, nth_error sd r = Some row ->
     drecords (length cats) (fun c => cats_ g c false r) (fun c => cats_ g c true r) (d_cat row) /\
     drecords (length ctss) (fun c => ctss_ g c false r) (fun c => ctss_ g c true r) (d_cts row)).
Proof.
  unfold dsim. destruct (traverse _ cats) as [cc'|e] eqn:T1; [|discriminate]. cbn [bind].
  destruct (traverse _ ctss) as [ct'|e] eqn:T2; [|discriminate]. cbn [bind].
  destruct (gen_AS argsort sort nl nk o d) as [[A' S']|e]; [|discriminate]. cbn [bind]. unfold simulate_with.
  destruct (wages q periods_movers _ _ _ _ _ _ _ _ _) as [ym|e]; [|discriminate]. cbn [bind].
  destruct (wages q periods_stayers _ _ _ _ _ _ _ _ _) as [ys|e]; [|discriminate]. cbn [bind].
  destruct (SimModel.simulate _ _ _ _ _ _ _ _ _) as [[jd0 sd0]|e]; [|discriminate]. cbn [bind].
  intros E. injection E as <- <- _ _ _ _.
  apply UtilQuantLemmas.traverse_nth in T1. apply UtilQuantLemmas.traverse_nth in T2.
  destruct T1 as [L1 _], T2 as [L2 _]. rewrite <- L1, <- L2.
  split; intros r row Hr; destruct (out_row_inv _ _ _ _ _ _ _ _ _ eq_refl Hr) as (ob & s & _ & _ & _ & ->);
    cbn [SimDModel.out_row d_cat d_cts]; split.
  - apply (jobs_records (fun c b => catm g c b r)).
  - apply (jobs_records (fun c b => ctsm g c b r)).
  - apply (jobs_records (fun c b => cats_ g c b r)).
  - apply (jobs_records (fun c b => ctss_ g c b r)).
Qed.
