(* The lower bound on S, a solver meeting the contract, refutations and data for
   the examples. *)
From Verif Require Import Base BaseLemmas UtilModel UtilSpec UtilNumLemmas
  ConsModel ConsSpec ConsLemmas ConsBuild2Lemmas ConsQPLemmas
  BLMModel BLMEMModel BLMSpec BLMSortLemmas BLMLikLemmas BLMEMLemmas BLMStayLemmas BLMPropLemmas
  BLMRunModel BLMFitModel BLMFitSpec BLMAscentLemmas BLMFitLemmas BLMAscendLemmas.
From Coq Require Import Sorted.
Local Open Scope res_scope.
Local Open Scope R_scope.

(* ---- the bound on S over a run ---- *)
Section Bound.
Variable argsort : list R -> list nat.
Variable solver : list R -> list R -> problem -> qpres.
Variable pp : period.
Variables (nl nk : nat) (c : cfg settings) (data : list obs).
Hypothesis sorts : forall l, is_argsort l (argsort l).
Hypothesis exact : exact_qp solver.
Hypothesis cons_valid :
  forall o, In o (cons_on_A c ++ cons_s (other c) ++ cons_s_all (other c)) -> valid 2 nl nk o.
Notation lb := (s_lower_bound (other c)).

Definition S_ge (b : R) (p : par) : Prop :=
  forall l k, (l < nl)%nat -> (k < nk)%nat -> b <= S1 p l k /\ b <= S2 p l k.
Definition S_cons (qs : qp) : Prop := forall x, accepts qs x ->
  forall t l k, (t < 2)%nat -> (l < nl)%nat -> (k < nk)%nat -> lb <= eff nl nk x t l k.

Lemma m_step_S b cons qi p p' :
  b <= sqrt lb -> S_cons (snd cons) -> S_ge b p ->
  m_step solver nl nk c cons data qi p = Ok p' -> S_ge b p'.
Proof.
  intros Hb Hq Hp. unfold m_step. destruct (do_a c || do_s c)%bool.
  2:{ intros E. injection E as <-. exact Hp. }
  destruct (XwX nl nk p data qi) as [P|e]; [|discriminate]. cbn [bind].
  assert (HA : forall pA, update_A solver nl nk c (fst cons) data qi P p = Ok pA -> S_ge b pA).
  { intros pA. unfold update_A. destruct (do_a c); [|intros E; injection E as <-; exact Hp].
    destruct (XwY nl nk p data qi) as [q|e]; [|discriminate]. cbn [bind].
    destruct (solve_qp solver P (map Ropp q) (fst cons)); intros E; injection E as <-; exact Hp. }
  destruct (update_A solver nl nk c (fst cons) data qi P p) as [pA|e]; [|discriminate].
  cbn [bind]. specialize (HA pA eq_refl). unfold update_S. destruct (do_s c); [|discriminate].
  destruct (XwS nl nk p (A1 pA) (A2 pA) data qi) as [q|e]; [|discriminate]. cbn [bind].
  destruct (solve_qp solver P (map Ropp q) (snd cons)) as [x| |] eqn:Es; intros E; injection E as <-;
    try exact HA.
  destruct (solver_sound _ _ _ _ _ exact Es) as (_ & Ax & _).
  intros l k Hl Hk. cbn [S1 S2 set_S].
  destruct (halves_stacked nl nk x l k Hl Hk) as [E1 E2].
  assert (G1 : lb <= half1 nk x l k) by (rewrite <- E1; apply (Hq _ Ax); lia).
  assert (G2 : lb <= half2 nl nk x l k) by (rewrite <- E2; apply (Hq _ Ax); lia).
  apply sqrt_le_1_alt in G1, G2. lra.
Qed.

Lemma gen_S cons : gen_constraints nl nk c = Ok cons -> S_cons (snd cons).
Proof.
  intros E. destruct (gen_constraints_ok nl nk c cons_valid) as (qa & qs & E' & _ & Hs).
  rewrite E in E'. injection E' as ->. intros x Hx. cbn [snd] in Hx. now apply Hs in Hx as [Hx _].
Qed.

Lemma loop_S b n : b <= sqrt lb -> forall iter cons p prev min lik liks p' lik' liks',
  S_cons (snd cons) -> S_ge b p ->
  movers_loop argsort solver pp nl nk n c data iter cons p prev min lik liks = Ok (p', lik', liks') ->
  S_ge b p'.
Proof.
  intros Hb. induction n as [|n IH]; intros iter cons p prev min lik liks p' lik' liks' Hc Hp;
    cbn [movers_loop].
  - intros E. injection E as <- _ _. exact Hp.
  - destruct (lp_movers nl nk p data) as [lp|e]; [|discriminate]. cbn [bind].
    destruct (mean_lse lp) as [m|e]; [|discriminate]. cbn [bind].
    destruct (posteriors lp) as [qi|e]; [|discriminate]. cbn [bind].
    match goal with |- (if ?x then _ else _) = _ -> _ => destruct x end.
    { intros E. injection E as <- _ _. exact Hp. }
    unfold em_update.
    assert (HP : forall p1, (if do_pk1 c
        then pk <- update_pk1 nl nk (d_prior (other c)) data qi ;; Ok (set_pk1 pk p)
        else Ok p) = Ok p1 -> S_ge b p1).
    { destruct (do_pk1 c); [|intros p1 E; injection E as <-; exact Hp].
      destruct (update_pk1 nl nk (d_prior (other c)) data qi); [|discriminate].
      cbn [bind]. intros p1 E. injection E as <-. exact Hp. }
    destruct (if do_pk1 c
        then pk <- update_pk1 nl nk (d_prior (other c)) data qi ;; Ok (set_pk1 pk p)
        else Ok p) as [p1|e]; [|discriminate]. specialize (HP p1 eq_refl). cbn [bind].
    assert (HC : forall cons', (if (do_a c && (0 <? iter)%nat)%bool then gen_constraints nl nk c else Ok cons)
        = Ok cons' -> S_cons (snd cons')).
    { destruct (do_a c && (0 <? iter)%nat)%bool; [apply gen_S|].
      intros cons' E. injection E as <-. exact Hc. }
    destruct (if (do_a c && (0 <? iter)%nat)%bool then gen_constraints nl nk c else Ok cons)
      as [cons'|e]; [|discriminate]. specialize (HC cons' eq_refl). cbn [bind].
    destruct (m_step solver nl nk c cons' data qi p1) as [p2|e] eqn:E2; [|discriminate]. cbn [bind].
    intros E. eapply IH; [exact HC| |exact E]. eapply m_step_S; eassumption.
Qed.

Lemma sort_S b p : S_ge b p -> S_ge b (sort_parameters argsort pp nl nk false false p).
Proof.
  intros Hp. destruct (sort_spec argsort sorts pp nl nk false false p) as (s & t & Rs & _ & Ht & Rl & _).
  specialize (Ht eq_refl). intros l k Hl Hk. destruct (r_S _ _ _ _ _ _ Rl l k Hl Hk) as [-> ->].
  rewrite Ht. apply Hp; [now apply (relabelling_lt nl)|exact Hk].
Qed.

Lemma fit_S b cnn min p p' lik liks :
  b <= sqrt lb -> S_ge b p ->
  fit_movers_ argsort solver pp nl nk c cnn min data p = Ok (p', lik, liks) -> S_ge b p'.
Proof.
  intros Hb Hp. unfold fit_movers_.
  destruct (gen_constraints nl nk c) as [cons|e] eqn:Eg; [|discriminate]. cbn [bind].
  match goal with |- context [movers_loop ?a ?b ?cc ?d ?e ?f ?g ?h ?i ?j ?k ?l ?m ?n ?o] =>
    destruct (movers_loop a b cc d e f g h i j k l m n o) as [[[q lik1] liks1]|e'] eqn:El end;
    [|discriminate].
  cbn [bind]. intros E. injection E as <- _ _.
  apply (loop_S b _ Hb) in El; [|now apply gen_S|now apply sort_S].
  apply sort_S in El. destruct cnn; exact El.
Qed.

(* s_lower_bound at most 1 bounds the standard deviations. *)
Lemma S_bound cnn min p p' lik liks :
  0 < lb <= 1 ->
  (forall l k, (l < nl)%nat -> (k < nk)%nat -> lb <= S1 p l k /\ lb <= S2 p l k) ->
  fit_movers_ argsort solver pp nl nk c cnn min data p = Ok (p', lik, liks) ->
  forall l k, (l < nl)%nat -> (k < nk)%nat -> lb <= S1 p' l k /\ lb <= S2 p' l k.
Proof.
  intros [H0 H1] Hp E. refine (fit_S lb cnn min p p' lik liks _ Hp E).
  rewrite <- (sqrt_square lb) at 1 by lra. apply sqrt_le_1_alt. nra.
Qed.
(* Any s_lower_bound bounds the variances. *)
Lemma S2_bound cnn min p p' lik liks :
  0 <= lb ->
  (forall l k, (l < nl)%nat -> (k < nk)%nat ->
     0 <= S1 p l k /\ 0 <= S2 p l k /\ lb <= S1 p l k ^ 2 /\ lb <= S2 p l k ^ 2) ->
  fit_movers_ argsort solver pp nl nk c cnn min data p = Ok (p', lik, liks) ->
  forall l k, (l < nl)%nat -> (k < nk)%nat -> lb <= S1 p' l k ^ 2 /\ lb <= S2 p' l k ^ 2.
Proof.
  intros H0 Hp E l k Hl Hk.
  assert (G : forall s, 0 <= s -> lb <= s ^ 2 -> sqrt lb <= s).
  { intros s Hs Hl2. rewrite <- (sqrt_square s) by exact Hs. apply sqrt_le_1_alt. simpl in Hl2. lra. }
  assert (Hp' : S_ge (sqrt lb) p).
  { intros l' k' Hl' Hk'. destruct (Hp l' k' Hl' Hk') as (a & b & e & f). split; now apply G. }
  destruct (fit_S (sqrt lb) cnn min p p' lik liks (Rle_refl _) Hp' E l k Hl Hk) as [G1 G2].
  pose proof (sqrt_pos lb). pose proof (sqrt_sqrt lb H0). split; simpl; nra.
Qed.
End Bound.

(* ---- a solver ---- *)
Definition positive (P : list R) : bool :=
  forallb (fun a => if Rlt_dec 0 a then true else false) P.
Definition minus_identity (n : nat) (m : dmat) : bool :=
  ((nr m =? n) && (nc m =? n))%nat &&
  forallb (fun i => forallb (fun j =>
    if Req_EM_T (ent m i j) (if (i =? j)%nat then -1 else 0) then true else false) (range n)) (range n).
(* No constraints, or lower bounds for all unknowns. *)
Definition box_solver (P q : list R) (pb : problem) : qpres :=
  if positive P then
    match p_G pb, p_A pb with
    | None, None => QSol (map (fun i => - nth i q 0 / nth i P 0) (range (length P)))
    | Some (Arr2 m, h), None =>
        if minus_identity (length P) m
        then QSol (map (fun i => Rmax (- nth i h 0) (- nth i q 0 / nth i P 0)) (range (length P)))
        else QNone
    | _, _ => QNone
    end
  else QNone.

Lemma positive_nth P i : positive P = true -> (i < length P)%nat -> 0 < nth i P 0.
Proof.
  intros H Hi. unfold positive in H. rewrite forallb_forall in H.
  specialize (H (nth i P 0) (nth_In P 0 Hi)). destruct (Rlt_dec 0 (nth i P 0)); [auto|discriminate].
Qed.
Lemma minus_identity_row n m r x : minus_identity n m = true -> (r < n)%nat ->
  nr m = n /\ nc m = n /\ rowdot m r x = - x r.
Proof.
  intros H Hr. unfold minus_identity in H. apply andb_prop in H as [H1 H2].
  apply andb_prop in H1 as [E1 E2]. apply Nat.eqb_eq in E1, E2. split; [exact E1|]. split; [exact E2|].
  rewrite forallb_forall in H2. unfold rowdot. rewrite E2.
  assert (Hin : In r (range n)) by (apply in_seq; lia). specialize (H2 r Hin).
  rewrite forallb_forall in H2.
  rewrite (sumn_ext _ _ (fun j => if (j =? r)%nat then - x r else 0)).
  - rewrite (sumn_single n r) by (auto; intros i _ Hi; now apply Nat.eqb_neq in Hi as ->).
    now rewrite Nat.eqb_refl.
  - intros j Hj. assert (Hjn : In j (range n)) by (apply in_seq; lia). specialize (H2 j Hjn).
    destruct (Req_EM_T (ent m r j) (if (r =? j)%nat then -1 else 0)) as [E|]; [|discriminate].
    rewrite E. rewrite (Nat.eqb_sym j r). destruct (Nat.eqb_spec r j) as [->|]; ring.
Qed.
Lemma scalar_min a b lo u v :
  0 < a -> lo <= v -> u = Rmax lo (- b / a) -> a * u ^ 2 / 2 + b * u <= a * v ^ 2 / 2 + b * v.
Proof.
  intros Ha Hv ->.
  assert (E : forall z, a * z ^ 2 / 2 + b * z = a / 2 * (z - - b / a) ^ 2 - b ^ 2 / (2 * a)).
  { intros z. field. lra. }
  rewrite !E. apply Rplus_le_compat_r. apply Rmult_le_compat_l; [lra|].
  unfold Rmax. set (m := - b / a). destruct (Rle_dec lo m) as [H|H]; simpl.
  - pose proof (Rle_0_sqr (v - m)). unfold Rsqr in *. nra.
  - pose proof (Rmult_le_pos (v - lo) (v + lo - 2 * m)). nra.
Qed.
Lemma scalar_min_free a b v :
  0 < a -> a * (- b / a) ^ 2 / 2 + b * (- b / a) <= a * v ^ 2 / 2 + b * v.
Proof.
  intros Ha.
  assert (E : forall z, a * z ^ 2 / 2 + b * z = a / 2 * (z - - b / a) ^ 2 - b ^ 2 / (2 * a)).
  { intros z. field. lra. }
  rewrite !E. apply Rplus_le_compat_r. apply Rmult_le_compat_l; [lra|].
  pose proof (Rle_0_sqr (v - - b / a)). unfold Rsqr in *. simpl. nra.
Qed.
Lemma nth_map_range' (f : nat -> R) n i : (i < n)%nat -> nth i (map f (range n)) 0 = f i.
Proof.
  intros Hi. rewrite (nth_map_in _ _ _ 0%nat) by (now rewrite length_range). now rewrite nth_range.
Qed.

Lemma box_solver_exact : exact_qp box_solver.
Proof.
  intros P q [n G A] x. unfold box_solver. cbn [p_G p_A].
  destruct (positive P) eqn:Ep; [|discriminate].
  destruct G as [[[m|m|m] h]|]; destruct A as [ab|]; try discriminate.
  - destruct (minus_identity (length P) m) eqn:Em; [|discriminate].
    intros E. injection E as <-. split; [now rewrite map_length, length_range|]. split.
    + split; [|exact I]. intros r Hr.
      assert (Hr' : (r < length P)%nat).
      { apply andb_prop in Em as [Em _]. apply andb_prop in Em as [Em _]. apply Nat.eqb_eq in Em. lia. }
      destruct (minus_identity_row _ _ r (fun i => nth i (map (fun i => Rmax (- nth i h 0)
         (- nth i q 0 / nth i P 0)) (range (length P))) 0) Em Hr') as (_ & _ & ->).
      rewrite nth_map_range' by exact Hr'. pose proof (Rmax_l (- nth r h 0) (- nth r q 0 / nth r P 0)). lra.
    + intros z [Hz _]. unfold qobj. apply sumn_le. intros i Hi. rewrite nth_map_range' by exact Hi.
      destruct (minus_identity_row _ _ i z Em Hi) as (E1 & _ & E2).
      assert (Hi' : (i < nr m)%nat) by (rewrite E1; exact Hi).
      specialize (Hz i Hi'). rewrite E2 in Hz.
      apply (scalar_min _ _ (- nth i h 0)); [now apply positive_nth|lra|reflexivity].
  - intros E. injection E as <-. split; [now rewrite map_length, length_range|]. split; [split; exact I|].
    intros z _. unfold qobj. apply sumn_le. intros i Hi. rewrite nth_map_range' by exact Hi.
    apply scalar_min_free. now apply positive_nth.
Qed.

Lemma minus_identity_ok n : minus_identity n (scal_mat (-1) (eye n)) = true.
Proof.
  unfold minus_identity. cbn [nr nc scal_mat eye]. rewrite Nat.eqb_refl. cbn [andb].
  apply forallb_forall. intros i _. apply forallb_forall. intros j _. cbn [ent].
  destruct (Req_EM_T _ _) as [|N]; [reflexivity|]. exfalso. apply N. unfold scal_mat, eye. cbn [ent].
  destruct (i =? j)%nat; lra.
Qed.

(* ---- s_lower_bound above 1 does not bound the standard deviations ---- *)
Definition lb_cfg : cfg settings := mkcfg false true false None (mkset 1 0 1 4 false [] [] []).
Definition lb_par : par :=
  mkpar (fun _ _ => 0) (fun _ _ => 0) (fun _ _ => 5) (fun _ _ => 5) [] [] [] [] [] [] [] []
    (fun _ _ => 1) (fun _ _ => 1) (fun _ _ => 1) (fun _ => 1).
Definition lb_row : obs := mkobs 0 0 0 0 1 1 [] [] [] [].

Lemma lb_movers : Forall (mover_ok 1 1 lb_par) [lb_row].
Proof. constructor; [|constructor]. split; [split; simpl; lia|]. intros l _. simpl. lra. Qed.

Lemma lb_fit :
  exists p' lik liks,
    fit_movers_ isort box_solver PFirst 1 1 lb_cfg false 0 [lb_row] lb_par = Ok (p', lik, liks) /\
    S1 p' 0%nat 0%nat = 2 /\ S2 p' 0%nat 0%nat = 2.
Proof.
  unfold fit_movers_.
  change (sort_parameters isort PFirst 1 1 false false lb_par) with lb_par.
  change (gen_constraints 1 1 lb_cfg) with
    (Ok (qp_init 1 1, mkqp 1 1 (Arr2 (scal_mat (-1) (eye 2))) (full 2 (- 4)) (Arr1 []) []) : res (qp * qp)).
  cbn [bind n_iters other lb_cfg movers_loop].
  assert (Hsh : shapes_ok lb_par) by repeat split.
  pose proof (movers_likelihood 1 1 lb_par [lb_row] (le_n 1) Hsh lb_movers) as EL.
  pose proof (movers_posteriors 1 1 lb_par [lb_row] (le_n 1) Hsh lb_movers) as EQ.
  destruct (lp_movers 1 1 lb_par [lb_row]) as [lp|e]; [|discriminate]. cbn [bind] in EL, EQ |- *.
  rewrite EL, EQ. cbn [bind converged andb].
  set (q := pk1 lb_par 0%nat 0%nat * mover_density lb_par lb_row 0%nat
            / mixture 1 (pk1 lb_par 0%nat) (mover_density lb_par lb_row)).
  change (map _ [lb_row]) with [[q]].
  assert (Hq : q = 1).
  { unfold q, mixture, sumn. cbn [map rsum range pk1 lb_par seq].
    pose proof (density_pos lb_par lb_row 0). field. change (mkpar _ _ _ _ _ _ _ _ _ _ _ _ _ _ _ _) with lb_par. lra. }
  rewrite Hq. clear EL EQ q Hq.
  set (a := w1 lb_row * 1 / 5 ^ 2 + 0).
  assert (EX : XwX 1 1 lb_par [lb_row] [[1]] = Ok [a; a]) by reflexivity.
  set (b := w1 lb_row * 1 / 5 ^ 2 * (0 - 0) ^ 2 + 0).
  assert (ES : XwS 1 1 lb_par (A1 lb_par) (A2 lb_par) [lb_row] [[1]] = Ok [b; b]) by reflexivity.
  unfold em_update. cbn [do_pk1 do_a lb_cfg andb bind]. unfold m_step. cbn [do_a do_s lb_cfg orb].
  rewrite EX. cbn [bind]. unfold update_A. cbn [do_a lb_cfg bind]. unfold update_S.
  cbn [do_s lb_cfg]. rewrite ES. cbn [bind map].
  assert (Ha : 0 < a) by (unfold a; cbn; lra).
  assert (EQP : solve_qp box_solver [a; a] [- b; - b]
     (mkqp 1 1 (Arr2 (scal_mat (-1) (eye 2))) (full 2 (- 4)) (Arr1 []) [])
     = QSol [Rmax (- - 4) (- - b / a); Rmax (- - 4) (- - b / a)]).
  { unfold solve_qp, box_solver. cbn [solve snd p_G p_A q_G q_A q_h q_b arr_rows nr scal_mat eye Nat.ltb Nat.leb].
    replace (positive [a; a]) with true.
    2:{ unfold positive. cbn. destruct (Rlt_dec 0 a); [reflexivity|lra]. }
    change (length [a; a]) with 2%nat. now rewrite minus_identity_ok. }
  cbn [snd]. rewrite EQP. cbn [bind].
  assert (V : sqrt (Rmax (- - 4) (- - b / a)) = 2).
  { replace (Rmax (- - 4) (- - b / a)) with (2 * 2); [apply sqrt_square; lra|].
    assert (Hb : b = 0) by (unfold b; cbn; lra). rewrite Hb. rewrite Rmax_left; [lra|].
    replace (- - 0 / a) with 0; [lra|]. field. lra. }
  eexists _, _, _. split; [reflexivity|]. split; exact V.
Qed.

(* ---- runs of two iterations that only update pk1, one firm type ---- *)
Definition pk_cfg (d : R) : cfg settings := mkcfg false false true None (mkset 2 0 d 1 false [] [] []).

Lemma pk_update d iter cons data qi p pk :
  update_pk1 2 1 d data qi = Ok pk ->
  em_update box_solver 2 1 (pk_cfg d) iter cons data qi p = Ok (set_pk1 pk p, cons).
Proof.
  intros E. unfold em_update. cbn [do_pk1 do_a pk_cfg d_prior other andb].
  rewrite E. reflexivity.
Qed.

Lemma pk_run d data p pk :
  1 <= d -> movers_data 1 data -> values_ok 2 1 1 p ->
  sort_parameters isort PFirst 2 1 false false p = p ->
  update_pk1 2 1 d data (qi_of 2 1 data p) = Ok pk -> values_ok 2 1 1 (set_pk1 pk p) ->
  exists p' lik,
    fit_movers_ isort box_solver PFirst 2 1 (pk_cfg d) false 0 data p
    = Ok (p', lik, [movers_loglik 2 1 p data;
                    movers_loglik 2 1 (set_pk1 pk p) data + lik_prior d 1 2 pk]).
Proof.
  intros Hd D V Hs E V'. unfold fit_movers_. rewrite Hs.
  destruct (gen_constraints_ok 2 1 (pk_cfg d)) as (qa & qs & -> & _); [intros o []|].
  cbn [bind n_iters other pk_cfg]. cbn [movers_loop].
  assert (G : good 2 1 (pk_cfg d) p) by (split; [exact V|discriminate]).
  assert (G' : good 2 1 (pk_cfg d) (set_pk1 pk p)) by (split; [exact V'|discriminate]).
  assert (l2 : (0 < 2)%nat) by lia. assert (l1 : (0 < 1)%nat) by lia.
  pose proof (movers_likelihood 2 1 p data l2 (good_shapes _ _ _ p G) (good_mover _ _ _ _ D p G)) as EL.
  pose proof (movers_posteriors 2 1 p data l2 (good_shapes _ _ _ p G) (good_mover _ _ _ _ D p G)) as EQ.
  destruct (lp_movers 2 1 p data) as [lp|e]; [|discriminate]. cbn [bind] in EL, EQ |- *.
  rewrite EL, EQ. cbn [bind converged andb].
  change (map (fun o => map (fun l => pk1 p (g1 o + 1 * g2 o)%nat l * mover_density p o l
          / mixture 2 (pk1 p (g1 o + 1 * g2 o)%nat) (mover_density p o)) (range 2)) data)
        with (qi_of 2 1 data p).
  rewrite (pk_update d _ _ _ _ _ pk E). cbn [bind].
  pose proof (movers_likelihood 2 1 _ data l2 (good_shapes _ _ _ _ G') (good_mover _ _ _ _ D _ G')) as EL'.
  pose proof (movers_posteriors 2 1 _ data l2 (good_shapes _ _ _ _ G') (good_mover _ _ _ _ D _ G')) as EQ'.
  destruct (lp_movers 2 1 (set_pk1 pk p) data) as [lp'|e]; [|discriminate]. cbn [bind] in EL', EQ' |- *.
  rewrite EL', EQ'. cbn [bind app].
  change (map (fun o => map (fun l => pk1 (set_pk1 pk p) (g1 o + 1 * g2 o)%nat l * mover_density (set_pk1 pk p) o l
          / mixture 2 (pk1 (set_pk1 pk p) (g1 o + 1 * g2 o)%nat) (mover_density (set_pk1 pk p) o)) (range 2)) data)
        with (qi_of 2 1 data (set_pk1 pk p)).
  match goal with |- context [if ?x then Ok (set_pk1 pk p, _, _) else _] => destruct x end.
  - cbn [bind]. eexists _, _. reflexivity.
  - destruct (update_pk1_ok 2 1 d data (qi_of 2 1 data (set_pk1 pk p)) l2 l1 Hd) as (pk2 & E2 & _).
    + apply Forall_forall. exact (in_range_data 1 data D).
    + intros o Ho. exact (ws_pos 1 data D o Ho).
    + exact (qi_ok 2 1 (pk_cfg d) data l2 l1 D _ G').
    + intros k1 k2 Hk1 Hk2. destruct D as [F H]. destruct (H 0%nat l1) as [(o & Ho & Eo) _].
      exists o. split; [exact Ho|]. rewrite Forall_forall in F. destruct (F o Ho) as [[a b] _]. lia.
    + rewrite (pk_update d _ _ _ _ _ pk2 E2). cbn [bind]. eexists _, _. reflexivity.
Qed.

Definition two_par (t : R) : par :=
  mkpar (fun l _ => if (l =? 0)%nat then 0 else t) (fun l _ => if (l =? 0)%nat then 0 else t)
    (fun _ _ => 1) (fun _ _ => 1) [] [] [] [] [] [] [] []
    (fun _ _ => 1 / 2) (fun _ _ => 1 / 2) (fun _ _ => 1) (fun _ => 1).

Lemma two_sorted t : 0 <= t -> sort_parameters isort PFirst 2 1 false false (two_par t) = two_par t.
Proof.
  intros Ht. unfold sort_parameters.
  assert (E : isort (row_means 2 1 (A_mean PFirst (A1 (two_par t)) (A2 (two_par t)))) = range 2).
  { unfold isort. cbn. destruct (Rle_dec _ _) as [|N]; [reflexivity|]. exfalso. apply N.
    unfold sumn. cbn. lra. }
  rewrite E. reflexivity.
Qed.
Lemma two_values t pk :
  0 < pk 0%nat 0%nat -> 0 < pk 0%nat 1%nat -> pk 0%nat 0%nat + pk 0%nat 1%nat = 1 ->
  values_ok 2 1 1 (set_pk1 pk (two_par t)).
Proof.
  intros H0 H1 Hs. split; [repeat split|]. split.
  - intros l k _ _. cbn. lra.
  - intros k1 k2 Hk1 Hk2. assert (k1 = 0%nat) by lia. assert (k2 = 0%nat) by lia. subst.
    cbn [pk1 set_pk1 Nat.add Nat.mul]. split.
    + intros l Hl. destruct l as [|[|l]]; [exact H0|exact H1|lia].
    + unfold sumn. cbn. lra.
Qed.

(* Identical worker types and d_prior = 2. *)
Lemma prior_falls :
  exists p' lik a b,
    fit_movers_ isort box_solver PFirst 2 1 (pk_cfg 2) false 0 [lb_row] (two_par 0)
    = Ok (p', lik, [a; b]) /\ b < a.
Proof.
  assert (D : movers_data 1 [lb_row]).
  { split; [constructor; [|constructor]; split; [split; simpl; lia|simpl; lra]|].
    intros k Hk. assert (k = 0%nat) by lia. subst. split; exists lb_row; (split; [now left|reflexivity]). }
  assert (V : values_ok 2 1 1 (two_par 0)).
  { change (two_par 0) with (set_pk1 (fun _ _ => 1 / 2) (two_par 0)). apply two_values; lra. }
  assert (l2 : (0 < 2)%nat) by lia. assert (l1 : (0 < 1)%nat) by lia.
  assert (G : good 2 1 (pk_cfg 2) (two_par 0)) by (split; [exact V|discriminate]).
  assert (Hd : 1 <= 2) by lra.
  destruct (update_pk1_ok 2 1 2 [lb_row] (qi_of 2 1 [lb_row] (two_par 0)) l2 l1 Hd) as (pk & E & H).
  - apply Forall_forall. exact (in_range_data 1 _ D).
  - intros o Ho. exact (ws_pos 1 _ D o Ho).
  - exact (qi_ok 2 1 (pk_cfg 2) _ l2 l1 D _ G).
  - intros k1 k2 Hk1 Hk2. exists lb_row. split; [now left|]. split; simpl; lia.
  - destruct (H 0%nat 0%nat l1 l1) as [_ Hv]. cbn [Nat.add Nat.mul] in Hv.
    set (q := post 2 1 (two_par 0) lb_row 0%nat).
    assert (Hq : 0 < q) by (apply (post_pos 2 1 (pk_cfg 2) [lb_row]); auto; now left).
    assert (Eq : qi_of 2 1 [lb_row] (two_par 0) = [[q; q]]) by reflexivity.
    assert (Sh : forall l, (l < 2)%nat ->
       share (moves 0 0) (fun o => sqrt (w1 o * w2 o)) 2 [lb_row] (qi_of 2 1 [lb_row] (two_par 0)) l
       = sqrt (1 * 1) * (q + 2 - 1) + 0).
    { intros l Hl. rewrite Eq. destruct l as [|[|l]]; [reflexivity|reflexivity|lia]. }
    assert (S0 : 0 < sqrt (1 * 1) * (q + 2 - 1) + 0).
    { rewrite Rmult_1_r, sqrt_1. lra. }
    assert (Hh : forall l, (l < 2)%nat -> pk 0%nat l = 1 / 2).
    { intros l Hl. rewrite (Hv l Hl). unfold sumn. cbn [map rsum range seq].
      rewrite !Sh by lia. field. lra. }
    assert (V' : values_ok 2 1 1 (set_pk1 pk (two_par 0))).
    { apply two_values; rewrite ?Hh by lia; lra. }
    destruct (pk_run 2 [lb_row] (two_par 0) pk Hd D V (two_sorted 0 (Rle_refl 0)) E V') as (p' & lik & R).
    eexists p', lik, _, _. split; [exact R|].
    assert (M : movers_loglik 2 1 (set_pk1 pk (two_par 0)) [lb_row] = movers_loglik 2 1 (two_par 0) [lb_row]).
    { unfold movers_loglik. cbn [map length]. f_equal. f_equal. f_equal. unfold mixture.
      f_equal. apply sumn_ext. intros l Hl. cbn [pk1 set_pk1 g1 g2 lb_row Nat.add Nat.mul two_par].
      rewrite (Hh l Hl). reflexivity. }
    rewrite M. unfold lik_prior, sumn. cbn [map rsum range seq]. rewrite !Hh by lia.
    assert (L : ln (1 / 2) < 0). { rewrite <- ln_1. apply ln_increasing; lra. }
    lra.
Qed.

(* Weights 1 and 4, d_prior = 1. *)
Definition tt : R := sqrt (ln 10).
Definition wt_rows : list obs :=
  [mkobs 0 0 0 0 1 1 [] [] [] []; mkobs tt tt 0 0 4 4 [] [] [] []].
Lemma tt_sq : tt * tt = ln 10.
Proof. apply sqrt_sqrt. rewrite <- ln_1. left. apply ln_increasing; lra. Qed.
Lemma tt_nonneg : 0 <= tt.
Proof. apply sqrt_pos. Qed.

Lemma weights_fall :
  exists p' lik a b,
    fit_movers_ isort box_solver PFirst 2 1 (pk_cfg 1) false 0 wt_rows (two_par tt)
    = Ok (p', lik, [a; b]) /\ b < a.
Proof.
  set (o1 := mkobs 0 0 0 0 1 1 [] [] [] []). set (o2 := mkobs tt tt 0 0 4 4 [] [] [] []).
  set (p := two_par tt).
  assert (D : movers_data 1 wt_rows).
  { split.
    - repeat (constructor; [split; [split; simpl; lia|simpl; lra]|]). constructor.
    - intros k Hk. assert (k = 0%nat) by lia. subst. split; exists o1; (split; [now left|reflexivity]). }
  assert (V : values_ok 2 1 1 p).
  { change p with (set_pk1 (fun _ _ => 1 / 2) (two_par tt)). apply two_values; lra. }
  assert (l2 : (0 < 2)%nat) by lia. assert (l1 : (0 < 1)%nat) by lia.
  assert (G : good 2 1 (pk_cfg 1) p) by (split; [exact V|discriminate]).
  assert (Hd : 1 <= 1) by lra.
  (* densities *)
  set (K := ln (sqrt (2 * PI))).
  assert (Den : forall o l, mover_density p o l
     = exp (w1 o * (- ln 1 - (y1 o - A1 p l (g1 o)) ^ 2 / (2 * 1 ^ 2) - K)
            + w2 o * (- ln 1 - (y2 o - A2 p l (g2 o)) ^ 2 / (2 * 1 ^ 2) - K))).
  { intros o l. rewrite <- (exp_ln (mover_density p o l)) by apply density_pos. f_equal.
    rewrite ln_density; [reflexivity|apply V|cbn; lra|cbn; lra]. }
  assert (E10 : exp (- ln 10) = / 10) by (rewrite exp_Ropp, exp_ln by lra; reflexivity).
  set (C := exp (- 2 * K)). set (C4 := exp (- 8 * K)).
  assert (HC : 0 < C) by apply exp_pos. assert (HC4 : 0 < C4) by apply exp_pos.
  assert (D10 : mover_density p o1 0 = C).
  { rewrite Den. unfold C. f_equal. cbn. rewrite ln_1. field. }
  assert (D11 : mover_density p o1 1 = C / 10).
  { rewrite Den. unfold C, Rdiv. rewrite <- E10, <- exp_plus. f_equal. cbn. rewrite ln_1, <- tt_sq. field. }
  assert (D21 : mover_density p o2 1 = C4).
  { rewrite Den. unfold C4. f_equal. cbn. rewrite ln_1. field. }
  assert (D20 : mover_density p o2 0 = C4 / 10000).
  { rewrite Den. unfold C4, Rdiv. replace (/ 10000) with (/ 10 * / 10 * / 10 * / 10) by field.
    rewrite <- E10, <- !exp_plus. f_equal. cbn. rewrite ln_1, <- tt_sq. field. }
  (* posteriors *)
  assert (P10 : post 2 1 p o1 0 = 10 / 11).
  { unfold post, mixture, sumn. cbn [map rsum range seq]. rewrite D10, D11. cbn. field. lra. }
  assert (P11 : post 2 1 p o1 1 = 1 / 11).
  { unfold post, mixture, sumn. cbn [map rsum range seq]. rewrite D10, D11. cbn. field. lra. }
  assert (P20 : post 2 1 p o2 0 = 1 / 10001).
  { unfold post, mixture, sumn. cbn [map rsum range seq]. rewrite D20, D21. cbn. field. lra. }
  assert (P21 : post 2 1 p o2 1 = 10000 / 10001).
  { unfold post, mixture, sumn. cbn [map rsum range seq]. rewrite D20, D21. cbn. field. lra. }
  assert (Eq : qi_of 2 1 wt_rows p = [[10 / 11; 1 / 11]; [1 / 10001; 10000 / 10001]]).
  { change (qi_of 2 1 wt_rows p) with
      [[post 2 1 p o1 0; post 2 1 p o1 1]; [post 2 1 p o2 0; post 2 1 p o2 1]].
    now rewrite P10, P11, P20, P21. }
  destruct (update_pk1_ok 2 1 1 wt_rows (qi_of 2 1 wt_rows p) l2 l1 Hd) as (pk & E & H).
  - apply Forall_forall. exact (in_range_data 1 _ D).
  - intros o Ho. exact (ws_pos 1 _ D o Ho).
  - exact (qi_ok 2 1 (pk_cfg 1) _ l2 l1 D _ G).
  - intros k1 k2 Hk1 Hk2. exists o1. split; [now left|]. split; simpl; lia.
  - destruct (H 0%nat 0%nat l1 l1) as [_ Hv]. cbn [Nat.add Nat.mul] in Hv.
    set (sh := share (moves 0 0) (fun o => sqrt (w1 o * w2 o)) 1 wt_rows (qi_of 2 1 wt_rows p)) in *.
    assert (Sq4 : sqrt (4 * 4) = 4) by (apply sqrt_square; lra).
    assert (Sq1 : sqrt (1 * 1) = 1) by (apply sqrt_square; lra).
    assert (Sh0 : sh 0%nat = 10 / 11 + 4 / 10001).
    { unfold sh. rewrite Eq.
      change (sqrt (1 * 1) * (10 / 11 + 1 - 1) + (sqrt (4 * 4) * (1 / 10001 + 1 - 1) + 0)
              = 10 / 11 + 4 / 10001). rewrite Sq4, Sq1. lra. }
    assert (Sh1 : sh 1%nat = 1 / 11 + 40000 / 10001).
    { unfold sh. rewrite Eq.
      change (sqrt (1 * 1) * (1 / 11 + 1 - 1) + (sqrt (4 * 4) * (10000 / 10001 + 1 - 1) + 0)
              = 1 / 11 + 40000 / 10001). rewrite Sq4, Sq1. lra. }
    assert (S2s : sumn 2 sh = 5).
    { unfold sumn. cbn [map rsum range seq]. rewrite Sh0, Sh1. lra. }
    rewrite S2s in Hv.
    assert (K0 : pk 0%nat 0%nat = 100054 / 550055) by (rewrite (Hv 0%nat l2), Sh0; lra).
    assert (K1 : pk 0%nat 1%nat = 450001 / 550055) by (rewrite (Hv 1%nat), Sh1 by lia; lra).
    assert (V' : values_ok 2 1 1 (set_pk1 pk p)).
    { apply two_values; rewrite ?K0, ?K1; lra. }
    destruct (pk_run 1 wt_rows p pk Hd D V (two_sorted tt tt_nonneg) E V') as (p' & lik & R).
    eexists p', lik, _, _. split; [exact R|].
    assert (LP : lik_prior 1 1 2 pk = 0) by (unfold lik_prior; ring). rewrite LP.
    unfold movers_loglik. change (INR (length wt_rows)) with (INR 2).
    change (rsum (map (fun o => ln (mixture 2 (pk1 p (g1 o + 1 * g2 o)%nat) (mover_density p o))) wt_rows))
      with (ln (mixture 2 (pk1 p 0%nat) (mover_density p o1))
            + (ln (mixture 2 (pk1 p 0%nat) (mover_density p o2)) + 0)).
    change (rsum (map (fun o => ln (mixture 2 (pk1 (set_pk1 pk p) (g1 o + 1 * g2 o)%nat)
               (mover_density (set_pk1 pk p) o))) wt_rows))
      with (ln (mixture 2 (pk 0%nat) (mover_density p o1))
            + (ln (mixture 2 (pk 0%nat) (mover_density p o2)) + 0)).
    unfold mixture, sumn. cbn [map rsum range seq]. rewrite K0, K1, D10, D11, D20, D21.
    cbn [pk1 p two_par]. rewrite !Rplus_0_r.
    rewrite <- !ln_mult by nra.
    unfold Rdiv at 1. apply Rmult_lt_compat_r; [apply Rinv_0_lt_compat, lt_0_INR; lia|].
    pose proof (Rmult_lt_0_compat C C4 HC HC4) as CC.
    apply ln_increasing.
    + apply Rmult_lt_0_compat; nra.
    + nra.
Qed.

(* ---- the example: four rows, all updates, effects bounded below by 0 ---- *)
Definition fit_cfg (d : R) : cfg settings :=
  mkcfg true true true (Some [CBoundedBelow 0 2]) (mkset 3 0 d (1 / 2) false [] [] []).
Lemma ex_movers_data : movers_data 2 ex_data.
Proof.
  split.
  - unfold ex_data, ex_row. repeat (apply Forall_cons || apply Forall_nil);
      (split; [split; simpl; lia|simpl; lra]).
  - intros k Hk. split.
    + destruct (ex_pairs k 0 Hk) as (o & Ho & E & _); [lia|eauto].
    + destruct (ex_pairs 0 k) as (o & Ho & _ & E); [lia|exact Hk|eauto].
Qed.
Lemma ex_equal : equal_weights ex_data.
Proof. exists 1. intros o Ho. rewrite (ex_weights o Ho), (ex_weights2 o Ho). ring. Qed.
Lemma ex_cons_valid d o : In o (cons_on_A (fit_cfg d)) -> valid 2 2 2 o.
Proof. intros [<-|[]]. reflexivity. Qed.
Lemma gap_values : values_ok 2 2 (1 / 2) gap_par.
Proof.
  split; [repeat split|]. split.
  - intros l k _ _. cbn. lra.
  - intros k1 k2 _ _. split; [intros l _; cbn; lra|]. unfold sumn. cbn. lra.
Qed.
Lemma gap_allowed d :
  A_allowed 2 2 (fit_cfg d) (sort_parameters isort PFirst 2 2 false false gap_par).
Proof.
  destruct (sort_spec isort isort_ok PFirst 2 2 false false gap_par) as (s & t & Rs & Rt & _ & Rl & _).
  set (p := sort_parameters isort PFirst 2 2 false false gap_par) in *.
  set (x := fun i => if (i <? 4)%nat then A1 p (i / 2)%nat (i mod 2)%nat else A2 p ((i - 4) / 2)%nat ((i - 4) mod 2)%nat).
  assert (St : stacked 2 2 (A1 p) (A2 p) x).
  { intros l k Hl Hk. destruct l as [|[|l]], k as [|[|k]]; try lia; split; reflexivity. }
  exists x. split; [exact St|]. intros o d' [<-|[]] E. cbn [get_constraints] in E.
  destruct (BoundedBelow_spec 0 2 2 2) as (c & E' & _ & H). rewrite E in E'. injection E' as <-.
  apply H. intros tt' l k Ht Hl Hk. destruct (St l k Hl Hk) as [E0 E1].
  destruct (r_A _ _ _ _ _ _ Rl l k Hl Hk) as [R1 R2].
  assert (Pos : forall a b, 0 <= ex_A a b) by (intros [|a] [|b]; cbn; lra).
  destruct tt' as [|[|tt']]; [rewrite E0, R1|rewrite E1, R2|lia]; apply Pos.
Qed.
(* the solver solves a bounded problem *)
Lemma box_solves a b : 0 < a -> 0 < b ->
  box_solver [a; b] [- 3; 2] (mkproblem 2 (Some (Arr2 (scal_mat (-1) (eye 2)), [0; 0])) None)
  = QSol [Rmax (- 0) (- - 3 / a); Rmax (- 0) (- (2) / b)].
Proof.
  intros Ha Hb. unfold box_solver. cbn [p_G p_A].
  replace (positive [a; b]) with true.
  2:{ unfold positive. cbn. destruct (Rlt_dec 0 a); [|lra]. destruct (Rlt_dec 0 b); [reflexivity|lra]. }
  change (length [a; b]) with 2%nat. now rewrite minus_identity_ok.
Qed.
Lemma ex_start_bound l k : (l < 2)%nat -> (k < 2)%nat ->
  s_lower_bound (other (fit_cfg 1)) <= S1 gap_par l k /\ s_lower_bound (other (fit_cfg 1)) <= S2 gap_par l k.
Proof. intros _ _. cbn. lra. Qed.

Lemma monotone_thm argsort solver pp nl nk c data cnn min p :
  (forall l, is_argsort l (argsort l)) -> exact_qp solver -> (0 < nl)%nat -> (0 < nk)%nat ->
  movers_data nk data ->
  0 < s_lower_bound (other c) -> d_prior (other c) = 1 ->
  cons_s (other c) = [] -> cons_s_all (other c) = [] ->
  (forall o, In o (cons_on_A c) -> valid 2 nl nk o) ->
  (do_a c = true -> do_s c = true) ->
  (do_pk1 c = true -> all_pairs nk data /\ equal_weights data) ->
  values_ok nl nk (s_lower_bound (other c)) p ->
  (do_a c = true -> A_allowed nl nk c (sort_parameters argsort pp nl nk false false p)) ->
  exists p' lik liks,
    fit_movers_ argsort solver pp nl nk c cnn min data p = Ok (p', lik, liks)
    /\ Sorted Rle (liks ++ [movers_loglik nl nk p' data])
    /\ hd 0 (liks ++ [movers_loglik nl nk p' data]) = movers_loglik nl nk p data
    /\ (length liks <= n_iters (other c))%nat
    /\ (n_iters (other c) <> 0%nat -> lik = Some (last liks 0)).
Proof.
  intros Ha He Hl Hk D Hb Hd C1 C2 Cv Has Hp V HA.
  assert (Hd' : 1 <= d_prior (other c)) by lra.
  assert (C : cons_s (other c) ++ cons_s_all (other c) = []) by (now rewrite C1, C2).
  exact (fit_monotone argsort solver pp nl nk c data Hl Hk He D Hb Hd' C Cv Has Hp Ha cnn min p Hd V HA).
Qed.
Lemma penalised_thm argsort solver pp nl nk c data cnn min p :
  (forall l, is_argsort l (argsort l)) -> exact_qp solver -> (0 < nl)%nat -> (0 < nk)%nat ->
  movers_data nk data ->
  0 < s_lower_bound (other c) -> 1 <= d_prior (other c) ->
  cons_s (other c) = [] -> cons_s_all (other c) = [] ->
  (forall o, In o (cons_on_A c) -> valid 2 nl nk o) ->
  (do_a c = true -> do_s c = true) ->
  (do_pk1 c = true -> all_pairs nk data /\ equal_weights data) ->
  values_ok nl nk (s_lower_bound (other c)) p ->
  (do_a c = true -> A_allowed nl nk c (sort_parameters argsort pp nl nk false false p)) ->
  exists p' lik liks,
    fit_movers_ argsort solver pp nl nk c cnn min data p = Ok (p', lik, liks)
    /\ penalised nl nk (d_prior (other c)) p data <= penalised nl nk (d_prior (other c)) p' data.
Proof.
  intros Ha He Hl Hk D Hb Hd C1 C2 Cv Has Hp V HA.
  assert (C : cons_s (other c) ++ cons_s_all (other c) = []) by (now rewrite C1, C2).
  exact (fit_penalised argsort solver pp nl nk c data Hl Hk He D Hb Hd C Cv Has Hp Ha cnn min p V HA).
Qed.

(* one type of worker and firm: the run of the refutation *)
Lemma bound_refuted :
  exists argsort solver pp nl nk c cnn min data p p' lik liks,
    (forall l, is_argsort l (argsort l)) /\ exact_qp solver /\ movers_data nk data /\
    (forall o, In o (cons_on_A c ++ cons_s (other c) ++ cons_s_all (other c)) -> valid 2 nl nk o) /\
    values_ok nl nk (s_lower_bound (other c)) p /\ 0 < s_lower_bound (other c) /\
    (forall l k, (l < nl)%nat -> (k < nk)%nat ->
       s_lower_bound (other c) <= S1 p l k /\ s_lower_bound (other c) <= S2 p l k) /\
    fit_movers_ argsort solver pp nl nk c cnn min data p = Ok (p', lik, liks) /\
    exists l k, (l < nl)%nat /\ (k < nk)%nat /\
      S1 p' l k < s_lower_bound (other c) /\ S2 p' l k < s_lower_bound (other c).
Proof.
  destruct lb_fit as (p' & lik & liks & E & H1 & H2).
  exists isort, box_solver, PFirst, 1%nat, 1%nat, lb_cfg, false, 0%nat, [lb_row], lb_par, p', lik, liks.
  split; [exact isort_ok|]. split; [exact box_solver_exact|]. split.
  { split; [constructor; [|constructor]; split; [split; simpl; lia|simpl; lra]|].
    intros k Hk. assert (k = 0%nat) by lia. subst. split; exists lb_row; (split; [now left|reflexivity]). }
  split; [intros o []|]. split.
  { split; [repeat split|]. split.
    - intros l k _ _. cbn. lra.
    - intros k1 k2 _ _. split; [intros l _; cbn; lra|]. unfold sumn. cbn. lra. }
  split; [cbn; lra|]. split; [intros l k _ _; cbn; lra|]. split; [exact E|].
  exists 0%nat, 0%nat. rewrite H1, H2. cbn. repeat split; try lia; lra.
Qed.

Definition fit_falls (same : bool) (d : R) (data : list obs) (p : par) : Prop :=
  exists argsort solver pp nl nk c cnn min p' lik liks,
    (forall l, is_argsort l (argsort l)) /\ exact_qp solver /\ (0 < nl)%nat /\ (0 < nk)%nat /\
    movers_data nk data /\ all_pairs nk data /\
    (if same then equal_weights data else ~ equal_weights data) /\ d_prior (other c) = d /\
    values_ok nl nk (s_lower_bound (other c)) p /\ cons_on_A c = [] /\
    fit_movers_ argsort solver pp nl nk c cnn min data p = Ok (p', lik, liks) /\
    ~ Sorted Rle liks.
Lemma not_sorted a b : b < a -> ~ Sorted Rle [a; b].
Proof. intros H S. inversion S as [|? ? _ Hh]; subst. inversion Hh; subst. lra. Qed.

Lemma prior_refuted :
  fit_falls true 2 [lb_row] (two_par 0).
Proof.
  destruct prior_falls as (p' & lik & a & b & E & H).
  exists isort, box_solver, PFirst, 2%nat, 1%nat, (pk_cfg 2), false, 0%nat, p', lik, [a; b].
  split; [exact isort_ok|]. split; [exact box_solver_exact|]. split; [lia|]. split; [lia|]. split.
  { split; [constructor; [|constructor]; split; [split; simpl; lia|simpl; lra]|].
    intros k Hk. assert (k = 0%nat) by lia. subst. split; exists lb_row; (split; [now left|reflexivity]). }
  split.
  { intros k1 k2 Hk1 Hk2. exists lb_row. split; [now left|]. split; simpl; lia. }
  split; [exists 1; intros o [<-|[]]; simpl; ring|].
  split; [reflexivity|]. split.
  { change (two_par 0) with (set_pk1 (fun _ _ => 1 / 2) (two_par 0)). apply two_values; lra. }
  split; [reflexivity|]. split; [exact E|now apply not_sorted].
Qed.
Lemma weights_refuted :
  fit_falls false 1 wt_rows (two_par tt).
Proof.
  destruct weights_fall as (p' & lik & a & b & E & H).
  exists isort, box_solver, PFirst, 2%nat, 1%nat, (pk_cfg 1), false, 0%nat, p', lik, [a; b].
  split; [exact isort_ok|]. split; [exact box_solver_exact|]. split; [lia|]. split; [lia|]. split.
  { split.
    - repeat (constructor; [split; [split; simpl; lia|simpl; lra]|]). constructor.
    - intros k Hk. assert (k = 0%nat) by lia. subst.
      split; (eexists; split; [now left|reflexivity]). }
  split.
  { intros k1 k2 Hk1 Hk2. eexists. split; [now left|]. split; simpl; lia. }
  split.
  { intros [W H']. pose proof (H' _ (or_introl eq_refl)) as Ha.
    pose proof (H' _ (or_intror (or_introl eq_refl))) as Hb. cbn in Ha, Hb. lra. }
  split; [reflexivity|]. split.
  { change (two_par tt) with (set_pk1 (fun _ _ => 1 / 2) (two_par tt)). apply two_values; lra. }
  split; [reflexivity|]. split; [exact E|now apply not_sorted].
Qed.

(* ---- mover counts ---- *)
Definition pair_dec (a b : nat * nat) : {a = b} + {a <> b}.
Proof. decide equality; apply Nat.eq_dec. Defined.

Lemma counts_occ data a b :
  length (filter (fun o => (g1 o =? a) && (g2 o =? b))%nat data)
  = count_occ pair_dec (map (fun o => (g1 o, g2 o)) data) (a, b).
Proof.
  induction data as [|o data IH]; [reflexivity|]. cbn [filter map count_occ].
  destruct (pair_dec (g1 o, g2 o) (a, b)) as [E|N].
  - injection E as -> ->. rewrite !Nat.eqb_refl. cbn. now rewrite IH.
  - destruct (Nat.eqb_spec (g1 o) a), (Nat.eqb_spec (g2 o) b); cbn; auto. congruence.
Qed.

Lemma fit_counts argsort solver pp nl nk c min data p p' lik liks :
  fit_movers_ argsort solver pp nl nk c true min data p = Ok (p', lik, liks) ->
  forall a b, NNm p' a b = INR (count_occ pair_dec (map (fun o => (g1 o, g2 o)) data) (a, b)).
Proof.
  unfold fit_movers_. intros E a b.
  destruct (gen_constraints nl nk c) as [cs|e]; cbn in E; [|discriminate].
  destruct (movers_loop _ _ _ _ _ _ _ _ _ _ _ _ _ _ _) as [[[q l] ls]|e]; cbn in E; [|discriminate].
  injection E as <- _ _. cbn. unfold mover_counts. now rewrite counts_occ.
Qed.
