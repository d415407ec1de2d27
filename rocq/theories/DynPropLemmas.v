(* C52: glue and example data. *)
From Coq Require Import ZifyNat ClassicalDescription.
From Verif Require Import Base BaseLemmas SorkinLemmas DynModel DynSpec DynLemmas.
Local Open Scope R_scope.
Ltac Zify.zify_post_hook ::= Z.div_mod_to_equations.

Lemma levels_eq r1 r4 rt nk sd w s : system_levels r1 r4 rt nk sd w = Ok s ->
  s = mksys (10 * nk) (5 * nk) (XXs r1 r4 rt nk) (YYs sd nk)
    (match w with None => np_repeat (W sd) 10 | Some w => w end).
Proof. unfold system_levels. congruence. Qed.

Lemma moments_right r1 r4 rt l nk w s e g : uncorrelated_parts l -> (g < nk)%nat -> (e < 10)%nat ->
  system_levels r1 r4 rt nk (map (observed r1 r4 rt) l) w = Ok s ->
  sY s (e * nk + g)%nat =
  let '(t1, t2) := nth e [(0,0);(1,1);(2,2);(3,3);(0,1);(0,2);(0,3);(1,2);(1,3);(2,3)]%nat (0,0)%nat in
  implied r1 r4 rt (fun b => true_var l b g) t1 t2.
Proof.
  intros U G L E. injection E as <-. cbn [sY]. rewrite stackedY, YY_implied by auto.
  do 10 (destruct e as [|e]; [reflexivity|]). lia.
Qed.

Lemma equations_right r1 r4 rt nk sd w s e g b : (g < nk)%nat ->
  In e [1; 2; 4; 5; 6; 7; 8]%nat -> system_levels r1 r4 rt nk sd w = Ok s ->
  XXb s b (e * nk + g) =
  let '(t1, t2) := nth e [(0,0);(1,1);(2,2);(3,3);(0,1);(0,2);(0,3);(1,2);(1,3);(2,3)]%nat (0,0)%nat in
  implied r1 r4 rt (fun k => b (k * nk + g)%nat) t1 t2.
Proof.
  intros G I E. apply levels_eq in E; subst s. unfold XXb. cbn [sX scols].
  rewrite (sumn_ext _ _ (fun c => XX r1 r4 rt nk e g c * b c)) by (intros; rewrite stacked by auto; reflexivity).
  destruct (row_values r1 r4 rt nk g b G) as (_ & X1 & X2 & _ & X4 & X5 & X6 & X7 & X8 & _).
  cbn [In] in I. destruct I as [<-|[<-|[<-|[<-|[<-|[<-|[<-|[]]]]]]]]; rewrite ?X1, ?X2, ?X4, ?X5, ?X6, ?X7, ?X8;
    cbn [nth]; unfold implied; cbn [Nat.eqb]; ring.
Qed.

Lemma equations_wrong r1 r4 rt nk sd w s g b : (g < nk)%nat -> system_levels r1 r4 rt nk sd w = Ok s ->
  let v := fun k => b (k * nk + g)%nat in
  XXb s b (0 * nk + g) = implied r1 r4 rt v 0 0 + (rt ^ 2 * r4 - r1 ^ 2) * v 2%nat /\
  XXb s b (3 * nk + g) = implied r1 r4 rt v 3 3 + (r4 ^ 2 + rt ^ 2 - (r4 * rt) ^ 2) * v 2%nat /\
  XXb s b (9 * nk + g) = implied r1 r4 rt v 2 3 - rt ^ 2 * r4 * v 2%nat.
Proof.
  intros G E v. apply levels_eq in E; subst s. unfold XXb. cbn [sX scols].
  destruct (row_values r1 r4 rt nk g b G) as (X0 & _ & _ & X3 & _ & _ & _ & _ & _ & X9).
  rewrite (sumn_ext _ _ (fun c => XX r1 r4 rt nk 0 g c * b c)) by (intros; rewrite stacked by auto; reflexivity).
  rewrite (sumn_ext _ (fun c => XXs r1 r4 rt nk (3 * nk + g) c * b c) (fun c => XX r1 r4 rt nk 3 g c * b c))
    by (intros; rewrite stacked by auto; reflexivity).
  rewrite (sumn_ext _ (fun c => XXs r1 r4 rt nk (9 * nk + g) c * b c) (fun c => XX r1 r4 rt nk 9 g c * b c))
    by (intros; rewrite stacked by auto; reflexivity).
  rewrite X0, X3, X9. unfold v, implied. cbn [Nat.eqb]. split; [|split]; ring.
Qed.

Lemma groups_present r1 r4 rt l nk : all_groups nk l ->
  forallb (fun g => negb (length (group (map (observed r1 r4 rt) l) g) =? 0)%nat) (range nk) = true.
Proof.
  intros A. apply forallb_forall. intros g I. apply in_seq in I. rewrite group_observed, map_length.
  specialize (A g). destruct (members l g); [exfalso; apply A; [lia|reflexivity]|reflexivity].
Qed.

Lemma default_weights_pos r1 r4 rt l nk s : all_groups nk l ->
  system_levels r1 r4 rt nk (map (observed r1 r4 rt) l) None = Ok s -> forall r, (r < srows s)%nat -> 0 < sw s r.
Proof.
  intros A E. injection E as <-. cbn [srows sw]. intros r L. unfold np_repeat, W. rewrite group_observed, map_length.
  apply lt_0_INR. specialize (A (r / 10)%nat). destruct (members l (r / 10)); cbn; [|lia].
  exfalso. apply A; [lia|reflexivity].
Qed.

Lemma var_stayers_levels quadprog r1 r4 rt nk sd w o : var_stayers quadprog r1 r4 rt nk sd w false = Ok (Some o) ->
  exists s, system_levels r1 r4 rt nk sd w = Ok s /\ quadprog (scols s) (qpP s) (qpq s) = Some (o_beta o) /\
    o_eps_sq o = eps_sq s (o_beta o) /\
    (forall g, o_BE_sd o g = sqrt (Rmax (o_beta o g) 0)) /\
    (forall t g, o_nu_sd o t g = sqrt (Rmax (o_beta o ((t + 1) * nk + g)%nat) 0)).
Proof.
  unfold var_stayers. destruct (forallb _ _); [|discriminate]. intros E.
  destruct (system_levels r1 r4 rt nk sd w) as [s|] eqn:S0; [|discriminate]. cbn [bind] in E.
  destruct (quadprog (scols s) (qpP s) (qpq s)) as [b|] eqn:Q; [|discriminate].
  exists s. injection E as <-. cbn. auto.
Qed.

Lemma fit_minimises quadprog r1 r4 rt nk sd w o : qp_solver quadprog ->
  var_stayers quadprog r1 r4 rt nk sd w false = Ok (Some o) ->
  exists s, system_levels r1 r4 rt nk sd w = Ok s /\ o_eps_sq o = eps_sq s (o_beta o) /\
    nonneg (5 * nk) (o_beta o) /\
    (forall b, nonneg (5 * nk) b -> o_eps_sq o <= eps_sq s b) /\
    (forall g, (g < nk)%nat -> o_BE_sd o g ^ 2 = o_beta o g) /\
    (forall t g, (t < 4)%nat -> (g < nk)%nat -> o_nu_sd o t g ^ 2 = o_beta o ((t + 1) * nk + g)%nat).
Proof.
  intros Q E. destruct (var_stayers_levels _ _ _ _ _ _ _ _ E) as (s & S0 & B & O & BE & NU).
  exists s. split; auto. split; auto.
  assert (C : scols s = (5 * nk)%nat) by (injection S0 as <-; reflexivity).
  destruct (solver_minimises _ _ _ Q B) as [N M]. rewrite C in *. split; auto.
  split; [intros; rewrite O; auto|].
  assert (K : forall c, (c < 5 * nk)%nat -> sqrt (Rmax (o_beta o c) 0) ^ 2 = o_beta o c).
  { intros c L. specialize (N c L). rewrite Rmax_left by exact N. rewrite pow2_sqrt; auto. }
  split; intros; [rewrite BE|rewrite NU]; apply K; nia.
Qed.

Lemma true_fits nk l s : uncorrelated_parts l -> system_levels 0 0 0 nk (map (observed 0 0 0) l) None = Ok s ->
  eps_sq s (fun c => true_var l (c / nk) (c mod nk)) = 0.
Proof.
  intros U S0.
  pose (b := fun c => true_var l (c / nk) (c mod nk)).
  assert (vb : forall k g, (g < nk)%nat -> b (k * nk + g)%nat = true_var l k g).
  { intros k g G. unfold b. replace ((k * nk + g) mod nk)%nat with g by (rewrite Nat.add_comm, Nat.mod_add, Nat.mod_small; lia).
    replace ((k * nk + g) / nk)%nat with k by (rewrite Nat.div_add_l, Nat.div_small; lia). reflexivity. }
  fold b. assert (R10 : srows s = (10 * nk)%nat) by (injection S0 as <-; reflexivity).
  assert (Y : forall g, (g < nk)%nat -> forall e, YY (map (observed 0 0 0) l) e g = implied 0 0 0 (fun b => true_var l b g) (fst (nth e period_pairs (0, 0)%nat)) (snd (nth e period_pairs (0, 0)%nat))).
  { intros g G e. apply YY_implied; auto. }
  unfold eps_sq. apply sumn_zero. intros r L. rewrite R10 in L.
    assert (G : (r mod nk < nk)%nat) by (apply Nat.mod_upper_bound; lia).
    assert (E10 : (r / nk < 10)%nat) by (apply Nat.div_lt_upper_bound; lia).
    assert (RR : r = (r / nk * nk + r mod nk)%nat) by (pose proof (Nat.div_mod_eq r nk); nia).
    rewrite RR.
    rewrite (eps_row 0 0 0 nk _ None _ _ b s G S0).
    rewrite Y by auto. destruct (row_values 0 0 0 nk (r mod nk) b G) as (X0 & X1 & X2 & X3 & X4 & X5 & X6 & X7 & X8 & X9).
    rewrite !vb in * by auto. clear RR L. set (g := (r mod nk)%nat) in *. clearbody g. set (e := (r / nk)%nat) in *. clearbody e.
    do 10 (destruct e as [|e]; [rewrite ?X0, ?X1, ?X2, ?X3, ?X4, ?X5, ?X6, ?X7, ?X8, ?X9;
      cbn [nth period_pairs range seq map app flat_map filter Nat.ltb Nat.leb fst snd]; unfold implied; cbn [Nat.eqb]; ring|]). lia.
Qed.

Lemma true_nonneg n nk l : nonneg n (fun c => true_var l (c / nk) (c mod nk)).
Proof.
  assert (self : forall {A} (f : A -> R) l, 0 <= pcov f f l).
  { intros A0 f l0. unfold pcov, pavg, Rdiv. apply Rmult_le_pos.
    - apply rsum_nonneg. intros x I. apply in_map_iff in I. destruct I as (y & <- & _). apply Rle_0_sqr.
    - destruct l0; [cbn; rewrite Rinv_0; lra|]. left. apply Rinv_0_lt_compat, lt_0_INR. cbn. lia. }
  intros c _. unfold true_var. destruct (c / nk)%nat; apply self.
Qed.

Lemma no_persistence quadprog nk l o : qp_solver quadprog -> uncorrelated_parts l -> all_groups nk l ->
  var_stayers quadprog 0 0 0 nk (map (observed 0 0 0) l) None false = Ok (Some o) ->
  o_eps_sq o = 0 /\ forall g, (g < nk)%nat ->
    o_BE_sd o g ^ 2 = true_var l 0 g /\ forall t, (t < 4)%nat -> o_nu_sd o t g ^ 2 = true_var l (S t) g.
Proof.
  intros Q U A E. destruct (fit_minimises _ _ _ _ _ _ _ _ Q E) as (s & S0 & O & N & M & BE & NU).
  pose (b := fun c => true_var l (c / nk) (c mod nk)).
  assert (vb : forall k g, (g < nk)%nat -> b (k * nk + g)%nat = true_var l k g).
  { intros k g G. unfold b. replace ((k * nk + g) mod nk)%nat with g by (rewrite Nat.add_comm, Nat.mod_add, Nat.mod_small; lia).
    replace ((k * nk + g) / nk)%nat with k by (rewrite Nat.div_add_l, Nat.div_small; lia). reflexivity. }
  pose proof (true_nonneg (5 * nk) nk l : nonneg (5 * nk) b) as Nb.
  pose proof (default_weights_pos 0 0 0 l nk s A S0) as WP.
  assert (R10 : srows s = (10 * nk)%nat) by (injection S0 as <-; reflexivity).
  assert (Y : forall g, (g < nk)%nat -> forall e, YY (map (observed 0 0 0) l) e g = implied 0 0 0 (fun b => true_var l b g) (fst (nth e period_pairs (0, 0)%nat)) (snd (nth e period_pairs (0, 0)%nat))).
  { intros g G e. apply YY_implied; auto. }
  pose proof (true_fits nk l s U S0 : eps_sq s b = 0) as Z.
  assert (ZO : o_eps_sq o = 0).
  { apply Rle_antisym; [rewrite <- Z; apply M; auto|]. rewrite O. unfold eps_sq. apply sumn_nonneg. intros r L.
    specialize (WP r L). pose proof (Rle_0_sqr (eps s (o_beta o) r)). unfold Rsqr in *. nra. }
  split; auto. intros g G.
  assert (EZ : forall e, (e < 10)%nat -> eps s (o_beta o) (e * nk + g) = 0).
  { intros e L. destruct (Req_dec (eps s (o_beta o) (e * nk + g)) 0) as [|N0]; auto. exfalso.
    assert (0 < o_eps_sq o); [|lra]. rewrite O. unfold eps_sq. apply sumn_pos_one with (k := (e * nk + g)%nat).
    - rewrite R10. nia.
    - assert (0 < sw s (e * nk + g)) by (apply WP; rewrite R10; nia). pose proof (Rsqr_pos_lt _ N0). unfold Rsqr in *. nra.
    - intros i I. specialize (WP i I). pose proof (Rle_0_sqr (eps s (o_beta o) i)). unfold Rsqr in *. nra. }
  destruct (row_values 0 0 0 nk g (o_beta o) G) as (X0 & X1 & X2 & X3 & X4 & _ & _ & _ & _ & _).
  assert (F : forall e, (e < 10)%nat -> YY (map (observed 0 0 0) l) e g = sumn (5 * nk) (fun c => XX 0 0 0 nk e g c * o_beta o c)).
  { intros e L. specialize (EZ e L). rewrite (eps_row 0 0 0 nk _ None _ _ _ s G S0) in EZ. lra. }
  pose proof (F 0%nat ltac:(lia)) as F0. pose proof (F 1%nat ltac:(lia)) as F1. pose proof (F 2%nat ltac:(lia)) as F2.
  pose proof (F 3%nat ltac:(lia)) as F3. pose proof (F 4%nat ltac:(lia)) as F4.
  rewrite Y in F0, F1, F2, F3, F4 by auto. rewrite X0 in F0. rewrite X1 in F1. rewrite X2 in F2. rewrite X3 in F3. rewrite X4 in F4.
  cbn [nth period_pairs range seq map app flat_map filter Nat.ltb Nat.leb fst snd] in F0, F1, F2, F3, F4.
  unfold implied in F0, F1, F2, F3, F4. cbn [Nat.eqb] in F0, F1, F2, F3, F4.
  assert (B0 : o_beta o (0 * nk + g)%nat = true_var l 0 g) by lra.
  split.
  - rewrite BE by auto. change g with (0 * nk + g)%nat at 1. exact B0.
  - intros t T. rewrite NU by auto. destruct t as [|[|[|[|t]]]]; try lia; cbn [Nat.add]; lra.
Qed.

(* ---- weights ---- *)
Lemma weights_equal r1 r4 rt nk sd s e g n : (g < nk)%nat -> (e < 10)%nat ->
  (forall k, (k < nk)%nat -> length (filter (fun r => (dg r =? k)%nat) sd) = n) ->
  system_levels r1 r4 rt nk sd None = Ok s ->
  sw s (e * nk + g)%nat = INR (length (filter (fun r => (dg r =? g)%nat) sd)).
Proof.
  intros G L H E. injection E as <-. cbn [sw]. unfold np_repeat, W, group.
  rewrite H by (apply Nat.div_lt_upper_bound; nia). rewrite H by auto. reflexivity.
Qed.

Definition two_groups : list drow := [mkdrow 0 (fun _ => 0); mkdrow 1 (fun _ => 0); mkdrow 1 (fun _ => 1)].
Lemma weights_wrong : exists nk sd e g, (g < nk)%nat /\ (e < 10)%nat /\
  (forall k, (k < nk)%nat -> filter (fun r => (dg r =? k)%nat) sd <> []) /\
  forall r1 r4 rt s, system_levels r1 r4 rt nk sd None = Ok s ->
  sw s (e * nk + g)%nat <> INR (length (filter (fun r => (dg r =? g)%nat) sd)).
Proof.
  exists 2%nat, two_groups, 0%nat, 1%nat. split; [lia|]. split; [lia|]. split.
  - intros [|[|k]] K; try lia; discriminate.
  - intros r1 r4 rt s E. injection E as <-. cbn. lra.
Qed.

(* ---- differences ---- *)
Lemma diff_refused quadprog r1 r4 rt nk sd w : nk <> 8%nat -> var_stayers quadprog r1 r4 rt nk sd w true = Err ValueError.
Proof.
  intros N. unfold var_stayers. destruct (forallb _ _); auto. unfold system_diff.
  destruct (Nat.eqb_spec (16 * nk) 128); [lia|reflexivity].
Qed.

Lemma diff_zero quadprog r1 r4 rt sd w o : var_stayers quadprog r1 r4 rt 8 sd w true = Ok (Some o) ->
  o_nu_sd o 0 0 = 0 /\ o_nu_sd o 0 1 = 0.
Proof.
  unfold var_stayers. destruct (forallb _ _); [|discriminate]. unfold system_diff.
  change (16 * 8 =? 128)%nat with true. cbn [bind]. cbv iota.
  destruct (quadprog _ _ _) as [b|]; [|discriminate]. intros E. injection E as <-. cbn [o_nu_sd].
  change ((0 + 1) * 8 + 0)%nat with 8%nat. change ((0 + 1) * 8 + 1)%nat with 9%nat. cbn [Nat.ltb Nat.leb].
  rewrite Rmax_left by lra. rewrite sqrt_0. auto.
Qed.

(* ---- example: one group, shocks by sign vectors of 32 stayers would do; with a
   constant effect and only nu_2 and nu_3 varying, four stayers are enough ---- *)
Definition ex_st (a b : R) : stayer4 := mkst4 0 7 (fun t => match t with 1%nat => a | 2%nat => b | _ => 0 end).
Definition ex_l : list stayer4 := [ex_st 1 1; ex_st 1 (-1); ex_st (-1) 1; ex_st (-1) (-1)].
Lemma ex_members g : members ex_l g = if (g =? 0)%nat then ex_l else [].
Proof. destruct g; reflexivity. Qed.
Lemma ex_unc : uncorrelated_parts ex_l.
Proof.
  intros g. rewrite ex_members. destruct (g =? 0)%nat.
  - split.
    + intros [|[|[|[|t]]]] T; try lia; unfold pcov, pavg; cbn; field.
    + intros [|[|[|[|t]]]] [|[|[|[|t']]]] T T' N; try lia; unfold pcov, pavg; cbn; field.
  - split; intros; unfold pcov, pavg; cbn; lra.
Qed.
Lemma ex_groups : all_groups 1 ex_l.
Proof. intros g G. rewrite ex_members. destruct g; [discriminate|lia]. Qed.
Lemma ex_var2 : true_var ex_l 2 0 = 1.
Proof. unfold true_var. rewrite ex_members. unfold pcov, pavg. cbn. field. Qed.

(* A solver that knows one candidate and returns it when it is a minimiser. *)
Definition one_candidate (b : nat -> R) (n : nat) (P : nat -> nat -> R) (q : nat -> R) : option (nat -> R) :=
  if excluded_middle_informative (nonneg n b /\ forall x, nonneg n x -> objective n P q b <= objective n P q x)
  then Some b else None.
Lemma one_candidate_ok b : qp_solver (one_candidate b).
Proof.
  intros n P q x. unfold one_candidate. destruct (excluded_middle_informative _) as [H|]; [|discriminate].
  intros E. injection E as <-. exact H.
Qed.
Definition ex_beta (c : nat) : R := true_var ex_l (c / 1) (c mod 1).
Lemma ex_returns : exists o, var_stayers (one_candidate ex_beta) 0 0 0 1 (map (observed 0 0 0) ex_l) None false = Ok (Some o).
Proof.
  unfold var_stayers. rewrite (groups_present 0 0 0 ex_l 1 ex_groups).
  destruct (system_levels 0 0 0 1 (map (observed 0 0 0) ex_l) None) as [s|] eqn:E; [|discriminate]. cbn [bind].
  assert (K : one_candidate ex_beta (scols s) (qpP s) (qpq s) = Some ex_beta).
  { unfold one_candidate. destruct (excluded_middle_informative _) as [H|N]; auto. exfalso. apply N. split.
    - apply (true_nonneg _ 1 ex_l).
    - intros x _. pose proof (true_fits 1 ex_l s ex_unc E) as Z. fold ex_beta in Z.
      assert (0 <= eps_sq s x).
      { unfold eps_sq. apply sumn_nonneg. intros r L. pose proof (default_weights_pos 0 0 0 ex_l 1 s ex_groups E r L).
        pose proof (Rle_0_sqr (eps s x r)). unfold Rsqr in *. nra. }
      rewrite eps_sq_objective in Z, H. lra. }
  rewrite K. eexists. reflexivity.
Qed.

(* The left-hand sides of the system in differences. *)
Lemma sum_128 f : sumn 128 f = sumn 16 (fun a => sumn 8 (fun h => f (a * 8 + h)%nat)).
Proof. change 128%nat with (16 * 8)%nat. apply sumn_mul. Qed.

Lemma diff_rows i j g k : (i < 3)%nat -> (j < 3)%nat -> (g < 8)%nat -> (k < 128)%nat ->
  DD ((i * 3 + j) * 8 + g) k = if (k mod 8 =? g)%nat then D i (k / 8 / 4) * D j ((k / 8) mod 4) else 0.
Proof.
  intros I J G K. unfold DD.
  replace (((i * 3 + j) * 8 + g) mod 8)%nat with g by (rewrite Nat.add_comm, Nat.mod_add, Nat.mod_small; lia).
  replace (((i * 3 + j) * 8 + g) / 8)%nat with (i * 3 + j)%nat by (rewrite Nat.div_add_l, (Nat.div_small g); lia).
  replace ((i * 3 + j) / 3)%nat with i by (rewrite Nat.div_add_l, (Nat.div_small j); lia).
  replace ((i * 3 + j) mod 3)%nat with j by (rewrite Nat.add_comm, Nat.mod_add, Nat.mod_small; lia).
  rewrite (Nat.eqb_sym g). reflexivity.
Qed.

Lemma diff_sum i j g F : (i < 3)%nat -> (j < 3)%nat -> (g < 8)%nat ->
  sumn 128 (fun k => DD ((i * 3 + j) * 8 + g) k * F (k / 8)%nat (k mod 8)%nat) =
  sumn 16 (fun a => D i (a / 4) * D j (a mod 4) * F a g).
Proof.
  intros I J G. rewrite sum_128. apply sumn_ext. intros a A. rewrite (sumn_single 8 g); [|exact G|]; [|intros h H N; rewrite diff_rows by lia;
    replace ((a * 8 + h) mod 8)%nat with h by (rewrite Nat.add_comm, Nat.mod_add, Nat.mod_small; lia);
    destruct (Nat.eqb_spec h g); [lia|ring]].
  rewrite diff_rows by lia.
  replace ((a * 8 + g) mod 8)%nat with g by (rewrite Nat.add_comm, Nat.mod_add, Nat.mod_small; lia).
  replace ((a * 8 + g) / 8)%nat with a by (rewrite Nat.div_add_l, (Nat.div_small g); lia).
  rewrite Nat.eqb_refl. reflexivity.
Qed.

Lemma cov0_pcov f h l : cov0 f h l = pcov f h l.
Proof. reflexivity. Qed.

Lemma pcov_diff {A} (f f' h h' : A -> R) l :
  pcov (fun r => f r - f' r) (fun r => h r - h' r) l = pcov f h l - pcov f h' l - pcov f' h l + pcov f' h' l.
Proof.
  rewrite (pcov_ext _ (fun r => f r + (-1) * f' r) _ (fun r => h r + (-1) * h' r)) by (intros; ring).
  rewrite pcov_plus, !pcov_plus_r, !pcov_scal, !pcov_scal_r, ?pcov_plus_r, ?pcov_scal_r. ring.
Qed.

Lemma diff_moments r1 r4 rt sd s i j g : (i < 3)%nat -> (j < 3)%nat -> (g < 8)%nat ->
  system_diff r1 r4 rt 8 sd = Ok s ->
  sY s ((i * 3 + j) * 8 + g)%nat =
  pcov (fun r => dy r (S i) - dy r i) (fun r => dy r (S j) - dy r j) (filter (fun r => (dg r =? g)%nat) sd).
Proof.
  intros I J G E. unfold system_diff in E. cbn [Nat.mul Nat.add Nat.eqb] in E. injection E as <-.
  cbn [sY]. unfold YYo.
  rewrite (diff_sum i j g (fun a h => YY sd (nth a rho_order 0%nat) h) I J G).
  rewrite pcov_diff. fold (group sd g).
  assert (S16 : forall f, sumn 16 f = f 0%nat + f 1%nat + f 2%nat + f 3%nat + f 4%nat + f 5%nat + f 6%nat + f 7%nat
    + f 8%nat + f 9%nat + f 10%nat + f 11%nat + f 12%nat + f 13%nat + f 14%nat + f 15%nat).
  { intros f. unfold sumn. cbn. ring. }
  rewrite S16. unfold rho_order. cbn [nth].
  assert (Y : forall e, YY sd e g = let '(t1, t2) := nth e [(0,0);(1,1);(2,2);(3,3);(0,1);(0,2);(0,3);(1,2);(1,3);(2,3)]%nat (0,0)%nat in
     pcov (fun r => dy r t1) (fun r => dy r t2) (group sd g)).
  { intros e. reflexivity. }
  rewrite !Y. cbn [nth].
  pose proof (pcov_sym (fun r => dy r 0%nat) (fun r => dy r 1%nat) (group sd g)) as P01.
  pose proof (pcov_sym (fun r => dy r 0%nat) (fun r => dy r 2%nat) (group sd g)) as P02.
  pose proof (pcov_sym (fun r => dy r 0%nat) (fun r => dy r 3%nat) (group sd g)) as P03.
  pose proof (pcov_sym (fun r => dy r 1%nat) (fun r => dy r 2%nat) (group sd g)) as P12.
  pose proof (pcov_sym (fun r => dy r 1%nat) (fun r => dy r 3%nat) (group sd g)) as P13.
  pose proof (pcov_sym (fun r => dy r 2%nat) (fun r => dy r 3%nat) (group sd g)) as P23.
  unfold D.
  destruct i as [|[|[|i]]]; [| | |lia]; (destruct j as [|[|[|j]]]; [| | |lia]);
    cbn [Nat.eqb Nat.div Nat.modulo Nat.divmod fst snd Nat.sub];
    rewrite <- ?P01, <- ?P02, <- ?P03, <- ?P12, <- ?P13, <- ?P23; ring.
Qed.
