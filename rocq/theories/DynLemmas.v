(* Lemmas for the variance fit on stayers (C52). *)
From Coq Require Import ZifyNat.
From Verif Require Import Base BaseLemmas SorkinLemmas DynModel DynSpec.
Local Open Scope R_scope.
Ltac Zify.zify_post_hook ::= Z.div_mod_to_equations.

(* ---- covariances ---- *)
Lemma pavg_plus {A} (f h : A -> R) l : pavg (fun r => f r + h r) l = pavg f l + pavg h l.
Proof. unfold pavg, Rdiv. rewrite rsum_map_plus. ring. Qed.
Lemma pavg_scal {A} c (f : A -> R) l : pavg (fun r => c * f r) l = c * pavg f l.
Proof. unfold pavg, Rdiv. rewrite rsum_map_scal. ring. Qed.
Lemma pavg_ext {A} (f h : A -> R) l : (forall r, f r = h r) -> pavg f l = pavg h l.
Proof. intros E. unfold pavg. f_equal. f_equal. apply map_ext. exact E. Qed.

Lemma pcov_ext {A} (f f' h h' : A -> R) l : (forall r, f r = f' r) -> (forall r, h r = h' r) -> pcov f h l = pcov f' h' l.
Proof.
  intros E E'. unfold pcov. rewrite (pavg_ext f f' l E), (pavg_ext h h' l E').
  apply pavg_ext. intros r. rewrite E, E'. reflexivity.
Qed.
Lemma pcov_sym {A} (f h : A -> R) l : pcov f h l = pcov h f l.
Proof. unfold pcov. apply pavg_ext. intros; ring. Qed.
Lemma pcov_plus {A} (f f' h : A -> R) l : pcov (fun r => f r + f' r) h l = pcov f h l + pcov f' h l.
Proof.
  unfold pcov. rewrite <- pavg_plus. rewrite pavg_plus. apply pavg_ext. intros; ring.
Qed.
Lemma pcov_scal {A} c (f h : A -> R) l : pcov (fun r => c * f r) h l = c * pcov f h l.
Proof.
  unfold pcov. rewrite <- pavg_scal. rewrite pavg_scal. apply pavg_ext. intros; ring.
Qed.
Lemma pcov_plus_r {A} (f h h' : A -> R) l : pcov f (fun r => h r + h' r) l = pcov f h l + pcov f h' l.
Proof. rewrite pcov_sym, pcov_plus. f_equal; apply pcov_sym. Qed.
Lemma pcov_scal_r {A} c (f h : A -> R) l : pcov f (fun r => c * h r) l = c * pcov f h l.
Proof. rewrite pcov_sym, pcov_scal. f_equal; apply pcov_sym. Qed.

(* ---- the moments are those of the wage equations ---- *)
Lemma group_observed r1 r4 rt l g :
  group (map (observed r1 r4 rt) l) g = map (observed r1 r4 rt) (members l g).
Proof.
  unfold group, members. induction l as [|x l IH]; [reflexivity|]. cbn.
  destruct (cl x =? g)%nat; cbn; rewrite IH; reflexivity.
Qed.

Lemma cov0_observed r1 r4 rt l t1 t2 g :
  cov0 (fun r => dy r t1) (fun r => dy r t2) (group (map (observed r1 r4 rt) l) g)
  = pcov (fun s => wage r1 r4 rt s t1) (fun s => wage r1 r4 rt s t2) (members l g).
Proof.
  rewrite group_observed. unfold cov0, pcov, mean0, pavg. rewrite !map_map, map_length. reflexivity.
Qed.

Definition load (r1 r4 rt : R) t := match t with 0%nat => r1 | 1%nat => 1 | 2%nat => rt | _ => r4 * rt end.
Definition load3 (r4 : R) t := match t with 2%nat => 1 | 3%nat => r4 | _ => 0 end.
Definition own t : R := match t with 0%nat => 1 | 3%nat => 1 | _ => 0 end.

Lemma wage_eq r1 r4 rt s t : (t < 4)%nat ->
  wage r1 r4 rt s t = alpha s + (load r1 r4 rt t * nu s 1 + (load3 r4 t * nu s 2 + own t * nu s t)).
Proof.
  intros H. destruct t as [|[|[|[|t]]]]; try lia; unfold wage, load, load3, own; ring.
Qed.

Lemma wage_cov r1 r4 rt l t1 t2 g : uncorrelated_parts l -> (t1 < 4)%nat -> (t2 < 4)%nat ->
  pcov (fun s => wage r1 r4 rt s t1) (fun s => wage r1 r4 rt s t2) (members l g)
  = implied r1 r4 rt (fun b => true_var l b g) t1 t2.
Proof.
  intros U H1 H2. destruct (U g) as [UA UN].
  rewrite (pcov_ext _ _ _ _ (members l g) (fun s => wage_eq r1 r4 rt s t1 H1) (fun s => wage_eq r1 r4 rt s t2 H2)).
  repeat (rewrite ?pcov_plus, ?pcov_plus_r, ?pcov_scal, ?pcov_scal_r).
  assert (UA' : forall t, (t < 4)%nat -> pcov (fun s => nu s t) alpha (members l g) = 0)
    by (intros; rewrite pcov_sym; apply UA; auto).
  change (fun r : stayer4 => alpha r) with alpha.
  rewrite !UA, !UA' by lia. rewrite !(UN 1 2)%nat, !(UN 2 1)%nat by lia.
  unfold implied. fold (load r1 r4 rt t1) (load r1 r4 rt t2) (load3 r4 t1) (load3 r4 t2).
  unfold true_var. fold (members l g).
  destruct t1 as [|[|[|[|t1]]]]; try lia; destruct t2 as [|[|[|[|t2]]]]; try lia;
    cbn [Nat.eqb load load3 own]; rewrite ?(UN 0 1)%nat, ?(UN 0 2)%nat, ?(UN 0 3)%nat, ?(UN 1 0)%nat, ?(UN 1 3)%nat,
      ?(UN 2 0)%nat, ?(UN 2 3)%nat, ?(UN 3 0)%nat, ?(UN 3 1)%nat, ?(UN 3 2)%nat by lia; ring.
Qed.

Lemma pair_lt e : let '(t1, t2) := nth e period_pairs (0, 0)%nat in (t1 < 4)%nat /\ (t2 < 4)%nat.
Proof. do 11 (destruct e as [|e]; [cbn; lia|]). destruct e; cbn; lia. Qed.

Lemma YY_implied r1 r4 rt l e g : uncorrelated_parts l ->
  YY (map (observed r1 r4 rt) l) e g =
  implied r1 r4 rt (fun b => true_var l b g) (fst (nth e period_pairs (0, 0)%nat)) (snd (nth e period_pairs (0, 0)%nat)).
Proof.
  intros U. unfold YY. pose proof (pair_lt e) as L. destruct (nth e period_pairs (0, 0)%nat) as [t1 t2]. cbn [fst snd].
  rewrite cov0_observed. apply wage_cov; tauto.
Qed.

(* ---- the rows of the system ---- *)
Lemma row_sum r1 r4 rt nk e g b : (g < nk)%nat ->
  sumn (5 * nk) (fun c => XX r1 r4 rt nk e g c * b c)
  = sumn 5 (fun k => assigned (block r1 r4 rt k) e * b (k * nk + g)%nat).
Proof.
  intros H. rewrite sumn_mul. apply sumn_ext. intros k K.
  rewrite (sumn_single nk g); auto.
  - unfold XX. replace ((k * nk + g) mod nk)%nat with g by (rewrite Nat.add_comm, Nat.mod_add, Nat.mod_small; lia).
    replace ((k * nk + g) / nk)%nat with k by (rewrite Nat.div_add_l, Nat.div_small; lia).
    rewrite Nat.eqb_refl. reflexivity.
  - intros j J N. unfold XX.
    replace ((k * nk + j) mod nk)%nat with j by (rewrite Nat.add_comm, Nat.mod_add, Nat.mod_small; lia).
    destruct (Nat.eqb_spec j g); [lia|ring].
Qed.

Lemma row_values r1 r4 rt nk g b : (g < nk)%nat ->
  let v k := b (k * nk + g)%nat in
  let row e := sumn (5 * nk) (fun c => XX r1 r4 rt nk e g c * b c) in
  row 0%nat = v 0%nat + v 1%nat + rt ^ 2 * r4 * v 2%nat /\
  row 1%nat = v 0%nat + v 2%nat /\
  row 2%nat = v 0%nat + rt ^ 2 * v 2%nat + v 3%nat /\
  row 3%nat = v 0%nat + (r4 ^ 2 + rt ^ 2) * v 2%nat + r4 ^ 2 * v 3%nat + v 4%nat /\
  row 4%nat = v 0%nat + r1 * v 2%nat /\
  row 5%nat = v 0%nat + r1 * rt * v 2%nat /\
  row 6%nat = v 0%nat + r1 * rt * r4 * v 2%nat /\
  row 7%nat = v 0%nat + rt * v 2%nat /\
  row 8%nat = v 0%nat + rt * r4 * v 2%nat /\
  row 9%nat = v 0%nat + r4 * v 3%nat.
Proof.
  intros H v row. unfold row. rewrite !row_sum by auto.
  unfold v; clear v row. generalize (fun k => b (k * nk + g)%nat) as v. intros v.
  assert (S5 : forall f, sumn 5 f = f 0%nat + f 1%nat + f 2%nat + f 3%nat + f 4%nat).
  { intros f. unfold sumn. cbn. ring. }
  rewrite !S5. unfold assigned, block. cbn [fold_left fst snd Nat.eqb range seq map].
  repeat split; ring.
Qed.

Lemma stacked r1 r4 rt nk e g c : (g < nk)%nat -> XXs r1 r4 rt nk (e * nk + g) c = XX r1 r4 rt nk e g c.
Proof.
  intros H. unfold XXs. replace ((e * nk + g) mod nk)%nat with g by (rewrite Nat.add_comm, Nat.mod_add, Nat.mod_small; lia).
  replace ((e * nk + g) / nk)%nat with e by (rewrite Nat.div_add_l, Nat.div_small; lia). reflexivity.
Qed.
Lemma stackedY sd nk e g : (g < nk)%nat -> YYs sd nk (e * nk + g) = YY sd e g.
Proof.
  intros H. unfold YYs. replace ((e * nk + g) mod nk)%nat with g by (rewrite Nat.add_comm, Nat.mod_add, Nat.mod_small; lia).
  replace ((e * nk + g) / nk)%nat with e by (rewrite Nat.div_add_l, Nat.div_small; lia). reflexivity.
Qed.

Lemma eps_row r1 r4 rt nk sd w e g b s : (g < nk)%nat -> system_levels r1 r4 rt nk sd w = Ok s ->
  eps s b (e * nk + g) = YY sd e g - sumn (5 * nk) (fun c => XX r1 r4 rt nk e g c * b c).
Proof.
  intros H E. injection E as <-. unfold eps, XXb. cbn [sY sX scols]. rewrite stackedY by auto. f_equal.
  apply sumn_ext. intros c _. rewrite stacked by auto. reflexivity.
Qed.

(* ---- the true rhos do not fit ---- *)
Lemma never_exact r1 r4 rt nk l w s b g : uncorrelated_parts l -> (g < nk)%nat -> 0 < true_var l 2 g ->
  r1 <> 1 -> r4 <> 0 -> rt <> 0 ->
  system_levels r1 r4 rt nk (map (observed r1 r4 rt) l) w = Ok s -> (forall r, (r < srows s)%nat -> 0 < sw s r) ->
  0 < eps_sq s b.
Proof.
  intros U G V N1 N4 Nt E P.
  assert (R10 : srows s = (10 * nk)%nat) by (injection E as <-; reflexivity).
  assert (K : exists e, (e < 10)%nat /\ eps s b (e * nk + g) <> 0).
  { destruct (row_values r1 r4 rt nk g b G) as (_ & X1 & X2 & _ & X4 & _ & _ & _ & _ & X9).
    destruct (Req_dec (eps s b (1 * nk + g)) 0) as [E1|]; [|exists 1%nat; split; [lia|auto]].
    destruct (Req_dec (eps s b (2 * nk + g)) 0) as [E2|]; [|exists 2%nat; split; [lia|auto]].
    destruct (Req_dec (eps s b (4 * nk + g)) 0) as [E4|]; [|exists 4%nat; split; [lia|auto]].
    destruct (Req_dec (eps s b (9 * nk + g)) 0) as [E9|]; [|exists 9%nat; split; [lia|auto]].
    exfalso. rewrite (eps_row r1 r4 rt nk _ w 1 g b s G E) in E1. rewrite (eps_row r1 r4 rt nk _ w 2 g b s G E) in E2.
    rewrite (eps_row r1 r4 rt nk _ w 4 g b s G E) in E4. rewrite (eps_row r1 r4 rt nk _ w 9 g b s G E) in E9.
    rewrite X1 in E1. rewrite X2 in E2. rewrite X4 in E4. rewrite X9 in E9.
    rewrite YY_implied in E1, E2, E4, E9 by auto.
    cbn [nth period_pairs range seq map app flat_map filter Nat.ltb Nat.leb fst snd] in E1, E2, E4, E9.
    unfold implied in E1, E2, E4, E9. cbn [Nat.eqb] in E1, E2, E4, E9.
    set (v := fun k => b (k * nk + g)%nat) in *.
    change (b (0 * nk + g)%nat) with (v 0%nat) in *. change (b (2 * nk + g)%nat) with (v 2%nat) in *.
    change (b (3 * nk + g)%nat) with (v 3%nat) in *.
    set (a := true_var l 0 g) in *. set (v2 := true_var l 2 g) in *. set (v3 := true_var l 3 g) in *.
    assert (Z : (1 - r1) * (v2 - v 2%nat) = 0) by nra.
    apply Rmult_integral in Z. destruct Z as [Z|Z]; [lra|].
    assert (A : v 0%nat = a) by lra.
    assert (B : v 3%nat = v3) by (replace (v 2%nat) with v2 in * by lra; lra).
    rewrite A, B in E9. assert (Z2 : r4 * rt * rt * v2 = 0) by lra.
    assert (r4 * rt * rt * v2 <> 0); [|auto].
    assert (v2 <> 0) by (apply Rgt_not_eq; exact V). clearbody v2.
    repeat apply Rmult_integral_contrapositive_currified; auto. }
  destruct K as (e & L & N). unfold eps_sq.
  apply sumn_pos_one with (k := (e * nk + g)%nat).
  - rewrite R10. nia.
  - replace (eps s b (e * nk + g) * sw s (e * nk + g)%nat * eps s b (e * nk + g))
      with (sw s (e * nk + g)%nat * (eps s b (e * nk + g))²) by (unfold Rsqr; ring).
    apply Rmult_lt_0_compat; [apply P; rewrite R10; nia|]. apply Rsqr_pos_lt. exact N.
  - intros i I. replace (eps s b i * sw s i * eps s b i) with (sw s i * (eps s b i)²) by (unfold Rsqr; ring).
    apply Rmult_le_pos; [left; apply P; exact I|apply Rle_0_sqr].
Qed.

(* ---- the quadratic program is weighted least squares ---- *)
Lemma eps_sq_objective s b :
  eps_sq s b = sumn (srows s) (fun r => sw s r * sY s r * sY s r) + 2 * objective (scols s) (qpP s) (qpq s) b.
Proof.
  unfold eps_sq, objective.
  assert (Q1 : sumn (scols s) (fun i => b i * sumn (scols s) (fun j => qpP s i j * b j))
             = sumn (srows s) (fun r => sw s r * XXb s b r * XXb s b r)).
  { unfold qpP.
    transitivity (sumn (scols s) (fun i => sumn (srows s) (fun r => sw s r * XXb s b r * (sX s r i * b i)))).
    - apply sumn_ext. intros i _. rewrite <- sumn_scal.
      transitivity (sumn (scols s) (fun j => sumn (srows s) (fun r => b i * (sw s r * sX s r i * sX s r j * b j)))).
      + apply sumn_ext. intros j _. rewrite <- sumn_scal_r. rewrite <- sumn_scal. reflexivity.
      + rewrite sumn_swap. apply sumn_ext. intros r _. unfold XXb.
        rewrite <- sumn_scal, <- sumn_scal_r. apply sumn_ext. intros j _. ring.
    - rewrite sumn_swap. apply sumn_ext. intros r _. rewrite sumn_scal. reflexivity. }
  assert (Q2 : sumn (scols s) (fun i => qpq s i * b i) = - sumn (srows s) (fun r => sw s r * sY s r * XXb s b r)).
  { unfold qpq.
    transitivity (sumn (scols s) (fun i => sumn (srows s) (fun r => - (sw s r * sY s r * (sX s r i * b i))))).
    - apply sumn_ext. intros i _. rewrite <- Ropp_mult_distr_l, <- sumn_scal_r.
      replace (- sumn (srows s) (fun j => sw s j * sX s j i * sY s j * b i))
        with (-1 * sumn (srows s) (fun j => sw s j * sX s j i * sY s j * b i)) by ring.
      rewrite <- sumn_scal. apply sumn_ext. intros r _. ring.
    - rewrite sumn_swap.
      replace (- sumn (srows s) (fun r => sw s r * sY s r * XXb s b r))
        with (-1 * sumn (srows s) (fun r => sw s r * sY s r * XXb s b r)) by ring.
      rewrite <- sumn_scal. apply sumn_ext. intros r _. unfold XXb.
      replace (-1 * (sw s r * sY s r * sumn (scols s) (fun c => sX s r c * b c)))
        with (- (sw s r * sY s r) * sumn (scols s) (fun c => sX s r c * b c)) by ring.
      rewrite <- sumn_scal. apply sumn_ext. intros j _. ring. }
  rewrite Q1, Q2.
  replace (2 * (/ 2 * sumn (srows s) (fun r => sw s r * XXb s b r * XXb s b r) + - sumn (srows s) (fun r => sw s r * sY s r * XXb s b r)))
    with (sumn (srows s) (fun r => sw s r * XXb s b r * XXb s b r) - 2 * sumn (srows s) (fun r => sw s r * sY s r * XXb s b r)) by lra.
  rewrite <- sumn_scal, <- sumn_minus, <- sumn_plus. apply sumn_ext. intros r _. unfold eps. ring.
Qed.

Lemma solver_minimises quadprog s b : qp_solver quadprog -> quadprog (scols s) (qpP s) (qpq s) = Some b ->
  nonneg (scols s) b /\ forall b', nonneg (scols s) b' -> eps_sq s b <= eps_sq s b'.
Proof.
  intros Q E. destruct (Q _ _ _ _ E) as [N M]. split; auto. intros b' N'. specialize (M b' N').
  rewrite !eps_sq_objective. lra.
Qed.
