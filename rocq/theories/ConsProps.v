(* Properties C09-C20 and C54: pytwoway/constraints/constraints.py. *)
From Coq Require Import Permutation.
From Verif Require Import Base BaseLemmas UtilModel ConsModel ConsSpec ConsLemmas
  ConsBuildLemmas ConsBuild2Lemmas ConsBuild3Lemmas ConsQPLemmas ConsPropLemmas.
Local Open Scope R_scope.

(* ================================================================== C09 *)
(* After any history, exactly the constraints added since the last clear of
   their kind are imposed. *)
Theorem C09_history n nl nk ops :
  Forall (op_ok n nl nk) ops ->
  exists s, run ops (qp_init nl nk) = Ok s /\
    forall x, accepts s x <->
      (forall d, active clears_G nl nk ops d -> sat_G d x) /\
      (forall d, active clears_A nl nk ops d -> sat_A d x).
Proof. exact (run_accepts n nl nk ops). Qed.
Print Assumptions C09_history.

(* The built-in classes satisfy the premise: they produce constraints on the
   nt * nl * nk parameters. *)
Theorem C09_builtin nt nl nk c :
  valid nt nl nk c ->
  exists d, get_constraints c nl nk = Ok d /\ cons_wf (nt * nl * nk) d.
Proof. exact (valid_buildable nt nl nk c). Qed.
Print Assumptions C09_builtin.

Theorem C09_order_irrelevant n nl nk pre cs cs' post :
  Permutation cs cs' -> Forall (op_ok n nl nk) (pre ++ OpAdd cs :: post) ->
  exists s s', run (pre ++ OpAdd cs :: post) (qp_init nl nk) = Ok s
    /\ run (pre ++ OpAdd cs' :: post) (qp_init nl nk) = Ok s'
    /\ forall x, accepts s x <-> accepts s' x.
Proof. exact (run_order n nl nk pre cs cs' post). Qed.
Print Assumptions C09_order_irrelevant.

Theorem C09_batching_irrelevant pre cs1 cs2 post s :
  run (pre ++ OpAdd (cs1 ++ cs2) :: post) s = run (pre ++ OpAdd cs1 :: OpAdd cs2 :: post) s.
Proof. exact (run_batch pre cs1 cs2 post s). Qed.
Print Assumptions C09_batching_irrelevant.

Theorem C09_check_feasible_keeps s : fst (check_feasible s) = s.
Proof. exact eq_refl. Qed.
Print Assumptions C09_check_feasible_keeps.

(* The premise op_ok excludes sparse solvers: after one, adding a further
   constraint raises TypeError (len() of a sparse matrix). *)
Theorem C09_sparse_solver_then_add n nl nk c c' k :
  cons_wf n c -> (exists m h, c_G c = Some (m, h) /\ (0 < nr m)%nat) ->
  (exists m h, c_G c' = Some (m, h) /\ (0 < nr m)%nat) ->
  run [OpManual c; OpSolve true k; OpManual c'] (qp_init nl nk) = Err TypeError.
Proof. exact (sparse_then_add n nl nk c c' k). Qed.
Print Assumptions C09_sparse_solver_then_add.

Example C09_case :
  Forall (op_ok (2 * 3 * 4) 3 4)
    [OpAdd [CLinear None 2; CMonotonic 1 true 2]; OpCheck; OpClear true false;
     OpAdd [CNormalizeAll 0 true None 2; CMinFirmType 1 0 true false (Some [1%nat]) 2];
     OpSolve false 24].
Proof.
  assert (P : in_periods (periods None 2) 2) by apply in_periods_all.
  repeat constructor; cbn [op_ok]; auto.
  - intros c [<-|[<-|[]]]; apply valid_buildable; cbn [valid]; auto with arith.
  - intros c [<-|[<-|[]]]; apply valid_buildable; cbn [valid]; repeat split; auto with arith.
    + apply NoDup_range.
    + discriminate.
    + intros t [<-|[]]. lia.
    + discriminate.
    + discriminate.
Qed.

(* ================================================================== C10 *)
Theorem C10_linear nnt nt nl nk :
  (2 <= nl)%nat -> in_periods nnt nt ->
  exists c, Linear nnt nt nl nk = Ok c /\ cons_wf (nt * nl * nk) c
    /\ forall x, sat c x <->
         forall t k, In t nnt -> (k < nk)%nat ->
         forall l, (l + 2 < nl)%nat ->
           eff nl nk x t (l + 1) k - eff nl nk x t l k
           = eff nl nk x t (l + 2) k - eff nl nk x t (l + 1) k.
Proof. exact (Linear_spec nnt nt nl nk). Qed.
Print Assumptions C10_linear.

Theorem C10_one_worker_type nnt nt nk :
  nnt <> [] -> (1 <= nk)%nat -> Linear nnt nt 1 nk = Err ValueError.
Proof. exact (Linear_one nnt nt nk). Qed.
Print Assumptions C10_one_worker_type.

Example C10_case :
  exists c, Linear [0; 1]%nat 2 3 2 = Ok c
    /\ sat c (fun i => INR i) /\ ~ sat c (fun i => if (i =? 2)%nat then 1 else 0).
Proof.
  destruct (C10_linear [0; 1]%nat 2 3 2) as (c & E & _ & S); [lia| |].
  { intros t [<-|[<-|[]]]; lia. }
  exists c. split; [exact E|]. rewrite !S. split.
  - intros t k Ht Hk l Hl. unfold eff. rewrite !plus_INR, !mult_INR, !plus_INR. simpl. lra.
  - intros H. specialize (H 0%nat 0%nat (or_introl eq_refl) ltac:(lia) 0%nat ltac:(lia)).
    unfold eff in H. cbn in H. lra.
Qed.

(* ================================================================== C11 *)
Theorem C11_linear_additive nnt nt nl nk :
  (2 <= nl)%nat -> (1 <= nk)%nat -> in_periods nnt nt ->
  exists c, LinearAdditive nnt nt nl nk = Ok c /\ cons_wf (nt * nl * nk) c
    /\ forall x, sat c x <->
         forall t, In t nnt ->
         exists (a : nat -> R) (d : R), forall l k, (l < nl)%nat -> (k < nk)%nat ->
           eff nl nk x t l k = a k + INR l * d.
Proof. exact (LinearAdditive_spec nnt nt nl nk). Qed.
Print Assumptions C11_linear_additive.

Theorem C11_one_worker_type nnt nt nk :
  nnt <> [] -> LinearAdditive nnt nt 1 nk = Err ValueError.
Proof. exact (LinearAdditive_one nnt nt nk). Qed.
Print Assumptions C11_one_worker_type.

Example C11_case :
  exists c, LinearAdditive [1]%nat 2 3 2 = Ok c
    /\ sat c (fun i => INR i) /\ ~ sat c (fun i => if (i =? 6)%nat then 1 else 0).
Proof.
  destruct (C11_linear_additive [1]%nat 2 3 2) as (c & E & _ & S); [lia|lia| |].
  { intros t [<-|[]]; lia. }
  exists c. split; [exact E|]. rewrite !S. split.
  - intros t [<-|[]]. exists (fun k => 6 + INR k), 2. intros l k Hl Hk. unfold eff.
    rewrite !plus_INR, !mult_INR. simpl. lra.
  - intros H. destruct (H 1%nat (or_introl eq_refl)) as (a & d & Hd).
    pose proof (Hd 0%nat 0%nat ltac:(lia) ltac:(lia)) as H0.
    pose proof (Hd 1%nat 0%nat ltac:(lia) ltac:(lia)) as H1.
    pose proof (Hd 2%nat 0%nat ltac:(lia) ltac:(lia)) as H2.
    unfold eff in *. cbn in H0, H1, H2. lra.
Qed.

(* ================================================================== C12 *)
Theorem C12_monotonic (md : R) (increasing : bool) nt nl nk :
  (1 <= nl)%nat ->
  exists c, Monotonic md increasing nt nl nk = Ok c /\ cons_wf (nt * nl * nk) c
    /\ forall x, sat c x <->
         forall t k l, (t < nt)%nat -> (k < nk)%nat -> (l + 1 < nl)%nat ->
           if increasing then eff nl nk x t (l + 1) k >= eff nl nk x t l k + md
           else eff nl nk x t (l + 1) k <= eff nl nk x t l k - md.
Proof. exact (Monotonic_spec md increasing nt nl nk). Qed.
Print Assumptions C12_monotonic.

Example C12_case :
  exists c, Monotonic 1 false 2 3 2 = Ok c
    /\ sat c (fun i => - INR i) /\ ~ sat c (fun i => INR i).
Proof.
  destruct (C12_monotonic 1 false 2 3 2) as (c & E & _ & S); [lia|].
  exists c. split; [exact E|]. rewrite !S. split.
  - intros t k l _ _ _. unfold eff. rewrite !plus_INR, !mult_INR, !plus_INR. simpl. lra.
  - intros H. specialize (H 0%nat 0%nat 0%nat ltac:(lia) ltac:(lia) ltac:(lia)).
    unfold eff in H. cbn in H. lra.
Qed.

(* ================================================================== C13 *)
Theorem C13_monotonic_mean (md : R) (increasing cross : bool) nnt nt nl nk :
  (1 <= nl)%nat -> in_periods nnt nt -> (cross = true -> NoDup nnt /\ nnt <> []) ->
  exists c, MonotonicMean md increasing cross nnt nt nl nk = Ok c
    /\ cons_wf (nt * nl * nk) c
    /\ forall x, sat c x <->
         forall t l, In t nnt -> (l + 1 < nl)%nat ->
           let m l := if cross then mean_over nnt (fun t => mean nk (eff nl nk x t l))
                      else mean nk (eff nl nk x t l) in
           if increasing then m (l + 1)%nat >= m l + md else m (l + 1)%nat <= m l - md.
Proof. exact (MonotonicMean_spec md increasing cross nnt nt nl nk). Qed.
Print Assumptions C13_monotonic_mean.

(* Means increase although firm type 0 decreases. *)
Example C13_case :
  exists c, MonotonicMean 0 true true [0; 1]%nat 2 2 2 = Ok c
    /\ sat c (fun i => nth i [1; 0; 0; 2; 1; 0; 0; 3] 0)
    /\ ~ sat c (fun i => nth i [1; 0; 0; 0; 1; 0; 0; 0] 0).
Proof.
  destruct (C13_monotonic_mean 0 true true [0; 1]%nat 2 2 2) as (c & E & _ & S); [lia| | |].
  { intros t [<-|[<-|[]]]; lia. }
  { intros _. split; [|discriminate]. repeat constructor; cbn; intuition discriminate. }
  exists c. split; [exact E|]. rewrite !S. split.
  - intros t l _ Hl. assert (l = 0)%nat by lia. subst l.
    unfold mean_over, mean, sumn, eff. cbn. lra.
  - intros H. specialize (H 0%nat 0%nat (or_introl eq_refl) ltac:(lia)).
    unfold mean_over, mean, sumn, eff in H. cbn in H. lra.
Qed.

(* ================================================================== C14 *)
Theorem C14_min_firm_type k0 (md : R) (is_min cross : bool) nnt nt nl nk :
  (k0 < nk)%nat -> in_periods nnt nt -> (cross = true -> NoDup nnt /\ nnt <> []) ->
  exists c, MinFirmType k0 md is_min cross nnt nt nl nk = Ok c
    /\ cons_wf (nt * nl * nk) c
    /\ forall x, sat c x <->
         forall t k, In t nnt -> (k < nk)%nat -> k <> k0 ->
           let m k := if cross then mean_over nnt (fun t => mean nl (fun l => eff nl nk x t l k))
                      else mean nl (fun l => eff nl nk x t l k) in
           if is_min then m k0 + md <= m k else m k0 - md >= m k.
Proof. exact (MinFirmType_spec k0 md is_min cross nnt nt nl nk). Qed.
Print Assumptions C14_min_firm_type.

Example C14_case :
  exists c, MinFirmType 1 1 true false [1]%nat 2 2 3 = Ok c
    /\ sat c (fun i => nth i [0; 9; 0; 0; 9; 0; 3; 1; 3; 1; 0; 2] 0)
    /\ ~ sat c (fun i => nth i [3; 1; 3; 1; 0; 2; 0; 9; 0; 0; 9; 0] 0).
Proof.
  destruct (C14_min_firm_type 1 1 true false [1]%nat 2 2 3) as (c & E & _ & S); [lia| | |].
  { intros t [<-|[]]; lia. }
  { discriminate. }
  exists c. split; [exact E|]. rewrite !S. split.
  - intros t k [<-|[]] Hk Hne.
    destruct k as [|[|[|k]]]; [|congruence| |lia]; unfold mean, sumn, eff; cbn; lra.
  - intros H. specialize (H 1%nat 0%nat (or_introl eq_refl) ltac:(lia) ltac:(lia)).
    unfold mean, sumn, eff in H. cbn in H. lra.
Qed.

(* ================================================================== C15 *)
Theorem C15_no_worker_type_interaction nnt nt nl nk :
  (1 <= nl)%nat -> in_periods nnt nt ->
  exists c, NoWorkerTypeInteraction nnt nt nl nk = Ok c /\ cons_wf (nt * nl * nk) c
    /\ forall x, sat c x <->
         forall t k l l', In t nnt -> (k < nk)%nat -> (l < nl)%nat -> (l' < nl)%nat ->
           eff nl nk x t l k = eff nl nk x t l' k.
Proof. exact (NoWTI_spec nnt nt nl nk). Qed.
Print Assumptions C15_no_worker_type_interaction.

Example C15_case :
  exists c, NoWorkerTypeInteraction [0]%nat 2 2 3 = Ok c
    /\ sat c (fun i => nth i [1; 2; 3; 1; 2; 3; 7; 8; 9; 0; 0; 0] 0)
    /\ ~ sat c (fun i => nth i [1; 2; 3; 1; 2; 4] 0).
Proof.
  destruct (C15_no_worker_type_interaction [0]%nat 2 2 3) as (c & E & _ & S); [lia| |].
  { intros t [<-|[]]; lia. }
  exists c. split; [exact E|]. rewrite !S. split.
  - intros t k l l' [<-|[]] Hk Hl Hl'. unfold eff.
    destruct k as [|[|[|k]]]; [| | |lia]; (destruct l as [|[|l]]; [| |lia]);
      (destruct l' as [|[|l']]; [| |lia]); cbn; reflexivity.
  - intros H. specialize (H 0%nat 2%nat 0%nat 1%nat (or_introl eq_refl) ltac:(lia) ltac:(lia) ltac:(lia)).
    unfold eff in H. cbn in H. lra.
Qed.

(* ================================================================== C16 *)
Theorem C16_normalize_lowest k0 (cross : bool) nnt nt nl nk :
  (k0 < nk)%nat -> (1 <= nl)%nat -> in_periods nnt nt ->
  (cross = true -> NoDup nnt /\ nnt <> []) ->
  exists c, NormalizeLowest k0 cross nnt nt nl nk = Ok c /\ cons_wf (nt * nl * nk) c
    /\ forall x, sat c x <->
         if cross then mean_over nnt (fun t => eff nl nk x t 0 k0) = 0
         else forall t, In t nnt -> eff nl nk x t 0 k0 = 0.
Proof. exact (NormalizeLowest_spec k0 cross nnt nt nl nk). Qed.
Print Assumptions C16_normalize_lowest.

Theorem C16_normalize_all k0 (cross : bool) nnt nt nl nk :
  (k0 < nk)%nat -> in_periods nnt nt -> (cross = true -> NoDup nnt /\ nnt <> []) ->
  exists c, NormalizeAll k0 cross nnt nt nl nk = Ok c /\ cons_wf (nt * nl * nk) c
    /\ forall x, sat c x <->
         forall l, (l < nl)%nat ->
           if cross then mean_over nnt (fun t => eff nl nk x t l k0) = 0
           else forall t, In t nnt -> eff nl nk x t l k0 = 0.
Proof. exact (NormalizeAll_spec k0 cross nnt nt nl nk). Qed.
Print Assumptions C16_normalize_all.

Example C16_case :
  exists c, NormalizeAll 1 true [0; 1]%nat 2 2 2 = Ok c
    /\ sat c (fun i => nth i [5; 1; 5; 2; 5; -1; 5; -2] 0)
    /\ ~ sat c (fun i => nth i [0; 1; 0; 0; 0; 0; 0; 0] 0).
Proof.
  destruct (C16_normalize_all 1 true [0; 1]%nat 2 2 2) as (c & E & _ & S); [lia| | |].
  { intros t [<-|[<-|[]]]; lia. }
  { intros _. split; [|discriminate]. repeat constructor; cbn; intuition discriminate. }
  exists c. split; [exact E|]. rewrite !S. split.
  - intros l Hl. destruct l as [|[|l]]; [| |lia]; unfold mean_over, eff; cbn; lra.
  - intros H. specialize (H 0%nat ltac:(lia)). unfold mean_over, eff in H. cbn in H. lra.
Qed.

(* ================================================================== C17 *)
(* The full property asks that Stationary(nwt=n) constrains the effects of the
   first n worker types, so that n = 1 with NoWorkerTypeInteraction and n = 2
   with Linear give full stationarity.  Proved when every worker type is
   constrained; refuted below for the documented uses of nwt = 1 and nwt = 2. *)
Theorem C17_stationary_partial nwt nt nl nk :
  (nwt = -1 \/ Z.of_nat nl <= nwt)%Z -> (1 <= nt)%nat -> (1 <= nl)%nat ->
  exists c, Stationary nwt nt nl nk = Ok c /\ cons_wf (nt * nl * nk) c
    /\ forall x, sat c x <->
         forall t l k, (t + 1 < nt)%nat -> (l < nl)%nat -> (k < nk)%nat ->
           eff nl nk x t l k = eff nl nk x (t + 1) l k.
Proof. exact (Stationary_all nwt nt nl nk). Qed.
Print Assumptions C17_stationary_partial.

(* What Stationary(nwt) constrains for any nwt: flat positions nl * k + l of
   consecutive periods, l below min(nl, nwt). *)
Theorem C17_stationary_exact nwt nt nl nk :
  (nwt = -1 \/ 1 <= nwt)%Z -> (1 <= nt)%nat ->
  let nl_adj := if (nwt =? -1)%Z then nl else Nat.min nl (Z.to_nat nwt) in
  exists c, Stationary nwt nt nl nk = Ok c /\ cons_wf (nt * nl * nk) c
    /\ forall x, sat c x <->
         forall t k l, (t + 1 < nt)%nat -> (k < nk)%nat -> (l < nl_adj)%nat ->
           x (t * nl * nk + (nl * k + l))%nat = x ((t + 1) * nl * nk + (nl * k + l))%nat.
Proof. exact (Stationary_raw nwt nt nl nk). Qed.
Print Assumptions C17_stationary_exact.

(* With NoWorkerTypeInteraction, nwt = 1 works when nl and nk are coprime ... *)
Theorem C17_one_type_coprime nt nl nk x :
  (1 <= nt)%nat -> (1 <= nl)%nat -> Nat.gcd nl nk = 1%nat ->
  (forall t k l l', (t < nt)%nat -> (k < nk)%nat -> (l < nl)%nat -> (l' < nl)%nat ->
     eff nl nk x t l k = eff nl nk x t l' k) ->
  exists c, Stationary 1 nt nl nk = Ok c /\ (sat c x <-> stationary nt nl nk x).
Proof. exact (Stationary1_coprime nt nl nk x). Qed.
Print Assumptions C17_one_type_coprime.

(* ... and fails for all other sizes. *)
Theorem C17_one_type_refuted nt nl nk :
  (2 <= nt)%nat -> (1 <= nl)%nat -> (1 <= nk)%nat -> Nat.gcd nl nk <> 1%nat ->
  exists c x, Stationary 1 nt nl nk = Ok c
    /\ (forall t k l l', (t < nt)%nat -> (k < nk)%nat -> (l < nl)%nat -> (l' < nl)%nat ->
          eff nl nk x t l k = eff nl nk x t l' k)
    /\ sat c x /\ ~ stationary nt nl nk x.
Proof. exact (Stationary1_common_factor nt nl nk). Qed.
Print Assumptions C17_one_type_refuted.

Theorem C17_two_types_refuted :
  exists c x, Stationary 2 2 3 3 = Ok c /\ sat c x
    /\ (forall t k, (t < 2)%nat -> (k < 3)%nat -> linear_in_l 3 3 x t k)
    /\ ~ stationary 2 3 3 x.
Proof. exact Stationary2_linear. Qed.
Print Assumptions C17_two_types_refuted.

Example C17_case : Nat.gcd 2 2 <> 1%nat /\ Nat.gcd 3 10 = 1%nat /\ Nat.gcd 6 10 <> 1%nat.
Proof. repeat split; vm_compute; congruence. Qed.

(* ================================================================== C18 *)
Theorem C18_stationary_firm_type_variation nnt nt nl nk :
  (forall t, In t nnt -> 1 <= t < nt)%nat ->
  exists c, StationaryFirmTypeVariation nnt nt nl nk = Ok c /\ cons_wf (nt * nl * nk) c
    /\ forall x, sat c x <->
         forall t, In t nnt ->
         forall l k, (l < nl)%nat -> (k < nk)%nat ->
           eff nl nk x t l k - mean nk (eff nl nk x t l)
           = eff nl nk x 0 l k - mean nk (eff nl nk x 0 l).
Proof. exact (SFTV_spec nnt nt nl nk). Qed.
Print Assumptions C18_stationary_firm_type_variation.

Example C18_case :
  exists c, StationaryFirmTypeVariation [1]%nat 2 2 2 = Ok c
    /\ sat c (fun i => nth i [1; 2; 3; 5; 11; 12; 23; 25] 0)
    /\ ~ sat c (fun i => nth i [1; 2; 3; 5; 11; 12; 23; 26] 0).
Proof.
  destruct (C18_stationary_firm_type_variation [1]%nat 2 2 2) as (c & E & _ & S).
  { intros t [<-|[]]; lia. }
  exists c. split; [exact E|]. rewrite !S. split.
  - intros t [<-|[]] l k Hl Hk.
    destruct l as [|[|l]]; [| |lia]; (destruct k as [|[|k]]; [| |lia]);
      unfold mean, sumn, eff; cbn; lra.
  - intros H. specialize (H 1%nat (or_introl eq_refl) 1%nat 1%nat ltac:(lia) ltac:(lia)).
    unfold mean, sumn, eff in H. cbn in H. lra.
Qed.

(* ================================================================== C19 *)
Theorem C19_bounded_below lb nt nl nk :
  exists c, BoundedBelow lb nt nl nk = Ok c /\ cons_wf (nt * nl * nk) c
    /\ forall x, sat c x <->
         forall t l k, (t < nt)%nat -> (l < nl)%nat -> (k < nk)%nat -> lb <= eff nl nk x t l k.
Proof. exact (BoundedBelow_spec lb nt nl nk). Qed.
Print Assumptions C19_bounded_below.

Theorem C19_bounded_above ub nt nl nk :
  exists c, BoundedAbove ub nt nl nk = Ok c /\ cons_wf (nt * nl * nk) c
    /\ forall x, sat c x <->
         forall t l k, (t < nt)%nat -> (l < nl)%nat -> (k < nk)%nat -> eff nl nk x t l k <= ub.
Proof. exact (BoundedAbove_spec ub nt nl nk). Qed.
Print Assumptions C19_bounded_above.

Example C19_case :
  exists c, BoundedBelow 1 2 2 1 = Ok c
    /\ sat c (fun i => nth i [1; 2; 3; 4] 0) /\ ~ sat c (fun i => nth i [1; 2; 3; 0] 0).
Proof.
  destruct (C19_bounded_below 1 2 2 1) as (c & E & _ & S).
  exists c. split; [exact E|]. rewrite !S. split.
  - intros t l k Ht Hl Hk. unfold eff.
    destruct t as [|[|t]]; [| |lia]; (destruct l as [|[|l]]; [| |lia]);
      (destruct k as [|k]; [|lia]); cbn; lra.
  - intros H. specialize (H 1%nat 1%nat 0%nat ltac:(lia) ltac:(lia) ltac:(lia)).
    unfold eff in H. cbn in H. lra.
Qed.

(* ================================================================== C20 *)
(* The full property covers every state, in particular the unconstrained one.
   Proved when the object holds both kinds of constraints (or nothing is
   padded); refuted below for objects that lack one kind. *)
Theorem C20_pad_partial n nl nk ops l r :
  Forall (op_ok n nl nk) ops ->
  forall s, run ops (qp_init nl nk) = Ok s ->
  (q_G s <> Arr1 [] /\ q_A s <> Arr1 [] \/ (l + r = 0)%nat) ->
  exists s', pad l r s = Ok s' /\
    forall x, accepts s' x <-> accepts s (fun j => x (l + j)%nat).
Proof. exact (run_pad n nl nk ops l r). Qed.
Print Assumptions C20_pad_partial.

(* Padding an unconstrained object: the solver is handed a one-dimensional G
   with l + r entries and an empty bound, and a later constraint cannot be
   added. *)
Theorem C20_pad_refuted l r nl nk :
  (0 < l + r)%nat ->
  exists s, pad l r (qp_init nl nk) = Ok s
    /\ (forall n, p_G (snd (solve false n s)) = Some (Arr1 (full (l + r) 0), []))
    /\ (forall d, cons_wf (l + r) d -> (exists m h, c_G d = Some (m, h) /\ (0 < nr m)%nat) ->
          add_constraint d s = Err ValueError).
Proof. exact (pad_empty l r nl nk). Qed.
Print Assumptions C20_pad_refuted.

Example C20_case :
  exists s, run [OpAdd [CBoundedBelow 0 1; CNormalizeAll 0 false None 1]] (qp_init 2 2) = Ok s
    /\ q_G s <> Arr1 [] /\ q_A s <> Arr1 [].
Proof.
  eexists. split; [reflexivity|]. split; discriminate.
Qed.

(* ================================================================== C54 *)
(* check_feasible poses its problem on nl * nk unknowns.  That is the number
   of parameters constrained when the constraints are built for one period. *)
Theorem C54_check_feasible_partial nl nk ops :
  Forall (op_ok (1 * nl * nk) nl nk) ops ->
  forall s, run ops (qp_init nl nk) = Ok s -> problem_ok (snd (check_feasible s)).
Proof. exact (check_ok nl nk ops). Qed.
Print Assumptions C54_check_feasible_partial.

(* With two or more periods (two is the default of every built-in class) the
   number of columns differs from the number of unknowns. *)
Theorem C54_check_feasible_refuted lb nt nl nk :
  (2 <= nt)%nat -> (1 <= nl)%nat -> (1 <= nk)%nat ->
  exists s, run [OpAdd [CBoundedBelow lb nt]] (qp_init nl nk) = Ok s
    /\ ~ problem_ok (snd (check_feasible s)).
Proof. exact (check_bad lb nt nl nk). Qed.
Print Assumptions C54_check_feasible_refuted.

Example C54_case : Forall (op_ok (1 * 2 * 3) 2 3) [OpAdd [CMonotonic 0 true 1]; OpCheck].
Proof.
  repeat constructor; cbn [op_ok]; auto.
  intros c [<-|[]]. apply valid_buildable. cbn [valid]. lia.
Qed.
