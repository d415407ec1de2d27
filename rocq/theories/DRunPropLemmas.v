(* Lemmas for the refuted parts and the cases of property C95. *)
From Coq Require Import Permutation Lra Lia.
From Verif Require Import Base BaseLemmas UtilModel UtilSpec ConsModel ConsSpec BLMModel BLMSpec BLMRunModel
  BLMFitModel DBLMModel DBLMSpec DBLMEMSpec DBLMPropLemmas ConnModel ConnSpec ConnPropLemmas
  DRunModel DRunSpec DRunLemmas.
Local Open Scope res_scope.
Local Open Scope R_scope.

Lemma switches_ignored argsort solver eig pp nl nk force c a s k b blm all data m :
  dcstr_uncstr argsort solver eig pp nl nk force (dset_up a s k c) b blm all data m
  = dcstr_uncstr argsort solver eig pp nl nk force c b blm all data m.
Proof. destruct blm; reflexivity. Qed.

Lemma force_fails argsort solver eig pp nl nk c b blm all data m : (0 < nk)%nat ->
  dcstr_uncstr argsort solver eig pp nl nk true c b blm all data m = Err TypeError.
Proof. destruct nk; [lia|]. intros _. unfold dcstr_uncstr, fit_movers_m. destruct blm; reflexivity. Qed.

Lemma fit_m_counted argsort solver pp nl nk force c data m m' :
  fit_movers_m argsort solver pp nl nk force c false data m = Ok m' -> m_counted m' = m_counted m.
Proof.
  unfold fit_movers_m. destruct force; [destruct nk; discriminate|].
  destruct (dfit_movers _ _ _ _ _ _ _ _ _) as [[[p lik] ls]|e]; cbn [bind]; [|discriminate].
  now intros [= <-].
Qed.

Lemma uncounted_fails argsort solver eig pp nl nk force c blm all data m x : m_counted m = false ->
  dcstr_uncstr argsort solver eig pp nl nk force c false blm all data m <> Ok x.
Proof.
  intros Hm. unfold dcstr_uncstr. cbv zeta.
  assert (Last : forall c' m', m_counted m' = false ->
    bind (fit_movers_m argsort solver pp nl nk force c' false data m') (connect_m eig nl nk) <> Ok x).
  { intros c' m' H. destruct (fit_movers_m _ _ _ _ _ _ _ _ _ m') as [m''|e] eqn:E; cbn [bind]; [|discriminate].
    apply fit_m_counted in E. unfold connect_m. rewrite E, H. discriminate. }
  destruct blm as [b|].
  - destruct (fit_movers_m _ _ _ _ _ _ (dset_up false true false c) _ _ _) as [m1|e] eqn:E1; cbn [bind]; [|discriminate].
    apply fit_m_counted in E1. cbn [m_counted] in E1. rewrite Hm in E1.
    destruct (1 <? nl)%nat; cbn [bind]; [|now apply Last].
    destruct (fit_movers_m _ _ _ _ _ _ _ _ _ m1) as [m2|e] eqn:E2; cbn [bind]; [|discriminate].
    apply fit_m_counted in E2. rewrite E1 in E2.
    destruct (fit_movers_m _ _ _ _ _ _ _ _ _ m2) as [m3|e] eqn:E3; cbn [bind]; [|discriminate].
    apply fit_m_counted in E3. rewrite E2 in E3. now apply Last.
  - destruct (fit_movers_m _ _ _ _ _ _ (dset_up false true true c) _ _ _) as [m1|e] eqn:E1; cbn [bind]; [|discriminate].
    apply fit_m_counted in E1. rewrite Hm in E1.
    destruct (1 <? nl)%nat; cbn [bind]; [|now apply Last].
    destruct (fit_movers_m _ _ _ _ _ _ _ _ _ m1) as [m2|e] eqn:E2; cbn [bind]; [|discriminate].
    apply fit_m_counted in E2. rewrite E1 in E2.
    destruct (fit_movers_m _ _ _ _ _ _ _ _ _ m2) as [m3|e] eqn:E3; cbn [bind]; [|discriminate].
    apply fit_m_counted in E3. rewrite E2 in E3. now apply Last.
Qed.

(* ---- case: two worker types, two firm types, three starting values ---- *)
Definition w_draws (x : R) : draws :=
  mkdraws (fun _ l k => x * INR l + INR k) (fun _ _ => 0) (fun _ _ _ => 1) (fun _ _ => 0) (fun _ _ => 1 / 2).
Definition w_static : static :=
  mkstatic (fun l k => INR l) (fun l k => INR l + INR k) (fun _ _ => 1 / 2) (fun _ _ => 1 / 2).
Lemma w_draws_ok x : draws_ok 2 2 (w_draws x).
Proof. split; intros; cbn [w_draws r_S r_pk1]; lra. Qed.
Lemma w_static_ok b : Some w_static = Some b -> static_ok 2 2 b.
Proof. intros [= <-]. split; intros; cbn [w_static s_pk1 s_pk0]; lra. Qed.
