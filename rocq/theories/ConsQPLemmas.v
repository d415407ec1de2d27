(* QPConstrained: composition of constraints, clearing, padding. *)
From Coq Require Import Permutation.
From Verif Require Import Base BaseLemmas UtilModel ConsModel ConsSpec ConsLemmas
  ConsBuildLemmas ConsBuild2Lemmas ConsBuild3Lemmas.
Local Open Scope R_scope.

(* The (G, h) or (A, b) half of the state: empty, or a matrix with n columns. *)
Definition half_ok (n : nat) (a : arr) (rhs : list R) : Prop :=
  (a = Arr1 [] /\ rhs = []) \/
  exists m, a = Arr2 m /\ (0 < nr m)%nat /\ nc m = n /\ length rhs = nr m.

Definition half_sat (cmp : R -> R -> Prop) (a : arr) (rhs : list R) (x : nat -> R) : Prop :=
  match a with
  | Arr2 m | ArrSp m => forall r, (r < nr m)%nat -> cmp (rowdot m r x) (nth r rhs 0)
  | Arr1 _ => True
  end.

Lemma add_half_ok cmp n a rhs new :
  half_ok n a rhs -> half_wf n new ->
  exists a' rhs', add_half a rhs new = Ok (a', rhs') /\ half_ok n a' rhs'
    /\ forall x, half_sat cmp a' rhs' x <->
         half_sat cmp a rhs x /\
         match new with
         | None => True
         | Some (m, v) => forall r, (r < nr m)%nat -> cmp (rowdot m r x) (nth r v 0)
         end.
Proof.
  intros Ha Hn. destruct new as [[m v]|]; cbn [add_half half_wf] in *.
  2:{ exists a, rhs. split; [reflexivity|]. split; [exact Ha|]. tauto. }
  destruct Hn as [Hc Hl].
  destruct (Nat.ltb_spec 0 (nr m)) as [Hm|Hm].
  2:{ exists a, rhs. split; [reflexivity|]. split; [exact Ha|]. intros x. split; [|tauto].
      intros H. split; [exact H|]. intros r Hr. lia. }
  destruct Ha as [[-> ->]|(m1 & -> & Hm1 & Hc1 & Hl1)]; cbn [arr_len bind length].
  - cbn [Nat.ltb Nat.leb]. exists (Arr2 m), v. split; [reflexivity|]. split.
    + right. eauto.
    + intros x. cbn [half_sat]. tauto.
  - destruct (Nat.ltb_spec 0 (nr m1)); [|lia]. cbn [arr_concat]. unfold vstack.
    rewrite Hc1, Hc, Nat.eqb_refl. cbn [rmap bind].
    eexists _, _. split; [reflexivity|]. split.
    + right. eexists. split; [reflexivity|]. cbn [nr nc]. repeat split; auto; [lia|].
      rewrite app_length. lia.
    + intros x. cbn [half_sat nr].
      assert (E1 : forall r, (r < nr m1)%nat ->
        rowdot (mkmat (nr m1 + nr m) n (fun i j => if (i <? nr m1)%nat then ent m1 i j
                  else ent m (i - nr m1) j)) r x = rowdot m1 r x).
      { intros r Hr. unfold rowdot; cbn [nc ent]. rewrite Hc1. apply sumn_ext. intros j _.
        destruct (Nat.ltb_spec r (nr m1)); [reflexivity|lia]. }
      assert (E2 : forall r,
        rowdot (mkmat (nr m1 + nr m) n (fun i j => if (i <? nr m1)%nat then ent m1 i j
                  else ent m (i - nr m1) j)) (nr m1 + r) x = rowdot m r x).
      { intros r. unfold rowdot; cbn [nc ent]. rewrite Hc. apply sumn_ext. intros j _.
        destruct (Nat.ltb_spec (nr m1 + r) (nr m1)); [lia|].
        replace (nr m1 + r - nr m1)%nat with r by lia. reflexivity. }
      split.
      * intros H0. split.
        -- intros r Hr. specialize (H0 r ltac:(lia)). rewrite E1 in H0 by exact Hr.
           rewrite app_nth1 in H0 by lia. exact H0.
        -- intros r Hr. specialize (H0 (nr m1 + r)%nat ltac:(lia)). rewrite E2 in H0.
           rewrite app_nth2 in H0 by lia.
           replace (nr m1 + r - length rhs)%nat with r in H0 by lia. exact H0.
      * intros [Ha Hb] r Hr. destruct (le_lt_dec (nr m1) r) as [Hge|Hlt].
        -- replace r with (nr m1 + (r - nr m1))%nat by lia. rewrite E2.
           rewrite app_nth2 by lia.
           replace (nr m1 + (r - nr m1) - length rhs)%nat with (r - nr m1)%nat by lia.
           apply Hb. lia.
        -- rewrite E1 by exact Hlt. rewrite app_nth1 by lia. now apply Ha.
Qed.

Definition qp_ok (n : nat) (s : qp) : Prop :=
  half_ok n (q_G s) (q_h s) /\ half_ok n (q_A s) (q_b s).

Definition le_sat (s : qp) (x : nat -> R) : Prop := half_sat Rle (q_G s) (q_h s) x.
Definition eq_sat (s : qp) (x : nat -> R) : Prop := half_sat eq (q_A s) (q_b s) x.

Lemma add_constraint_ok n d s :
  qp_ok n s -> cons_wf n d ->
  exists s', add_constraint d s = Ok s' /\ qp_ok n s'
    /\ q_nl s' = q_nl s /\ q_nk s' = q_nk s
    /\ (forall x, le_sat s' x <-> le_sat s x /\ sat_G d x)
    /\ (forall x, eq_sat s' x <-> eq_sat s x /\ sat_A d x).
Proof.
  intros [HG HA] [WG WA]. unfold add_constraint.
  destruct (add_half_ok Rle n _ _ (c_G d) HG WG) as (G & h & E1 & O1 & S1).
  destruct (add_half_ok eq n _ _ (c_A d) HA WA) as (A & b & E2 & O2 & S2).
  rewrite E1. cbn [bind]. rewrite E2. cbn [bind].
  eexists. split; [reflexivity|]. split; [now split|]. split; [reflexivity|].
  split; [reflexivity|]. split.
  - intros x. unfold le_sat; cbn [q_G q_h]. rewrite S1. reflexivity.
  - intros x. unfold eq_sat; cbn [q_A q_b]. rewrite S2. reflexivity.
Qed.

Lemma add_constraints_ok n cs s :
  qp_ok n s ->
  (forall c, In c cs -> exists d, get_constraints c (q_nl s) (q_nk s) = Ok d /\ cons_wf n d) ->
  exists s', add_constraints cs s = Ok s' /\ qp_ok n s'
    /\ q_nl s' = q_nl s /\ q_nk s' = q_nk s
    /\ (forall x, le_sat s' x <-> le_sat s x /\
          forall c d, In c cs -> get_constraints c (q_nl s) (q_nk s) = Ok d -> sat_G d x)
    /\ (forall x, eq_sat s' x <-> eq_sat s x /\
          forall c d, In c cs -> get_constraints c (q_nl s) (q_nk s) = Ok d -> sat_A d x).
Proof.
  unfold add_constraints. revert s. induction cs as [|c cs IH]; intros s Hs Hcs.
  - exists s. cbn [for_each]. split; [reflexivity|]. split; [exact Hs|].
    repeat split; try tauto; try (intros ? ? []); intros [H _]; exact H.
  - cbn [for_each]. destruct (Hcs c (or_introl eq_refl)) as (d & Ed & Wd).
    rewrite Ed. cbn [bind].
    destruct (add_constraint_ok n d s Hs Wd) as (s1 & E1 & O1 & L1 & K1 & SG & SA).
    rewrite E1. cbn [bind].
    destruct (IH s1 O1) as (s' & E' & O' & L' & K' & SG' & SA').
    { intros c' Hc'. rewrite L1, K1. apply Hcs. now right. }
    exists s'. split; [exact E'|]. split; [exact O'|].
    split; [congruence|]. split; [congruence|]. rewrite L1, K1 in *. split.
    + intros x. rewrite SG', SG. split.
      * intros [[H1 H2] H3]. split; [exact H1|]. intros c' d' [<-|Hc'] E; [congruence|eauto].
      * intros [H1 H2]. split; [split; [exact H1|apply (H2 c); [now left|exact Ed]]|].
        intros c' d' Hc' E. apply (H2 c'); [now right|exact E].
    + intros x. rewrite SA', SA. split.
      * intros [[H1 H2] H3]. split; [exact H1|]. intros c' d' [<-|Hc'] E; [congruence|eauto].
      * intros [H1 H2]. split; [split; [exact H1|apply (H2 c); [now left|exact Ed]]|].
        intros c' d' Hc' E. apply (H2 c'); [now right|exact E].
Qed.

(* One operation. *)
Lemma step_ok n nl nk o s :
  q_nl s = nl -> q_nk s = nk -> qp_ok n s -> op_ok n nl nk o ->
  exists s', step o s = Ok s' /\ qp_ok n s' /\ q_nl s' = nl /\ q_nk s' = nk
    /\ (forall x, le_sat s' x <->
          (clears_G o \/ le_sat s x) /\ forall d, adds nl nk o d -> sat_G d x)
    /\ (forall x, eq_sat s' x <->
          (clears_A o \/ eq_sat s x) /\ forall d, adds nl nk o d -> sat_A d x).
Proof.
  intros <- <- Hs Ho. destruct o as [cs|d|i e| |sp k]; cbn [step op_ok adds] in *.
  - destruct (add_constraints_ok n cs s Hs Ho) as (s' & E & O & L & K & SG & SA).
    exists s'. split; [exact E|]. split; [exact O|]. split; [exact L|]. split; [exact K|].
    split; intros x.
    + rewrite SG. split.
      * intros [H1 H2]. split; [now right|]. intros d (c & Hc & Ec). eapply H2; eassumption.
      * intros [[[e' H1]|H1] H2]; [discriminate|]. split; [exact H1|].
        intros c d Hc Ec. apply H2. now exists c.
    + rewrite SA. split.
      * intros [H1 H2]. split; [now right|]. intros d (c & Hc & Ec). eapply H2; eassumption.
      * intros [[[e' H1]|H1] H2]; [discriminate|]. split; [exact H1|].
        intros c d Hc Ec. apply H2. now exists c.
  - destruct (add_constraint_ok n d s Hs Ho) as (s' & E & O & L & K & SG & SA).
    exists s'. split; [exact E|]. split; [exact O|]. split; [exact L|]. split; [exact K|].
    split; intros x.
    + rewrite SG. split.
      * intros [H1 H2]. split; [now right|]. now intros ? ->.
      * intros [[[e' H1]|H1] H2]; [discriminate|]. auto.
    + rewrite SA. split.
      * intros [H1 H2]. split; [now right|]. now intros ? ->.
      * intros [[[e' H1]|H1] H2]; [discriminate|]. auto.
  - eexists. split; [reflexivity|]. destruct Hs as [HG HA].
    assert (N : half_ok n (Arr1 []) []) by now left.
    split; [destruct i, e; split; cbn; assumption|].
    split; [destruct i, e; reflexivity|]. split; [destruct i, e; reflexivity|].
    split; intros x; (split; [|intros [H1 _]]).
    + intros H. split; [|intros ? []]. destruct i; [left; now exists e|right].
      destruct e; exact H.
    + destruct H1 as [[e' H1]|H1]; [injection H1 as -> ->; destruct e'; exact I|].
      destruct i, e; cbn; try exact I; exact H1.
    + intros H. split; [|intros ? []]. destruct e; [left; now exists i|right].
      destruct i; exact H.
    + destruct H1 as [[e' H1]|H1]; [injection H1 as -> ->; destruct e'; exact I|].
      destruct i, e; cbn; try exact I; exact H1.
  - exists s. split; [reflexivity|]. split; [exact Hs|]. split; [reflexivity|].
    split; [reflexivity|]. split; intros x; split.
    + intros H. split; [now right|intros ? []].
    + intros [[[e' H1]|H1] _]; [discriminate|exact H1].
    + intros H. split; [now right|intros ? []].
    + intros [[[e' H1]|H1] _]; [discriminate|exact H1].
  - subst sp. exists s. split; [reflexivity|]. split; [exact Hs|]. split; [reflexivity|].
    split; [reflexivity|]. split; intros x; split.
    + intros H. split; [now right|intros ? []].
    + intros [[[e' H1]|H1] _]; [discriminate|exact H1].
    + intros H. split; [now right|intros ? []].
    + intros [[[e' H1]|H1] _]; [discriminate|exact H1].
Qed.

Lemma clears_G_dec o : clears_G o \/ ~ clears_G o.
Proof.
  destruct o as [| |[] e| |]; try (right; intros [e' H]; discriminate). left; now exists e.
Qed.
Lemma clears_A_dec o : clears_A o \/ ~ clears_A o.
Proof.
  destruct o as [| |i []| |]; try (right; intros [e' H]; discriminate). left; now exists i.
Qed.

(* Active constraints after one more operation. *)
Lemma active_snoc (cl : op -> Prop) nl nk ops o d :
  (cl o \/ ~ cl o) ->
  active cl nl nk (ops ++ [o]) d <-> (active cl nl nk ops d /\ ~ cl o) \/ adds nl nk o d.
Proof.
  intros Hdec. split.
  - intros (pre & o1 & post & E & Ha & Hc).
    destruct (exists_last (l := o1 :: post)) as (l' & z & El); [discriminate|].
    destruct post as [|o2 post'].
    + assert (E' : pre ++ [o1] = ops ++ [o]) by (symmetry; exact E).
      apply app_inj_tail in E' as [-> ->]. now right.
    + assert (G : exists post'', o2 :: post' = post'' ++ [o] /\ ops = pre ++ o1 :: post'').
      { destruct (exists_last (l := o2 :: post')) as (p'' & z' & Ep); [discriminate|].
        rewrite Ep in E. rewrite app_comm_cons, app_assoc in E.
        apply app_inj_tail in E as [-> ->]. now exists p''. }
      destruct G as (post'' & Ep & ->). left. split.
      * exists pre, o1, post''. split; [reflexivity|]. split; [exact Ha|].
        intros o' Ho'. apply Hc. rewrite Ep. apply in_or_app. now left.
      * apply Hc. rewrite Ep. apply in_or_app. right. now left.
  - intros [[(pre & o1 & post & -> & Ha & Hc) Hn]|Ha].
    + exists pre, o1, (post ++ [o]). split; [now rewrite <- app_assoc|]. split; [exact Ha|].
      intros o' Ho'. apply in_app_or in Ho' as [Ho'|[<-|[]]]; auto.
    + exists ops, o, []. split; [reflexivity|]. split; [exact Ha|]. intros o' [].
Qed.

Lemma active_nil cl nl nk d : ~ active cl nl nk [] d.
Proof. intros (pre & o & post & E & _). now apply app_cons_not_nil in E. Qed.

Lemma run_snoc ops o s : run (ops ++ [o]) s = bind (run ops s) (step o).
Proof.
  unfold run. rewrite for_each_app. cbn [for_each].
  destruct (for_each ops step s); cbn [bind]; [apply bind_ok|reflexivity].
Qed.

Lemma run_ok n nl nk ops :
  Forall (op_ok n nl nk) ops ->
  exists s, run ops (qp_init nl nk) = Ok s /\ qp_ok n s /\ q_nl s = nl /\ q_nk s = nk
    /\ (forall x, le_sat s x <-> forall d, active clears_G nl nk ops d -> sat_G d x)
    /\ (forall x, eq_sat s x <-> forall d, active clears_A nl nk ops d -> sat_A d x).
Proof.
  induction ops as [|o ops IH] using rev_ind; intros H.
  - exists (qp_init nl nk). split; [reflexivity|]. split; [split; now left|].
    split; [reflexivity|]. split; [reflexivity|].
    split; intros x; (split; [intros _ d Hd; exfalso; exact (active_nil _ _ _ _ Hd)|intros _; exact I]).
  - apply Forall_app in H as [H Ho]. inversion Ho as [|? ? Ho' _]; subst.
    destruct (IH H) as (s & E & O & L & K & SG & SA).
    destruct (step_ok n nl nk o s L K O Ho') as (s' & E' & O' & L' & K' & SG' & SA').
    exists s'. rewrite run_snoc, E. cbn [bind]. split; [exact E'|]. split; [exact O'|].
    split; [exact L'|]. split; [exact K'|]. split; intros x.
    + rewrite SG', SG. split.
      * intros [H1 H2] d Hd. apply active_snoc in Hd; [|apply clears_G_dec].
        destruct Hd as [[Hd Hn]|Hd]; [destruct H1; [contradiction|auto]|auto].
      * intros H1. split.
        -- destruct (clears_G_dec o) as [Hc|Hc]; [now left|right]. intros d Hd. apply H1.
           apply active_snoc; [now right|]. left; auto.
        -- intros d Hd. apply H1. apply active_snoc; [apply clears_G_dec|]. now right.
    + rewrite SA', SA. split.
      * intros [H1 H2] d Hd. apply active_snoc in Hd; [|apply clears_A_dec].
        destruct Hd as [[Hd Hn]|Hd]; [destruct H1; [contradiction|auto]|auto].
      * intros H1. split.
        -- destruct (clears_A_dec o) as [Hc|Hc]; [now left|right]. intros d Hd. apply H1.
           apply active_snoc; [now right|]. left; auto.
        -- intros d Hd. apply H1. apply active_snoc; [apply clears_A_dec|]. now right.
Qed.

Lemma accepts_iff n s x : qp_ok n s -> accepts s x <-> le_sat s x /\ eq_sat s x.
Proof.
  intros [HG HA]. unfold accepts, feasible, solve, le_sat, eq_sat. cbn [snd p_G p_A].
  assert (P : forall (cmp : R -> R -> Prop) a rhs, half_ok n a rhs ->
    (match (if (0 <? arr_rows a)%nat then Some (a, rhs) else None) with
     | None => True
     | Some (Arr2 m, h) | Some (ArrSp m, h) =>
         forall r, (r < nr m)%nat -> cmp (rowdot m r x) (nth r h 0)
     | Some (Arr1 _, _) => False
     end <-> half_sat cmp a rhs x)).
  { intros cmp a rhs [[-> ->]|(m & -> & Hm & _)]; cbn [arr_rows half_sat].
    - reflexivity.
    - destruct (Nat.ltb_spec 0 (nr m)); [reflexivity|lia]. }
  pose proof (P Rle _ _ HG) as PG. pose proof (P eq _ _ HA) as PA.
  unfold all_le, all_eq. split.
  - intros H. destruct (H 0%nat) as [H1 H2]. split; [now apply PG|now apply PA].
  - intros [H1 H2] _. split; [now apply PG|now apply PA].
Qed.

(* The dimension used by solve does not matter for the constraints. *)
Lemma run_accepts n nl nk ops :
  Forall (op_ok n nl nk) ops ->
  exists s, run ops (qp_init nl nk) = Ok s /\
    forall x, accepts s x <->
      (forall d, active clears_G nl nk ops d -> sat_G d x) /\
      (forall d, active clears_A nl nk ops d -> sat_A d x).
Proof.
  intros H. destruct (run_ok n nl nk ops H) as (s & E & O & _ & _ & SG & SA).
  exists s. split; [exact E|]. intros x. rewrite (accepts_iff n s x O), SG, SA. reflexivity.
Qed.

Lemma adds_perm nl nk cs cs' d :
  Permutation cs cs' -> adds nl nk (OpAdd cs) d <-> adds nl nk (OpAdd cs') d.
Proof.
  intros P. cbn [adds]. split; intros (c & Hc & E); exists c; split; auto;
    [now apply (Permutation_in _ P)|now apply (Permutation_in _ (Permutation_sym P))].
Qed.

(* Replacing one operation by another that adds and clears the same. *)
Lemma active_replace (cl : op -> Prop) nl nk pre o o' post d :
  (forall d, adds nl nk o d <-> adds nl nk o' d) -> (cl o <-> cl o') ->
  active cl nl nk (pre ++ o :: post) d -> active cl nl nk (pre ++ o' :: post) d.
Proof.
  intros Ha Hc. revert d. induction post as [|z post IH] using rev_ind; intros d H.
  - destruct H as (p & o1 & q & E & Had & Hcl).
    assert (D : pre ++ [o] = p ++ o1 :: q) by exact E. clear E.
    destruct (exists_last (l := o1 :: q)) as (l' & z & El); [discriminate|].
    rewrite El, app_assoc in D. apply app_inj_tail in D as [Ep ->].
    destruct q as [|q0 q'].
    + assert (E1 : l' ++ [z] = [] ++ [o1]) by (symmetry; exact El).
      apply app_inj_tail in E1 as [-> ->]. rewrite app_nil_r in Ep. subst.
      exists p, o', []. repeat split; auto. now apply Ha.
    + destruct l' as [|l0 l'']; [discriminate|]. injection El as -> El.
      exists p, l0, (l'' ++ [o']). rewrite Ep, <- app_assoc.
      split; [reflexivity|]. split; [exact Had|]. intros w Hw.
      rewrite El in Hcl. apply in_app_or in Hw as [Hw|[<-|[]]].
      * apply Hcl. apply in_or_app. now left.
      * intros C. apply Hc in C. revert C. apply Hcl. apply in_or_app. right. now left.
  - rewrite app_comm_cons, app_assoc in *.
    destruct H as (p & o1 & q & E & Had & Hcl).
    destruct q as [|q0 q'].
    + apply app_inj_tail in E as [E ->]. exists (pre ++ o' :: post), o1, []. auto.
    + destruct (exists_last (l := q0 :: q')) as (l' & w & El); [discriminate|].
      rewrite El, app_comm_cons, app_assoc in E. apply app_inj_tail in E as [E <-].
      assert (A1 : active cl nl nk (pre ++ o' :: post) d).
      { apply IH. exists p, o1, l'. repeat split; auto. intros w' Hw'. apply Hcl.
        rewrite El. apply in_or_app. now left. }
      destruct A1 as (p2 & o2 & q2 & E2 & Had2 & Hcl2).
      exists p2, o2, (q2 ++ [z]). rewrite E2, <- app_assoc. repeat split; auto.
      intros w' Hw'. apply in_app_or in Hw' as [Hw'|[<-|[]]]; [auto|].
      apply Hcl. rewrite El. apply in_or_app. right. now left.
Qed.

Lemma run_order n nl nk pre cs cs' post :
  Permutation cs cs' -> Forall (op_ok n nl nk) (pre ++ OpAdd cs :: post) ->
  exists s s', run (pre ++ OpAdd cs :: post) (qp_init nl nk) = Ok s
    /\ run (pre ++ OpAdd cs' :: post) (qp_init nl nk) = Ok s'
    /\ forall x, accepts s x <-> accepts s' x.
Proof.
  intros P H.
  assert (H' : Forall (op_ok n nl nk) (pre ++ OpAdd cs' :: post)).
  { rewrite Forall_app in *. destruct H as [H1 H2]. split; [exact H1|].
    inversion H2 as [|? ? H3 H4]; subst. constructor; [|exact H4].
    cbn [op_ok] in *. intros c Hc. apply H3. now apply (Permutation_in _ (Permutation_sym P)). }
  destruct (run_accepts n nl nk _ H) as (s & E & S).
  destruct (run_accepts n nl nk _ H') as (s' & E' & S').
  exists s, s'. split; [exact E|]. split; [exact E'|]. intros x. rewrite S, S'.
  assert (AD : forall d, adds nl nk (OpAdd cs) d <-> adds nl nk (OpAdd cs') d)
    by (intros; now apply adds_perm).
  assert (CG : clears_G (OpAdd cs) <-> clears_G (OpAdd cs'))
    by (split; intros [? ?]; discriminate).
  assert (CA : clears_A (OpAdd cs) <-> clears_A (OpAdd cs'))
    by (split; intros [? ?]; discriminate).
  split; intros [H1 H2]; (split; intros d Hd; [apply H1|apply H2]);
    (eapply active_replace; [| |exact Hd]); auto; try (intros; now rewrite AD); tauto.
Qed.

Lemma run_batch pre cs1 cs2 post s :
  run (pre ++ OpAdd (cs1 ++ cs2) :: post) s = run (pre ++ OpAdd cs1 :: OpAdd cs2 :: post) s.
Proof.
  unfold run. rewrite !for_each_app. destruct (for_each pre step s) as [s1|]; [|reflexivity].
  cbn [bind for_each step]. unfold add_constraints. rewrite for_each_app.
  now destruct (for_each cs1 _ s1).
Qed.

(* ---------------------------------------------------------------- pad *)
Lemma rowdot_pad l r m i x :
  rowdot (mkmat (nr m) (l + nc m + r)
                 (fun i j => if (j <? l)%nat then 0
                             else if (j <? l + nc m)%nat then ent m i (j - l) else 0)) i x
  = rowdot m i (fun j => x (l + j)%nat).
Proof.
  unfold rowdot; cbn [nc ent]. rewrite sumn_add, sumn_add.
  rewrite (sumn_ext l _ (fun _ => 0)).
  2:{ intros j Hj. destruct (Nat.ltb_spec j l); [lra|lia]. }
  rewrite (sumn_ext r _ (fun _ => 0)).
  2:{ intros j Hj. destruct (Nat.ltb_spec (l + nc m + j) l); [lia|].
      destruct (Nat.ltb_spec (l + nc m + j) (l + nc m)); [lia|lra]. }
  rewrite !sumn_zero by reflexivity.
  rewrite (sumn_ext (nc m) _ (fun j => ent m i j * x (l + j)%nat)).
  2:{ intros j Hj. destruct (Nat.ltb_spec (l + j) l); [lia|].
      destruct (Nat.ltb_spec (l + j) (l + nc m)); [|lia].
      now replace (l + j - l)%nat with j by lia. }
  rewrite (sumn_zero r) by reflexivity. lra.
Qed.

Lemma pad_half_ok cmp n l r a rhs :
  half_ok n a rhs -> (a <> Arr1 [] \/ (l + r = 0)%nat) ->
  exists a', pad_half l r a = Ok a' /\ half_ok (l + n + r) a' rhs
    /\ forall x, half_sat cmp a' rhs x <-> half_sat cmp a rhs (fun j => x (l + j)%nat).
Proof.
  intros [[-> ->]|(m & -> & Hm & Hc & Hl)] Hne; unfold pad_half; cbn [arr_len bind length].
  - destruct Hne as [Hne|Hlr]; [congruence|]. rewrite Hlr. cbn.
    exists (Arr1 []). split; [reflexivity|]. split; [now left|]. reflexivity.
  - destruct (Nat.ltb_spec 0 (nr m)); [|lia]. eexists. split; [reflexivity|]. split.
    + right. eexists. split; [reflexivity|]. cbn [nr nc]. repeat split; auto; lia.
    + intros x. cbn [half_sat nr]. setoid_rewrite rowdot_pad. reflexivity.
Qed.

Lemma pad_ok n l r s :
  qp_ok n s ->
  (q_G s <> Arr1 [] /\ q_A s <> Arr1 [] \/ (l + r = 0)%nat) ->
  exists s', pad l r s = Ok s' /\ qp_ok (l + n + r) s'
    /\ forall x, accepts s' x <-> accepts s (fun j => x (l + j)%nat).
Proof.
  intros O Hne. pose proof O as [OG OA].
  destruct (pad_half_ok Rle n l r _ _ OG) as (G & EG & OG' & SG); [tauto|].
  destruct (pad_half_ok eq n l r _ _ OA) as (A & EA & OA' & SA); [tauto|].
  unfold pad. rewrite EG. cbn [bind]. rewrite EA. cbn [bind].
  eexists. split; [reflexivity|]. split; [now split|]. intros x.
  rewrite (accepts_iff (l + n + r)) by now split. rewrite (accepts_iff n) by exact O.
  unfold le_sat, eq_sat; cbn [q_G q_h q_A q_b]. now rewrite SG, SA.
Qed.
