(* Statements behind FixbProps.v and the data of its examples. *)
From Coq Require Import Permutation Sorted.
From Verif Require Import Base BaseLemmas FixbModel FixbSpec FixbLemmas FixbMainLemmas.
Local Open Scope R_scope.

Section Top.
Variables (weighted : bool) (how : split) (alternative weight_pairs : bool).
Variable sort : (row -> R) -> list row -> list row.
Variable nbrs : nat -> list nat.
Variable draw : nat -> nat -> bool.
Variable eig : (nat -> nat -> R) -> nat -> R.
Variable nf : nat.
Variable jd : list row.
Variables A B alpha : nat -> R.
Hypothesis Hc : clean weighted nf A B alpha jd.
Hypothesis Ho : order_ok weighted how sort jd.
Local Notation od := (in_order weighted how sort jd).

Lemma od_perm : Permutation jd od.
Proof. unfold in_order. destruct how; [apply Ho|apply Permutation_refl]. Qed.

Lemma od_clean : clean weighted nf A B alpha od.
Proof.
  assert (P := od_perm). destruct Hc as [C1 C2 C3 C4]. constructor.
  - unfold one_spell in *. eapply Permutation_NoDup; [|exact C1]. apply Permutation_map; auto.
  - intros r Hr. apply C2. eapply Permutation_in; [apply Permutation_sym|]; eauto.
  - intros W. destruct (C3 W) as [D1 D2]. split.
    + intros r Hr. apply D1. eapply Permutation_in; [apply Permutation_sym|]; eauto.
    + intros r s Hr H. apply D2; eapply Permutation_in; try (apply Permutation_sym; eauto); auto.
  - intros r Hr. apply C4. eapply Permutation_in; [apply Permutation_sym|]; eauto.
Qed.

Lemma od_grouped : grouped od.
Proof.
  unfold in_order. destruct how; [|apply Ho]. destruct Ho as [[P S] T].
  eapply sorted_grouped; eauto.
  - intros r s Hr H. apply T; eapply Permutation_in; try (apply Permutation_sym; eauto); auto.
  - intros r s _ _ E. unfold mean_y. rewrite E. reflexivity.
Qed.

Lemma top_entries : exists es,
  entries weighted how alternative weight_pairs nbrs draw nf od = Ok es /\ good alternative nf B es.
Proof.
  destruct od_clean as [C1 C2 C3 C4].
  exact (entries_good weighted how alternative weight_pairs nbrs draw nf od A B alpha
           od_grouped C1 C2 C3 C4).
Qed.

Lemma top_fit es : entries weighted how alternative weight_pairs nbrs draw nf od = Ok es ->
  good alternative nf B es ->
  fit_b weighted how alternative weight_pairs sort nbrs draw eig true nf jd
  = Ok (fun j => eig (lhs alternative nf es) j / eig (lhs alternative nf es) 0%nat).
Proof.
  intros E G. unfold fit_b. simpl negb. cbv iota. fold od. rewrite E. cbn [bind].
  rewrite (good_check _ _ _ _ G). reflexivity.
Qed.

Lemma fixed_point_all : exists es,
  entries weighted how alternative weight_pairs nbrs draw nf od = Ok es /\
  fit_b weighted how alternative weight_pairs sort nbrs draw eig true nf jd
  = Ok (fun j => eig (lhs alternative nf es) j / eig (lhs alternative nf es) 0%nat) /\
  ((forall a, (a < nf)%nat -> S0 alternative nf es a <> 0) -> fixed nf (lhs alternative nf es) B).
Proof.
  destruct top_entries as [es [E G]]. exists es. split; [exact E|]. split; [apply top_fit; auto|].
  intros nz. apply true_fixed; auto.
Qed.

Lemma recovered_all es sg : alternative = true ->
  entries weighted how alternative weight_pairs nbrs draw nf od = Ok es ->
  (2 <= nf)%nat -> (forall j, (j < nf)%nat -> 0 < B j) ->
  (forall a b v, In (a, b, v) es -> 0 < sg * v) ->
  (forall j, (j < nf)%nat -> linked es j) ->
  eig_ok nf eig (lhs alternative nf es) ->
  exists Bh, fit_b weighted how alternative weight_pairs sort nbrs draw eig true nf jd = Ok Bh /\
    forall j, (j < nf)%nat -> Bh j = B j / B 0%nat.
Proof.
  intros Al E n2 Bp Vp Hl Ek. destruct top_entries as [es' [E' G]].
  assert (es' = es) by congruence. subst es'.
  eexists. split; [apply top_fit; eauto|]. intros j Hj. cbv beta.
  apply (recovered alternative nf B es Al G Bp sg Vp n2 Hl eig Ek j Hj).
Qed.
End Top.

Lemma returns_refused weighted how alternative weight_pairs sort nbrs draw eig nf jd :
  fit_b weighted how alternative weight_pairs sort nbrs draw eig false nf jd = Err ValueError.
Proof. reflexivity. Qed.

(* ---- examples ------------------------------------------------------------ *)

(* Three firms with slopes 1, 2, 4; two workers move between firms 0 and 1, two
   between firms 1 and 2. *)
Definition A3 (j : nat) : R := match j with 1%nat => 1 | _ => 0 end.
Definition B3 (j : nat) : R := match j with 0%nat => 1 | 1%nat => 2 | _ => 4 end.
Definition al3 (i : nat) : R := if Nat.even i then 0 else 1.
Definition jd3 : list row :=
  [Row 0 1 1 1; Row 0 0 0 1; Row 1 0 1 2; Row 1 1 3 2;
   Row 2 2 0 3; Row 2 1 1 3; Row 3 1 3 4; Row 3 2 4 4].
Definition nb3 (j : nat) : list nat := match j with 0%nat => [1%nat] | 1%nat => [0%nat; 2%nat] | _ => [1%nat] end.
Definition es3 : list (nat * nat * R) :=
  [(0%nat, 1%nat, -3); (1%nat, 0%nat, -6); (1%nat, 2%nat, -14); (2%nat, 1%nat, -28)].

Lemma jd3_clean : clean true 3 A3 B3 al3 jd3.
Proof.
  constructor.
  - unfold one_spell, jd3. simpl. repeat constructor; simpl; intuition discriminate.
  - intros r H. simpl in H. repeat (destruct H as [<-|H]; [unfold A3, B3, al3; simpl; lra|]). destruct H.
  - intros _. split.
    + intros r H. simpl in H. repeat (destruct H as [<-|H]; [simpl; lra|]). destruct H.
    + intros r s H1 H2. simpl in H1, H2.
      repeat (destruct H1 as [<-|H1];
        [repeat (destruct H2 as [<-|H2]; [simpl; intros; congruence|]); destruct H2|]). destruct H1.
  - intros r H. simpl in H. repeat (destruct H as [<-|H]; [simpl; lia|]). destruct H.
Qed.

Lemma jd3_grouped : grouped jd3.
Proof.
  apply (grouped_block 0 [Row 0 1 1 1; Row 0 0 0 1]).
  { simpl; intuition (subst; reflexivity). } { simpl; intuition (subst; discriminate). }
  apply (grouped_block 1 [Row 1 0 1 2; Row 1 1 3 2]).
  { simpl; intuition (subst; reflexivity). } { simpl; intuition (subst; discriminate). }
  apply (grouped_block 2 [Row 2 2 0 3; Row 2 1 1 3]).
  { simpl; intuition (subst; reflexivity). } { simpl; intuition (subst; discriminate). }
  rewrite <- (app_nil_r [Row 3 1 3 4; Row 3 2 4 4]).
  apply (grouped_block 3 [Row 3 1 3 4; Row 3 2 4 4]).
  { simpl; intuition (subst; reflexivity). } { intros r []. }
  constructor.
Qed.

Ltac flat := repeat match goal with
  | |- Ok _ = Ok _ => f_equal
  | |- _ :: _ = _ :: _ => f_equal
  | |- (_, _) = (_, _) => f_equal
  end.

Lemma entries3 draw : entries true EnterExit true true nb3 draw 3 jd3 = Ok es3.
Proof. unfold entries, es3. cbn. unfold avg_y, total_w. cbn. flat; field. Qed.

Lemma linked3 j : (j < 3)%nat -> linked es3 j.
Proof.
  intros H. assert (L0 := linked_0 es3).
  assert (L1 : linked es3 1) by (apply linked_step with 0%nat (-3); [left; reflexivity|auto]).
  assert (L2 : linked es3 2) by (apply linked_step with 1%nat (-14); [right; right; left; reflexivity|auto]).
  destruct j as [|[|[|]]]; auto; lia.
Qed.

Lemma eig3 : eig_ok 3 (fun _ j => 5 * B3 j) (lhs true 3 es3).
Proof.
  intros _. split.
  - exists 0%nat. split; [lia|]. unfold B3. lra.
  - intros a Ha. destruct a as [|[|[|]]]; [| | |lia]; unfold lhs, S0; cbn; field.
Qed.

(* Four workers with effects 0, 1, 2, 3, each seen once at both firms; all slopes
   are 1 and all intercepts 0.  One weight differs between the firms. *)
Definition jd4 : list row :=
  [Row 0 0 0 1; Row 0 1 0 1; Row 1 0 1 1; Row 1 1 1 3;
   Row 2 0 2 1; Row 2 1 2 1; Row 3 0 3 1; Row 3 1 3 1].
Definition nb2 (j : nat) : list nat := match j with 0%nat => [1%nat] | _ => [0%nat] end.

Lemma mean4 r : In r jd4 -> mean_y true jd4 r = r_y r.
Proof.
  intros H. simpl in H. repeat (destruct H as [<-|H]; [unfold mean_y; cbn; field|]). destruct H.
Qed.

Lemma sorts4 : sorts (fun _ l => l) (mean_y true jd4) jd4.
Proof.
  split; [apply Permutation_refl|].
  assert (G : forall l, incl l jd4 -> StronglySorted (fun a b => r_y a <= r_y b) l ->
              StronglySorted (fun a b => mean_y true jd4 a <= mean_y true jd4 b) l).
  { induction l as [|a l IH]; intros I S; [constructor|]. inversion S; subst. constructor.
    - apply IH; auto. intros x Hx; apply I; right; auto.
    - rewrite Forall_forall in *. intros x Hx. rewrite !mean4; auto; apply I; [right; auto|left; auto]. }
  apply G; [apply incl_refl|]. unfold jd4.
  repeat (constructor; [|repeat (apply Forall_cons; [simpl; lra|]); apply Forall_nil]). constructor.
Qed.

Lemma ties4 : no_ties (mean_y true jd4) jd4.
Proof.
  intros r s Hr H. rewrite !mean4 by auto. simpl in Hr, H.
  repeat (destruct Hr as [<-|Hr];
    [repeat (destruct H as [<-|H]; [simpl; intros; first [reflexivity|lra]|]); destruct H|]). destruct Hr.
Qed.

Lemma entries4 draw : entries true Income true false nb2 draw 2 jd4
  = Ok [(0%nat, 1%nat, -2); (1%nat, 0%nat, -(7/4))].
Proof. unfold entries. cbn. unfold avg_y, total_w. cbn. flat; field. Qed.

Lemma weights_wrong :
  exists (jd : list row) (A B alpha : nat -> R) (sort : (row -> R) -> list row -> list row),
    one_spell jd /\ noise_free A B alpha jd /\
    (forall r, In r jd -> 0 < r_w r /\ (r_j r < 2)%nat) /\
    order_ok true Income sort jd /\
    forall draw eig, (forall L, eig_ok 2 eig L) ->
    exists Bh, fit_b true Income true false sort nb2 draw eig true 2 jd = Ok Bh /\
      Bh 1%nat = 7 / 8 /\ B 1%nat / B 0%nat = 1.
Proof.
  exists jd4, (fun _ => 0), (fun _ => 1), INR, (fun _ l => l).
  split. { unfold one_spell, jd4. simpl. repeat constructor; simpl; intuition discriminate. }
  split. { intros r H. simpl in H. repeat (destruct H as [<-|H]; [simpl; lra|]). destruct H. }
  split. { intros r H. simpl in H. repeat (destruct H as [<-|H]; [simpl; split; [lra|lia]|]). destruct H. }
  split. { split; [apply sorts4|apply ties4]. }
  intros draw eig Hk. unfold fit_b. simpl negb. cbv iota. rewrite entries4. cbn [bind].
  eexists. split; [reflexivity|]. split; [|field].
  set (es := [(0%nat, 1%nat, -2); (1%nat, 0%nat, -(7/4))]).
  assert (L : forall v, fixed 2 (lhs true 2 es) v <-> (8 / 7 * v 1%nat = v 0%nat /\ 7 / 8 * v 0%nat = v 1%nat)).
  { intros v. assert (R0 : sumn 2 (fun b => lhs true 2 es 0 b * v b) = 8 / 7 * v 1%nat) by (unfold lhs, S0; cbn; field).
    assert (R1 : sumn 2 (fun b => lhs true 2 es 1 b * v b) = 7 / 8 * v 0%nat) by (unfold lhs, S0; cbn; field).
    split.
    - intros F. split; [rewrite <- R0|rewrite <- R1]; apply F; lia.
    - intros [F0 F1] a Ha. destruct a as [|[|]]; [rewrite R0; auto|rewrite R1; auto|lia]. }
  destruct (Hk (lhs true 2 es)) as [[a [La Nz]] F].
  { exists (fun j => match j with 0%nat => 8 | _ => 7 end). split.
    - exists 0%nat. split; [lia|lra].
    - apply L. split; lra. }
  apply L in F. destruct F as [F0 F1]. cbv beta.
  assert (eig (lhs true 2 es) 0%nat <> 0).
  { intros C. apply Nz. destruct a as [|[|]]; [auto| |lia]. rewrite <- F1, C. ring. }
  rewrite <- F1. field. auto.
Qed.

(* Spells that last two periods, in the long format. *)
Definition jdl : list row :=
  [Row 0 0 0 1; Row 0 0 0 1; Row 0 1 0 1;
   Row 1 0 1 1; Row 1 0 1 1; Row 1 1 1 1;
   Row 2 1 2 1; Row 2 0 2 1].

Lemma long_fails how alternative weight_pairs draw eig :
  fit_b false how alternative weight_pairs (fun _ l => l) nb2 draw eig true 2 jdl = Err IndexError.
Proof. destruct how; [|reflexivity]. unfold fit_b, entries. cbn. destruct (draw 0%nat 1%nat); reflexivity. Qed.

Lemma meanl r : In r jdl -> mean_y false jdl r = r_y r.
Proof.
  intros H. simpl in H. repeat (destruct H as [<-|H]; [unfold mean_y; cbn; field|]). destruct H.
Qed.

Lemma long_data :
  noise_free (fun _ => 0) (fun _ => 1) INR jdl /\ grouped jdl /\
  sorts (fun _ l => l) (mean_y false jdl) jdl /\ no_ties (mean_y false jdl) jdl.
Proof.
  split; [|split; [|split]].
  - intros r H. simpl in H. repeat (destruct H as [<-|H]; [simpl; lra|]). destruct H.
  - apply (grouped_block 0 [Row 0 0 0 1; Row 0 0 0 1; Row 0 1 0 1]).
    { simpl; intuition (subst; reflexivity). } { simpl; intuition (subst; discriminate). }
    apply (grouped_block 1 [Row 1 0 1 1; Row 1 0 1 1; Row 1 1 1 1]).
    { simpl; intuition (subst; reflexivity). } { simpl; intuition (subst; discriminate). }
    rewrite <- (app_nil_r [Row 2 1 2 1; Row 2 0 2 1]).
    apply (grouped_block 2 [Row 2 1 2 1; Row 2 0 2 1]).
    { simpl; intuition (subst; reflexivity). } { intros r []. }
    constructor.
  - split; [apply Permutation_refl|].
    assert (G : forall l, incl l jdl -> StronglySorted (fun a b => r_y a <= r_y b) l ->
                StronglySorted (fun a b => mean_y false jdl a <= mean_y false jdl b) l).
    { induction l as [|a l IH]; intros I S; [constructor|]. inversion S; subst. constructor.
      - apply IH; auto. intros x Hx; apply I; right; auto.
      - rewrite Forall_forall in *. intros x Hx. rewrite !meanl; auto; apply I; [right; auto|left; auto]. }
    apply G; [apply incl_refl|]. unfold jdl.
    repeat (constructor; [|repeat (apply Forall_cons; [simpl; lra|]); apply Forall_nil]). constructor.
  - intros r s Hr H. rewrite !meanl by auto. simpl in Hr, H.
    repeat (destruct Hr as [<-|Hr];
      [repeat (destruct H as [<-|H]; [simpl; intros; first [reflexivity|lra]|]); destruct H|]). destruct Hr.
Qed.
