(* Lemmas behind the properties of the connectedness measure. *)
From Coq Require Import Lra Lia Permutation Sorted.
From Verif Require Import Base BaseLemmas BLMModel BLMEMLemmas BLMRealModel BLMRealLemmas BLMRunModel BLMRunSpec
  BLMRunLemmas ConnModel ConnSpec ConnLemmas.
Local Open Scope res_scope.
Local Open Scope R_scope.

(* ------------------------------------------------ the second smallest eigenvalue *)
Notation zeros l := (count_occ Req_EM_T l 0).
Lemma zeros_two l : (2 <= zeros l)%nat <->
  exists i j, (i < length l)%nat /\ (j < length l)%nat /\ i <> j /\ nth i l 0 = 0 /\ nth j l 0 = 0.
Proof.
  induction l as [|x l IH]; simpl.
  - split; [lia|]. intros (i & j & H & _). lia.
  - destruct (Req_EM_T x 0) as [->|Nx].
    + split.
      * intros H. assert (I : In 0 l) by (apply (count_occ_In Req_EM_T); lia).
        apply (In_nth l 0 0) in I as (j & Hj & Ej). exists 0%nat, (S j). repeat split; auto; lia.
      * intros (i & j & Hi & Hj & N & Ei & Ej).
        assert (I : In 0 l).
        { destruct i as [|i], j as [|j]; try congruence; simpl in *.
          - rewrite <- Ej. apply nth_In. lia.
          - rewrite <- Ei. apply nth_In. lia.
          - rewrite <- Ej. apply nth_In. lia. }
        apply (count_occ_In Req_EM_T) in I. lia.
    + rewrite IH. split; intros (i & j & Hi & Hj & N & Ei & Ej).
      * exists (S i), (S j). repeat split; auto; lia.
      * destruct i as [|i]; [simpl in Ei; congruence|]. destruct j as [|j]; [simpl in Ej; congruence|].
        exists i, j. repeat split; auto; lia.
Qed.

Lemma zeros_perm l m : Permutation l m -> zeros l = zeros m.
Proof. intros P. now apply (Permutation_count_occ Req_EM_T). Qed.

Lemma second_smallest l : (2 <= length l)%nat -> (forall x, In x l -> 0 <= x) ->
  exists v, nth_error (sorted_desc Ropp l) 1 = Some v /\ In v l /\ (v = 0 <-> (2 <= zeros l)%nat).
Proof.
  intros Hl P. pose proof (sorted_perm Ropp l) as Pm. pose proof (sorted_sorted Ropp l) as So.
  pose proof (Permutation_length Pm) as Le.
  rewrite <- (zeros_perm _ _ Pm).
  destruct (sorted_desc Ropp l) as [|x [|y r]]; simpl in Le; try lia.
  exists y. split; [reflexivity|].
  assert (Iy : In y l) by (apply (Permutation_in _ Pm); simpl; auto).
  split; auto.
  assert (Px : 0 <= x) by (apply P, (Permutation_in _ Pm); simpl; auto).
  assert (Py : 0 <= y) by auto.
  inversion So as [|? ? So' Fx]; subst. inversion So' as [|? ? _ Fy]; subst.
  inversion Fx as [|? ? Dxy _]; subst. unfold desc in Dxy.
  rewrite Forall_forall in Fy.
  cbn [count_occ]. destruct (Req_EM_T y 0) as [Ey|Ny].
  - destruct (Req_EM_T x 0); [|lra]. split; [lia|auto].
  - split; [contradiction|]. intros H. exfalso.
    assert (I : In 0 r) by (apply (count_occ_In Req_EM_T); destruct (Req_EM_T x 0); lia).
    specialize (Fy 0 I). unfold desc in Fy. lra.
Qed.

(* ------------------------------------------------ one worker type *)
Section Type1.
Variable eig : nat -> mat -> res (list R).
Variables (nk : nat) (NN pk1 : mat) (l : nat).
Notation W := (graph_weights nk NN pk1 l).
Hypothesis Eig : eig_ok nk eig.
Hypothesis NNpos : forall a b, (a < nk)%nat -> (b < nk)%nat -> 0 <= NN a b.
Hypothesis prpos : forall a b, (a < nk)%nat -> (b < nk)%nat -> 0 <= prop_of nk pk1 a b l.

Notation tot := (sumn nk (fun a => sumn nk (fun b => pr nk NN pk1 a b l))).
Lemma pr_nonneg a b : (a < nk)%nat -> (b < nk)%nat -> 0 <= pr nk NN pk1 a b l.
Proof. intros. rewrite pr_swapped. apply Rmult_le_pos; auto. Qed.
Lemma tot_nonneg : 0 <= tot.
Proof. apply sumn_nonneg. intros. apply sumn_nonneg. intros. now apply pr_nonneg. Qed.
Lemma inv_nonneg x : 0 <= x -> 0 <= / x.
Proof. intros [H| <-]; [left; now apply Rinv_0_lt_compat|rewrite Rinv_0; lra]. Qed.
Lemma W_nonneg a b : (a < nk)%nat -> (b < nk)%nat -> 0 <= W a b.
Proof.
  intros Ha Hb. unfold graph_weights.
  pose proof (inv_nonneg _ tot_nonneg) as T.
  pose proof (Rmult_le_pos _ _ (pr_nonneg a b Ha Hb) T).
  pose proof (Rmult_le_pos _ _ (pr_nonneg b a Hb Ha) T). unfold Rdiv at 2 3. lra.
Qed.
Lemma W_symm a b : W a b = W b a.
Proof. unfold graph_weights. lra. Qed.

Lemma degrees_dec : {forall a, (a < nk)%nat -> 0 < degree nk W a} +
  {exists a, (a < nk)%nat /\ ~ 0 < degree nk W a}.
Proof.
  clear NNpos prpos.
  destruct (forallb (fun a => if Rlt_dec 0 (degree nk W a) then true else false) (range nk)) eqn:E.
  - left. intros a Ha. rewrite forallb_forall in E. specialize (E a).
    destruct (Rlt_dec 0 (degree nk W a)); auto. discriminate E.
    unfold range. apply in_seq. lia.
  - right.
    assert (H : exists a, In a (range nk) /\ (if Rlt_dec 0 (degree nk W a) then true else false) = false).
    { clear - E. induction (range nk) as [|a r IH]; [discriminate|]. simpl in E.
      destruct (if Rlt_dec 0 (degree nk W a) then true else false) eqn:Ea.
      - destruct (IH E) as (b & Hb & Eb). exists b. split; [right|]; auto.
      - exists a. split; [left|]; auto. }
    destruct H as (a & Ia & Ea). exists a. unfold range in Ia. apply in_seq in Ia. split; [lia|].
    destruct (Rlt_dec 0 (degree nk W a)); [discriminate|auto].
Qed.

Lemma type_measure_zero_degree a : (a < nk)%nat -> ~ 0 < degree nk W a ->
  type_measure eig nk NN pk1 l = Err LinAlgError.
Proof.
  clear NNpos prpos Eig. intros Ha Na. unfold type_measure.
  destruct (forallb _ (range nk)) eqn:E; auto. exfalso. apply Na.
  rewrite forallb_forall in E. specialize (E a).
  destruct (Rlt_dec 0 (degree nk W a)); auto. discriminate E. unfold range. apply in_seq. lia.
Qed.

Lemma type_measure_deg : (forall a, (a < nk)%nat -> 0 < degree nk W a) ->
  type_measure eig nk NN pk1 l =
  (evals <- eig nk (laplacian nk W) ;;
   match nth_error (sorted_desc Ropp evals) 1 with Some v => Ok v | None => Err IndexError end).
Proof.
  clear NNpos prpos Eig. intros D. unfold type_measure.
  replace (forallb _ (range nk)) with true; auto. symmetry. apply forallb_forall.
  intros a Ia. unfold range in Ia. apply in_seq in Ia. destruct (Rlt_dec 0 (degree nk W a)) as [|N]; auto.
  exfalso. apply N, D. lia.
Qed.

Lemma type_measure_ok : (2 <= nk)%nat -> (forall a, (a < nk)%nat -> 0 < degree nk W a) ->
  exists v, type_measure eig nk NN pk1 l = Ok v /\ 0 <= v <= 2 /\ (v = 0 <-> falls_apart nk W).
Proof.
  intros Hk D. rewrite type_measure_deg by auto.
  destruct (Eig (laplacian nk W)) as (evals & V & -> & Le & HV & Vn & Vc).
  { intros a b Ha Hb. apply L_sym; auto. intros. apply W_symm. }
  assert (Wp : forall a b, (a < nk)%nat -> (b < nk)%nat -> 0 <= W a b) by (intros; now apply W_nonneg).
  assert (Ws : forall a b, (a < nk)%nat -> (b < nk)%nat -> W a b = W b a) by (intros; apply W_symm).
  assert (P : forall x, In x evals -> 0 <= x <= 2).
  { intros x Ix. apply (In_nth evals x 0) in Ix as (i & Hi & <-). rewrite Le in Hi. split.
    - apply (ev_pos nk W Wp Ws D V (fun i => nth i evals 0)); auto.
    - apply (ev_le2 nk W Wp Ws D V (fun i => nth i evals 0)); auto. }
  destruct (second_smallest evals) as (v & Ev & Iv & Z); [lia|intros x Ix; now apply P|].
  exists v. cbn [bind]. rewrite Ev. split; auto. split; [auto|]. rewrite Z, zeros_two, Le. split.
  - intros (i & j & Hi & Hj & N & Ei & Ej).
    eapply (one_null nk W) with (V := V) (ev := fun i => nth i evals 0) (i := i) (j := j); eauto. lia.
  - intros FA. eapply (two_null nk W) with (V := V) (ev := fun i => nth i evals 0); eauto.
Qed.

(* ---- in terms of the moves of the worker type ---- *)
Notation mv := (moves_of nk NN pk1 l).
Lemma mv_nonneg a b : (a < nk)%nat -> (b < nk)%nat -> 0 <= mv a b.
Proof. intros. unfold moves_of, type_moves. apply Rmult_le_pos; auto. Qed.

Hypothesis both : both_ways nk NN.
Lemma pr_zero a b : (a < nk)%nat -> (b < nk)%nat -> (pr nk NN pk1 a b l = 0 <-> mv b a = 0).
Proof.
  intros Ha Hb. rewrite pr_swapped. unfold moves_of, type_moves.
  pose proof (NNpos a b Ha Hb). pose proof (NNpos b a Hb Ha). pose proof (both a b Ha Hb) as B.
  split; intros Z; apply Rmult_integral in Z as [Z|Z]; try (rewrite Z; ring).
  - replace (NN b a) with 0; [ring|]. destruct (Rle_lt_or_eq_dec 0 (NN b a)) as [P|]; auto.
    apply B in P. lra.
  - replace (NN a b) with 0; [ring|]. destruct (Rle_lt_or_eq_dec 0 (NN a b)) as [P|]; auto.
    apply B in P. lra.
Qed.
Lemma pr_pos a b : (a < nk)%nat -> (b < nk)%nat -> (0 < pr nk NN pk1 a b l <-> 0 < mv b a).
Proof.
  intros Ha Hb. pose proof (pr_zero a b Ha Hb) as Z.
  pose proof (pr_nonneg a b Ha Hb). pose proof (mv_nonneg b a Hb Ha).
  split; intros P.
  - assert (mv b a <> 0) by (intros Q; apply Z in Q; lra). lra.
  - assert (pr nk NN pk1 a b l <> 0) by (intros Q; apply Z in Q; lra). lra.
Qed.

Lemma tot_pos a b : (a < nk)%nat -> (b < nk)%nat -> 0 < mv a b + mv b a -> 0 < tot.
Proof.
  intros Ha Hb P. pose proof (mv_nonneg a b Ha Hb). pose proof (mv_nonneg b a Hb Ha).
  assert (H2 : 0 < mv a b \/ 0 < mv b a) by (destruct (Rlt_dec 0 (mv a b)); [left|right]; lra).
  destruct H2 as [Q|Q]; apply pr_pos in Q; auto.
  - apply (sumn_pos_some nk _ b); auto.
    + intros j Hj. apply sumn_nonneg. intros. now apply pr_nonneg.
    + apply (sumn_pos_some nk _ a); auto. intros. now apply pr_nonneg.
  - apply (sumn_pos_some nk _ a); auto.
    + intros j Hj. apply sumn_nonneg. intros. now apply pr_nonneg.
    + apply (sumn_pos_some nk _ b); auto. intros. now apply pr_nonneg.
Qed.

Lemma W_zero a b : 0 < tot -> (a < nk)%nat -> (b < nk)%nat -> (W a b = 0 <-> mv a b = 0 /\ mv b a = 0).
Proof.
  intros T Ha Hb. unfold graph_weights.
  pose proof (pr_nonneg a b Ha Hb). pose proof (pr_nonneg b a Hb Ha).
  assert (E : (pr nk NN pk1 a b l / tot + pr nk NN pk1 b a l / tot) / 2 = 0 <->
              pr nk NN pk1 a b l = 0 /\ pr nk NN pk1 b a l = 0).
  { split.
    - intros Z. assert (Y : pr nk NN pk1 a b l + pr nk NN pk1 b a l = 0).
      { replace (pr nk NN pk1 a b l + pr nk NN pk1 b a l)
          with ((pr nk NN pk1 a b l / tot + pr nk NN pk1 b a l / tot) / 2 * (2 * tot)) by (field; lra).
        rewrite Z. ring. }
      lra.
    - intros [-> ->]. field. lra. }
  rewrite E, (pr_zero a b), (pr_zero b a) by auto. tauto.
Qed.

Lemma degree_touched : (0 < nk)%nat ->
  ((forall a, (a < nk)%nat -> 0 < degree nk W a) <-> touched nk mv).
Proof.
  intros H0. split.
  - intros D a Ha.
    assert (T : 0 < tot).
    { destruct tot_nonneg as [|Z]; auto. exfalso. specialize (D a Ha). unfold degree in D.
      rewrite sumn_zero in D; [lra|]. intros b Hb. unfold graph_weights. rewrite <- Z.
      unfold Rdiv. rewrite Rinv_0. ring. }
    assert (E : exists b, (b < nk)%nat /\ W a b <> 0).
    { destruct (bounded_search nk (fun b => W a b <> 0)) as [|N]; auto.
      { intros b. destruct (Req_EM_T (W a b) 0); tauto. }
      exfalso. specialize (D a Ha). unfold degree in D. rewrite sumn_zero in D; [lra|].
      intros b Hb. specialize (N b Hb). destruct (Req_EM_T (W a b) 0); tauto. }
    destruct E as (b & Hb & Nz). exists b. split; auto.
    rewrite W_zero in Nz by auto. pose proof (mv_nonneg a b Ha Hb). pose proof (mv_nonneg b a Hb Ha).
    destruct (Req_EM_T (mv a b) 0) as [E1|], (Req_EM_T (mv b a) 0) as [E2|]; try lra.
  - intros Tc a Ha. destruct (Tc a Ha) as (b & Hb & P).
    pose proof (tot_pos a b Ha Hb P) as T.
    apply (sumn_pos_some nk _ b); auto.
    + intros j Hj. now apply W_nonneg.
    + destruct (W_nonneg a b Ha Hb) as [|Z]; auto. exfalso. symmetry in Z.
      apply W_zero in Z; auto. lra.
Qed.

Lemma apart_moves : (0 < nk)%nat -> touched nk mv -> (falls_apart nk W <-> falls_apart nk mv).
Proof.
  intros H0 Tc. destruct (Tc 0%nat H0) as (b & Hb & P). pose proof (tot_pos 0 b H0 Hb P) as T.
  split; intros (G & I & O & C); exists G; split; auto; split; auto; intros x y Hx Hy Gx Gy;
    specialize (C x y Hx Hy Gx Gy) as [C1 C2].
  - now apply W_zero in C1.
  - split; apply W_zero; auto.
Qed.
End Type1.

(* ------------------------------------------------ all worker types *)
Lemma fold_Rmin_spec l x : (fold_left Rmin l x = x \/ In (fold_left Rmin l x) l) /\
  fold_left Rmin l x <= x /\ forall y, In y l -> fold_left Rmin l x <= y.
Proof.
  revert x. induction l as [|z l IH]; intros x; simpl; [repeat split; auto; try lra; tauto|].
  destruct (IH (Rmin x z)) as (I & L & A). split; [|split].
  - destruct I as [I|I]; [|auto]. rewrite I. unfold Rmin. destruct (Rle_dec x z); auto.
  - pose proof (Rmin_l x z). lra.
  - intros y [<-|Hy]; auto. pose proof (Rmin_r x z). lra.
Qed.

Lemma abs_min_spec l : l <> [] -> (forall x, In x l -> 0 <= x) ->
  exists c, abs_min l = Ok c /\ In c l /\ forall y, In y l -> c <= y.
Proof.
  destruct l as [|x r]; [congruence|]. intros _ P. simpl.
  assert (E : map Rabs r = r).
  { rewrite <- (map_id r) at 2. apply map_ext_in. intros y Hy. apply Rabs_pos_eq, P. now right. }
  rewrite E, (Rabs_pos_eq x) by (apply P; now left).
  destruct (fold_Rmin_spec r x) as (I & L & A). eexists. split; [reflexivity|].
  split; [destruct I; [left|right]; auto|]. intros y [<-|Hy]; auto.
Qed.

Lemma traverse_exists {A B} (f : A -> res B) (P : A -> B -> Prop) l :
  (forall x, In x l -> exists y, f x = Ok y /\ P x y) ->
  exists ys, traverse f l = Ok ys /\ Forall2 P l ys.
Proof.
  induction l as [|x l IH]; intros H; simpl; [eexists; split; auto; constructor|].
  destruct (H x) as (y & -> & Py); [now left|]. destruct IH as (ys & -> & F).
  { intros z Hz. apply H. now right. }
  simpl. exists (y :: ys). split; auto.
Qed.
Lemma Forall2_In {A B} (P : A -> B -> Prop) l m : Forall2 P l m ->
  (forall x, In x l -> exists y, In y m /\ P x y) /\ (forall y, In y m -> exists x, In x l /\ P x y).
Proof.
  induction 1 as [|x y l m H F [I1 I2]]; simpl; [split; tauto|]. split.
  - intros z [<-|Hz]; [eauto|]. destruct (I1 z Hz) as (w & Hw & Q). eauto.
  - intros z [<-|Hz]; [eauto|]. destruct (I2 z Hz) as (w & Hw & Q). eauto.
Qed.

Lemma in_range l n : In l (range n) <-> (l < n)%nat.
Proof. unfold range. rewrite in_seq. lia. Qed.

Section All.
Variable eig : nat -> mat -> res (list R).
Variables (all : bool) (nl nk : nat) (NN pk1 : mat).
Hypothesis Eig : eig_ok nk eig.
Hypothesis NNpos : forall a b, (a < nk)%nat -> (b < nk)%nat -> 0 <= NN a b.
Hypothesis prpos : forall a b l, (a < nk)%nat -> (b < nk)%nat -> (l < nl)%nat -> 0 <= prop_of nk pk1 a b l.
Hypothesis both : both_ways nk NN.

Lemma conn_weights : (0 < nl)%nat -> (2 <= nk)%nat ->
  (forall l a, (l < nl)%nat -> (a < nk)%nat -> 0 < degree nk (graph_weights nk NN pk1 l) a) ->
  exists c, compute_connectedness eig all nl nk NN pk1 = Ok (SVal c) /\ 0 <= c <= 2 /\
    (c = 0 <-> exists l, (l < nl)%nat /\ falls_apart nk (graph_weights nk NN pk1 l)).
Proof.
  clear both. intros Hl Hk D. unfold compute_connectedness.
  destruct (traverse_exists (type_measure eig nk NN pk1)
    (fun l v => 0 <= v <= 2 /\ (v = 0 <-> falls_apart nk (graph_weights nk NN pk1 l))) (range nl)) as (EV & -> & F).
  { intros l Il. apply in_range in Il.
    destruct (type_measure_ok eig nk NN pk1 l Eig) as (v & E & B & Z); auto. exists v. auto. }
  simpl. destruct (Forall2_In _ _ _ F) as [F1 F2].
  destruct (abs_min_spec EV) as (c & -> & Ic & Mc).
  { destruct (F1 0%nat) as (y & Hy & _); [apply in_range; lia|]. destruct EV; [destruct Hy|discriminate]. }
  { intros x Ix. destruct (F2 x Ix) as (l & _ & B & _). lra. }
  simpl. exists c. split; auto. destruct (F2 c Ic) as (l0 & I0 & B0 & Z0). split; auto.
  split.
  - intros Zc. exists l0. split; [now apply in_range|now apply Z0].
  - intros (l & Hlt & Ap). destruct (F1 l) as (v & Iv & Bv & Zv); [now apply in_range|].
    apply Zv in Ap. specialize (Mc v Iv). lra.
Qed.

Lemma conn_measure : (0 < nl)%nat -> (2 <= nk)%nat ->
  (forall l, (l < nl)%nat -> touched nk (moves_of nk NN pk1 l)) ->
  exists c, compute_connectedness eig all nl nk NN pk1 = Ok (SVal c) /\ 0 <= c <= 2 /\
    (c = 0 <-> exists l, (l < nl)%nat /\ falls_apart nk (moves_of nk NN pk1 l)).
Proof.
  intros Hl Hk Tc. destruct conn_weights as (c & E & B & Z); auto.
  { intros l a Hlt Ha. revert a Ha. apply degree_touched; auto. lia. }
  exists c. split; auto. split; auto. rewrite Z.
  split; intros (l & Hlt & Ap); exists l; (split; [auto|]); eapply apart_moves; eauto; lia.
Qed.

Lemma conn_isolated l a : (2 <= nk)%nat -> (l < nl)%nat -> (a < nk)%nat ->
  (forall b, (b < nk)%nat -> moves_of nk NN pk1 l a b = 0 /\ moves_of nk NN pk1 l b a = 0) ->
  compute_connectedness eig all nl nk NN pk1 = Err LinAlgError.
Proof.
  intros Hk Hl Ha Z. unfold compute_connectedness.
  assert (E : traverse (type_measure eig nk NN pk1) (range nl) = Err LinAlgError); [|now rewrite E].
  assert (Q : forall r, (forall x, In x r -> (x < nl)%nat) -> In l r ->
    traverse (type_measure eig nk NN pk1) r = Err LinAlgError).
  { induction r as [|x r IH]; cbn [In traverse]; [tauto|]. intros B I.
    assert (Hx : (x < nl)%nat) by auto.
    destruct (degrees_dec nk NN pk1 x) as [D|(y & Hy & Ny)]; auto.
    - destruct (type_measure_ok eig nk NN pk1 x Eig) as (v & -> & _); auto.
      destruct I as [->|I].
      + exfalso. apply degree_touched in D; auto; [|lia]. destruct (D a Ha) as (b & Hb & P).
        destruct (Z b Hb). lra.
      + simpl. rewrite IH; auto.
    - rewrite type_measure_zero_degree with (a := y); auto. }
  apply Q; [|now apply in_range]. intros x. apply in_range.
Qed.

Lemma conn_one l : nk = 1%nat -> (l < nl)%nat -> 
  (forall l, (l < nl)%nat -> 0 < moves_of nk NN pk1 l 0%nat 0%nat) ->
  compute_connectedness eig all nl nk NN pk1 = Err IndexError.
Proof.
  intros E1 Hl P. unfold compute_connectedness.
  assert (E : type_measure eig nk NN pk1 0 = Err IndexError).
  { rewrite type_measure_deg.
    - destruct (Eig (laplacian nk (graph_weights nk NN pk1 0))) as (evals & V & -> & Le & _).
      { intros a b Ha Hb. assert (a = 0%nat) by lia. assert (b = 0%nat) by lia. now subst. }
      simpl. pose proof (Permutation_length (sorted_perm Ropp evals)) as Q.
      destruct (sorted_desc Ropp evals) as [|x [|y r]]; auto. simpl in Q. lia.
    - apply degree_touched; auto; try lia.
      + intros. apply prpos; auto. lia.
      + intros a Ha. exists 0%nat. split; [lia|]. assert (a = 0%nat) by lia. subst a.
        assert (H := P 0%nat). lra || (specialize (H ltac:(lia)); lra). }
  destruct nl as [|n]; [lia|]. unfold range. simpl. now rewrite E.
Qed.
End All.

(* ------------------------------------------------ all=True *)
Lemma conn_all eig nl nk NN pk1 :
  compute_connectedness eig true nl nk NN pk1 = compute_connectedness eig false nl nk NN pk1 /\
  forall EV, compute_connectedness eig true nl nk NN pk1 <> Ok (SVec EV).
Proof.
  split; auto. intros EV. unfold compute_connectedness.
  destruct (traverse _ _) as [v|]; simpl; [|discriminate]. destruct (abs_min v); simpl; discriminate.
Qed.

(* ------------------------------------------------ eigenvalues of 2 x 2 matrices *)
Definition gap (M : mat) : R := sqrt (((M 0%nat 0%nat - M 1%nat 1%nat) / 2) ^ 2 + M 0%nat 1%nat ^ 2).
Definition eig2 (_ : nat) (M : mat) : res (list R) :=
  Ok [(M 0%nat 0%nat + M 1%nat 1%nat) / 2 + gap M; (M 0%nat 0%nat + M 1%nat 1%nat) / 2 - gap M].
(* the first eigenvector, not yet scaled *)
Definition vec2 (M : mat) : R * R :=
  if Req_EM_T (M 0%nat 1%nat) 0
  then if Rle_dec (M 1%nat 1%nat) (M 0%nat 0%nat) then (1, 0) else (0, 1)
  else (M 0%nat 1%nat, (M 1%nat 1%nat - M 0%nat 0%nat) / 2 + gap M).

Lemma vec2_ok M : M 0%nat 1%nat = M 1%nat 0%nat ->
  let l1 := (M 0%nat 0%nat + M 1%nat 1%nat) / 2 + gap M in
  let x := fst (vec2 M) in let y := snd (vec2 M) in
  0 < x * x + y * y /\ M 0%nat 0%nat * x + M 0%nat 1%nat * y = l1 * x /\
  M 1%nat 0%nat * x + M 1%nat 1%nat * y = l1 * y.
Proof.
  intros Sy. rewrite <- Sy. unfold vec2.
  set (p := M 0%nat 0%nat). set (q := M 0%nat 1%nat). set (r := M 1%nat 1%nat).
  assert (G : gap M * gap M = ((p - r) / 2) ^ 2 + q ^ 2).
  { unfold gap. fold p q r. apply sqrt_sqrt. pose proof (pow2_ge_0 ((p - r) / 2)). pose proof (pow2_ge_0 q). lra. }
  assert (G0 : 0 <= gap M) by apply sqrt_pos.
  destruct (Req_EM_T q 0) as [Z|N].
  - rewrite Z in *. assert (Q : gap M = Rabs ((p - r) / 2)).
    { unfold gap. fold p q r. rewrite Z. rewrite <- sqrt_Rsqr_abs. f_equal. unfold Rsqr. ring. }
    rewrite Q. destruct (Rle_dec r p); simpl.
    + rewrite Rabs_pos_eq by lra. repeat split; lra.
    + rewrite Rabs_left by lra. repeat split; lra.
  - cbn [fst snd]. set (g := gap M) in *. clearbody g p q r.
    pose proof (Rsqr_pos_lt q N) as Q. unfold Rsqr in Q. split; [|split].
    + pose proof (Rle_0_sqr ((r - p) / 2 + g)) as Y. unfold Rsqr in Y. lra.
    + field.
    + assert (q * q = g * g - ((p - r) / 2) ^ 2) by (rewrite G; ring). rewrite H. field.
Qed.

Lemma eig2_ok : eig_ok 2 eig2.
Proof.
  intros M Sy. specialize (Sy 0%nat 1%nat ltac:(lia) ltac:(lia)).
  destruct (vec2_ok M Sy) as (P & E0 & E1).
  set (x := fst (vec2 M)) in *. set (y := snd (vec2 M)) in *.
  set (n := sqrt (x * x + y * y)).
  assert (n2 : n * n = x * x + y * y) by (apply sqrt_sqrt; lra).
  assert (n0 : 0 < n) by (apply sqrt_lt_R0; auto).
  exists [(M 0%nat 0%nat + M 1%nat 1%nat) / 2 + gap M; (M 0%nat 0%nat + M 1%nat 1%nat) / 2 - gap M],
    (fun i a => match i, a with
                | O, O => x / n | O, _ => y / n | _, O => - y / n | _, _ => x / n end).
  split; [reflexivity|]. split; [reflexivity|].
  set (g := gap M) in *. rewrite <- Sy in E1.
  assert (N1 : x / n * (x / n) + y / n * (y / n) = 1).
  { replace (x / n * (x / n) + y / n * (y / n)) with ((x * x + y * y) / (n * n)) by (field; lra).
    rewrite n2. field. lra. }
  assert (N2 : - y / n * (- y / n) + x / n * (x / n) = 1).
  { replace (- y / n * (- y / n) + x / n * (x / n)) with ((x * x + y * y) / (n * n)) by (field; lra).
    rewrite n2. field. lra. }
  split; [|split].
  - intros i a Hi Ha. destruct (lt2 i Hi) as [->| ->], (lt2 a Ha) as [->| ->]; unfold sumn, range; simpl;
      rewrite <- ?Sy; apply (Rmult_eq_reg_r n); try lra; field_simplify; try lra; nra.
  - intros i j Hi Hj. destruct (lt2 i Hi) as [->| ->], (lt2 j Hj) as [->| ->]; unfold sumn, range; simpl;
      try (rewrite Rplus_0_r); auto; unfold Rdiv; ring.
  - intros i j Hi Hj. destruct (lt2 i Hi) as [->| ->], (lt2 j Hj) as [->| ->]; unfold sumn, range; simpl;
      try (rewrite Rplus_0_r); auto; try (unfold Rdiv; ring); rewrite <- N1; unfold Rdiv; ring.
Qed.

(* ------------------------------------------------ cases *)
Lemma apart2 W : falls_apart 2 W -> W 0%nat 1%nat = 0 /\ W 1%nat 0%nat = 0.
Proof.
  intros (G & (a & Ha & Ga) & (b & Hb & Gb) & C).
  destruct (lt2 a Ha) as [->| ->], (lt2 b Hb) as [->| ->]; try congruence.
  - apply C; auto.
  - destruct (C 1%nat 0%nat) as [H1 H2]; auto.
Qed.
Lemma apart2_intro W : W 0%nat 1%nat = 0 -> W 1%nat 0%nat = 0 -> falls_apart 2 W.
Proof.
  intros H1 H2. exists (fun a => Nat.eqb a 0).
  split; [exists 0%nat; auto|]. split; [exists 1%nat; auto|].
  intros a b Ha Hb Ga Gb. destruct (lt2 a Ha) as [->| ->], (lt2 b Hb) as [->| ->]; try discriminate. auto.
Qed.

(* Two worker types.  Nobody moves from firm type 1 to 0, and of the movers from 0 to 1
   all are of type 1; of the (no) movers back the estimate is half and half. *)
Definition dx_NN : mat := fun a b => if Nat.eqb a b then 1 else if Nat.eqb a 0 then 5 else 0.
Definition dx_pk : mat := fun r l =>
  if Nat.eqb r 2 then if Nat.eqb l 0 then 0 else 1 else / 2.
Lemma dx_counts a b : (a < 2)%nat -> (b < 2)%nat -> 0 <= dx_NN a b.
Proof. intros. unfold dx_NN. destruct (Nat.eqb a b), (Nat.eqb a 0); lra. Qed.
Lemma dx_props a b : (a < 2)%nat -> (b < 2)%nat -> prob_vec 2 (prop_of 2 dx_pk a b).
Proof.
  intros Ha Hb. unfold prob_vec, prop_of, dx_pk, sumn, range. simpl seq. cbn [map rsum].
  destruct (lt2 a Ha) as [->| ->], (lt2 b Hb) as [->| ->]; simpl; split; try lra;
    intros l Hl; destruct (lt2 l Hl) as [->| ->]; simpl; lra.
Qed.
Lemma dx_touched l : (l < 2)%nat -> touched 2 (moves_of 2 dx_NN dx_pk l).
Proof.
  intros Hl a Ha. exists a. split; auto. unfold moves_of, type_moves, prop_of, dx_NN, dx_pk.
  destruct (lt2 a Ha) as [->| ->], (lt2 l Hl) as [->| ->]; simpl; lra.
Qed.
Lemma dx_apart : falls_apart 2 (moves_of 2 dx_NN dx_pk 0).
Proof. apply apart2_intro; unfold moves_of, type_moves, prop_of, dx_NN, dx_pk; simpl; lra. Qed.
Lemma dx_linked : exists c, compute_connectedness eig2 false 2 2 dx_NN dx_pk = Ok (SVal c) /\ c <> 0.
Proof.
  destruct (conn_weights eig2 false 2 2 dx_NN dx_pk) as (c & E & B & Z); auto.
  - exact eig2_ok.
  - exact dx_counts.
  - intros a b l Ha Hb Hl. now apply dx_props.
  - intros l a Hl Ha.
    unfold degree, graph_weights, pr, reshape3, dx_NN, dx_pk, sumn, range. simpl seq. cbn [map rsum].
    destruct (lt2 a Ha) as [->| ->], (lt2 l Hl) as [->| ->]; simpl; lra.
  - exists c. split; auto. intros Zc. apply Z in Zc as (l & Hl & Ap). apply apart2 in Ap as [Ap _].
    revert Ap. unfold graph_weights, pr, reshape3, dx_NN, dx_pk, sumn, range. simpl seq. cbn [map rsum].
    destruct (lt2 l Hl) as [->| ->]; simpl; lra.
Qed.

Lemma direction_wrong : ~ (forall eig nl nk NN pk1, eig_ok nk eig ->
  (forall a b, (a < nk)%nat -> (b < nk)%nat -> 0 <= NN a b) ->
  (forall a b, (a < nk)%nat -> (b < nk)%nat -> prob_vec nl (prop_of nk pk1 a b)) ->
  (2 <= nk)%nat ->
  (forall l, (l < nl)%nat -> touched nk (moves_of nk NN pk1 l)) ->
  (exists l, (l < nl)%nat /\ falls_apart nk (moves_of nk NN pk1 l)) ->
  compute_connectedness eig false nl nk NN pk1 = Ok (SVal 0)).
Proof.
  intros H. destruct dx_linked as (c & E & N).
  rewrite (H eig2 2%nat 2%nat dx_NN dx_pk eig2_ok dx_counts dx_props) in E; auto.
  - congruence.
  - exact dx_touched.
  - exists 0%nat. split; auto. exact dx_apart.
Qed.

(* A case: moves both ways, of both worker types, and one worker type that stays within
   its firm type. *)
Definition cc_NN : mat := fun _ _ => 3.
Definition cc_pk : mat := fun r l =>
  if orb (Nat.eqb r 1) (Nat.eqb r 2) then if Nat.eqb l 0 then 0 else 1 else / 2.
Lemma cc_case : eig_ok 2 eig2 /\ both_ways 2 cc_NN /\
  (forall l, (l < 2)%nat -> touched 2 (moves_of 2 cc_NN cc_pk l)) /\
  falls_apart 2 (moves_of 2 cc_NN cc_pk 0) /\ ~ falls_apart 2 (moves_of 2 cc_NN cc_pk 1).
Proof.
  split; [exact eig2_ok|]. split; [intros a b _ _; tauto|]. split; [|split].
  - intros l Hl a Ha. exists a. split; auto. unfold moves_of, type_moves, prop_of, cc_NN, cc_pk.
    destruct (lt2 a Ha) as [->| ->], (lt2 l Hl) as [->| ->]; simpl; lra.
  - apply apart2_intro; unfold moves_of, type_moves, prop_of, cc_NN, cc_pk; simpl; lra.
  - intros Ap. apply apart2 in Ap as [Ap _]. revert Ap.
    unfold moves_of, type_moves, prop_of, cc_NN, cc_pk; simpl; lra.
Qed.
