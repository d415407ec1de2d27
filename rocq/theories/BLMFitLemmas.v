(* The movers' EM algorithm without controls: the sums over cells, the updates
   of A and S, and the growth of the likelihood. *)
From Verif Require Import Base BaseLemmas UtilModel UtilSpec UtilNumLemmas
  ConsModel ConsSpec ConsLemmas ConsBuild2Lemmas ConsQPLemmas ConsPropLemmas
  BLMModel BLMEMModel BLMSpec BLMSortLemmas BLMLikLemmas BLMEMLemmas BLMStayLemmas
  BLMRunModel BLMFitModel BLMFitSpec BLMAscentLemmas.
From Coq Require Import Sorted.
Local Open Scope res_scope.
Local Open Scope R_scope.

(* ---- sums over cells ---- *)
Lemma nth_concat {A} (ls : list (list A)) m i j d :
  (forall v, In v ls -> length v = m) -> (i < length ls)%nat -> (j < m)%nat ->
  nth (i * m + j) (concat ls) d = nth j (nth i ls []) d.
Proof.
  revert i. induction ls as [|v ls IH]; intros i Hm Hi Hj; simpl in Hi; [lia|].
  pose proof (Hm v (or_introl eq_refl)) as Hv. cbn [concat].
  destruct i as [|i].
  - rewrite app_nth1 by (simpl; lia). reflexivity.
  - rewrite app_nth2 by (rewrite Hv; simpl; lia). rewrite Hv.
    replace (S i * m + j - m)%nat with (i * m + j)%nat by (simpl; lia).
    rewrite IH; [reflexivity| |lia|exact Hj]. intros u Hu. apply Hm. now right.
Qed.
Lemma length_concat_const {A} (ls : list (list A)) m :
  (forall v, In v ls -> length v = m) -> length (concat ls) = (length ls * m)%nat.
Proof.
  induction ls as [|v ls IH]; intros H; [reflexivity|]. cbn [concat length].
  rewrite app_length, IH by (intros; apply H; now right). rewrite (H v (or_introl eq_refl)). lia.
Qed.

Definition cell {A} (g : A -> nat) (data : list A) (F : A -> R) (k : nat) : R :=
  rsum (map (fun o => if (g o =? k)%nat then F o else 0) data).

Lemma group_sums_ok nl nk (g : obs -> nat) data (F : obs -> nat -> R) (ws : nat -> list R) :
  (0 < nk)%nat -> (forall o, In o data -> (g o < nk)%nat) ->
  (forall k, (k < nk)%nat -> exists o, In o data /\ g o = k) ->
  (forall l, (l < nl)%nat -> ws l = map (fun o => F o l) data) ->
  exists v, group_sums nl nk (map g data) ws = Ok v /\ length v = (nl * nk)%nat /\
    forall l k, (l < nl)%nat -> (k < nk)%nat ->
      nth (l * nk + k) v 0 = cell g data (fun o => F o l) k.
Proof.
  intros Hnk Hg Hall Hws. unfold group_sums.
  assert (Hmax : list_max1 (map g data) = nk).
  { apply Nat.le_antisymm.
    - apply list_max1_le. intros k Hk. apply in_map_iff in Hk as (o & <- & Ho). auto.
    - destruct (Hall (nk - 1)%nat) as (o & Ho & E); [lia|].
      pose proof (list_max1_gt (map g data) (g o) (in_map _ _ _ Ho)). lia. }
  rewrite (traverse_ok _ (fun l => bincount (map g data) (ws l))).
  2:{ intros l _. unfold slice_assign. now rewrite length_bincount, Hmax, Nat.eqb_refl. }
  cbn [bind]. eexists. split; [reflexivity|].
  assert (HL : forall v, In v (map (fun l => bincount (map g data) (ws l)) (range nl)) -> length v = nk).
  { intros v Hv. apply in_map_iff in Hv as (l & <- & _). now rewrite length_bincount. }
  split.
  - rewrite (length_concat_const _ nk HL), map_length, length_range. reflexivity.
  - intros l k Hl Hk. rewrite nth_concat; [|exact HL|now rewrite map_length, length_range|exact Hk].
    rewrite (nth_map_in _ _ _ 0%nat) by (now rewrite length_range).
    rewrite nth_range by exact Hl. rewrite nth_bincount by (now rewrite Hmax).
    rewrite Hws by exact Hl. rewrite combine_map_same, map_map. reflexivity.
Qed.

Lemma cell_scal {A} (g : A -> nat) data (F : A -> R) c k :
  cell g data (fun o => c * F o) k = c * cell g data F k.
Proof.
  unfold cell. rewrite <- rsum_map_scal. apply rsum_map_ext. intros o _.
  destruct (g o =? k)%nat; ring.
Qed.
Lemma cell_plus {A} (g : A -> nat) data (F G : A -> R) k :
  cell g data (fun o => F o + G o) k = cell g data F k + cell g data G k.
Proof.
  unfold cell. rewrite <- rsum_map_plus. apply rsum_map_ext. intros o _.
  destruct (g o =? k)%nat; ring.
Qed.
Lemma cell_ext {A} (g : A -> nat) data (F G : A -> R) k :
  (forall o, In o data -> g o = k -> F o = G o) -> cell g data F k = cell g data G k.
Proof.
  intros H. unfold cell. apply rsum_map_ext. intros o Ho.
  destruct (Nat.eqb_spec (g o) k); auto.
Qed.
Lemma cell_nonneg {A} (g : A -> nat) data (F : A -> R) k :
  (forall o, In o data -> 0 <= F o) -> 0 <= cell g data F k.
Proof.
  intros H. apply rsum_nonneg. intros x Hx. apply in_map_iff in Hx as (o & <- & Ho).
  destruct (g o =? k)%nat; [auto|lra].
Qed.
Lemma cell_pos {A} (g : A -> nat) data (F : A -> R) k :
  (forall o, In o data -> 0 < F o) -> (exists o, In o data /\ g o = k) -> 0 < cell g data F k.
Proof. intros H He. exact (weight_pos g F data k H He). Qed.

(* Sums over rows and worker types as sums over cells. *)
Lemma rows_to_cells {A} nl nk (g : A -> nat) data (F : nat -> nat -> A -> R) :
  (forall o, In o data -> (g o < nk)%nat) ->
  rsum (map (fun o => sumn nl (fun l => F l (g o) o)) data)
  = sumn nl (fun l => sumn nk (fun k => cell g data (F l k) k)).
Proof.
  intros H. rewrite rsum_sumn_swap. apply sumn_ext. intros l Hl.
  exact (rsum_by_key g (fun k o => F l k o) nk data H).
Qed.

(* ---- the gain of one period ---- *)
Section Period.
Variables (nl nk : nat) (data : list obs) (g : obs -> nat) (w y : obs -> R) (q : obs -> nat -> R).
Hypothesis g_lt : forall o, In o data -> (g o < nk)%nat.
Hypothesis w_pos : forall o, In o data -> 0 < w o.
Hypothesis q_pos : forall o l, In o data -> (l < nl)%nat -> 0 < q o l.

Definition wsum (l k : nat) : R := cell g data (fun o => w o * q o l) k.
Definition wy (l k : nat) : R := cell g data (fun o => w o * q o l * y o) k.
Definition wyy (l k : nat) : R := cell g data (fun o => w o * q o l * y o ^ 2) k.
Definition ssr (a : R) (l k : nat) : R := cell g data (fun o => w o * q o l * (y o - a) ^ 2) k.

Lemma ssr_poly a l k : ssr a l k = wsum l k * a ^ 2 - 2 * a * wy l k + wyy l k.
Proof.
  unfold ssr, wsum, wy, wyy.
  replace (cell g data (fun o => w o * q o l) k * a ^ 2)
    with (a ^ 2 * cell g data (fun o => w o * q o l) k) by ring.
  replace (a ^ 2 * cell g data (fun o => w o * q o l) k
           - 2 * a * cell g data (fun o => w o * q o l * y o) k)
    with (a ^ 2 * cell g data (fun o => w o * q o l) k
           + - (2 * a) * cell g data (fun o => w o * q o l * y o) k) by ring.
  rewrite <- !cell_scal, <- !cell_plus. apply cell_ext. intros. ring.
Qed.

(* Expected log density up to a constant. *)
Definition eld (B S : mat) : R :=
  rsum (map (fun o => sumn nl (fun l =>
     q o l * (w o * (- ln (S l (g o)) - (y o - B l (g o)) ^ 2 / (2 * S l (g o) ^ 2))))) data).

Lemma eld_cells B S :
  eld B S = sumn nl (fun l => sumn nk (fun k =>
     - (wsum l k * ln (S l k)) - ssr (B l k) l k / (2 * S l k ^ 2))).
Proof.
  unfold eld.
  rewrite (rows_to_cells nl nk g data (fun l k o =>
     q o l * (w o * (- ln (S l k) - (y o - B l k) ^ 2 / (2 * S l k ^ 2))))) by exact g_lt.
  apply sumn_ext. intros l Hl. apply sumn_ext. intros k Hk. unfold wsum, ssr.
  replace (- (cell g data (fun o => w o * q o l) k * ln (S l k))
           - cell g data (fun o => w o * q o l * (y o - B l k) ^ 2) k / (2 * S l k ^ 2))
    with (- ln (S l k) * cell g data (fun o => w o * q o l) k
          + - / (2 * S l k ^ 2) * cell g data (fun o => w o * q o l * (y o - B l k) ^ 2) k)
    by (unfold Rdiv; ring).
  rewrite <- !cell_scal, <- cell_plus. apply cell_ext. intros. unfold Rdiv. ring.
Qed.

(* Means: the objective of the program. *)
Definition mean_obj (B S : mat) : R :=
  sumn nl (fun l => sumn nk (fun k =>
    wsum l k / S l k ^ 2 * B l k ^ 2 / 2 + - (wy l k / S l k ^ 2) * B l k)).
Lemma eld_means B B' S :
  (forall l k, (l < nl)%nat -> (k < nk)%nat -> 0 < S l k) ->
  eld B' S - eld B S = mean_obj B S - mean_obj B' S.
Proof.
  intros HS. rewrite !eld_cells. unfold mean_obj. rewrite <- !sumn_minus.
  apply sumn_ext. intros l Hl. rewrite <- !sumn_minus. apply sumn_ext. intros k Hk.
  rewrite !ssr_poly. specialize (HS l k Hl Hk). field. lra.
Qed.

(* Variances: each cell minimises its own objective. *)
Lemma eld_vars B S x lb :
  0 < lb ->
  (forall l k, (l < nl)%nat -> (k < nk)%nat -> 0 < S l k /\ lb <= S l k ^ 2) ->
  (forall l k, (l < nl)%nat -> (k < nk)%nat ->
     lb <= x l k /\
     forall v, lb <= v ->
       wsum l k / S l k ^ 2 * x l k ^ 2 / 2 + - (ssr (B l k) l k / S l k ^ 2) * x l k
       <= wsum l k / S l k ^ 2 * v ^ 2 / 2 + - (ssr (B l k) l k / S l k ^ 2) * v) ->
  eld B S <= eld B (fun l k => sqrt (x l k)).
Proof.
  intros Hlb HS Hx. rewrite !eld_cells. apply sumn_le. intros l Hl. apply sumn_le. intros k Hk.
  destruct (HS l k Hl Hk) as [Sp Sl]. destruct (Hx l k Hl Hk) as [Xl Xo].
  assert (Hn : 0 <= wsum l k).
  { apply cell_nonneg. intros o Ho. left. apply Rmult_lt_0_compat; auto. }
  assert (Hm : 0 <= ssr (B l k) l k).
  { apply cell_nonneg. intros o Ho. apply Rmult_le_pos; [|apply pow2_ge_0].
    left. apply Rmult_lt_0_compat; auto. }
  assert (H0 : wsum l k = 0 -> ssr (B l k) l k = 0).
  { intros E0. unfold ssr, cell. apply rsum_zero. intros o Ho.
    destruct (Nat.eqb_spec (g o) k) as [E|E]; [|reflexivity]. exfalso.
    assert (P : 0 < wsum l k); [|lra]. apply cell_pos; [|eauto].
    intros o' Ho'. apply Rmult_lt_0_compat; auto. }
  pose proof (var_best (wsum l k) (ssr (B l k) l k) lb (x l k) Hn Hm H0 Hlb Xl) as V.
  assert (Hopt : forall v, lb <= v ->
    wsum l k * x l k ^ 2 / 2 - ssr (B l k) l k * x l k <= wsum l k * v ^ 2 / 2 - ssr (B l k) l k * v).
  { intros v Hv. specialize (Xo v Hv). assert (S2p : 0 < S l k ^ 2) by nra.
    apply Rmult_le_reg_r with (/ S l k ^ 2); [now apply Rinv_0_lt_compat|].
    unfold Rdiv in *. lra. }
  specialize (V Hopt (S l k ^ 2) Sl).
  assert (Xp : 0 < x l k) by lra.
  rewrite (ln_sqrt (x l k)) by exact Xp.
  replace (sqrt (x l k) ^ 2) with (x l k) by (simpl; rewrite Rmult_1_r, sqrt_sqrt; lra).
  assert (E : ln (S l k ^ 2) = 2 * ln (S l k)).
  { simpl. rewrite Rmult_1_r, ln_mult by exact Sp. ring. }
  rewrite E in V.
  replace (ssr (B l k) l k / (2 * x l k)) with (/ 2 * (ssr (B l k) l k / x l k)) by (field; lra).
  replace (ssr (B l k) l k / (2 * S l k ^ 2)) with (/ 2 * (ssr (B l k) l k / S l k ^ 2))
    by (field; lra).
  lra.
Qed.
End Period.

(* ---- the constraints ---- *)
Definition demands (nl nk : nat) (cs : list cobj) (x : nat -> R) : Prop :=
  forall o d, In o cs -> get_constraints o nl nk = Ok d -> sat d x.

Lemma active_adds (clears : op -> Prop) nl nk css d :
  (forall cs, ~ clears (OpAdd cs)) ->
  active clears nl nk (map OpAdd css) d <->
  exists o, In o (concat css) /\ get_constraints o nl nk = Ok d.
Proof.
  intros Hc. split.
  - intros (pre & o & post & E & Ha & _).
    assert (Hin : In o (map OpAdd css)) by (rewrite E; apply in_elt).
    apply in_map_iff in Hin as (cs & <- & Hcs). cbn [adds] in Ha. destruct Ha as (c & Hc' & Eg).
    exists c. split; [|exact Eg]. apply in_concat. eauto.
  - intros (o & Ho & Eg). apply in_concat in Ho as (cs & Hcs & Ho).
    apply (in_map OpAdd) in Hcs. apply in_split in Hcs as (pre & post & E).
    exists pre, (OpAdd cs), post. split; [exact E|]. split; [exists o; auto|].
    intros o' Ho'. assert (Hin : In o' (map OpAdd css)) by (rewrite E; apply in_or_app; right; now right).
    apply in_map_iff in Hin as (cs' & <- & _). apply Hc.
Qed.

Lemma adds_accepts nl nk css :
  (forall o, In o (concat css) -> valid 2 nl nk o) ->
  exists s, run (map OpAdd css) (qp_init nl nk) = Ok s /\
    forall x, accepts s x <-> demands nl nk (concat css) x.
Proof.
  intros Hv.
  destruct (run_accepts (2 * nl * nk) nl nk (map OpAdd css)) as (s & E & H).
  { apply Forall_forall. intros o Ho. apply in_map_iff in Ho as (cs & <- & Hcs). cbn [op_ok].
    intros c Hc. apply valid_buildable. apply Hv. apply in_concat. eauto. }
  exists s. split; [exact E|]. intros x. rewrite H.
  assert (CG : forall cs, ~ clears_G (OpAdd cs)) by (intros cs [e He]; discriminate).
  assert (CA : forall cs, ~ clears_A (OpAdd cs)) by (intros cs [e He]; discriminate).
  unfold demands. split.
  - intros [HG HA] o d Ho Ed. split.
    + apply HG. apply active_adds; eauto.
    + apply HA. apply active_adds; eauto.
  - intros Hs. split; intros d Hd; apply active_adds in Hd as (o & Ho & Ed); auto;
      destruct (Hs o d Ho Ed) as [HG HA]; assumption.
Qed.

Lemma gen_constraints_ok nl nk c :
  (forall o, In o (cons_on_A c ++ cons_s (other c) ++ cons_s_all (other c)) -> valid 2 nl nk o) ->
  exists qa qs, gen_constraints nl nk c = Ok (qa, qs) /\
    (forall x, accepts qa x <-> demands nl nk (cons_on_A c) x) /\
    (forall x, accepts qs x <->
       (forall t l k, (t < 2)%nat -> (l < nl)%nat -> (k < nk)%nat ->
          s_lower_bound (other c) <= eff nl nk x t l k) /\
       demands nl nk (cons_s (other c) ++ cons_s_all (other c)) x).
Proof.
  intros Hv. set (lb := s_lower_bound (other c)).
  destruct (adds_accepts nl nk [cons_a (other c); opt_list (cons_a_all c)]) as (qa & Ea & Ha).
  { intros o Ho. apply Hv. apply in_or_app. left. unfold cons_on_A. cbn [concat] in Ho.
    rewrite app_nil_r in Ho. unfold opt_list in Ho. destruct (cons_a_all c); exact Ho. }
  destruct (adds_accepts nl nk [[CBoundedBelow lb 2]; cons_s (other c); cons_s_all (other c)])
    as (qs & Es & Hs).
  { intros o Ho. cbn [concat] in Ho. rewrite app_nil_r in Ho. destruct Ho as [<-|Ho]; [reflexivity|].
    apply Hv. apply in_or_app. now right. }
  exists qa, qs. unfold run in *. cbn [map for_each step] in *.
  unfold gen_constraints. fold lb.
  destruct (add_constraints [CBoundedBelow lb 2] (qp_init nl nk)) as [s1|e]; [|discriminate].
  cbn [bind] in *.
  destruct (add_constraints (cons_s (other c)) s1) as [s2|e]; [|discriminate].
  cbn [bind] in Es.
  destruct (add_constraints (cons_s_all (other c)) s2) as [s3|e] eqn:E3; [|discriminate].
  cbn [bind] in Es. injection Es as ->.
  destruct (add_constraints (cons_a (other c)) (qp_init nl nk)) as [a1|e]; [|discriminate].
  cbn [bind] in *.
  destruct (add_constraints (opt_list (cons_a_all c)) a1) as [a2|e]; [|discriminate].
  cbn [bind] in *. injection Ea as ->. rewrite E3. cbn [bind].
  split; [reflexivity|]. split.
  - intros x. rewrite Ha. cbn [concat]. rewrite app_nil_r. unfold cons_on_A, opt_list.
    destruct (cons_a_all c); reflexivity.
  - intros x. rewrite Hs. cbn [concat]. rewrite app_nil_r.
    destruct (BoundedBelow_spec lb 2 nl nk) as (d & Ed & _ & Hd). unfold demands. split.
    + intros H. split.
      * apply Hd. apply (H (CBoundedBelow lb 2) d); [now left|exact Ed].
      * intros o d' Ho Eo. apply (H o d'); [now right|exact Eo].
    + intros [HB H] o d' [<-|Ho] Eo.
      * cbn [get_constraints] in Eo. rewrite Ed in Eo. injection Eo as <-. now apply Hd.
      * now apply (H o d').
Qed.

Lemma solver_sound solver P q s x :
  exact_qp solver -> solve_qp solver P q s = QSol x ->
  length x = length P /\ accepts s (fun i => nth i x 0) /\
  forall z, accepts s z -> qobj P q (fun i => nth i x 0) <= qobj P q z.
Proof.
  intros He H. destruct (He _ _ _ _ H) as (L & F & O). split; [exact L|]. split.
  - intros n. exact F.
  - intros z Hz. apply O. exact (Hz (length P)).
Qed.

(* ---- arrays of both periods ---- *)
Definition cells_are (nl nk : nat) (v : list R) (f1 f2 : nat -> nat -> R) : Prop :=
  length v = (nl * nk + nl * nk)%nat /\
  forall l k, (l < nl)%nat -> (k < nk)%nat ->
    nth (l * nk + k) v 0 = f1 l k /\ nth (nl * nk + (l * nk + k)) v 0 = f2 l k.

Lemma cell_index nl nk l k : (l < nl)%nat -> (k < nk)%nat -> (l * nk + k < nl * nk)%nat.
Proof. nia. Qed.

Lemma both_ok nl nk data (F1 F2 : obs -> nat -> R) ws1 ws2 :
  (0 < nk)%nat -> movers_data nk data ->
  (forall l, (l < nl)%nat -> ws1 l = map (fun o => F1 o l) data) ->
  (forall l, (l < nl)%nat -> ws2 l = map (fun o => F2 o l) data) ->
  exists v, both nl nk data ws1 ws2 = Ok v /\
    cells_are nl nk v (fun l k => cell g1 data (fun o => F1 o l) k)
                      (fun l k => cell g2 data (fun o => F2 o l) k).
Proof.
  intros Hnk [Hd Ho] H1 H2. rewrite Forall_forall in Hd.
  destruct (group_sums_ok nl nk g1 data F1 ws1 Hnk) as (v1 & E1 & L1 & N1); auto.
  { intros o Hin. apply (Hd o Hin). }
  { intros k Hk. apply (Ho k Hk). }
  destruct (group_sums_ok nl nk g2 data F2 ws2 Hnk) as (v2 & E2 & L2 & N2); auto.
  { intros o Hin. apply (Hd o Hin). }
  { intros k Hk. apply (Ho k Hk). }
  unfold both. rewrite E1. cbn [bind]. rewrite E2. cbn [bind]. eexists. split; [reflexivity|].
  split; [rewrite app_length; lia|]. intros l k Hl Hk. pose proof (cell_index nl nk l k Hl Hk).
  split.
  - rewrite app_nth1 by lia. auto.
  - rewrite app_nth2 by lia. rewrite L1.
    replace (nl * nk + (l * nk + k) - nl * nk)%nat with (l * nk + k)%nat by lia. auto.
Qed.

Lemma cells_opp nl nk v f1 f2 :
  cells_are nl nk v f1 f2 ->
  cells_are nl nk (map Ropp v) (fun l k => - f1 l k) (fun l k => - f2 l k).
Proof.
  intros [L H]. split; [now rewrite map_length|]. intros l k Hl Hk.
  destruct (H l k Hl Hk) as [<- <-]. pose proof (cell_index nl nk l k Hl Hk).
  split; rewrite (nth_map_in Ropp v _ 0) by lia; reflexivity.
Qed.

Lemma qobj_cells nl nk P q P1 P2 q1 q2 x B1 B2 :
  cells_are nl nk P P1 P2 -> cells_are nl nk q q1 q2 -> stacked nl nk B1 B2 x ->
  qobj P q x
  = sumn nl (fun l => sumn nk (fun k => P1 l k * B1 l k ^ 2 / 2 + q1 l k * B1 l k))
    + sumn nl (fun l => sumn nk (fun k => P2 l k * B2 l k ^ 2 / 2 + q2 l k * B2 l k)).
Proof.
  intros [LP HP] [Lq Hq] Hx. unfold qobj. rewrite LP, sumn_add, !sumn_mul. f_equal.
  - apply sumn_ext. intros l Hl. apply sumn_ext. intros k Hk.
    destruct (HP l k Hl Hk) as [-> _], (Hq l k Hl Hk) as [-> _], (Hx l k Hl Hk) as [<- _].
    reflexivity.
  - apply sumn_ext. intros l Hl. apply sumn_ext. intros k Hk.
    destruct (HP l k Hl Hk) as [_ ->], (Hq l k Hl Hk) as [_ ->], (Hx l k Hl Hk) as [_ <-].
    unfold eff. replace (1 * nl * nk + l * nk + k)%nat with (nl * nk + (l * nk + k))%nat by lia.
    reflexivity.
Qed.

Lemma halves_stacked nl nk x :
  stacked nl nk (half1 nk x) (half2 nl nk x) (fun i => nth i x 0).
Proof.
  intros l k _ _. unfold eff, half1, half2. split; f_equal; lia.
Qed.

(* One coordinate changed. *)
Lemma qobj_one P q x j v : (j < length P)%nat ->
  qobj P q (fun i => if (i =? j)%nat then v else x i) - qobj P q x
  = (nth j P 0 * v ^ 2 / 2 + nth j q 0 * v) - (nth j P 0 * x j ^ 2 / 2 + nth j q 0 * x j).
Proof.
  intros Hj. unfold qobj. rewrite <- sumn_minus. rewrite (sumn_single (length P) j); [|exact Hj|].
  - now rewrite Nat.eqb_refl.
  - intros i _ Hi. destruct (Nat.eqb_spec i j); [congruence|lra].
Qed.

Lemma cells_ext nl nk v f1 f2 h1 h2 :
  cells_are nl nk v f1 f2 ->
  (forall l k, (l < nl)%nat -> (k < nk)%nat -> f1 l k = h1 l k /\ f2 l k = h2 l k) ->
  cells_are nl nk v h1 h2.
Proof.
  intros [L H] E. split; [exact L|]. intros l k Hl Hk.
  destruct (E l k Hl Hk) as [<- <-]. auto.
Qed.

(* ---- the M-step ---- *)
Section MStep.
Variable solver : list R -> list R -> problem -> qpres.
Variables (nl nk : nat) (c : cfg settings) (data : list obs) (qq : obs -> nat -> R).
Hypothesis nk_pos : (0 < nk)%nat.
Hypothesis exact : exact_qp solver.
Hypothesis D : movers_data nk data.
Hypothesis qq_pos : forall o l, In o data -> (l < nl)%nat -> 0 < qq o l.
Variables qa qs : qp.
Hypothesis qa_ok : forall x, accepts qa x <-> demands nl nk (cons_on_A c) x.
Notation lb := (s_lower_bound (other c)).

Let qi := map (fun o => map (qq o) (range nl)) data.
Notation wsum1 := (wsum data g1 w1 qq).
Notation wsum2 := (wsum data g2 w2 qq).
Notation wy1 := (wy data g1 w1 y1 qq).
Notation wy2 := (wy data g2 w2 y2 qq).
Notation ssr1 := (ssr data g1 w1 y1 qq).
Notation ssr2 := (ssr data g2 w2 y2 qq).

Lemma map2_rows (f : obs -> R -> R) l : (l < nl)%nat ->
  map2 (fun o row => f o (nth l row 0)) data qi = map (fun o => f o (qq o l)) data.
Proof.
  intros Hl. unfold qi. rewrite map2_map_r. apply map_ext. intros o. f_equal.
  rewrite (nth_map_in _ _ _ 0%nat) by (now rewrite length_range). now rewrite nth_range.
Qed.
Lemma wts1_rows p l : (l < nl)%nat ->
  wts1 p data qi l = map (fun o => w1 o * qq o l / (S1 p l (g1 o) ^ 2)) data.
Proof. intros Hl. exact (map2_rows (fun o r => w1 o * r / (S1 p l (g1 o) ^ 2)) l Hl). Qed.
Lemma wts2_rows p l : (l < nl)%nat ->
  wts2 p data qi l = map (fun o => w2 o * qq o l / (S2 p l (g2 o) ^ 2)) data.
Proof. intros Hl. exact (map2_rows (fun o r => w2 o * r / (S2 p l (g2 o) ^ 2)) l Hl). Qed.

Lemma cell_over {A} (g : A -> nat) items (F : A -> R) (s : nat -> R) k :
  cell g items (fun o => F o / s (g o)) k = cell g items F k / s k.
Proof.
  unfold Rdiv. rewrite Rmult_comm, <- cell_scal. apply cell_ext. intros o _ <-. ring.
Qed.

Lemma XwX_ok p : exists P, XwX nl nk p data qi = Ok P /\
  cells_are nl nk P (fun l k => wsum1 l k / S1 p l k ^ 2) (fun l k => wsum2 l k / S2 p l k ^ 2).
Proof.
  destruct (both_ok nl nk data (fun o l => w1 o * qq o l / (S1 p l (g1 o) ^ 2))
              (fun o l => w2 o * qq o l / (S2 p l (g2 o) ^ 2))
              (wts1 p data qi) (wts2 p data qi) nk_pos D (wts1_rows p) (wts2_rows p))
    as (v & E & C).
  exists v. split; [exact E|]. apply (cells_ext _ _ _ _ _ _ _ C). intros l k Hl Hk. split.
  - exact (cell_over g1 data (fun o => w1 o * qq o l) (fun k => S1 p l k ^ 2) k).
  - exact (cell_over g2 data (fun o => w2 o * qq o l) (fun k => S2 p l k ^ 2) k).
Qed.
Lemma XwY_ok p : exists v, XwY nl nk p data qi = Ok v /\
  cells_are nl nk v (fun l k => wy1 l k / S1 p l k ^ 2) (fun l k => wy2 l k / S2 p l k ^ 2).
Proof.
  destruct (both_ok nl nk data (fun o l => w1 o * qq o l * y1 o / (S1 p l (g1 o) ^ 2))
              (fun o l => w2 o * qq o l * y2 o / (S2 p l (g2 o) ^ 2))
              (fun l => map2 (fun o w => w * y1 o) data (wts1 p data qi l))
              (fun l => map2 (fun o w => w * y2 o) data (wts2 p data qi l)) nk_pos D)
    as (v & E & C).
  { intros l Hl. rewrite wts1_rows, map2_map_r by exact Hl. apply map_ext. intros o. unfold Rdiv. ring. }
  { intros l Hl. rewrite wts2_rows, map2_map_r by exact Hl. apply map_ext. intros o. unfold Rdiv. ring. }
  exists v. split; [exact E|]. apply (cells_ext _ _ _ _ _ _ _ C). intros l k Hl Hk. split.
  - exact (cell_over g1 data (fun o => w1 o * qq o l * y1 o) (fun k => S1 p l k ^ 2) k).
  - exact (cell_over g2 data (fun o => w2 o * qq o l * y2 o) (fun k => S2 p l k ^ 2) k).
Qed.
Lemma XwS_ok p B1 B2 : exists v, XwS nl nk p B1 B2 data qi = Ok v /\
  cells_are nl nk v (fun l k => ssr1 (B1 l k) l k / S1 p l k ^ 2)
                    (fun l k => ssr2 (B2 l k) l k / S2 p l k ^ 2).
Proof.
  destruct (both_ok nl nk data (fun o l => w1 o * qq o l * (y1 o - B1 l (g1 o)) ^ 2 / (S1 p l (g1 o) ^ 2))
              (fun o l => w2 o * qq o l * (y2 o - B2 l (g2 o)) ^ 2 / (S2 p l (g2 o) ^ 2))
              (fun l => map2 (fun o w => w * (y1 o - B1 l (g1 o)) ^ 2) data (wts1 p data qi l))
              (fun l => map2 (fun o w => w * (y2 o - B2 l (g2 o)) ^ 2) data (wts2 p data qi l)) nk_pos D)
    as (v & E & C).
  { intros l Hl. rewrite wts1_rows, map2_map_r by exact Hl. apply map_ext. intros o. unfold Rdiv. ring. }
  { intros l Hl. rewrite wts2_rows, map2_map_r by exact Hl. apply map_ext. intros o. unfold Rdiv. ring. }
  exists v. split; [exact E|]. apply (cells_ext _ _ _ _ _ _ _ C). intros l k Hl Hk. split.
  - rewrite (cell_over g1 data (fun o => w1 o * qq o l * (y1 o - B1 l (g1 o)) ^ 2)
               (fun k => S1 p l k ^ 2) k).
    f_equal. apply cell_ext. intros o _ <-. reflexivity.
  - rewrite (cell_over g2 data (fun o => w2 o * qq o l * (y2 o - B2 l (g2 o)) ^ 2)
               (fun k => S2 p l k ^ 2) k).
    f_equal. apply cell_ext. intros o _ <-. reflexivity.
Qed.

Notation eld1 := (eld nl data g1 w1 y1 qq).
Notation eld2 := (eld nl data g2 w2 y2 qq).

Lemma g1_lt o : In o data -> (g1 o < nk)%nat.
Proof. intros H. destruct D as [F _]. rewrite Forall_forall in F. apply (F o H). Qed.
Lemma g2_lt o : In o data -> (g2 o < nk)%nat.
Proof. intros H. destruct D as [F _]. rewrite Forall_forall in F. apply (F o H). Qed.
Lemma ws_pos o : In o data -> 0 < w1 o /\ 0 < w2 o.
Proof. intros H. destruct D as [F _]. rewrite Forall_forall in F. apply (F o H). Qed.

(* Everything but A is as before; the constraints hold; A is at least as good. *)
Lemma update_A_ok p P :
  values_ok nl nk 0 p -> (do_a c = true -> A_allowed nl nk c p) ->
  cells_are nl nk P (fun l k => wsum1 l k / S1 p l k ^ 2) (fun l k => wsum2 l k / S2 p l k ^ 2) ->
  exists B1 B2, update_A solver nl nk c qa data qi P p = Ok (set_A B1 B2 p) /\
    (do_a c = true -> A_allowed nl nk c (set_A B1 B2 p)) /\
    (do_a c = false -> B1 = A1 p /\ B2 = A2 p) /\
    eld1 (A1 p) (S1 p) + eld2 (A2 p) (S2 p) <= eld1 B1 (S1 p) + eld2 B2 (S2 p).
Proof.
  intros V Ha HP. unfold update_A.
  assert (Eta : p = set_A (A1 p) (A2 p) p) by (destruct p; reflexivity).
  destruct (do_a c).
  2:{ exists (A1 p), (A2 p). rewrite <- Eta. repeat split; auto; try discriminate. lra. }
  specialize (Ha eq_refl). destruct (XwY_ok p) as (v & -> & Hv). cbn [bind].
  destruct (solve_qp solver P (map Ropp v) qa) as [x| |] eqn:Es.
  2,3: exists (A1 p), (A2 p); rewrite <- Eta; repeat split; auto; try discriminate; lra.
  destruct (solver_sound _ _ _ _ _ exact Es) as (Lx & Ax & Ox).
  exists (half1 nk x), (half2 nl nk x). split; [reflexivity|].
  split; [|split; [discriminate|]].
  - intros _. exists (fun i => nth i x 0). split; [apply halves_stacked|]. now apply qa_ok.
  - destruct Ha as (z & Sz & Hz). apply qa_ok in Hz. specialize (Ox z Hz).
    pose proof (cells_opp _ _ _ _ _ Hv) as Hq.
    rewrite (qobj_cells nl nk _ _ _ _ _ _ _ _ _ HP Hq (halves_stacked nl nk x)) in Ox.
    rewrite (qobj_cells nl nk _ _ _ _ _ _ _ _ _ HP Hq Sz) in Ox.
    destruct V as (_ & VS & _).
    pose proof (eld_means nl nk data g1 w1 y1 qq g1_lt (A1 p) (half1 nk x) (S1 p)
                  (fun l k Hl Hk => proj1 (VS l k Hl Hk))) as E1.
    pose proof (eld_means nl nk data g2 w2 y2 qq g2_lt (A2 p) (half2 nl nk x) (S2 p)
                  (fun l k Hl Hk => proj1 (proj2 (VS l k Hl Hk)))) as E2.
    unfold mean_obj in E1, E2. lra.
Qed.

Hypothesis qs_ok : forall x, accepts qs x <->
  (forall t l k, (t < 2)%nat -> (l < nl)%nat -> (k < nk)%nat -> lb <= eff nl nk x t l k) /\
  demands nl nk (cons_s (other c) ++ cons_s_all (other c)) x.

(* The bound on the variances that a solution satisfies. *)
Lemma S_bounded p pA P p' :
  update_S solver nl nk c qs data qi P p pA = Ok p' ->
  (exists x, p' = set_S (fun l k => sqrt (half1 nk x l k)) (fun l k => sqrt (half2 nl nk x l k)) pA /\
     forall l k, (l < nl)%nat -> (k < nk)%nat -> lb <= half1 nk x l k /\ lb <= half2 nl nk x l k)
  \/ p' = pA.
Proof.
  unfold update_S. destruct (do_s c); [|discriminate].
  destruct (XwS nl nk p (A1 pA) (A2 pA) data qi) as [q|e]; [|discriminate]. cbn [bind].
  destruct (solve_qp solver P (map Ropp q) qs) as [x| |] eqn:Es; intros E; injection E as <-;
    [left|now right|now right].
  destruct (solver_sound _ _ _ _ _ exact Es) as (_ & Ax & _).
  exists x. split; [reflexivity|]. apply qs_ok in Ax as [Ax _].
  intros l k Hl Hk. destruct (halves_stacked nl nk x l k Hl Hk) as [<- <-]. split; apply Ax; lia.
Qed.

Hypothesis no_cons_s : cons_s (other c) ++ cons_s_all (other c) = [].
Hypothesis lb_pos : 0 < lb.

(* Each coordinate of the solution is optimal on its own. *)
Lemma coordinate P q x j :
  solve_qp solver P q qs = QSol x -> (j < length P)%nat ->
  forall v, lb <= v ->
    nth j P 0 * nth j x 0 ^ 2 / 2 + nth j q 0 * nth j x 0 <= nth j P 0 * v ^ 2 / 2 + nth j q 0 * v.
Proof.
  intros Es Hj v Hv. destruct (solver_sound _ _ _ _ _ exact Es) as (_ & Ax & Ox).
  apply qs_ok in Ax as [Ax _].
  set (z := fun i => if (i =? j)%nat then v else nth i x 0).
  assert (Hz : accepts qs z).
  { apply qs_ok. rewrite no_cons_s. split; [|intros o d []].
    intros t l k Ht Hl Hk. unfold eff, z.
    destruct (t * nl * nk + l * nk + k =? j)%nat; [exact Hv|]. apply (Ax t l k Ht Hl Hk). }
  specialize (Ox z Hz). pose proof (qobj_one P q (fun i => nth i x 0) j v Hj) as E.
  cbv beta in E. change (fun i => if (i =? j)%nat then v else nth i x 0) with z in E. lra.
Qed.

Lemma update_S_ok p B1 B2 P :
  values_ok nl nk lb p -> do_s c = true ->
  cells_are nl nk P (fun l k => wsum1 l k / S1 p l k ^ 2) (fun l k => wsum2 l k / S2 p l k ^ 2) ->
  exists T1 T2, update_S solver nl nk c qs data qi P p (set_A B1 B2 p) = Ok (set_S T1 T2 (set_A B1 B2 p)) /\
    (forall l k, (l < nl)%nat -> (k < nk)%nat ->
       0 < T1 l k /\ 0 < T2 l k /\ lb <= T1 l k ^ 2 /\ lb <= T2 l k ^ 2) /\
    eld1 B1 (S1 p) + eld2 B2 (S2 p) <= eld1 B1 T1 + eld2 B2 T2.
Proof.
  intros (_ & VS & _) Hs HP. unfold update_S. rewrite Hs. cbn [A1 A2 set_A].
  destruct (XwS_ok p B1 B2) as (v & -> & Hv). cbn [bind].
  destruct (solve_qp solver P (map Ropp v) qs) as [x| |] eqn:Es.
  2,3: exists (S1 p), (S2 p); (split; [destruct p; reflexivity|]); (split; [exact VS|lra]).
  exists (fun l k => sqrt (half1 nk x l k)), (fun l k => sqrt (half2 nl nk x l k)).
  split; [reflexivity|].
  destruct (solver_sound _ _ _ _ _ exact Es) as (Lx & Ax & _).
  apply qs_ok in Ax as [Ax _].
  assert (Bd : forall l k, (l < nl)%nat -> (k < nk)%nat ->
            lb <= half1 nk x l k /\ lb <= half2 nl nk x l k).
  { intros l k Hl Hk. destruct (halves_stacked nl nk x l k Hl Hk) as [<- <-]. split; apply Ax; lia. }
  assert (Sq : forall u, lb <= u -> 0 < sqrt u /\ lb <= sqrt u ^ 2).
  { intros u Hu. split; [apply sqrt_lt_R0; lra|]. simpl. rewrite Rmult_1_r, sqrt_sqrt; lra. }
  split.
  { intros l k Hl Hk. destruct (Bd l k Hl Hk) as [b1 b2].
    destruct (Sq _ b1), (Sq _ b2). auto. }
  pose proof (cells_opp _ _ _ _ _ Hv) as Hq.
  destruct HP as [LP HP]. destruct Hq as [Lq Hq].
  apply Rplus_le_compat.
  - apply (eld_vars nl nk data g1 w1 y1 qq g1_lt (fun o H => proj1 (ws_pos o H)) qq_pos
             B1 (S1 p) (half1 nk x) lb lb_pos).
    + intros l k Hl Hk. destruct (VS l k Hl Hk) as (a & _ & b & _). auto.
    + intros l k Hl Hk. destruct (Bd l k Hl Hk) as [b1 _]. split; [exact b1|]. intros u Hu.
      pose proof (cell_index nl nk l k Hl Hk) as Hi.
      pose proof (coordinate P _ x (l * nk + k) Es ltac:(lia) u Hu) as O.
      destruct (HP l k Hl Hk) as [E1 _], (Hq l k Hl Hk) as [E2 _]. rewrite E1, E2 in O. exact O.
  - apply (eld_vars nl nk data g2 w2 y2 qq g2_lt (fun o H => proj2 (ws_pos o H)) qq_pos
             B2 (S2 p) (half2 nl nk x) lb lb_pos).
    + intros l k Hl Hk. destruct (VS l k Hl Hk) as (_ & a & _ & b). auto.
    + intros l k Hl Hk. destruct (Bd l k Hl Hk) as [_ b2]. split; [exact b2|]. intros u Hu.
      pose proof (cell_index nl nk l k Hl Hk) as Hi.
      pose proof (coordinate P _ x (nl * nk + (l * nk + k)) Es ltac:(lia) u Hu) as O.
      destruct (HP l k Hl Hk) as [_ E1], (Hq l k Hl Hk) as [_ E2]. rewrite E1, E2 in O.
      unfold half2. replace (nl * nk + l * nk + k)%nat with (nl * nk + (l * nk + k))%nat by lia. exact O.
Qed.

Lemma values_weaken p a b : a <= b -> values_ok nl nk b p -> values_ok nl nk a p.
Proof.
  intros H (V1 & V2 & V3). split; [exact V1|]. split; [|exact V3]. intros l k Hl Hk.
  destruct (V2 l k Hl Hk) as (s1 & s2 & s3 & s4). repeat split; auto; lra.
Qed.

Lemma m_step_ok p :
  values_ok nl nk lb p -> (do_a c = true -> A_allowed nl nk c p) ->
  (do_a c = true -> do_s c = true) ->
  exists p', m_step solver nl nk c (qa, qs) data qi p = Ok p' /\ values_ok nl nk lb p' /\
    (do_a c = true -> A_allowed nl nk c p') /\ pk1 p' = pk1 p /\
    eld1 (A1 p) (S1 p) + eld2 (A2 p) (S2 p) <= eld1 (A1 p') (S1 p') + eld2 (A2 p') (S2 p').
Proof.
  intros V Ha Has. unfold m_step.
  destruct (do_s c) eqn:Es.
  - replace (do_a c || true)%bool with true by (now rewrite Bool.orb_true_r).
    destruct (XwX_ok p) as (P & -> & HP). cbn [bind fst snd].
    destruct (update_A_ok p P) as (B1 & B2 & -> & HA & _ & G1); auto.
    { apply (values_weaken p 0 lb); [lra|exact V]. }
    cbn [bind].
    destruct (update_S_ok p B1 B2 P V Es HP) as (T1 & T2 & -> & HT & G2).
    eexists. split; [reflexivity|]. split.
    { destruct V as (V1 & V2 & V3). split; [exact V1|]. split; [exact HT|exact V3]. }
    split; [exact HA|]. split; [reflexivity|]. cbn [A1 A2 S1 S2 set_S set_A]. lra.
  - assert (Ea : do_a c = false) by (destruct (do_a c); [discriminate (Has eq_refl)|reflexivity]).
    rewrite Ea. cbn [orb]. exists p. split; [reflexivity|]. split; [exact V|].
    split; [discriminate|]. split; [reflexivity|lra].
Qed.
End MStep.
