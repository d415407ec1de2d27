(* Normalisation moves a constant per worker type from the firm type effects to
   one column of controls. *)
From Verif Require Import Base BaseLemmas UtilModel UtilSpec BLMModel BLMEMModel BLMSpec
  BLMSortLemmas.
From Coq Require Import Permutation Sorted.
Local Open Scope R_scope.

Definition same_kind (a b : catpar) : Prop :=
  match a, b with Inter _, Inter _ | Shared _, Shared _ => True | _, _ => False end.
Definition cat_shift (d : nat -> R) (a a' : catpar) : Prop :=
  same_kind a a' /\ forall l n, cat_at l n a' = cat_at l n a + d l.
(* column c is shifted, the other columns are the same *)
Fixpoint cats_shift (c : nat) (d : nat -> R) (Ac Ac' : list catpar) : Prop :=
  match Ac, Ac' with
  | [], [] => True
  | a :: Ac, a' :: Ac' =>
      match c with
      | O => cat_shift d a a' /\ Ac' = Ac
      | S c => a' = a /\ cats_shift c d Ac Ac'
      end
  | _, _ => False
  end.

Lemma same_kind_refl a : same_kind a a.
Proof. now destruct a. Qed.
Lemma same_kind_trans a b c : same_kind a b -> same_kind b c -> same_kind a c.
Proof. destruct a, b, c; simpl; tauto. Qed.

Lemma cats_shift_refl c d Ac : (forall l, d l = 0) -> cats_shift c d Ac Ac.
Proof.
  intros H. revert c. induction Ac as [|a Ac IH]; intros [|c]; simpl; auto.
  split; [|reflexivity]. split; [apply same_kind_refl|]. intros l n. rewrite H. lra.
Qed.
Lemma cats_shift_ext c d d' Ac Ac' :
  (forall l, d' l = d l) -> cats_shift c d Ac Ac' -> cats_shift c d' Ac Ac'.
Proof.
  intros E. revert c Ac'. induction Ac as [|a Ac IH]; intros [|c] [|a' Ac']; simpl; auto.
  - intros [[K H] ->]. split; [|reflexivity]. split; [exact K|]. intros l n. now rewrite H, E.
  - intros [-> H]. auto.
Qed.
Lemma cats_shift_trans c d d' Ac Bc Cc :
  cats_shift c d Ac Bc -> cats_shift c d' Bc Cc -> cats_shift c (fun l => d l + d' l) Ac Cc.
Proof.
  revert c Bc Cc. induction Ac as [|a Ac IH]; intros [|c] [|b Bc] [|x Cc]; simpl; try tauto.
  - intros [[K H] ->] [[K' H'] ->]. split; [|reflexivity]. split.
    + eapply same_kind_trans; eassumption.
    + intros l n. rewrite H', H. lra.
  - intros [-> H] [-> H']. eauto.
Qed.
Lemma cats_shift_length c d Ac Ac' : cats_shift c d Ac Ac' -> length Ac' = length Ac.
Proof.
  revert c Ac'. induction Ac as [|a Ac IH]; intros [|c] [|a' Ac']; simpl; try tauto.
  - intros [_ ->]. reflexivity.
  - intros [_ H]. f_equal. eauto.
Qed.
Lemma cats_shift_shape cols c d Ac Ac' :
  cats_shift c d Ac Ac' -> Forall2 cat_shape cols Ac -> Forall2 cat_shape cols Ac'.
Proof.
  intros H F. revert c Ac' H. induction F as [|col a cols Ac Ha F IH]; intros [|c] [|a' Ac'];
    simpl; try tauto; try (intros; constructor).
  - destruct H as [[K _] _]. destruct a, a'; simpl in *; auto; contradiction.
  - destruct H as [_ ->]. exact F.
  - destruct H as [-> _]. exact Ha.
  - destruct H as [_ H]. eauto.
Qed.

Lemma cats_shift_sum c d Ac Ac' ns l :
  cats_shift c d Ac Ac' -> (c < length Ac)%nat -> length ns = length Ac ->
  cat_sum l Ac' ns = cat_sum l Ac ns + d l.
Proof.
  unfold cat_sum. revert c Ac' ns.
  induction Ac as [|a Ac IH]; intros [|c] [|a' Ac'] [|n ns]; simpl; try (intros; lia); try tauto.
  - intros [[_ H] ->] _ _. rewrite H. lra.
  - intros [-> H] Hc Hn. rewrite (IH c Ac' ns H) by lia. lra.
Qed.

(* two periods shifted alike, or another column *)
Lemma cats_shift_other c d Ac Ac' i :
  cats_shift c d Ac Ac' -> i <> c -> nth_error Ac' i = nth_error Ac i.
Proof.
  revert c Ac' i. induction Ac as [|a Ac IH]; intros [|c] [|a' Ac'] [|i]; simpl; try tauto;
    try congruence.
  - now intros [_ ->].
  - now intros [-> _].
  - intros [_ H] Hi. apply (IH c); [exact H|congruence].
Qed.
Lemma cats_shift_at c d Ac Ac' a' :
  cats_shift c d Ac Ac' -> nth_error Ac' c = Some a' ->
  exists a, nth_error Ac c = Some a /\ forall l n, cat_at l n a' = cat_at l n a + d l.
Proof.
  revert c Ac'. induction Ac as [|a Ac IH]; intros [|c] [|b Ac']; simpl; try tauto; try discriminate.
  - intros [[_ H] _] E. injection E as <-. eauto.
  - intros [_ H] E. eauto.
Qed.

(* ---- updates as shifts ---- *)
Lemma upd_shift c f d Ac :
  (forall a, nth_error Ac c = Some a -> cat_shift d a (f a)) -> cats_shift c d Ac (upd c f Ac).
Proof.
  revert c. induction Ac as [|a Ac IH]; intros [|c] H; simpl in *; auto.
Qed.
Definition at_row (l : nat) (v : R) (i : nat) : R := if (i =? l)%nat then v else 0.
Lemma cat_row_add_shift l v a :
  (exists m, a = Inter m) -> cat_shift (at_row l v) a (cat_row_add l v a).
Proof.
  intros [m ->]. split; [exact I|]. intros i n. cbn [cat_row_add cat_at]. unfold at_row, row_add.
  destruct (i =? l)%nat; lra.
Qed.
Lemma cat_add_shift v a : cat_shift (fun _ => v) a (cat_add v a).
Proof. destruct a; split; try exact I; intros l n; simpl; reflexivity. Qed.

Definition mat_shift (d : nat -> R) (A B : mat) : Prop := forall l k, B l k = A l k - d l.

Record moved (c : nat) (d1 d2 : nat -> R) (st st' : nstate) : Prop := {
  m_A1 : mat_shift d1 (fst (fst (fst st))) (fst (fst (fst st')));
  m_A2 : mat_shift d2 (snd (fst (fst st))) (snd (fst (fst st')));
  m_c1 : cats_shift c d1 (snd (fst st)) (snd (fst st'));
  m_c2 : cats_shift c d2 (snd st) (snd st')
}.

Lemma moved_refl c d1 d2 st : (forall l, d1 l = 0) -> (forall l, d2 l = 0) -> moved c d1 d2 st st.
Proof.
  intros H1 H2. constructor; try (now apply cats_shift_refl).
  - intros l k. rewrite H1. lra.
  - intros l k. rewrite H2. lra.
Qed.
Lemma moved_trans c d1 d2 e1 e2 st st' st'' :
  moved c d1 d2 st st' -> moved c e1 e2 st' st'' ->
  moved c (fun l => d1 l + e1 l) (fun l => d2 l + e2 l) st st''.
Proof.
  intros H G. constructor.
  - intros l k. rewrite (m_A1 _ _ _ _ _ G), (m_A1 _ _ _ _ _ H). lra.
  - intros l k. rewrite (m_A2 _ _ _ _ _ G), (m_A2 _ _ _ _ _ H). lra.
  - eapply cats_shift_trans; [apply (m_c1 _ _ _ _ _ H)|apply (m_c1 _ _ _ _ _ G)].
  - eapply cats_shift_trans; [apply (m_c2 _ _ _ _ _ H)|apply (m_c2 _ _ _ _ _ G)].
Qed.
Lemma moved_ext c d1 d2 e1 e2 st st' :
  (forall l, e1 l = d1 l) -> (forall l, e2 l = d2 l) ->
  moved c d1 d2 st st' -> moved c e1 e2 st st'.
Proof.
  intros E1 E2 H. constructor.
  - intros l k. rewrite E1. apply (m_A1 _ _ _ _ _ H).
  - intros l k. rewrite E2. apply (m_A2 _ _ _ _ _ H).
  - eapply cats_shift_ext; [exact E1|apply (m_c1 _ _ _ _ _ H)].
  - eapply cats_shift_ext; [exact E2|apply (m_c2 _ _ _ _ _ H)].
Qed.

Lemma shape_inter cols Ac c col :
  Forall2 cat_shape cols Ac -> nth_error cols c = Some col -> cc_inter col = true ->
  forall a, nth_error Ac c = Some a -> exists m, a = Inter m.
Proof.
  intros F. revert c. induction F as [|x a cols Ac Ha F IH]; intros [|c] E Hi b Eb;
    simpl in *; try discriminate; eauto.
  injection E as ->. injection Eb as ->. destruct b as [m|v]; [eauto|].
  simpl in Ha. congruence.
Qed.

(* shifts of the rows below n *)
Definition below (n : nat) (f : nat -> R) (i : nat) : R := if (i <? n)%nat then f i else 0.
Lemma below_S n f i : below (S n) f i = below n f i + at_row n (f n) i.
Proof.
  unfold below, at_row. destruct (Nat.ltb_spec i (S n)), (Nat.ltb_spec i n), (Nat.eqb_spec i n);
    subst; try lia; lra.
Qed.

Lemma range_S n : range (S n) = range n ++ [n].
Proof. unfold range. now rewrite seq_S. Qed.

(* a loop over the rows, each of which moves v1 (v2), taken from the row itself,
   to column c *)
Lemma moved_loop (body : nstate -> nat -> nstate) (v1 v2 : mat -> mat -> nat -> R) c cols col n st :
  nth_error cols c = Some col -> cc_inter col = true ->
  Forall2 cat_shape cols (snd (fst st)) -> Forall2 cat_shape cols (snd st) ->
  (forall A1 A2 A1c A2c l,
     body (A1, A2, A1c, A2c) l
     = (row_add l (- v1 A1 A2 l) A1, row_add l (- v2 A1 A2 l) A2,
        upd c (cat_row_add l (v1 A1 A2 l)) A1c, upd c (cat_row_add l (v2 A1 A2 l)) A2c)) ->
  (forall A1 A2 B1 B2 l, (forall k, A1 l k = B1 l k) -> (forall k, A2 l k = B2 l k) ->
     v1 A1 A2 l = v1 B1 B2 l /\ v2 A1 A2 l = v2 B1 B2 l) ->
  moved c (below n (v1 (fst (fst (fst st))) (snd (fst (fst st)))))
          (below n (v2 (fst (fst (fst st))) (snd (fst (fst st))))) st
    (fold_left body (range n) st).
Proof.
  intros Ec Hi F1 F2 Hb Hv. induction n as [|n IH].
  - apply moved_refl; intros l; reflexivity.
  - rewrite range_S, fold_left_app. cbn [fold_left].
    set (st' := fold_left body (range n) st) in *.
    destruct st as [[[X1 X2] X1c] X2c]. cbn [fst snd] in *.
    eapply moved_ext; [intros l; apply below_S|intros l; apply below_S|].
    eapply moved_trans; [exact IH|].
    destruct IH as [M1 M2 M3 M4]. destruct st' as [[[Y1 Y2] Y1c] Y2c]. cbn [fst snd] in *.
    rewrite Hb.
    destruct (Hv Y1 Y2 X1 X2 n) as [-> ->].
    { intros k. rewrite M1. unfold below. rewrite Nat.ltb_irrefl. lra. }
    { intros k. rewrite M2. unfold below. rewrite Nat.ltb_irrefl. lra. }
    constructor; cbn [fst snd].
    + intros l k. unfold row_add, at_row. destruct (l =? n)%nat; lra.
    + intros l k. unfold row_add, at_row. destruct (l =? n)%nat; lra.
    + apply upd_shift. intros a Ha. apply cat_row_add_shift.
      eapply shape_inter; [eapply cats_shift_shape; [exact M3|exact F1]|exact Ec|exact Hi|exact Ha].
    + apply upd_shift. intros a Ha. apply cat_row_add_shift.
      eapply shape_inter; [eapply cats_shift_shape; [exact M4|exact F2]|exact Ec|exact Hi|exact Ha].
Qed.

(* ---- the flags ---- *)
Definition flag_ok (cols : list catcfg) (i s : bool) (o : option nat) : Prop :=
  match o with
  | Some x => exists col, nth_error cols x = Some col /\ cc_inter col = i /\ cc_stat col = s
  | None => ~ has_col cols i s
  end.

Lemma flag_ok_snoc_other cols col i s o :
  flag_ok cols i s o -> (cc_inter col <> i \/ cc_stat col <> s) -> flag_ok (cols ++ [col]) i s o.
Proof.
  destruct o as [x|]; simpl.
  - intros (c & E & Hi & Hs) _. exists c. split; [|auto].
    rewrite nth_error_app1; [exact E|]. apply nth_error_Some. congruence.
  - intros H Hc (c & Hin & Hi & Hs). apply in_app_or in Hin as [Hin|[<-|[]]].
    + apply H. exists c; auto.
    + intuition congruence.
Qed.
Lemma flag_ok_snoc cols col i s :
  cc_inter col = i -> cc_stat col = s -> flag_ok (cols ++ [col]) i s (Some (length cols)).
Proof.
  intros Hi Hs. exists col. split; [|auto].
  rewrite nth_error_app2 by lia. now rewrite Nat.sub_diag.
Qed.
Lemma flag_ok_app cols more i s x :
  flag_ok cols i s (Some x) -> flag_ok (cols ++ more) i s (Some x).
Proof.
  intros (c & E & H). exists c. split; [|exact H].
  rewrite nth_error_app1; [exact E|]. apply nth_error_Some. congruence.
Qed.

Lemma find_flags_ok cols pre f :
  flag_ok pre true false (tv_wi f) -> tv_wi f = None ->
  flag_ok pre true true (tnv_wi f) -> flag_ok pre false false (tv_nwi f) ->
  flag_ok pre false true (tnv_nwi f) ->
  let r := find_flags cols (length pre) f in
  flag_ok (pre ++ cols) true false (tv_wi r) /\
  (tv_wi r = None ->
   flag_ok (pre ++ cols) true true (tnv_wi r) /\ flag_ok (pre ++ cols) false false (tv_nwi r) /\
   flag_ok (pre ++ cols) false true (tnv_nwi r)).
Proof.
  revert pre f. induction cols as [|col cols IH]; intros pre f H1 H0 H2 H3 H4; cbn [find_flags].
  - cbv zeta. rewrite app_nil_r. auto.
  - destruct (cc_inter col) eqn:Ei, (cc_stat col) eqn:Es.
    2:{ cbv zeta. cbn [tv_wi]. split; [|discriminate].
        change (col :: cols) with ([col] ++ cols). rewrite app_assoc.
        apply flag_ok_app. now apply flag_ok_snoc. }
    all: change (col :: cols) with ([col] ++ cols); rewrite app_assoc;
      replace (S (length pre)) with (length (pre ++ [col])) by (rewrite app_length; simpl; lia);
      apply IH; cbn [tv_wi tnv_wi tv_nwi tnv_nwi]; try exact H0;
      try (apply flag_ok_snoc_other; [assumption|rewrite ?Ei, ?Es; intuition congruence]);
      now apply flag_ok_snoc.
Qed.

Lemma flags_of_cols cols :
  let r := find_flags cols 0 (mkflags None None None None) in
  flag_ok cols true false (tv_wi r) /\
  (tv_wi r = None ->
   flag_ok cols true true (tnv_wi r) /\ flag_ok cols false false (tv_nwi r) /\
   flag_ok cols false true (tnv_nwi r)).
Proof.
  apply (find_flags_ok cols []); cbn [tv_wi tnv_wi tv_nwi tnv_nwi]; auto;
    intros (c & [] & _).
Qed.

(* ---- the result ---- *)
Definition norm_result (pp : period) (nl : nat) (cols : list catcfg) (k0 : nat)
    (st st' : nstate) : Prop :=
  let '(A1, A2, A1c, A2c) := st in
  let '(B1, B2, B1c, B2c) := st' in
  (exists d1 d2 : nat -> R,
     mat_shift d1 A1 B1 /\ mat_shift d2 A2 B2 /\
     (forall l ns, length ns = length cols -> cat_sum l B1c ns = cat_sum l A1c ns + d1 l) /\
     (forall l ns, length ns = length cols -> cat_sum l B2c ns = cat_sum l A2c ns + d2 l)) /\
  Forall2 cat_shape cols B1c /\ Forall2 cat_shape cols B2c /\
  (forall c col b1 b2, nth_error cols c = Some col -> cc_stat col = true ->
     nth_error B1c c = Some b1 -> nth_error B2c c = Some b2 ->
     exists a1 a2, nth_error A1c c = Some a1 /\ nth_error A2c c = Some a2 /\
       (same_effects a1 a2 -> same_effects b1 b2)) /\
  reference_zero pp nl cols k0 B1 B2.

Lemma moved_sums c d1 d2 A1 A2 A1c A2c B1 B2 B1c B2c (cols : list catcfg) col :
  moved c d1 d2 (A1, A2, A1c, A2c) (B1, B2, B1c, B2c) ->
  nth_error cols c = Some col ->
  Forall2 cat_shape cols A1c -> Forall2 cat_shape cols A2c ->
  mat_shift d1 A1 B1 /\ mat_shift d2 A2 B2 /\
  (forall l ns, length ns = length cols -> cat_sum l B1c ns = cat_sum l A1c ns + d1 l) /\
  (forall l ns, length ns = length cols -> cat_sum l B2c ns = cat_sum l A2c ns + d2 l).
Proof.
  intros [M1 M2 M3 M4] E F1 F2. cbn [fst snd] in *.
  assert (Hc : (c < length cols)%nat) by (apply nth_error_Some; congruence).
  assert (L1 : length cols = length A1c) by (clear -F1; induction F1; simpl; congruence).
  assert (L2 : length cols = length A2c) by (clear -F2; induction F2; simpl; congruence).
  split; [exact M1|]. split; [exact M2|].
  split; intros l ns Hn; eapply cats_shift_sum; eauto; lia.
Qed.

Lemma moved_stationary c d1 d2 A1 A2 A1c A2c B1 B2 B1c B2c (cols : list catcfg) col :
  moved c d1 d2 (A1, A2, A1c, A2c) (B1, B2, B1c, B2c) ->
  nth_error cols c = Some col -> (cc_stat col = true -> forall l, d1 l = d2 l) ->
  Forall2 cat_shape cols A1c -> Forall2 cat_shape cols A2c ->
  forall i col' b1 b2, nth_error cols i = Some col' -> cc_stat col' = true ->
     nth_error B1c i = Some b1 -> nth_error B2c i = Some b2 ->
     exists a1 a2, nth_error A1c i = Some a1 /\ nth_error A2c i = Some a2 /\
       (same_effects a1 a2 -> same_effects b1 b2).
Proof.
  intros [_ _ M3 M4] E Hd F1 F2 i col' b1 b2 Ei Hs Eb1 Eb2. cbn [fst snd] in *.
  destruct (Nat.eq_dec i c) as [->|Hi].
  - destruct (cats_shift_at _ _ _ _ _ M3 Eb1) as (a1 & Ea1 & H1).
    destruct (cats_shift_at _ _ _ _ _ M4 Eb2) as (a2 & Ea2 & H2).
    exists a1, a2. split; [exact Ea1|]. split; [exact Ea2|]. intros S l n.
    rewrite H1, H2, S. rewrite Hd; [reflexivity|congruence].
  - exists b1, b2. rewrite <- (cats_shift_other _ _ _ _ i M3 Hi), <- (cats_shift_other _ _ _ _ i M4 Hi).
    auto.
Qed.

Lemma primary_at_primary pp A1 A2 l k : primary_at pp A1 A2 l k = primary pp A1 A2 l k.
Proof. destruct pp; simpl; try reflexivity; lra. Qed.

Lemma moved_shapes c d1 d2 A1 A2 A1c A2c B1 B2 B1c B2c (cols : list catcfg) :
  moved c d1 d2 (A1, A2, A1c, A2c) (B1, B2, B1c, B2c) ->
  Forall2 cat_shape cols A1c -> Forall2 cat_shape cols A2c ->
  Forall2 cat_shape cols B1c /\ Forall2 cat_shape cols B2c.
Proof.
  intros [_ _ M3 M4] F1 F2. split; eapply cats_shift_shape; eauto.
Qed.

Lemma has_col_at (cols : list catcfg) c col i s :
  nth_error cols c = Some col -> cc_inter col = i -> cc_stat col = s -> has_col cols i s.
Proof. intros E Hi Hs. exists col. split; [eapply nth_error_In; exact E|auto]. Qed.

Section Norm.
Variable argsort : list R -> list nat.

Lemma normalize_result pp nl nk cols A1 A2 A1c A2c :
  (0 < nl)%nat ->
  Forall2 cat_shape cols A1c -> Forall2 cat_shape cols A2c ->
  norm_result pp nl cols (min_firm_type argsort pp nl nk A1 A2) (A1, A2, A1c, A2c)
    (normalize argsort pp nl nk cols (A1, A2, A1c, A2c)).
Proof.
  intros Hnl F1 F2. set (k0 := min_firm_type argsort pp nl nk A1 A2).
  destruct (flags_of_cols cols) as [P1 P2].
  unfold normalize. destruct cols as [|col0 cols0].
  { split; [exists (fun _ => 0), (fun _ => 0); repeat split;
      try (intros ? ?; lra); try (intros ? ? _; lra)|].
    split; [exact F1|]. split; [exact F2|]. split.
    - intros [|c] col b1 b2 E; discriminate.
    - split; [|split; [|split]]; try (intros (c & [] & _)); try (intros _ (c & [] & _)); congruence. }
  fold k0. set (cols := col0 :: cols0) in *.
  assert (Hne : cols <> []) by discriminate. clearbody cols. clear col0 cols0.
  set (f := find_flags cols 0 (mkflags None None None None)) in *.
  destruct (tv_wi f) as [c|] eqn:E1.
  (* an interacting time-varying column *)
  - destruct P1 as (col & Ec & Hi & Hs). clear P2.
    match goal with |- norm_result _ _ _ _ _ (fold_left ?b _ _) => set (body := b) end.
    pose proof (moved_loop body (fun A1 _ l => A1 l k0) (fun _ A2 l => A2 l k0) c cols col nl
      (A1, A2, A1c, A2c) Ec Hi F1 F2) as M.
    cbn [fst snd] in M. specialize (M ltac:(reflexivity) ltac:(intros; auto)).
    destruct (fold_left body (range nl) (A1, A2, A1c, A2c)) as [[[B1 B2] B1c] B2c].
    assert (Z : forall l, (l < nl)%nat -> B1 l k0 = 0 /\ B2 l k0 = 0).
    { intros l Hl. pose proof (m_A1 _ _ _ _ _ M l k0) as Q1. pose proof (m_A2 _ _ _ _ _ M l k0) as Q2.
      cbn [fst snd] in Q1, Q2. unfold below in Q1, Q2.
      destruct (Nat.ltb_spec l nl); [lra|lia]. }
    split; [eexists _, _; eapply moved_sums; eassumption|].
    destruct (moved_shapes _ _ _ _ _ _ _ _ _ _ _ cols M F1 F2) as [G1 G2].
    split; [exact G1|]. split; [exact G2|]. split.
    + eapply moved_stationary; try eassumption. congruence.
    + pose proof (has_col_at cols c col true false Ec Hi Hs) as Hh.
      split; [intros _; exact Z|]. split; [tauto|]. split; [tauto|].
      intros _. destruct (Z 0%nat Hnl) as [Z1 Z2]. destruct pp; simpl; rewrite ?Z1, ?Z2; lra.
  - destruct (P2 eq_refl) as (P3 & P4 & P5). clear P2. cbn [flag_ok] in P1.
    destruct (tnv_wi f) as [c|] eqn:E2.
    (* an interacting stationary column *)
    + destruct P3 as (col & Ec & Hi & Hs).
      match goal with |- context [fold_left ?b (range nl) _] => set (body := b) end.
      pose proof (moved_loop body (fun A1 A2 l => primary_at pp A1 A2 l k0)
        (fun A1 A2 l => primary_at pp A1 A2 l k0) c cols col nl
        (A1, A2, A1c, A2c) Ec Hi F1 F2) as M.
      cbn [fst snd] in M. specialize (M ltac:(reflexivity)).
      specialize (M ltac:(intros X1 X2 Y1 Y2 l Q1 Q2; destruct pp; simpl; rewrite ?Q1, ?Q2; auto)).
      destruct (fold_left body (range nl) (A1, A2, A1c, A2c)) as [[[B1 B2] B1c] B2c].
      set (d := below nl (fun l => primary_at pp A1 A2 l k0)) in *.
      destruct (moved_shapes _ _ _ _ _ _ _ _ _ _ _ cols M F1 F2) as [G1 G2].
      pose proof (moved_sums _ _ _ _ _ _ _ _ _ _ _ cols col M Ec F1 F2) as (S1 & S2 & S3 & S4).
      pose proof (moved_stationary _ _ _ _ _ _ _ _ _ _ _ cols col M Ec ltac:(auto) F1 F2) as St.
      assert (Z : forall l, (l < nl)%nat -> primary pp B1 B2 l k0 = 0).
      { intros l Hl. pose proof (S1 l k0) as Q1. pose proof (S2 l k0) as Q2.
        unfold d, below in Q1, Q2. destruct (Nat.ltb_spec l nl); [|lia].
        rewrite primary_at_primary in Q1, Q2. destruct pp; simpl in *; lra. }
      pose proof (has_col_at cols c col true true Ec Hi Hs) as Hh.
      destruct (tv_nwi f) as [e|] eqn:E3.
      * destruct P4 as (col' & Ee & Hi' & Hs').
        set (e1 := match pp with PFirst => 0 | _ => B1 0%nat k0 end).
        set (e2 := match pp with PSecond => 0 | _ => B2 0%nat k0 end).
        assert (M' : exists C1 C2 C1c C2c,
          (let '(X1, X1c) := match pp with PFirst => (B1, B1c)
                             | PSecond | PAll => secondary_step e k0 B1 B1c end in
           let '(X2, X2c) := match pp with PSecond => (B2, B2c)
                             | PFirst | PAll => secondary_step e k0 B2 B2c end in
           (X1, X2, X1c, X2c)) = (C1, C2, C1c, C2c) /\
          moved e (fun _ => e1) (fun _ => e2) (B1, B2, B1c, B2c) (C1, C2, C1c, C2c)).
        { unfold e1, e2, secondary_step. destruct pp; do 4 eexists; (split; [reflexivity|]);
          constructor; cbn [fst snd]; try (intros l k; unfold mat_add; lra);
          try (apply cats_shift_refl; reflexivity);
          apply upd_shift; intros a _; apply cat_add_shift. }
        destruct M' as (C1 & C2 & C1c & C2c & EC & M').
        assert (EQ : norm_result pp nl cols k0 (A1, A2, A1c, A2c) (C1, C2, C1c, C2c)).
        2:{ rewrite <- EC in EQ. exact EQ. }
        destruct (moved_shapes _ _ _ _ _ _ _ _ _ _ _ cols M' G1 G2) as [G1' G2'].
        pose proof (moved_sums _ _ _ _ _ _ _ _ _ _ _ cols col' M' Ee G1 G2) as (T1 & T2 & T3 & T4).
        pose proof (moved_stationary _ _ _ _ _ _ _ _ _ _ _ cols col' M' Ee ltac:(congruence) G1 G2) as St'.
        split.
        { exists (fun l => d l + e1), (fun l => d l + e2). repeat split.
          - intros l k. rewrite T1, S1. lra.
          - intros l k. rewrite T2, S2. lra.
          - intros l ns Hn. rewrite T3, S3 by exact Hn. lra.
          - intros l ns Hn. rewrite T4, S4 by exact Hn. lra. }
        split; [exact G1'|]. split; [exact G2'|]. split.
        { intros i coli b1 b2 Ei Hsi Eb1 Eb2.
          destruct (St' i coli b1 b2 Ei Hsi Eb1 Eb2) as (a1 & a2 & Ea1 & Ea2 & I1).
          destruct (St i coli a1 a2 Ei Hsi Ea1 Ea2) as (a1' & a2' & Ea1' & Ea2' & I2).
          exists a1', a2'. auto. }
        assert (Z0 : C1 0%nat k0 = 0 /\ C2 0%nat k0 = 0).
        { pose proof (Z 0%nat Hnl) as Q. rewrite T1, T2. unfold e1, e2.
          destruct pp; simpl in Q; lra. }
        assert (ZP : forall l, (l < nl)%nat -> primary pp C1 C2 l k0 = 0).
        { intros l Hl. pose proof (Z l Hl) as Q. pose proof (Z 0%nat Hnl) as Q0.
          pose proof (T1 l k0) as R1. pose proof (T2 l k0) as R2.
          unfold e1 in R1. unfold e2 in R2. destruct pp; simpl in *; lra. }
        split; [tauto|]. split; [intros _ _; exact ZP|]. split; [intros _ _; exact Z0|].
        intros _. now apply ZP.
      * split; [exists d, d; auto|]. split; [exact G1|]. split; [exact G2|].
        split; [exact St|]. split; [tauto|]. split; [intros _ _; exact Z|].
        cbn [flag_ok] in P4. split; [tauto|]. intros _. now apply Z.
    + cbn [flag_ok] in P3. destruct (tv_nwi f) as [e|] eqn:E3.
      * destruct P4 as (col & Ee & Hi & Hs).
        assert (M : moved e (fun _ => A1 0%nat k0) (fun _ => A2 0%nat k0) (A1, A2, A1c, A2c)
          (mat_add (- A1 0%nat k0) A1, mat_add (- A2 0%nat k0) A2,
           upd e (cat_add (A1 0%nat k0)) A1c, upd e (cat_add (A2 0%nat k0)) A2c)).
        { constructor; cbn [fst snd]; try (intros l k; unfold mat_add; lra);
          apply upd_shift; intros a _; apply cat_add_shift. }
        destruct (moved_shapes _ _ _ _ _ _ _ _ _ _ _ cols M F1 F2) as [G1 G2].
        split; [eexists _, _; eapply moved_sums; eassumption|].
        split; [exact G1|]. split; [exact G2|].
        split; [eapply moved_stationary; try eassumption; congruence|].
        split; [tauto|]. split; [tauto|]. unfold mat_add.
        split; [intros _ _; lra|]. intros _. destruct pp; simpl; lra.
      * cbn [flag_ok] in P4. destruct (tnv_nwi f) as [e|] eqn:E4.
        -- destruct P5 as (col & Ee & Hi & Hs).
           set (v := primary_at pp A1 A2 0%nat k0).
           assert (M : moved e (fun _ => v) (fun _ => v) (A1, A2, A1c, A2c)
             (mat_add (- v) A1, mat_add (- v) A2, upd e (cat_add v) A1c, upd e (cat_add v) A2c)).
           { constructor; cbn [fst snd]; try (intros l k; unfold mat_add; lra);
             apply upd_shift; intros a _; apply cat_add_shift. }
           destruct (moved_shapes _ _ _ _ _ _ _ _ _ _ _ cols M F1 F2) as [G1 G2].
           split; [eexists _, _; eapply moved_sums; eassumption|].
           split; [exact G1|]. split; [exact G2|].
           split; [eapply moved_stationary; try eassumption; auto|].
           split; [tauto|]. split; [tauto|]. split; [tauto|].
           intros _. unfold v, mat_add. rewrite primary_at_primary. destruct pp; simpl; lra.
        -- exfalso. cbn [flag_ok] in P5. destruct cols as [|col cols]; [congruence|].
           destruct (cc_inter col) eqn:Ei, (cc_stat col) eqn:Es;
           [apply P3|apply P1|apply P5|apply P4]; exists col; (split; [now left|auto]).
Qed.

Lemma firm_mean_shift pp nl nk k0 d1 d2 A1 A2 B1 B2 :
  mat_shift d1 A1 B1 -> mat_shift d2 A2 B2 ->
  lowest pp nl nk k0 A1 A2 -> lowest pp nl nk k0 B1 B2.
Proof.
  intros H1 H2 [Hk L]. split; [exact Hk|]. intros k Hk'. specialize (L k Hk').
  set (e := fun l => match pp with PFirst => d1 l | PSecond => d2 l | PAll => (d1 l + d2 l) / 2 end).
  assert (E : forall j, firm_mean pp nl B1 B2 j = firm_mean pp nl A1 A2 j - sumn nl e / INR nl).
  { intros j. unfold firm_mean, Rdiv. rewrite <- Rmult_minus_distr_r, <- sumn_minus.
    f_equal. apply sumn_ext. intros l _. unfold e.
    destruct pp; simpl; rewrite ?H1, ?H2; lra. }
  rewrite !E. lra.
Qed.

Hypothesis argsort_ok : forall l, is_argsort l (argsort l).

Lemma min_firm_type_lowest pp nl nk A1 A2 :
  (0 < nk)%nat -> lowest pp nl nk (min_firm_type argsort pp nl nk A1 A2) A1 A2.
Proof.
  intros Hnk. unfold min_firm_type. set (Am := A_mean pp A1 A2).
  destruct (argsort_ok (col_means nl nk Am)) as [P S].
  set (o := argsort (col_means nl nk Am)) in *.
  rewrite length_col_means in P.
  pose proof (perm_length _ _ P) as Hlen. pose proof (perm_relabelling _ _ P) as Q.
  pose proof (relabelling_lt _ _ 0%nat Q Hnk) as L0. cbv beta in L0.
  split; [exact L0|]. intros k Hk.
  assert (Hin : In k o).
  { eapply Permutation_in; [symmetry; exact P|]. apply in_seq. lia. }
  destruct (In_nth _ _ 0%nat Hin) as (j & Hj & Ej).
  assert (E : forall k, (k < nk)%nat -> nth k (col_means nl nk Am) 0 = firm_mean pp nl A1 A2 k).
  { intros i Hi. rewrite nth_col_means by exact Hi. unfold Am. now rewrite A_mean_primary. }
  rewrite <- !E by assumption.
  destruct j as [|j]; [rewrite <- Ej; lra|].
  rewrite <- Ej. apply sorted_nth; [exact S|lia].
Qed.
End Norm.
