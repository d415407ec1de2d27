(* Proofs about weighted_quantile. *)
From Verif Require Import Base BaseLemmas UtilModel UtilSpec UtilStatLemmas.
From Coq Require Import Permutation Sorted.
Local Open Scope R_scope.

(* ---- interpolation ---- *)
(* Knots strictly increase, values do not decrease. *)
Definition incr (p q : R * R) : Prop := fst p < fst q /\ snd p <= snd q.

Lemma interp_seg_bounds x x0 f0 x1 f1 :
  x0 <= x -> x < x1 -> f0 <= f1 ->
  f0 <= (f1 - f0) / (x1 - x0) * (x - x0) + f0 <= f1.
Proof.
  intros H0 H1 Hf.
  assert (Hd : 0 < x1 - x0) by lra.
  assert (E : (f1 - f0) / (x1 - x0) * (x - x0)
              = (f1 - f0) * ((x - x0) / (x1 - x0))) by (field; lra).
  rewrite E.
  assert (Ht : 0 <= (x - x0) / (x1 - x0) <= 1).
  { split.
    - apply Rmult_le_pos; [lra|]. apply Rlt_le, Rinv_0_lt_compat; lra.
    - apply Rmult_le_reg_r with (x1 - x0); [lra|]. field_simplify; lra. }
  split; nra.
Qed.

Lemma interp_from_lower x x0 f0 rest :
  x0 <= x -> StronglySorted incr ((x0, f0) :: rest) ->
  f0 <= interp_from x x0 f0 rest.
Proof.
  revert x0 f0; induction rest as [|[x1 f1] rest IH]; intros x0 f0 Hx Hs; simpl; [lra|].
  inversion Hs as [|? ? Hs' Hall]; subst. inversion Hall as [|? ? [Hi1 Hi2] _]; subst.
  simpl in Hi1, Hi2.
  destruct (Rlt_dec x x1).
  - destruct (Req_EM_T x x0); [lra|]. apply interp_seg_bounds; lra.
  - apply Rle_trans with f1; [lra|]. apply IH; [lra|exact Hs'].
Qed.

Lemma interp_from_upper x x0 f0 rest hi :
  x0 <= x -> StronglySorted incr ((x0, f0) :: rest) ->
  (forall p, In p ((x0, f0) :: rest) -> snd p <= hi) ->
  interp_from x x0 f0 rest <= hi.
Proof.
  revert x0 f0; induction rest as [|[x1 f1] rest IH]; intros x0 f0 Hx Hs Hhi; simpl.
  - apply (Hhi (x0, f0)); now left.
  - inversion Hs as [|? ? Hs' Hall]; subst. inversion Hall as [|? ? [Hi1 Hi2] _]; subst.
    simpl in Hi1, Hi2.
    destruct (Rlt_dec x x1).
    + assert (f1 <= hi) by (apply (Hhi (x1, f1)); right; now left).
      destruct (Req_EM_T x x0); [lra|].
      apply Rle_trans with f1; [|lra]. apply interp_seg_bounds; lra.
    + apply IH; [lra|exact Hs'|]. intros p Hp. apply Hhi. now right.
Qed.

Lemma interp_from_mono x y x0 f0 rest :
  x0 <= x -> x <= y -> StronglySorted incr ((x0, f0) :: rest) ->
  interp_from x x0 f0 rest <= interp_from y x0 f0 rest.
Proof.
  revert x0 f0; induction rest as [|[x1 f1] rest IH]; intros x0 f0 Hx Hxy Hs; simpl; [lra|].
  inversion Hs as [|? ? Hs' Hall]; subst. inversion Hall as [|? ? [Hi1 Hi2] _]; subst.
  simpl in Hi1, Hi2.
  destruct (Rlt_dec x x1) as [Hx1|Hx1]; destruct (Rlt_dec y x1) as [Hy1|Hy1]; [| |lra|].
  - destruct (Req_EM_T x x0); destruct (Req_EM_T y x0).
    + lra.
    + apply interp_seg_bounds; lra.
    + exfalso; lra.
    + apply Rplus_le_compat_r. apply Rmult_le_compat_l; [|lra].
      apply Rmult_le_pos; [lra|]. apply Rlt_le, Rinv_0_lt_compat; lra.
  - apply Rle_trans with f1.
    + destruct (Req_EM_T x x0); [lra|]. apply interp_seg_bounds; lra.
    + apply interp_from_lower; [lra|exact Hs'].
  - apply IH; [lra|exact Hxy|exact Hs'].
Qed.

Lemma interp_from_knot x f x0 f0 rest :
  StronglySorted incr ((x0, f0) :: rest) -> In (x, f) ((x0, f0) :: rest) ->
  interp_from x x0 f0 rest = f.
Proof.
  revert x0 f0; induction rest as [|[x1 f1] rest IH]; intros x0 f0 Hs Hin; simpl.
  - destruct Hin as [E|[]]. now inversion E.
  - inversion Hs as [|? ? Hs' Hall]; subst.
    destruct Hin as [E|Hin].
    + inversion E; subst. inversion Hall as [|? ? [Hi1 _] _]; subst. simpl in Hi1.
      destruct (Rlt_dec x x1); [|lra]. destruct (Req_EM_T x x); [reflexivity|congruence].
    + assert (Hle : x1 <= x).
      { inversion Hs' as [|? ? _ Hall']; subst. destruct Hin as [E|Hin'].
        - inversion E; lra.
        - rewrite Forall_forall in Hall'. destruct (Hall' _ Hin') as [H _].
          simpl in H; lra. }
      destruct (Rlt_dec x x1); [lra|]. apply IH; assumption.
Qed.

Lemma interp_from_shift x x0 f0 rest c :
  interp_from x x0 (f0 + c) (map (fun p => (fst p, snd p + c)) rest)
  = interp_from x x0 f0 rest + c.
Proof.
  revert x0 f0; induction rest as [|[x1 f1] rest IH]; intros x0 f0; simpl; [reflexivity|].
  destruct (Rlt_dec x x1).
  - destruct (Req_EM_T x x0); [reflexivity|].
    replace (f1 + c - (f0 + c)) with (f1 - f0) by ring. ring.
  - apply IH.
Qed.

Lemma interp_ok pts x : pts <> [] -> exists r, interp x pts = Ok r.
Proof. destruct pts as [|[x0 f0] rest]; [congruence|]. simpl. eauto. Qed.

Lemma interp_bounds pts x r lo hi :
  StronglySorted incr pts -> interp x pts = Ok r ->
  (forall p, In p pts -> lo <= snd p <= hi) -> lo <= r <= hi.
Proof.
  destruct pts as [|[x0 f0] rest]; simpl; [discriminate|]. intros Hs E Hb.
  inversion E; subst. assert (lo <= f0 <= hi) by (apply (Hb (x0, f0)); now left).
  destruct (Rlt_dec x x0); [lra|]. split.
  - apply Rle_trans with f0; [lra|]. apply interp_from_lower; [lra|exact Hs].
  - apply interp_from_upper; [lra|exact Hs|]. intros p Hp. apply Hb; exact Hp.
Qed.

Lemma interp_mono pts x y r s :
  StronglySorted incr pts -> x <= y ->
  interp x pts = Ok r -> interp y pts = Ok s -> r <= s.
Proof.
  destruct pts as [|[x0 f0] rest]; simpl; [discriminate|]. intros Hs Hxy E1 E2.
  inversion E1; inversion E2; subst.
  destruct (Rlt_dec x x0), (Rlt_dec y x0); try lra.
  - apply interp_from_lower; [lra|exact Hs].
  - apply interp_from_mono; [lra|exact Hxy|exact Hs].
Qed.

Lemma interp_knot pts x f :
  StronglySorted incr pts -> In (x, f) pts -> interp x pts = Ok f.
Proof.
  destruct pts as [|[x0 f0] rest]; simpl; [tauto|]. intros Hs Hin.
  f_equal. destruct (Rlt_dec x x0) as [H|H].
  - exfalso. inversion Hs as [|? ? _ Hall]; subst.
    destruct Hin as [E|Hin]; [inversion E; lra|].
    rewrite Forall_forall in Hall. destruct (Hall _ Hin) as [H' _]. simpl in H'. lra.
  - apply interp_from_knot; [exact Hs|exact Hin].
Qed.

Lemma interp_shift pts x c :
  interp x (map (fun p => (fst p, snd p + c)) pts) = rmap (fun r => r + c) (interp x pts).
Proof.
  destruct pts as [|[x0 f0] rest]; simpl; [reflexivity|].
  destruct (Rlt_dec x x0); [reflexivity|]. now rewrite interp_from_shift.
Qed.

(* ---- knots ---- *)
Definition knots_from (acc : R) (w : list R) : list R :=
  map2 (fun c w => c - / 2 * w) (cumsum_from acc w) w.

Lemma knots_from_sorted acc w :
  positive w -> StronglySorted Rlt (knots_from acc w)
                /\ (forall k, In k (knots_from acc w) -> acc < k < acc + rsum w).
Proof.
  revert acc; induction w as [|x w IH]; intros acc Hw; unfold knots_from; simpl.
  - split; [constructor|tauto].
  - assert (Hx : 0 < x) by (apply Hw; now left).
    assert (Hw' : positive w) by (intros y Hy; apply Hw; now right).
    assert (Hs : 0 <= rsum w) by (apply rsum_nonneg; intros; now apply Rlt_le, Hw').
    destruct (IH (acc + x) Hw') as [H1 H2]. fold (knots_from (acc + x) w).
    split.
    + constructor; [exact H1|]. apply Forall_forall. intros k Hk.
      specialize (H2 k Hk). lra.
    + intros k [<-|Hk]; [lra|]. specialize (H2 k Hk). lra.
Qed.

Lemma length_cumsum acc w : length (cumsum_from acc w) = length w.
Proof. revert acc; induction w; intros; simpl; congruence. Qed.

Lemma length_knots acc w : length (knots_from acc w) = length w.
Proof. unfold knots_from. rewrite length_map2; apply length_cumsum. Qed.

Lemma nth_knots acc w i :
  (i < length w)%nat ->
  nth i (knots_from acc w) 0 = acc + rsum (firstn i w) + nth i w 0 / 2.
Proof.
  revert acc i; induction w as [|x w IH]; intros acc i Hi; simpl in Hi; [lia|].
  unfold knots_from. simpl. destruct i as [|i]; simpl; [lra|].
  fold (knots_from (acc + x) w). rewrite IH by lia. lra.
Qed.

Lemma sorted_map_incr (f : R -> R) l :
  (forall x y, x < y -> f x < f y) -> StronglySorted Rlt l ->
  StronglySorted Rlt (map f l).
Proof.
  intros Hf. induction 1 as [|x l Hs IH Hall]; simpl; constructor; [exact IH|].
  rewrite Forall_forall in *. intros y Hy. apply in_map_iff in Hy as [z [<- Hz]].
  apply Hf, Hall, Hz.
Qed.

Lemma combine_incr xs fs :
  StronglySorted Rlt xs -> StronglySorted Rle fs -> StronglySorted incr (combine xs fs).
Proof.
  intros Hx; revert fs. induction Hx as [|x xs Hs IH Hall]; intros fs Hf; simpl; [constructor|].
  destruct Hf as [|f fs Hf' Hallf]; [constructor|]. constructor; [now apply IH|].
  apply Forall_forall. intros [y g] Hin.
  rewrite Forall_forall in Hall, Hallf. split; simpl.
  - apply Hall. now apply in_combine_l in Hin.
  - apply Hallf. now apply in_combine_r in Hin.
Qed.

(* ---- argsort contract ---- *)
Lemma take_perm l idx : Permutation idx (range (length l)) -> Permutation (take l idx) l.
Proof.
  intros H. unfold take. etransitivity; [apply Permutation_map, H|].
  assert (E : map (fun i => nth i l 0) (range (length l)) = l).
  { apply nth_error_ext'. intros i.
    destruct (le_lt_dec (length l) i) as [Hi|Hi].
    - rewrite !(proj2 (nth_error_None _ _)); [reflexivity|lia|].
      rewrite map_length. unfold range. rewrite seq_length. lia.
    - rewrite nth_error_map, nth_error_range by exact Hi. simpl.
      symmetry. now apply nth_error_nth'. }
  rewrite E. reflexivity.
Qed.

Lemma length_take l idx : length (take l idx) = length idx.
Proof. unfold take. apply map_length. Qed.

Lemma take_positive w (v : list R) idx :
  length w = length v -> Permutation idx (range (length v)) -> positive w ->
  positive (take w idx).
Proof.
  intros Hl Hp Hw x Hx. rewrite <- Hl in Hp. apply Hw.
  eapply Permutation_in; [apply take_perm, Hp|exact Hx].
Qed.

(* ---- the function ---- *)
Definition sorted_input (argsort : list R -> list nat) (values : list R)
    (w : list R) (vs : bool) : list R * list R :=
  if vs then (values, w) else (take values (argsort values), take w (argsort values)).

Definition knots (w : list R) (old_style : bool) : list R :=
  let wq := knots_from 0 w in
  if old_style
  then let wq := map (fun q => q - nth 0 wq 0) wq in map (fun q => q / last wq 0) wq
  else map (fun q => q / rsum w) wq.

Lemma wq_unfold argsort values qs sw vs os :
  weighted_quantile argsort values qs sw vs os
  = if negb (all_in_unit qs) then Err ValueError else
    let '(v, w) := sorted_input argsort values (weights_of values sw) vs in
    traverse (fun q => interp q (combine (knots w os) v)) qs.
Proof.
  unfold weighted_quantile, sorted_input, knots, knots_from, weights_of, cumsum.
  destruct (negb (all_in_unit qs)); [reflexivity|].
  destruct vs; destruct os; reflexivity.
Qed.

Lemma all_in_unit_spec qs : all_in_unit qs = true <-> (forall q, In q qs -> 0 <= q <= 1).
Proof.
  unfold all_in_unit. rewrite andb_true_iff, !forallb_forall. split.
  - intros [H1 H2] q Hq. specialize (H1 q Hq). specialize (H2 q Hq).
    destruct (Rle_dec 0 q), (Rle_dec q 1); try discriminate. lra.
  - intros H. split; intros q Hq; specialize (H q Hq).
    + destruct (Rle_dec 0 q); [reflexivity|lra].
    + destruct (Rle_dec q 1); [reflexivity|lra].
Qed.

Lemma last_nth (l : list R) : last l 0 = nth (length l - 1) l 0.
Proof.
  induction l as [|x l IH]; [reflexivity|]. destruct l as [|y l]; [reflexivity|].
  change (last (x :: y :: l) 0) with (last (y :: l) 0). rewrite IH.
  simpl length. replace (S (S (length l)) - 1)%nat with (S (S (length l) - 1)) by lia.
  reflexivity.
Qed.

Lemma sorted_nth_lt l i j :
  StronglySorted Rlt l -> (i < j)%nat -> (j < length l)%nat -> nth i l 0 < nth j l 0.
Proof.
  intros Hs; revert i j. induction Hs as [|x l Hs IH Hall]; intros i j Hij Hj; simpl in Hj; [lia|].
  destruct j as [|j]; [lia|]. destruct i as [|i]; simpl.
  - rewrite Forall_forall in Hall. apply Hall, nth_In. lia.
  - apply IH; lia.
Qed.

Lemma knots_sorted w os :
  w <> [] -> positive w -> (os = true -> (2 <= length w)%nat) ->
  StronglySorted Rlt (knots w os).
Proof.
  intros Hn Hw Hos. unfold knots.
  destruct (knots_from_sorted 0 w Hw) as [Hs Hb].
  assert (Hp := rsum_positive w Hn Hw).
  destruct os.
  - specialize (Hos eq_refl). apply sorted_map_incr.
    + intros x y Hxy. apply Rmult_lt_compat_r; [|exact Hxy].
      apply Rinv_0_lt_compat. rewrite last_nth, map_length, length_knots.
      rewrite (nth_map_in _ _ _ 0 0) by (rewrite length_knots; lia).
      assert (H := sorted_nth_lt _ 0 (length w - 1) Hs).
      rewrite length_knots in H. specialize (H ltac:(lia) ltac:(lia)). lra.
    + apply sorted_map_incr; [|exact Hs]. intros; lra.
  - apply sorted_map_incr; [|exact Hs]. intros x y Hxy.
    apply Rmult_lt_compat_r; [|exact Hxy]. now apply Rinv_0_lt_compat.
Qed.

Lemma length_knots' w os : length (knots w os) = length w.
Proof. unfold knots. destruct os; rewrite ?map_length, length_knots; reflexivity. Qed.

Lemma wq_points argsort values sw vs os :
  wq_pre argsort values sw vs os ->
  let '(v, w) := sorted_input argsort values (weights_of values sw) vs in
  StronglySorted incr (combine (knots w os) v)
  /\ combine (knots w os) v <> []
  /\ (forall p, In p (combine (knots w os) v) -> In (snd p) values)
  /\ Permutation v values /\ length w = length v /\ positive w /\ w <> [].
Proof.
  intros (Hn & Hl & Hw & Hs & Hos). set (w0 := weights_of values sw) in *.
  assert (G : forall v w, Permutation v values -> length w = length v -> positive w ->
     StronglySorted Rle v -> length v = length values ->
     StronglySorted incr (combine (knots w os) v)
  /\ combine (knots w os) v <> []
  /\ (forall p, In p (combine (knots w os) v) -> In (snd p) values)
  /\ Permutation v values /\ length w = length v /\ positive w /\ w <> []).
  { intros v w Hperm Hlen Hpos Hsort Hlv.
    assert (Hwn : w <> []).
    { intros ->. simpl in Hlen. destruct values; simpl in *; [congruence|lia]. }
    split; [|split; [|split]].
    - apply combine_incr; [|exact Hsort]. apply knots_sorted; [exact Hwn|exact Hpos|].
      intros E. specialize (Hos E). lia.
    - intros E. apply f_equal with (f := @length _) in E.
      rewrite combine_length, length_knots' in E. cbn [length] in E.
      assert (length w <> 0)%nat by (destruct w; simpl; congruence). lia.
    - intros [x f] Hp. simpl. apply in_combine_r in Hp.
      eapply Permutation_in; eassumption.
    - repeat split; assumption. }
  unfold sorted_input. destruct vs.
  - apply G; auto.
  - destruct Hs as [Hp Hs]. apply G.
    + now apply take_perm.
    + now rewrite !length_take.
    + eapply take_positive; eassumption.
    + exact Hs.
    + rewrite length_take. apply Permutation_length in Hp.
      unfold range in Hp. now rewrite seq_length in Hp.
Qed.

Lemma traverse_ok_all {A B} (f : A -> res B) l :
  (forall x, In x l -> exists y, f x = Ok y) -> exists ys, traverse f l = Ok ys.
Proof.
  induction l as [|x l IH]; intros H; simpl; [eauto|].
  destruct (H x) as [y ->]; [now left|]. destruct IH as [ys ->]; [firstorder|].
  simpl. eauto.
Qed.

Lemma traverse_nth {A B} (f : A -> res B) l ys :
  traverse f l = Ok ys ->
  length ys = length l /\
  forall i x, nth_error l i = Some x -> exists y, nth_error ys i = Some y /\ f x = Ok y.
Proof.
  revert ys; induction l as [|x l IH]; intros ys H; simpl in H.
  - inversion H; subst. split; [reflexivity|]. intros [|i] ? E; discriminate.
  - destruct (f x) as [y|] eqn:Ey; simpl in H; [|discriminate].
    destruct (traverse f l) as [zs|] eqn:Ez; simpl in H; [|discriminate].
    inversion H; subst. destruct (IH zs eq_refl) as [Hl Hi].
    split; [simpl; congruence|]. intros [|i] z Hz; simpl in *.
    + inversion Hz; subst. eauto.
    + now apply Hi.
Qed.

Lemma wq_error argsort values qs sw vs os :
  wq_pre argsort values sw vs os ->
  (weighted_quantile argsort values qs sw vs os = Err ValueError
     <-> exists q, In q qs /\ (q < 0 \/ 1 < q))
  /\ ((forall q, In q qs -> 0 <= q <= 1) ->
      exists rs, weighted_quantile argsort values qs sw vs os = Ok rs
                 /\ length rs = length qs).
Proof.
  intros Hpre. rewrite wq_unfold.
  assert (Hpts := wq_points _ _ _ _ _ Hpre).
  destruct (sorted_input argsort values (weights_of values sw) vs) as [v w].
  destruct Hpts as (Hs & Hne & _).
  assert (Hok : exists rs, traverse (fun q => interp q (combine (knots w os) v)) qs = Ok rs).
  { apply traverse_ok_all. intros q _. now apply interp_ok. }
  destruct Hok as [rs Hrs].
  destruct (all_in_unit qs) eqn:Ea; simpl.
  - rewrite all_in_unit_spec in Ea. split.
    + split.
      * rewrite Hrs. discriminate.
      * intros [q [Hq Hb]]. specialize (Ea q Hq). lra.
    + intros _. exists rs. split; [exact Hrs|]. now apply traverse_nth in Hrs.
  - split.
    + split; [|reflexivity]. intros _.
      assert (Hn : ~ forall q, In q qs -> 0 <= q <= 1)
        by (rewrite <- all_in_unit_spec; congruence).
      clear -Hn. induction qs as [|q qs IH].
      * exfalso; apply Hn; intros ? [].
      * destruct (Rlt_dec q 0); [exists q; split; [now left|now left]|].
        destruct (Rlt_dec 1 q); [exists q; split; [now left|now right]|].
        destruct IH as [q' [Hq' Hb]].
        { intros H. apply Hn. intros z [<-|Hz]; [lra|now apply H]. }
        exists q'; split; [now right|exact Hb].
    + intros H. rewrite <- all_in_unit_spec in H. congruence.
Qed.

Lemma wq_bounds argsort values qs sw vs os rs lo hi :
  wq_pre argsort values sw vs os ->
  weighted_quantile argsort values qs sw vs os = Ok rs ->
  (forall x, In x values -> lo <= x <= hi) ->
  forall r, In r rs -> lo <= r <= hi.
Proof.
  intros Hpre E Hb r Hr. rewrite wq_unfold in E.
  assert (Hpts := wq_points _ _ _ _ _ Hpre).
  destruct (negb (all_in_unit qs)); [discriminate|].
  destruct (sorted_input argsort values (weights_of values sw) vs) as [v w].
  destruct Hpts as (Hs & Hne & Hin & _).
  apply traverse_nth in E as [Hl Hn].
  apply In_nth_error in Hr as [i Hi].
  assert (Hil : (i < length qs)%nat).
  { rewrite <- Hl. apply nth_error_Some. congruence. }
  destruct (nth_error qs i) as [q|] eqn:Eq.
  2:{ apply nth_error_None in Eq. lia. }
  destruct (Hn i q Eq) as [y [Hy Ey]]. rewrite Hi in Hy. inversion Hy; subst.
  eapply interp_bounds; [exact Hs|exact Ey|].
  intros p Hp. apply Hb. now apply Hin.
Qed.

Lemma wq_mono argsort values qs sw vs os rs i j qi qj ri rj :
  wq_pre argsort values sw vs os ->
  weighted_quantile argsort values qs sw vs os = Ok rs ->
  nth_error qs i = Some qi -> nth_error qs j = Some qj ->
  nth_error rs i = Some ri -> nth_error rs j = Some rj ->
  qi <= qj -> ri <= rj.
Proof.
  intros Hpre E Hqi Hqj Hri Hrj Hle. rewrite wq_unfold in E.
  assert (Hpts := wq_points _ _ _ _ _ Hpre).
  destruct (negb (all_in_unit qs)); [discriminate|].
  destruct (sorted_input argsort values (weights_of values sw) vs) as [v w].
  destruct Hpts as (Hs & _).
  apply traverse_nth in E as [Hl Hn].
  destruct (Hn i qi Hqi) as [y [Hy Ey]]. destruct (Hn j qj Hqj) as [z [Hz Ez]].
  rewrite Hri in Hy; rewrite Hrj in Hz. inversion Hy; inversion Hz; subst.
  eapply interp_mono; eassumption.
Qed.

Lemma weights_of_shift values sw c :
  weights_of (map (fun x => x + c) values) sw = weights_of values sw.
Proof. destruct sw; simpl; [reflexivity|]. now rewrite map_map. Qed.

Lemma take_shift values idx c :
  (forall i, In i idx -> (i < length values)%nat) ->
  take (map (fun x => x + c) values) idx = map (fun x => x + c) (take values idx).
Proof.
  intros H. unfold take. rewrite map_map. apply map_ext_in. intros i Hi.
  rewrite (nth_map_in _ values i 0 0); [reflexivity|now apply H].
Qed.

Lemma combine_shift xs fs c :
  combine xs (map (fun x => x + c) fs)
  = map (fun p : R * R => (fst p, snd p + c)) (combine xs fs).
Proof.
  revert fs; induction xs as [|x xs IH]; intros [|f fs]; simpl; [reflexivity..|].
  now rewrite IH.
Qed.

Lemma traverse_rmap {A B C} (f : A -> res B) (g : B -> C) l :
  traverse (fun x => rmap g (f x)) l = rmap (map g) (traverse f l).
Proof.
  induction l as [|x l IH]; simpl; [reflexivity|]. rewrite IH.
  destruct (f x); simpl; [|reflexivity]. now destruct (traverse f l).
Qed.

Lemma wq_shift argsort values qs sw vs os c :
  wq_pre argsort values sw vs os ->
  (vs = false -> argsort (map (fun x => x + c) values) = argsort values) ->
  weighted_quantile argsort (map (fun x => x + c) values) qs sw vs os
  = rmap (map (fun r => r + c)) (weighted_quantile argsort values qs sw vs os).
Proof.
  intros Hpre Ha. rewrite !wq_unfold, weights_of_shift.
  destruct (negb (all_in_unit qs)); [reflexivity|].
  destruct Hpre as (_ & _ & _ & Hs & _).
  unfold sorted_input. destruct vs.
  - rewrite combine_shift, <- traverse_rmap. f_equal.
    apply FunctionalExtensionality.functional_extensionality. intros q.
    apply interp_shift.
  - rewrite Ha by reflexivity. destruct Hs as [Hp _].
    rewrite take_shift.
    + rewrite combine_shift, <- traverse_rmap. f_equal.
      apply FunctionalExtensionality.functional_extensionality. intros q.
      apply interp_shift.
    + intros i Hi. apply (Permutation_in _ Hp) in Hi. apply in_seq in Hi. lia.
Qed.

(* Values already sorted: at the midpoint of the weight share of value i the
   quantile is value i. *)
Lemma wq_knot argsort values w i v :
  wq_pre argsort values (Some w) true false ->
  nth_error values i = Some v ->
  weighted_quantile argsort values
    [(rsum (firstn i w) + nth i w 0 / 2) / rsum w] (Some w) true false = Ok [v].
Proof.
  intros Hpre Hv. rewrite wq_unfold.
  assert (Hpts := wq_points _ _ _ _ _ Hpre).
  destruct Hpre as (Hn & Hl & Hw & _). simpl weights_of in *.
  cbn [sorted_input] in *. destruct Hpts as (Hs & _ & _ & _ & _ & _ & Hwn).
  assert (Hi : (i < length values)%nat) by (apply nth_error_Some; congruence).
  assert (Hp := rsum_positive w Hwn Hw).
  set (q := (rsum (firstn i w) + nth i w 0 / 2) / rsum w).
  assert (Hk : nth_error (knots w false) i = Some q).
  { unfold knots. rewrite nth_error_map.
    rewrite nth_error_nth' with (d := 0) by (rewrite length_knots; lia).
    rewrite nth_knots by lia. simpl. unfold q. f_equal. f_equal. lra. }
  assert (Hin : In (q, v) (combine (knots w false) values)).
  { clearbody q. clear -Hk Hv. revert i values Hk Hv. generalize (knots w false).
    induction l as [|x l IH]; intros [|i] [|y values]; simpl; intros; try discriminate.
    - left; congruence.
    - right; eapply IH; eassumption. }
  assert (Hq : all_in_unit [q] = true).
  { apply all_in_unit_spec. intros z [<-|[]].
    destruct (knots_from_sorted 0 w Hw) as [_ Hb].
    assert (Hin' : In (nth i (knots_from 0 w) 0) (knots_from 0 w))
      by (apply nth_In; rewrite length_knots; lia).
    specialize (Hb _ Hin'). rewrite nth_knots in Hb by lia.
    unfold q. split.
    - apply Rmult_le_pos; [lra|]. apply Rlt_le, Rinv_0_lt_compat; lra.
    - apply Rmult_le_reg_r with (rsum w); [lra|]. field_simplify; lra. }
  rewrite Hq. cbn [negb traverse]. rewrite (interp_knot _ _ _ Hs Hin). reflexivity.
Qed.

Lemma interp_from_seg pts' : forall x x0 f0 i a b fa fb,
  StronglySorted incr ((x0, f0) :: pts') ->
  nth_error ((x0, f0) :: pts') i = Some (a, fa) ->
  nth_error ((x0, f0) :: pts') (i + 1) = Some (b, fb) ->
  a <= x <= b ->
  interp_from x x0 f0 pts' = fa + (fb - fa) * ((x - a) / (b - a)).
Proof.
  induction pts' as [|[x1 f1] rest IH]; intros x x0 f0 i a b fa fb Hs Ha Hb Hx.
  - destruct i; simpl in Hb; [discriminate|destruct i; discriminate].
  - inversion Hs as [|? ? Hs' Hall]; subst.
    destruct i as [|i].
    + simpl in Ha, Hb. inversion Ha; inversion Hb; subst.
      inversion Hall as [|? ? [H1 _] _]; subst. simpl in H1. cbn [interp_from].
      destruct (Rlt_dec x b).
      * destruct (Req_EM_T x a) as [->|]; field; lra.
      * assert (x = b) as -> by lra.
        rewrite (interp_from_knot b fb b fb rest Hs') by (now left). field; lra.
    + assert (Hle : x1 <= a).
      { simpl in Ha. apply nth_error_In in Ha. destruct Ha as [E|Hin].
        - inversion E; lra.
        - inversion Hs' as [|? ? _ Hall']; subst. rewrite Forall_forall in Hall'.
          destruct (Hall' _ Hin) as [H _]. simpl in H; lra. }
      cbn [interp_from]. destruct (Rlt_dec x x1); [lra|].
      apply (IH x x1 f1 i); assumption.
Qed.

Lemma interp_seg pts x i a b fa fb :
  StronglySorted incr pts -> nth_error pts i = Some (a, fa) ->
  nth_error pts (i + 1) = Some (b, fb) -> a <= x <= b ->
  interp x pts = Ok (fa + (fb - fa) * ((x - a) / (b - a))).
Proof.
  destruct pts as [|[x0 f0] rest]; [destruct i; discriminate|].
  intros Hs Ha Hb Hx. cbn [interp]. f_equal.
  destruct (Rlt_dec x x0).
  - exfalso. apply nth_error_In in Ha. destruct Ha as [E|Hin]; [inversion E; lra|].
    inversion Hs as [|? ? _ Hall]; subst. rewrite Forall_forall in Hall.
    destruct (Hall _ Hin) as [H _]. simpl in H; lra.
  - eapply interp_from_seg; eassumption.
Qed.

Lemma interp_left pts x a fa :
  StronglySorted incr pts -> nth_error pts 0 = Some (a, fa) -> x <= a ->
  interp x pts = Ok fa.
Proof.
  destruct pts as [|[x0 f0] rest]; [discriminate|]. intros Hs E Hx.
  simpl in E; inversion E; subst. destruct (Req_dec x a) as [->|].
  - apply interp_knot; [exact Hs|now left].
  - cbn [interp]. destruct (Rlt_dec x a); [reflexivity|lra].
Qed.

Lemma interp_from_right rest : forall x x0 f0 b fb,
  StronglySorted incr ((x0, f0) :: rest) ->
  nth_error ((x0, f0) :: rest) (length rest) = Some (b, fb) -> b <= x ->
  interp_from x x0 f0 rest = fb.
Proof.
  induction rest as [|[x1 f1] rest IH]; intros x x0 f0 b fb Hs E Hx.
  - simpl in E. now inversion E.
  - inversion Hs as [|? ? Hs' Hall]; subst. cbn [interp_from].
    assert (x1 <= b).
    { simpl in E. apply nth_error_In in E. destruct E as [E|Hin]; [inversion E; lra|].
      inversion Hs' as [|? ? _ Hall']; subst. rewrite Forall_forall in Hall'.
      destruct (Hall' _ Hin) as [H _]. simpl in H; lra. }
    destruct (Rlt_dec x x1); [lra|]. eapply IH; eassumption.
Qed.

Lemma interp_right pts x b fb :
  StronglySorted incr pts -> nth_error pts (length pts - 1) = Some (b, fb) -> b <= x ->
  interp x pts = Ok fb.
Proof.
  destruct pts as [|[x0 f0] rest]; [discriminate|]. intros Hs E Hx.
  cbn [length] in E. rewrite Nat.sub_succ, Nat.sub_0_r in E.
  cbn [interp]. f_equal. destruct (Rlt_dec x x0).
  - exfalso. apply nth_error_In in E. destruct E as [E|Hin]; [inversion E; lra|].
    inversion Hs as [|? ? _ Hall]; subst. rewrite Forall_forall in Hall.
    destruct (Hall _ Hin) as [H _]. simpl in H; lra.
  - eapply interp_from_right; eassumption.
Qed.

(* ---- the values returned (new style) ---- *)
Definition order_of (argsort : list R -> list nat) (values : list R) (vs : bool) :=
  if vs then range (length values) else argsort values.

Lemma take_range l : take l (range (length l)) = l.
Proof.
  apply nth_error_ext'. intros i. unfold take.
  destruct (le_lt_dec (length l) i) as [Hi|Hi].
  - rewrite !(proj2 (nth_error_None _ _)); [reflexivity|lia|].
    rewrite map_length. unfold range. rewrite seq_length. lia.
  - rewrite nth_error_map, nth_error_range by exact Hi. simpl.
    symmetry. now apply nth_error_nth'.
Qed.

Lemma sorted_input_order argsort values w vs :
  length w = length values ->
  sorted_input argsort values w vs
  = (take values (order_of argsort values vs), take w (order_of argsort values vs)).
Proof.
  intros Hl. unfold sorted_input, order_of. destruct vs; [|reflexivity].
  rewrite take_range. rewrite <- Hl at 1. now rewrite take_range.
Qed.

Lemma order_perm argsort values sw vs os :
  wq_pre argsort values sw vs os ->
  Permutation (order_of argsort values vs) (range (length values)).
Proof.
  intros (_ & _ & _ & Hs & _). unfold order_of. destruct vs; [reflexivity|apply Hs].
Qed.

Lemma wq_pts argsort values sw vs i :
  wq_pre argsort values sw vs false -> (i < length values)%nat ->
  let idx := order_of argsort values vs in
  let w := weights_of values sw in
  nth_error (combine (knots (take w idx) false) (take values idx)) i
  = Some (weight_share w idx i, nth (nth i idx 0%nat) values 0).
Proof.
  intros Hpre Hi idx w.
  assert (Hperm := order_perm _ _ _ _ _ Hpre). fold idx in Hperm.
  destruct Hpre as (Hn & Hl & Hw & _). fold w in Hl, Hw.
  assert (Hlen : length idx = length values).
  { apply Permutation_length in Hperm. unfold range in Hperm. now rewrite seq_length in Hperm. }
  assert (G : forall (l : list R) (m : list R) x y,
    nth_error l i = Some x -> nth_error m i = Some y ->
    nth_error (combine l m) i = Some (x, y)).
  { clear. intros l m x y. revert i m. induction l as [|a l IH];
      intros [|i] [|b m]; simpl; intros; try discriminate; [congruence|].
    now apply IH. }
  apply G.
  - unfold knots. rewrite nth_error_map.
    rewrite nth_error_nth' with (d := 0) by (rewrite length_knots, length_take; lia).
    rewrite nth_knots by (rewrite length_take; lia). cbn [option_map]. f_equal.
    unfold weight_share.
    assert (E1 : rsum (firstn i (take w idx)) = rsum (map (fun j => nth j w 0) (firstn i idx))).
    { unfold take. now rewrite firstn_map. }
    assert (E2 : rsum (take w idx) = rsum w).
    { apply rsum_perm, take_perm. now rewrite Hl. }
    rewrite E1, E2. unfold take.
    rewrite (nth_map_in _ _ _ 0%nat 0) by lia. f_equal. lra.
  - unfold take. rewrite nth_error_map.
    rewrite nth_error_nth' with (d := 0%nat) by lia. reflexivity.
Qed.

Lemma wq_values argsort values sw vs q :
  wq_pre argsort values sw vs false -> 0 <= q <= 1 ->
  let idx := order_of argsort values vs in
  let w := weights_of values sw in
  let n := length values in
  let wq := weighted_quantile argsort values [q] sw vs false in
  (q <= weight_share w idx 0 -> wq = Ok [nth (nth 0 idx 0%nat) values 0]) /\
  (weight_share w idx (n - 1) <= q -> wq = Ok [nth (nth (n - 1) idx 0%nat) values 0]) /\
  (forall i, (i + 1 < n)%nat ->
     let a := weight_share w idx i in let b := weight_share w idx (i + 1) in
     let va := nth (nth i idx 0%nat) values 0 in
     let vb := nth (nth (i + 1) idx 0%nat) values 0 in
     a < b /\ (a <= q <= b -> wq = Ok [va + (vb - va) * ((q - a) / (b - a))])).
Proof.
  intros Hpre Hq idx w n wq.
  assert (Hpts := wq_points _ _ _ _ _ Hpre).
  assert (Hnth := wq_pts argsort values sw vs).
  assert (Hlen : length (weights_of values sw) = length values) by apply Hpre.
  assert (Hn : values <> []) by apply Hpre.
  assert (Hn0 : (0 < n)%nat) by (apply len_nonnil; exact Hn).
  rewrite sorted_input_order in Hpts by exact Hlen. fold idx w in Hpts.
  destruct Hpts as (Hs & Hne & _).
  set (pts := combine (knots (take w idx) false) (take values idx)) in *.
  assert (Hnth' : forall i, (i < n)%nat ->
    nth_error pts i = Some (weight_share w idx i, nth (nth i idx 0%nat) values 0)).
  { intros i Hi. apply (Hnth i Hpre Hi). }
  assert (Hlp : length pts = n).
  { unfold pts. rewrite combine_length, length_knots', !length_take.
    assert (Hperm := order_perm _ _ _ _ _ Hpre). fold idx in Hperm.
    apply Permutation_length in Hperm. unfold range in Hperm. rewrite seq_length in Hperm.
    unfold n. lia. }
  assert (E : wq = bind (interp q pts) (fun y => Ok [y])).
  { unfold wq. rewrite wq_unfold.
    assert (Ha : all_in_unit [q] = true)
      by (apply all_in_unit_spec; intros z [<-|[]]; exact Hq).
    rewrite Ha, sorted_input_order by exact Hlen. cbn [negb traverse bind].
    fold w idx. fold pts. now destruct (interp q pts). }
  rewrite E. split; [|split].
  - intros H. rewrite (interp_left pts q _ _ Hs (Hnth' 0%nat Hn0) H). reflexivity.
  - intros H.
    assert (H' := Hnth' (n - 1)%nat ltac:(lia)). rewrite <- Hlp in H' at 1.
    rewrite (interp_right pts q _ _ Hs H' H). reflexivity.
  - intros i Hi a b va vb.
    assert (Ha := Hnth' i ltac:(lia)). assert (Hb := Hnth' (i + 1)%nat ltac:(lia)).
    fold a va in Ha. fold b vb in Hb. split.
    + assert (G : forall (l : list (R * R)) i p p', StronglySorted incr l ->
        nth_error l i = Some p -> nth_error l (i + 1) = Some p' -> incr p p').
      { clear. induction l as [|x l IH]; intros i p p' Hs H1 H2; [destruct i; discriminate|].
        inversion Hs as [|? ? Hs' Hall]; subst. destruct i as [|i]; simpl in H1, H2.
        - inversion H1; subst. rewrite Forall_forall in Hall. apply Hall.
          now apply (nth_error_In l 0).
        - eapply IH; eassumption. }
      apply (G _ _ _ _ Hs Ha Hb).
    + intros Hab. rewrite (interp_seg pts q i a b va vb Hs Ha Hb Hab). reflexivity.
Qed.
