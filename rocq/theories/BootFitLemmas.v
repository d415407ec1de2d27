(* Lemmas about the loops of the bootstrap and of the variance decomposition. *)
From Coq Require Import Lra ZifyNat.
From Verif Require Import Base BaseLemmas UtilModel UtilSpec BLMModel BLMEMModel BLMSpec BLMSortLemmas BLMRealModel
  BootModel BootSpec BootLemmas.
Local Open Scope R_scope.

(* ---- the simulation reads weights and controls only ---- *)

Definition same_reads (f f' : frow) : Prop :=
  w1 (f_o f') = w1 (f_o f) /\ w2 (f_o f') = w2 (f_o f) /\
  c1 (f_o f') = c1 (f_o f) /\ c2 (f_o f') = c2 (f_o f) /\
  x1 (f_o f') = x1 (f_o f) /\ x2 (f_o f') = x2 (f_o f).

Lemma Forall2_len {A B} (P : A -> B -> Prop) l m : Forall2 P l m -> length l = length m.
Proof. induction 1; simpl; auto. Qed.
Lemma Forall2_at {A B} (P : A -> B -> Prop) l m : Forall2 P l m -> forall r d e, (r < length l)%nat -> P (nth r l d) (nth r m e).
Proof. induction 1; intros [|r] d e Hr; simpl in *; try lia; auto. apply IHForall2. lia. Qed.
Lemma Forall2_weak {A B} (P Q : A -> B -> Prop) l m : (forall x y, P x y -> Q x y) -> Forall2 P l m -> Forall2 Q l m.
Proof. induction 2; auto. Qed.

Lemma draw1_reads p l k o o' z : w1 o' = w1 o -> c1 o' = c1 o -> x1 o' = x1 o ->
  draw_wage1 p l k o' z = draw_wage1 p l k o z.
Proof. unfold draw_wage1. intros -> -> ->. reflexivity. Qed.
Lemma draw2_reads p l k o o' z : w2 o' = w2 o -> c2 o' = c2 o -> x2 o' = x2 o ->
  draw_wage2 p l k o' z = draw_wage2 p l k o z.
Proof. unfold draw_wage2. intros -> -> ->. reflexivity. Qed.

Lemma nth_fo df r o : (r < length df)%nat -> exists f, nth r (map f_o df) o = f_o f /\ f = nth r df (mkfrow 0 0 0 o).
Proof.
  intros H. exists (nth r df (mkfrow 0 0 0 o)). split; auto.
  change o with (f_o (mkfrow 0 0 0 o)) at 1. apply map_nth.
Qed.

Lemma simulate_reads nl nk p realloc g jd sd jd' sd' gj gs :
  Forall2 same_reads jd jd' -> Forall2 same_reads sd sd' ->
  simulate_types_wages nl nk p realloc g (map f_o jd') (map f_o sd') gj gs =
  simulate_types_wages nl nk p realloc g (map f_o jd) (map f_o sd) gj gs.
Proof.
  intros Fj Fs. unfold simulate_types_wages.
  pose proof (Forall2_len _ _ _ Fj) as Lj. pose proof (Forall2_len _ _ _ Fs) as Ls.
  destruct (match realloc with Some (j, per) => _ | None => _ end) as [[q1 q0]|e]; simpl; auto.
  destruct (negb _); auto. rewrite !map_length, <- Lj, <- Ls.
  assert (K : forall df df', Forall2 same_reads df df' -> forall r, (r < length df)%nat ->
    let o0 := mkobs 0 0 0 0 0 0 [] [] [] [] in
    exists f f', nth r (map f_o df) o0 = f_o f /\ nth r (map f_o df') o0 = f_o f' /\ same_reads f f').
  { intros df df' F r Hr o0. pose proof (Forall2_len _ _ _ F) as L.
    destruct (nth_fo df r o0 Hr) as (f & E & Ef). destruct (nth_fo df' r o0) as (f' & E' & Ef'); [lia|].
    exists f, f'. repeat split; auto; subst f f'; apply (Forall2_at _ _ _ F); auto. }
  f_equal. f_equal. f_equal. f_equal. f_equal.
  - apply map_ext_in. intros r Hr. unfold range in Hr. apply in_seq in Hr.
    destruct (K _ _ Fj r) as (f & f' & -> & -> & H); [lia|]. apply draw1_reads; apply H.
  - apply map_ext_in. intros r Hr. unfold range in Hr. apply in_seq in Hr.
    destruct (K _ _ Fj r) as (f & f' & -> & -> & H); [lia|]. apply draw2_reads; apply H.
  - apply map_ext_in. intros r Hr. unfold range in Hr. apply in_seq in Hr.
    destruct (K _ _ Fs r) as (f & f' & -> & -> & H); [lia|]. apply draw1_reads; apply H.
Qed.

Lemma simulate_length nl nk p realloc g jd sd gj gs y1 y2 ys Lm Ls :
  simulate_types_wages nl nk p realloc g (map f_o jd) (map f_o sd) gj gs = Ok ((y1, y2), ys, Lm, Ls) ->
  length y1 = length jd /\ length y2 = length jd /\ length ys = length sd.
Proof.
  unfold simulate_types_wages. intros E.
  destruct (match realloc with Some (j, per) => _ | None => _ end) as [[q1 q0]|e]; simpl in E; try discriminate.
  destruct (negb _); try discriminate. inversion E; subst. now rewrite !map_length, !length_range.
Qed.

Lemma retyped_same o k1 k2 : k1 = g1 o -> k2 = g2 o -> retyped k1 k2 o = o.
Proof. intros -> ->. destruct o. reflexivity. Qed.

(* The simulation, with the original types, is a draw from the model. *)
Lemma simulate_drawn nl nk p realloc g q1 q0 jd sd jt st y1' y2' ys Lm Ls :
  choices_ok nl g -> shapes_ok p -> (forall l k, 0 <= S1 p l k) -> (forall l k, 0 <= S2 p l k) ->
  type_shares nl nk realloc p q1 q0 ->
  (forall k1 k2, (k1 < nk)%nat -> (k2 < nk)%nat -> prob_row nl (q1 (k1 + nk * k2)%nat)) ->
  (forall k, (k < nk)%nat -> prob_row nl (q0 k)) ->
  simulate_types_wages nl nk p realloc g (map f_o jd) (map f_o sd) (types jd) (map (fun f => g1 (f_o f)) sd)
    = Ok ((y1', y2'), ys, Lm, Ls) ->
  wages jt = combine y1' y2' -> wages st = map (fun a => (a, a)) ys ->
  drawn_from nl nk p q1 q0 g jd sd jt st Lm Ls.
Proof.
  intros C Sh H1 H2 T P1 P0 E Wj Ws.
  destruct (simulate_length _ _ _ _ _ _ _ _ _ _ _ _ _ _ E) as (Ly1 & Ly2 & Lys).
  unfold simulate_types_wages in E.
  assert (ET : match realloc with
               | None => Ok (pk1 p, pk0 p)
               | Some (jointly, per) => reallocate nl nk jointly per (NNm p) (NNs p) (pk1 p) (pk0 p)
               end = Ok (q1, q0)).
  { unfold type_shares in T. destruct realloc as [[j per]|]; auto. destruct T; subst; auto. }
  rewrite ET in E. simpl in E.
  destruct (negb _) eqn:EG; try discriminate. apply negb_false_iff, andb_true_iff in EG. destruct EG as [Gj Gs].
  assert (Fj : Forall (fun q => (fst q < nk)%nat /\ (snd q < nk)%nat) (types jd)).
  { apply Forall_forall. intros q Hq. rewrite forallb_forall in Gj. specialize (Gj q Hq).
    apply andb_true_iff in Gj. rewrite !Nat.ltb_lt in Gj. exact Gj. }
  assert (Fs : Forall (fun k => (k < nk)%nat) (map (fun f => g1 (f_o f)) sd)).
  { apply Forall_forall. intros q Hq. rewrite forallb_forall in Gs. specialize (Gs q Hq).
    rewrite Nat.ltb_lt in Gs. exact Gs. }
  destruct (draw_movers_ok nl nk q1 g (types jd) C P1 Fj) as [LLm PLm].
  destruct (draw_stayers_ok nl nk q0 g _ C P0 Fs) as [LLs PLs].
  injection E as E1 E2 E3 E4 E5.
  assert (Lt : length jt = length jd).
  { rewrite <- (map_length (fun f => (y1 (f_o f), y2 (f_o f))) jt). fold (wages jt). rewrite Wj, combine_length. lia. }
  assert (Lst : length st = length sd).
  { rewrite <- (map_length (fun f => (y1 (f_o f), y2 (f_o f))) st). fold (wages st). rewrite Ws, map_length. lia. }
  unfold types in LLm, PLm. rewrite map_length in LLm, PLm. rewrite map_length in LLs, PLs.
  split; [exact Lt|]. split; [exact Lst|]. split; [now rewrite <- E4|]. split; [now rewrite <- E5|]. split.
  - intros r d Hr f f' l.
    assert (Er : nth r (types jd) (0, 0)%nat = (g1 (f_o f), g2 (f_o f))).
    { unfold types. rewrite (nth_map_in _ _ _ d) by auto. reflexivity. }
    specialize (PLm r Hr). unfold types in Er. rewrite Er in PLm. cbn [fst snd] in PLm. fold (types jd) in PLm.
    rewrite E4 in PLm. fold l in PLm. destruct PLm as [Pl Pq]. split; auto. split; auto.
    assert (Ew : (y1 (f_o f'), y2 (f_o f')) = (nth r y1' 0, nth r y2' 0)).
    { rewrite <- (combine_nth y1' y2') by lia. rewrite <- Wj. unfold wages, f'.
      rewrite (nth_map_in _ _ _ d) by lia. reflexivity. }
    set (o0 := mkobs 0 0 0 0 0 0 [] [] [] []) in *.
    assert (Eo : nth r (map f_o jd) o0 = f_o f) by (now rewrite (nth_map_in _ _ _ d)).
    injection Ew as -> ->. rewrite <- E1, <- E2.
    rewrite !(nth_map_in _ _ _ 0%nat) by (rewrite length_range, map_length; auto).
    rewrite nth_range by (rewrite map_length; auto).
    rewrite E4. unfold types. rewrite Er, Eo. fold l. cbn [fst snd]. unfold wage1_of, wage2_of. split.
    + rewrite wage1_eq by auto. now rewrite retyped_same.
    + rewrite wage2_eq by auto. now rewrite retyped_same.
  - intros r d Hr f f' l.
    assert (Er : nth r (map (fun f => g1 (f_o f)) sd) 0%nat = g1 (f_o f)).
    { rewrite (nth_map_in _ _ _ d) by auto. reflexivity. }
    specialize (PLs r Hr). rewrite Er in PLs.
    rewrite E5 in PLs. fold l in PLs. destruct PLs as [Pl Pq]. split; auto. split; auto.
    assert (Ew : (y1 (f_o f'), y2 (f_o f')) = (nth r ys 0, nth r ys 0)).
    { transitivity (nth r (wages st) (0, 0)).
      - unfold wages, f'. rewrite (nth_map_in _ _ _ d) by lia. reflexivity.
      - rewrite Ws. rewrite (nth_map_in _ _ _ 0) by lia. reflexivity. }
    set (o0 := mkobs 0 0 0 0 0 0 [] [] [] []) in *.
    assert (Eo : nth r (map f_o sd) o0 = f_o f) by (now rewrite (nth_map_in _ _ _ d)).
    injection Ew as -> ->. rewrite <- E3.
    rewrite !(nth_map_in _ _ _ 0%nat) by (rewrite length_range, map_length; auto).
    rewrite nth_range by (rewrite map_length; auto).
    rewrite E5, Er, Eo. fold l. unfold wage1_of.
    rewrite wage1_eq by auto. rewrite retyped_same by auto. auto.
Qed.

(* ---- columns ---- *)

Lemma set_col_spec {A} (upd : A -> frow -> frow) (P : frow -> frow -> Prop) :
  forall vals J jd, length vals = length jd -> Forall2 P J jd -> (forall a f f', P f f' -> P f (upd a f')) ->
  Forall2 P J (set_col upd vals jd).
Proof.
  unfold set_col. induction vals as [|a vals IH]; intros J jd L F H; destruct F; simpl in *; try lia; constructor; auto.
Qed.
Lemma map_spec (upd : frow -> frow) (P : frow -> frow -> Prop) :
  forall J jd, Forall2 P J jd -> (forall f f', P f f' -> P f (upd f')) -> Forall2 P J (map upd jd).
Proof. induction 1; intros H'; simpl; constructor; auto. Qed.

(* The columns read back. *)
Lemma set_col_get {A B} (upd : A -> frow -> frow) (get : frow -> B) (h : A -> B) :
  (forall a f, get (upd a f) = h a) -> forall vals jd, length vals = length jd ->
  map get (set_col upd vals jd) = map h vals.
Proof.
  intros H. unfold set_col. induction vals as [|a vals IH]; intros [|f jd] L; simpl in *; try lia; auto.
  rewrite H, IH by lia. reflexivity.
Qed.
Lemma set_col_keep {A B} (upd : A -> frow -> frow) (get : frow -> B) :
  (forall a f, get (upd a f) = get f) -> forall vals jd, length vals = length jd ->
  map get (set_col upd vals jd) = map get jd.
Proof.
  intros H. unfold set_col. induction vals as [|a vals IH]; intros [|f jd] L; simpl in *; try lia; auto.
  rewrite H, IH by lia. reflexivity.
Qed.

(* Writing the original columns back. *)
Lemma restore {A} (upd : A -> frow -> frow) (get : frow -> A) (P Q : frow -> frow -> Prop) :
  (forall f f', P f f' -> Q f (upd (get f) f')) ->
  forall J jd, Forall2 P J jd -> Forall2 Q J (set_col upd (map get J) jd).
Proof. intros H J jd F. unfold set_col. induction F; simpl; constructor; auto. Qed.
Lemma restore_stayer {A} (upd : A -> frow -> frow) (get : frow -> A) (P Q : frow -> frow -> Prop) (st : frow -> Prop) :
  (forall f f', st f -> P f f' -> Q f (upd (get f) f')) ->
  forall J jd, Forall st J -> Forall2 P J jd -> Forall2 Q J (set_col upd (map get J) jd).
Proof.
  intros H J jd Fs F. unfold set_col. induction F; simpl; constructor; inversion Fs; subst; auto.
Qed.

Lemma Forall2_eq {A} (l m : list A) : Forall2 (fun x y => y = x) l m -> m = l.
Proof. induction 1; subst; auto. Qed.

Lemma combine_length_eq {A B} (l : list A) (m : list B) n : length l = n -> length m = n -> length (combine l m) = n.
Proof. intros <- H. rewrite combine_length, H. lia. Qed.
