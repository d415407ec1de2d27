(* The M-step of the BLM model with control variables: effects and variances of each
   block. *)
From Verif Require Import Base BaseLemmas UtilModel UtilSpec ConsModel ConsSpec ConsLemmas ConsPropLemmas
  BLMModel BLMEMModel BLMSpec BLMSortLemmas BLMLikLemmas BLMFitModel BLMFitSpec BLMFitLemmas
  BLMGenModel BLMGenSpec BLMGenLemmas DBLMStepLemmas BLMCtlModel BLMCtlSpec BLMCtlLemmas.
From Coq Require Import FunctionalExtensionality.
Local Open Scope res_scope.
Local Open Scope R_scope.

Section Ctl.
Variable solver : list R -> list R -> problem -> qpres.
Variables (nl nk : nat) (cats ctss : list gcol) (data : list obs) (s : gset).
Hypothesis exact : exact_qp solver.
Hypothesis complete : complete_qp solver.
Hypothesis nl_pos : (0 < nl)%nat.
Hypothesis nk_pos : (0 < nk)%nat.
Hypothesis cts_one : Forall (fun c => gc_n c = 1%nat) ctss.
Hypothesis D : ctl_data nk cats ctss data s.
Hypothesis V : all_valid s nl nk (cats ++ ctss).

Notation blocks := (blocks cats ctss).
Notation column := (column nk cats ctss s).
Notation size := (size nk cats ctss s).
Notation interacts := (interacts nk cats ctss s).
Notation with_A := (with_A nk cats ctss s).
Notation weight := weight.
Notation total := (total nl data).
Notation A_ok := (A_ok nl nk cats ctss s).
Notation V_ok := (V_ok nl nk cats ctss s).
Notation A_loss := (A_loss nl data).
Notation V_loss := (V_loss nl data).
Notation V_reg := (V_reg data).

(* ---- blocks ---- *)
Lemma in_cat j : In (Cat j) blocks <-> (j < length cats)%nat.
Proof.
  unfold BLMCtlSpec.blocks. split.
  - intros [H|H]; [discriminate|]. apply in_app_or in H as [H|H]; apply in_map_iff in H as (i & E & Hi);
      [|discriminate]. injection E as <-. apply in_seq in Hi. lia.
  - intros H. right. apply in_or_app. left. apply in_map. apply in_seq. lia.
Qed.
Lemma in_cts j : In (Cts j) blocks <-> (j < length ctss)%nat.
Proof.
  unfold BLMCtlSpec.blocks. split.
  - intros [H|H]; [discriminate|]. apply in_app_or in H as [H|H]; apply in_map_iff in H as (i & E & Hi);
      [discriminate|]. injection E as <-. apply in_seq in Hi. lia.
  - intros H. right. apply in_or_app. right. apply in_map. apply in_seq. lia.
Qed.
Lemma column_in b : In b blocks -> b <> Firm -> In (column b) (cats ++ ctss).
Proof.
  destruct b as [|j|j]; intros H Hb; [congruence| |]; cbn [BLMCtlSpec.column].
  - apply in_cat in H. apply in_or_app. left. now apply nth_In.
  - apply in_cts in H. apply in_or_app. right. now apply nth_In.
Qed.
Lemma size_col b : In b blocks -> size b = gc_n (column b).
Proof.
  destruct b as [|j|j]; intros H; try reflexivity. cbn [BLMCtlSpec.size BLMCtlSpec.column].
  apply in_cts in H. rewrite Forall_forall in cts_one. symmetry. apply cts_one. now apply nth_In.
Qed.
Lemma valid_block b o : In b blocks ->
  In o (optl (gc_a (column b)) ++ optl (p_a_all s) ++ optl (gc_s (column b)) ++ optl (p_s_all s)) ->
  valid 2 nl (size b) o.
Proof.
  intros H Ho. rewrite size_col by exact H. destruct b as [|j|j].
  - exact (proj1 V o Ho).
  - apply (proj2 V (column (Cat j))); [|exact Ho]. apply column_in; [exact H|discriminate].
  - apply (proj2 V (column (Cts j))); [|exact Ho]. apply column_in; [exact H|discriminate].
Qed.

Lemma MD : movers_data nk data. Proof. apply D. Qed.
Lemma row_ok o : In o data -> data_ok nk o /\ 0 < w1 o /\ 0 < w2 o.
Proof. intros H. destruct MD as [F _]. rewrite Forall_forall in F. now apply F. Qed.
Lemma wp_pos t o : In o data -> 0 < wp t o.
Proof. intros H. destruct (row_ok o H) as (_ & H1 & H2). destruct t; assumption. Qed.
Lemma c_len t o : In o data -> length (cp t o) = length cats.
Proof.
  intros H. destruct D as (_ & F & _). rewrite Forall_forall in F. destruct (F o H) as (H1 & H2 & _).
  destruct t; assumption.
Qed.
Lemma x_len t o : In o data -> length (xp t o) = length ctss.
Proof.
  intros H. destruct D as (_ & F & _). rewrite Forall_forall in F. destruct (F o H) as (_ & _ & H1 & H2).
  destruct t; assumption.
Qed.
Lemma key_lt b t o : In b blocks -> In o data -> (key b t o < size b)%nat.
Proof.
  intros Hb Ho. destruct b as [|j|j].
  - destruct (row_ok o Ho) as ((H1 & H2) & _). destruct t; assumption.
  - apply in_cat in Hb. now apply (proj2 (proj2 D) j t Hb).
  - cbn. lia.
Qed.
Lemma key_seen b t n : In b blocks -> (n < size b)%nat -> exists o, In o data /\ key b t o = n.
Proof.
  intros Hb Hn. destruct b as [|j|j].
  - destruct (proj2 MD n Hn) as [H1 H2]. destruct t; assumption.
  - apply in_cat in Hb. now apply (proj2 (proj2 D) j t Hb).
  - cbn in Hn |- *. destruct (proj2 MD 0%nat nk_pos) as [(o & Ho & _) _]. exists o. split; [exact Ho|lia].
Qed.
Lemma size_pos b : In b blocks -> (0 < size b)%nat.
Proof.
  intros Hb. destruct (proj2 MD 0%nat nk_pos) as [(o & Ho & _) _].
  pose proof (key_lt b false o Hb Ho). lia.
Qed.

(* ---- arrays ---- *)
Definition kinds (p : par) : Prop := forall t,
  Forall2 cat_kind cats (Acatp t p) /\ Forall2 cat_kind cats (Scatp t p) /\
  Forall2 cts_kind ctss (Actsp t p) /\ Forall2 cts_kind ctss (Sctsp t p).

Lemma A_field t b a p : Ap t (with_A b a p) = match b with Firm => a t | _ => Ap t p end.
Proof. destruct b, t; reflexivity. Qed.
Lemma Ac_field t b a p : Acatp t (with_A b a p)
  = match b with Cat j => put j (cat_arr (interacts b) (a t)) (Acatp t p) | _ => Acatp t p end.
Proof. destruct b, t; reflexivity. Qed.
Lemma Ax_field t b a p : Actsp t (with_A b a p)
  = match b with Cts j => put j (cts_arr (interacts b) (a t)) (Actsp t p) | _ => Actsp t p end.
Proof. destruct b, t; reflexivity. Qed.
Lemma S_field t b a p : Sp t (with_A b a p) = Sp t p.
Proof. destruct b, t; reflexivity. Qed.
Lemma Sc_field t b a p : Scatp t (with_A b a p) = Scatp t p.
Proof. destruct b, t; reflexivity. Qed.
Lemma Sx_field t b a p : Sctsp t (with_A b a p) = Sctsp t p.
Proof. destruct b, t; reflexivity. Qed.
Lemma pk1_field b a p : pk1 (with_A b a p) = pk1 p.
Proof. destruct b; reflexivity. Qed.
Lemma sd_field b b' a p : sd b' (with_A b a p) = sd b' p.
Proof.
  apply functional_extensionality. intros t. apply functional_extensionality. intros l.
  apply functional_extensionality. intros n. unfold sd. now rewrite S_field, Sc_field, Sx_field.
Qed.

Lemma cat_arr_kind j a : cat_kind (column (Cat j)) (cat_arr (interacts (Cat j)) a).
Proof. unfold cat_arr, BLMCtlSpec.interacts. destruct (gc_wi (column (Cat j))) eqn:E; exact E. Qed.
Lemma cts_arr_kind j a : cts_kind (column (Cts j)) (cts_arr (interacts (Cts j)) a).
Proof. unfold cts_arr, BLMCtlSpec.interacts. destruct (gc_wi (column (Cts j))) eqn:E; exact E. Qed.

Lemma kinds_with_A b a p : In b blocks -> kinds p -> kinds (with_A b a p).
Proof.
  intros Hb K t. destruct (K t) as (K1 & K2 & K3 & K4).
  rewrite Ac_field, Ax_field, Sc_field, Sx_field. split; [|split; [exact K2|split; [|exact K4]]].
  - destruct b as [|j|j]; try exact K1. apply in_cat in Hb.
    rewrite put_lput by (now rewrite (F2_length _ _ _ K1)).
    apply (Forall2_lput _ _ _ _ _ (mkgcol 0 true None None)); [exact K1|exact Hb|apply (cat_arr_kind j)].
  - destruct b as [|j|j]; try exact K3. apply in_cts in Hb.
    rewrite put_lput by (now rewrite (F2_length _ _ _ K3)).
    apply (Forall2_lput _ _ _ _ _ (mkgcol 1 true None None)); [exact K3|exact Hb|apply (cts_arr_kind j)].
Qed.

(* ---- means ---- *)
Lemma mu_unfold t p l o : mu t p l o = Ap t p l (gp t o) + cat_sum l (Acatp t p) (cp t o)
  + rsum (map2 (fun c x => cts_at l x c) (Actsp t p) (xp t o)).
Proof. destruct t; reflexivity. Qed.

(* what the block adds to the mean *)
Definition part (b : block) (p : par) (t : bool) (l : nat) (o : obs) : R :=
  match b with
  | Firm => Ap t p l (gp t o)
  | Cat j => cat_at l (nth j (cp t o) 0%nat) (nth j (Acatp t p) (Shared (fun _ => 0)))
  | Cts j => cts_at l (nth j (xp t o) 0) (nth j (Actsp t p) (XShared 0))
  end.
Definition aval (b : block) (a : vals) (t : bool) (l n : nat) : R :=
  a t (if interacts b then l else 0%nat) n.

Lemma mu_with_A b a p t l o : In b blocks -> kinds p -> In o data ->
  mu t (with_A b a p) l o = mu t p l o - part b p t l o + reg b t o * aval b a t l (key b t o).
Proof.
  intros Hb K Ho. rewrite !mu_unfold, A_field, Ac_field, Ax_field. unfold aval.
  destruct (K t) as (K1 & _ & K3 & _).
  destruct b as [|j|j]; cbn [part reg key].
  - cbn [BLMCtlSpec.interacts BLMCtlSpec.column gc_wi]. lra.
  - apply in_cat in Hb. rewrite put_lput by (now rewrite (F2_length _ _ _ K1)). unfold cat_sum.
    rewrite (sum_lput _ _ _ _ _ (Shared (fun _ => 0)) 0%nat)
      by (rewrite ?(F2_length _ _ _ K1), ?c_len by exact Ho; exact Hb).
    unfold cat_arr. destruct (interacts (Cat j)); cbn [cat_at]; lra.
  - apply in_cts in Hb. rewrite put_lput by (now rewrite (F2_length _ _ _ K3)).
    rewrite (sum_lput _ _ _ _ _ (XShared 0) 0)
      by (rewrite ?(F2_length _ _ _ K3), ?x_len by exact Ho; exact Hb).
    unfold cts_arr. destruct (interacts (Cts j)); cbn [cts_at]; lra.
Qed.

(* wages net of all effects but those of the block *)
Definition rest (b : block) (p : par) (t : bool) (l : nat) (o : obs) : R :=
  yp t o - (mu t p l o - part b p t l o).

Lemma total_ext f g : (forall t l o, (l < nl)%nat -> In o data -> f t l o = g t l o) -> total f = total g.
Proof.
  intros H. unfold BLMCtlSpec.total. apply rsum_map_ext. intros o Ho. apply sumn_ext. intros l Hl.
  rewrite !H by assumption. reflexivity.
Qed.

Lemma A_loss_with b q a p : In b blocks -> kinds p ->
  A_loss b q p (with_A b a p)
  = total (fun t l o => weight b q p t l o * (rest b p t l o - reg b t o * aval b a t l (key b t o)) ^ 2).
Proof.
  intros Hb K. apply total_ext. intros t l o Hl Ho. f_equal. unfold resid_sq, rest.
  rewrite mu_with_A by assumption. ring.
Qed.

(* ---- constraints ---- *)
Definition okA (b : block) (k0 : nat) (x : nat -> R) : Prop :=
  imposed nl (size b) (optl (gc_a (column b)) ++ optl (p_a_all s)) x /\
  (interacts b = false -> same_for_types nl (size b) x) /\
  (b = Firm -> cats <> [] -> (p_a_all s <> None \/ reached cats) ->
     types_ordered (p_primary s) (p_md_worker s) nl nk x /\
     (p_normalize s = true ->
        (p_force s = true -> p_force_cons s = true -> lowest_firm (p_primary s) (p_md_firm s) nl nk k0 x) /\
        normalised (p_primary s) nl nk cats k0 x)).
Definition okV (b : block) (x : nat -> R) : Prop :=
  at_least (p_lb s) nl (size b) x /\
  imposed nl (size b) (optl (gc_s (column b)) ++ optl (p_s_all s)) x /\
  (interacts b = false -> same_for_types nl (size b) x).

Lemma holds_stacked b x a : holds nl nk cats ctss s b x a <-> stacked nl (size b) (a false) (a true) x.
Proof.
  split.
  - intros H l k Hl Hk. split; [exact (H false l k Hl Hk)|exact (H true l k Hl Hk)].
  - intros H [|] l n Hl Hn; [exact (proj2 (H l n Hl Hn))|exact (proj1 (H l n Hl Hn))].
Qed.
Lemma A_ok_can b k0 a : A_ok b k0 a <-> can nl (size b) (okA b k0) a.
Proof. split; intros (x & H & O); exists x; split; auto; now apply holds_stacked. Qed.
Lemma V_ok_can b a : V_ok b a <-> can nl (size b) (okV b) a.
Proof. split; intros (x & H & O); exists x; split; auto; now apply holds_stacked. Qed.

Lemma eff_ext n x x' t l k : (forall i, (i < 2 * nl * n)%nat -> x i = x' i) ->
  (t < 2)%nat -> (l < nl)%nat -> (k < n)%nat -> eff nl n x t l k = eff nl n x' t l k.
Proof. intros E Ht Hl Hk. unfold eff. apply E. pose proof (cell_index nl n l k Hl Hk). nia. Qed.
Lemma same_ext n x x' : (forall i, (i < 2 * nl * n)%nat -> x i = x' i) ->
  same_for_types nl n x -> same_for_types nl n x'.
Proof.
  intros E H t k l l' Ht Hk Hl Hl'. rewrite <- !(eff_ext n x x') by assumption. now apply H.
Qed.
Lemma imposed_ext n cs x x' : (forall o, In o cs -> valid 2 nl n o) ->
  (forall i, (i < 2 * nl * n)%nat -> x i = x' i) -> imposed nl n cs x -> imposed nl n cs x'.
Proof. exact (demands_ext 2 nl n cs x x'). Qed.

Lemma okA_ext b k0 x x' : In b blocks -> (k0 < nk)%nat -> (forall i, (i < 2 * nl * size b)%nat -> x i = x' i) ->
  okA b k0 x -> okA b k0 x'.
Proof.
  intros Hb Hk E (H1 & H2 & H3).
  assert (V1 : imposed nl (size b) (optl (gc_a (column b)) ++ optl (p_a_all s)) x').
  { apply (imposed_ext _ _ x); [|exact E|exact H1]. intros o Ho. apply valid_block; [exact Hb|].
    rewrite app_assoc. apply in_or_app. now left. }
  split; [exact V1|]. split; [intros Hi; exact (same_ext _ _ _ E (H2 Hi))|].
  intros ->. specialize (H3 eq_refl).
  apply (base_meaning s nl nk cats k0 x' Hk nl_pos).
  apply (imposed_ext _ _ x); [|exact E|].
  - intros o. exact (base_valid s nl nk cats ctss k0 o Hk nl_pos V).
  - apply (base_meaning s nl nk cats k0 x Hk nl_pos). now split.
Qed.
Lemma okV_ext b x x' : In b blocks -> (forall i, (i < 2 * nl * size b)%nat -> x i = x' i) ->
  okV b x -> okV b x'.
Proof.
  intros Hb E (H1 & H2 & H3). split; [|split].
  - intros t l k Ht Hl Hk. rewrite <- (eff_ext _ x x' t l k E) by assumption. now apply H1.
  - apply (imposed_ext _ _ x); [|exact E|exact H2]. intros o Ho. apply valid_block; [exact Hb|].
    rewrite app_assoc. apply in_or_app. now right.
  - intros Hi. exact (same_ext _ _ _ E (H3 Hi)).
Qed.

Lemma best_iff {T} (ok ok' : T -> Prop) (f f' : T -> R) a :
  (forall b, ok b <-> ok' b) -> (forall b, ok' b -> f b = f' b) -> best ok' f' a -> best ok f a.
Proof.
  intros Ho Hf [Oa Hb]. split; [now apply Ho|]. intros b Ob. apply Ho in Ob.
  rewrite !Hf by assumption. now apply Hb.
Qed.

(* ---- one block ---- *)
Definition cells_of (b : block) (v : list R) (F : bool -> nat -> obs -> R) : Prop :=
  cells_are nl (size b) v (fun l k => cell (key b false) data (F false l) k)
                          (fun l k => cell (key b true) data (F true l) k).
Definition P_ok (b : block) (q : obs -> nat -> R) (p : par) (P : list R) : Prop :=
  cells_of b P (fun t l o => weight b q p t l o * reg b t o ^ 2).

Lemma A_solved b k0 q p P qv qa : In b blocks -> (k0 < nk)%nat -> kinds p -> P_ok b q p P ->
  cells_of b qv (fun t l o => weight b q p t l o * reg b t o * rest b p t l o) ->
  (forall x, accepts qa x <-> okA b k0 x) ->
  match solved solver P (map Ropp qv) qa with
  | QSol x => A_done nl nk cats ctss data s k0 q b p (with_A b (unstack nl (size b) x) p)
  | _ => A_done nl nk cats ctss data s k0 q b p p
  end.
Proof.
  intros Hb Hk K HP Hq Hqa.
  set (obj := fun a : vals => A_loss b q p (with_A b a p)).
  set (Kst := total (fun t l o => weight b q p t l o * rest b p t l o ^ 2)).
  pose proof (solved_best solver exact complete nl (size b) P (map Ropp qv) qa (okA b k0) obj Kst) as H.
  specialize (H (proj1 HP) Hqa (fun x x' => okA_ext b k0 x x' Hb Hk)).
  assert (Ho : forall x (a : vals), stacked nl (size b) (a false) (a true) x -> okA b k0 x ->
    2 * qobj P (map Ropp qv) x = obj a - Kst).
  { intros x a Sx Ox. unfold obj. rewrite A_loss_with by assumption.
    rewrite (wls_objective nl (size b) data (key b) (weight b q p) (fun t l o => reg b t o) (rest b p)
               (fun t o => key_lt b t o Hb) P qv x a HP Hq Sx). f_equal.
    apply total_ext. intros t l o Hl Hd. f_equal. f_equal. f_equal. f_equal. unfold aval.
    destruct (interacts b) eqn:E; [reflexivity|]. destruct Ox as (_ & Hs & _). specialize (Hs E).
    pose proof (key_lt b t o Hb Hd) as Hkl.
    destruct (Sx l (key b t o) Hl Hkl) as [E1 E2]. destruct (Sx 0%nat (key b t o) nl_pos Hkl) as [E3 E4].
    destruct t; [rewrite <- E2, <- E4|rewrite <- E1, <- E3]; apply Hs; auto; lia. }
  specialize (H Ho).
  assert (Hbest : forall a, best (A_ok b k0) obj a <-> best (can nl (size b) (okA b k0)) obj a).
  { intros a. split; apply best_iff; auto; intros; [symmetry|]; apply A_ok_can. }
  unfold A_done. fold obj.
  destruct (solved solver P (map Ropp qv) qa) as [x| |].
  - left. exists (unstack nl (size b) x). split; [|reflexivity]. apply Hbest, H.
  - right. split; [|reflexivity]. intros a Ha. apply Hbest in Ha. exact (H a Ha).
  - right. split; [|reflexivity]. intros a Ha. apply Hbest in Ha. exact (H a Ha).
Qed.

Lemma V_reg_sq b q p t l o : V_reg b q p t l o ^ 2 = reg b t o ^ 2.
Proof. unfold BLMCtlSpec.V_reg. destruct (Rle_dec 0 _); ring. Qed.

Lemma V_solved b q p P qv qs : In b blocks -> P_ok b q p P ->
  cells_of b qv (fun t l o => weight b q p t l o * V_reg b q p t l o * resid_sq t p l o) ->
  (forall x, accepts qs x <-> okV b x) ->
  match solved solver P (map Ropp qv) qs with
  | QSol x => best (V_ok b) (V_loss b q p) (unstack nl (size b) x) /\ okV b (fun i => nth i x 0)
  | _ => forall v, ~ best (V_ok b) (V_loss b q p) v
  end.
Proof.
  intros Hb HP Hq Hqs.
  assert (HP' : cells_of b P (fun t l o => weight b q p t l o * V_reg b q p t l o ^ 2)).
  { apply (cells_ext _ _ _ _ _ _ _ HP). intros l k _ _.
    split; apply cell_ext; intros o _ _; now rewrite V_reg_sq. }
  set (Kst := total (fun t l o => weight b q p t l o * resid_sq t p l o ^ 2)).
  pose proof (solved_best solver exact complete nl (size b) P (map Ropp qv) qs (okV b) (V_loss b q p) Kst) as H.
  specialize (H (proj1 HP) Hqs (fun x x' => okV_ext b x x' Hb)).
  assert (Ho : forall x (a : vals), stacked nl (size b) (a false) (a true) x -> okV b x ->
    2 * qobj P (map Ropp qv) x = V_loss b q p a - Kst).
  { intros x a Sx Ox.
    exact (wls_objective nl (size b) data (key b) (weight b q p) (V_reg b q p) (fun t l o => resid_sq t p l o)
               (fun t o => key_lt b t o Hb) P qv x a HP' Hq Sx). }
  specialize (H Ho).
  assert (Hbest : forall a, best (V_ok b) (V_loss b q p) a <-> best (can nl (size b) (okV b)) (V_loss b q p) a).
  { intros a. split; apply best_iff; auto; intros; [symmetry|]; apply V_ok_can. }
  destruct (solved solver P (map Ropp qv) qs) as [x| |].
  - split; [apply Hbest, H|apply H].
  - intros a Ha. apply Hbest in Ha. exact (H a Ha).
  - intros a Ha. apply Hbest in Ha. exact (H a Ha).
Qed.

(* ---- the sums of the model ---- *)
Variable q : obs -> nat -> R.
Hypothesis q_nonneg : forall o l, In o data -> (l < nl)%nat -> 0 <= q o l.
Let qi := map (fun o => map (q o) (range nl)) data.

Lemma qi_rows (f : obs -> R -> R) l : (l < nl)%nat ->
  map2 (fun o row => f o (nth l row 0)) data qi = map (fun o => f o (q o l)) data.
Proof.
  intros Hl. unfold qi. rewrite map2_map_r. apply map_ext. intros o. f_equal.
  rewrite (nth_map_in _ _ _ 0%nat) by (now rewrite length_range). now rewrite nth_range.
Qed.
Lemma wts_w p t l : (l < nl)%nat -> wts data p qi t l = map (weight Firm q p t l) data.
Proof. intros Hl. exact (qi_rows (fun o x => wp t o * x / (Sp t p l (gp t o) ^ 2)) l Hl). Qed.
Lemma wts_cat_w j p t l : (l < nl)%nat -> wts_cat data j p qi t l = map (weight (Cat j) q p t l) data.
Proof.
  intros Hl.
  exact (qi_rows (fun o x => wp t o * x / (cat_read l (code t j o) (cat_of j (Scatp t p)) ^ 2)) l Hl).
Qed.
Lemma xw_cts_w j p t l : (l < nl)%nat ->
  xw_cts data j p qi t l = map (fun o => xval t j o * weight (Cts j) q p t l o) data.
Proof.
  intros Hl.
  exact (qi_rows (fun o x => xval t j o * (wp t o * x / (cts_read l (cts_of j (Sctsp t p)) ^ 2))) l Hl).
Qed.

Lemma both_cols_ok b F ws : In b blocks ->
  (forall t l, (l < nl)%nat -> ws t l = map (F t l) data) ->
  exists v, both_cols nl data (size b) (key b) ws = Ok v /\ cells_of b v F.
Proof.
  intros Hb Hw.
  destruct (group_sums_ok nl (size b) (key b false) data (fun o l => F false l o) (ws false) (size_pos b Hb))
    as (v1 & E1 & L1 & N1); auto.
  { intros o Ho. now apply key_lt. }
  { intros k Hk. now apply key_seen. }
  destruct (group_sums_ok nl (size b) (key b true) data (fun o l => F true l o) (ws true) (size_pos b Hb))
    as (v2 & E2 & L2 & N2); auto.
  { intros o Ho. now apply key_lt. }
  { intros k Hk. now apply key_seen. }
  unfold both_cols. rewrite E1. cbn [bind]. rewrite E2. cbn [bind]. eexists. split; [reflexivity|].
  split; [rewrite app_length; lia|]. intros l k Hl Hk. pose proof (cell_index nl (size b) l k Hl Hk).
  split.
  - rewrite app_nth1 by lia. auto.
  - rewrite app_nth2 by lia. rewrite L1.
    replace (nl * size b + (l * size b + k) - nl * size b)%nat with (l * size b + k)%nat by lia. auto.
Qed.
Lemma both_cts_ok j f F : (forall t l, (l < nl)%nat -> f t l = rsum (map (F t l) data)) ->
  cells_of (Cts j) (both_cts nl f) F.
Proof.
  intros H. unfold cells_of, both_cts. cbn [BLMCtlSpec.size]. split.
  - rewrite app_length, !map_length, !length_range. lia.
  - intros l k Hl Hk. assert (k = 0)%nat as -> by lia. unfold cell. cbn [key Nat.eqb].
    rewrite !Nat.mul_1_r, !Nat.add_0_r. split.
    + rewrite app_nth1 by (now rewrite map_length, length_range).
      rewrite (nth_map_in _ _ _ 0%nat) by (now rewrite length_range). rewrite nth_range by exact Hl. now apply H.
    + rewrite app_nth2 by (rewrite map_length, length_range; lia). rewrite map_length, length_range.
      replace (nl + l - nl)%nat with l by lia.
      rewrite (nth_map_in _ _ _ 0%nat) by (now rewrite length_range). rewrite nth_range by exact Hl. now apply H.
Qed.

(* wages net of the effects shared by worker types *)
Definition adj (p : par) (t : bool) : list R :=
  map (fun o => yp t o - sum_non_nl (Acatp t p) (Actsp t p) (cp t o) (xp t o)) data.

Lemma net_rows p f own A t l (ya : bool -> list R) : ya t = map f data ->
  net data p ya own A t l
  = map (fun o => f o - (sum_nl l (Acatp t p) (Actsp t p) (cp t o) (xp t o) - own t l o) - A t l o) data.
Proof. intros E. unfold net. rewrite E. apply map2_map_r. Qed.

Lemma nl_sum l t p o : sum_nl l (Acatp t p) (Actsp t p) (cp t o) (xp t o)
  = mu t p l o - Ap t p l (gp t o) - sum_non_nl (Acatp t p) (Actsp t p) (cp t o) (xp t o).
Proof. rewrite mu_unfold. pose proof (sums_total l (Acatp t p) (Actsp t p) (cp t o) (xp t o)). lra. Qed.

Lemma net_firm p t l : net data p (adj p) none none t l = map (rest Firm p t l) data.
Proof.
  rewrite (net_rows p _ _ _ t l (adj p) eq_refl). apply map_ext. intros o. rewrite nl_sum. unfold none, rest.
  cbn [part]. lra.
Qed.
Lemma net_eps p t l : eps_sq data p (adj p) t l = map (resid_sq t p l) data.
Proof.
  unfold eps_sq. rewrite (net_rows p _ _ _ t l (adj p) eq_refl), map_map. apply map_ext. intros o.
  rewrite nl_sum. unfold none, firm, resid_sq. f_equal. lra.
Qed.

Lemma map2_mult {A} (f g : A -> R) l : map2 Rmult (map f l) (map g l) = map (fun a => f a * g a) l.
Proof. induction l as [|a l IH]; cbn [map map2]; [reflexivity|]. now rewrite IH. Qed.

(* ---- the effects of each block ---- *)
Variable c : cset.
Variable k0 : nat.
Hypothesis k0_lt : (k0 < nk)%nat.
Definition turn (b : block) (p p' : par) : Prop :=
  if cs_a c then A_done nl nk cats ctss data s k0 q b p p' else p' = p.

Lemma adj_firm a p : adj (with_A Firm a p) = adj p.
Proof.
  apply functional_extensionality. intros t. unfold adj. now rewrite Ac_field, Ax_field.
Qed.

Lemma firm_A_ok qa p : kinds p -> (forall x, accepts qa x <-> okA Firm k0 x) ->
  exists p' P, firm_A solver nl nk data c qi qa p (adj p) = Ok (p', P) /\
    adj p' = adj p /\ turn Firm p p' /\ P_ok Firm q p P.
Proof.
  intros K Hqa. unfold firm_A. assert (Hb : In Firm blocks) by (now left).
  destruct (both_cols_ok Firm (fun t l o => weight Firm q p t l o * reg Firm t o ^ 2) (wts data p qi) Hb)
    as (P & EP & HP).
  { intros t l Hl. rewrite wts_w by exact Hl. apply map_ext. intros o. cbn [reg]. ring. }
  change (both_cols nl data nk gp (wts data p qi)) with (both_cols nl data (size Firm) (key Firm) (wts data p qi)).
  rewrite EP. cbn [bind]. unfold turn. destruct (cs_a c).
  - destruct (both_cols_ok Firm (fun t l o => weight Firm q p t l o * reg Firm t o * rest Firm p t l o)
      (fun t l => map2 Rmult (wts data p qi t l) (net data p (adj p) none none t l)) Hb) as (v & Ev & Hv).
    { intros t l Hl. rewrite wts_w, net_firm, map2_mult by exact Hl. apply map_ext. intros o. cbn [reg]. ring. }
    match goal with |- context [both_cols nl data nk gp ?w] =>
      change (both_cols nl data nk gp w) with (both_cols nl data (size Firm) (key Firm) w) end.
    rewrite Ev. cbn [bind].
    pose proof (A_solved Firm k0 q p P v qa Hb k0_lt K HP Hv Hqa) as H.
    destruct (solved solver P (map Ropp v) qa) as [x| |]; cbn [bind].
    + exists (with_A Firm (unstack nl (size Firm) x) p), P. split; [reflexivity|].
      split; [apply adj_firm|]. split; [exact H|exact HP].
    + exists p, P. split; [reflexivity|]. split; [reflexivity|]. split; [exact H|exact HP].
    + exists p, P. split; [reflexivity|]. split; [reflexivity|]. split; [exact H|exact HP].
  - cbn [bind]. exists p, P. split; [reflexivity|]. split; [reflexivity|]. split; [reflexivity|exact HP].
Qed.

(* categorical columns *)
Definition non (t : bool) (p : par) (o : obs) : R := sum_non_nl (Acatp t p) (Actsp t p) (cp t o) (xp t o).
Definition cat_own (j : nat) (p : par) (t : bool) (o : obs) : R :=
  cat_read 0 (code t j o) (cat_of j (Acatp t p)).
Definition cts_own (j : nat) (p : par) (t : bool) (o : obs) : R :=
  cts_read 0 (cts_of j (Actsp t p)) * xval t j o.

Lemma cat_kind_at p t j : kinds p -> (j < length cats)%nat -> cat_kind (column (Cat j)) (cat_of j (Acatp t p)).
Proof. intros K Hj. destruct (K t) as (K1 & _). exact (Forall2_at _ _ _ j _ _ K1 Hj). Qed.
Lemma cts_kind_at p t j : kinds p -> (j < length ctss)%nat -> cts_kind (column (Cts j)) (cts_of j (Actsp t p)).
Proof. intros K Hj. destruct (K t) as (_ & _ & K1 & _). exact (Forall2_at _ _ _ j _ _ K1 Hj). Qed.

Lemma cat_sh_own p t j o : kinds p -> (j < length cats)%nat ->
  cat_sh (cat_of j (Acatp t p)) (code t j o) = if gc_wi (column (Cat j)) then 0 else cat_own j p t o.
Proof.
  intros K Hj. pose proof (cat_kind_at p t j K Hj) as H. unfold cat_own.
  destruct (cat_of j (Acatp t p)); cbn [cat_kind] in H; rewrite H; reflexivity.
Qed.
Lemma cts_sh_own p t j o : kinds p -> (j < length ctss)%nat ->
  cts_sh (cts_of j (Actsp t p)) (xval t j o) = if gc_wi (column (Cts j)) then 0 else cts_own j p t o.
Proof.
  intros K Hj. pose proof (cts_kind_at p t j K Hj) as H. unfold cts_own.
  destruct (cts_of j (Actsp t p)); cbn [cts_kind] in H; rewrite H; reflexivity.
Qed.

Lemma non_cat j a p t o : kinds p -> (j < length cats)%nat -> In o data ->
  non t (with_A (Cat j) a p) o
  = non t p o + (if gc_wi (column (Cat j)) then 0 else cat_own j (with_A (Cat j) a p) t o - cat_own j p t o).
Proof.
  intros K Hj Ho. assert (Hb : In (Cat j) blocks) by (now apply in_cat).
  pose proof (kinds_with_A (Cat j) a p Hb K) as K'.
  pose proof (cat_sh_own _ t j o K' Hj) as E'. pose proof (cat_sh_own _ t j o K Hj) as E.
  destruct (K t) as (K1 & _).
  assert (L : (j < length (Acatp t p))%nat) by (now rewrite (F2_length _ _ _ K1)).
  unfold non. rewrite !non_nl_sum. rewrite Ax_field.
  rewrite Ac_field in E' |- *. rewrite put_lput in E' |- * by exact L.
  unfold cat_of in E'. rewrite nth_lput, Nat.eqb_refl in E' by exact L.
  rewrite (sum_lput _ _ _ _ _ (Shared (fun _ => 0)) 0%nat) by (rewrite ?c_len by exact Ho; assumption).
  unfold code in E', E. rewrite E'. unfold cat_of in E. rewrite E.
  destruct (gc_wi (column (Cat j))); lra.
Qed.
Lemma non_cts j a p t o : kinds p -> (j < length ctss)%nat -> In o data ->
  non t (with_A (Cts j) a p) o
  = non t p o + (if gc_wi (column (Cts j)) then 0 else cts_own j (with_A (Cts j) a p) t o - cts_own j p t o).
Proof.
  intros K Hj Ho. assert (Hb : In (Cts j) blocks) by (now apply in_cts).
  pose proof (kinds_with_A (Cts j) a p Hb K) as K'.
  pose proof (cts_sh_own _ t j o K' Hj) as E'. pose proof (cts_sh_own _ t j o K Hj) as E.
  destruct (K t) as (_ & _ & K1 & _).
  assert (L : (j < length (Actsp t p))%nat) by (now rewrite (F2_length _ _ _ K1)).
  unfold non. rewrite !non_nl_sum. rewrite Ac_field.
  rewrite Ax_field in E' |- *. rewrite put_lput in E' |- * by exact L.
  unfold cts_of in E'. rewrite nth_lput, Nat.eqb_refl in E' by exact L.
  rewrite (sum_lput _ _ _ _ _ (XShared 0) 0) by (rewrite ?x_len by exact Ho; assumption).
  unfold xval in E', E. rewrite E'. unfold cts_of in E. rewrite E.
  destruct (gc_wi (column (Cts j))); lra.
Qed.

(* what Y_adj is while a column is updated *)
Definition opened (wi : bool) (own : bool -> obs -> R) (p : par) : bool -> list R :=
  if wi then adj p else yplus data own (adj p).
Lemma opened_rows wi own p t :
  opened wi own p t = map (fun o => yp t o - non t p o + if wi then 0 else own t o) data.
Proof.
  unfold opened, yplus, adj. destruct wi.
  - apply map_ext. intros o. unfold non. lra.
  - rewrite map2_map_r. reflexivity.
Qed.
Lemma closed_adj (wi : bool) own own' p p' :
  (forall t o, In o data -> non t p' o = non t p o + if wi then 0 else own' t o - own t o) ->
  (if wi then opened wi own p else yminus data own' (opened wi own p)) = adj p'.
Proof.
  intros H. apply functional_extensionality. intros t.
  transitivity (map (fun o => yp t o - non t p' o) data); [|reflexivity].
  destruct wi.
  - rewrite opened_rows. apply map_ext_in. intros o Ho. rewrite (H t o Ho). lra.
  - unfold yminus. rewrite opened_rows, map2_map_r. apply map_ext_in. intros o Ho. rewrite (H t o Ho). lra.
Qed.

Lemma net_cat j p t l : kinds p -> (j < length cats)%nat ->
  net data p (opened (gc_wi (column (Cat j))) (cat_own j p) p)
    (fun t l o => if gc_wi (column (Cat j)) then cat_read l (code t j o) (cat_of j (Acatp t p)) else 0)
    (firm p) t l = map (rest (Cat j) p t l) data.
Proof.
  intros K Hj. rewrite (net_rows p _ _ _ t l _ (opened_rows _ _ _ _)). apply map_ext. intros o.
  rewrite nl_sum. fold (non t p o). unfold rest, firm. cbn [part].
  change (nth j (Acatp t p) (Shared (fun _ => 0))) with (cat_of j (Acatp t p)).
  fold (code t j o). pose proof (cat_kind_at p t j K Hj) as H. unfold cat_own.
  destruct (cat_of j (Acatp t p)); cbn [cat_kind] in H; rewrite H; cbn [cat_read cat_at]; lra.
Qed.
Lemma net_cts j p t l : kinds p -> (j < length ctss)%nat ->
  net data p (opened (gc_wi (column (Cts j))) (cts_own j p) p)
    (fun t l o => if gc_wi (column (Cts j)) then cts_read l (cts_of j (Actsp t p)) * xval t j o else 0)
    (firm p) t l = map (rest (Cts j) p t l) data.
Proof.
  intros K Hj. rewrite (net_rows p _ _ _ t l _ (opened_rows _ _ _ _)). apply map_ext. intros o.
  rewrite nl_sum. fold (non t p o). unfold rest, firm. cbn [part].
  change (nth j (Actsp t p) (XShared 0)) with (cts_of j (Actsp t p)).
  fold (xval t j o). pose proof (cts_kind_at p t j K Hj) as H. unfold cts_own.
  destruct (cts_of j (Actsp t p)); cbn [cts_kind] in H; rewrite H; cbn [cts_read cts_at]; lra.
Qed.

Lemma with_A_cat j x p : kinds p -> (j < length cats)%nat ->
  with_A (Cat j) (unstack nl (size (Cat j)) x) p
  = let n := gc_n (column (Cat j)) in
    if gc_wi (column (Cat j))
    then set_A_cat j (Inter (half1 n x)) (Inter (half2 nl n x)) p
    else set_A_cat j (Shared (half1 n x 0%nat)) (Shared (half2 nl n x 0%nat)) p.
Proof.
  intros K Hj. destruct (K false) as (K1 & _). destruct (K true) as (K2 & _). cbn [Acatp] in K1, K2.
  unfold BLMCtlSpec.with_A. rewrite !put_lput by (rewrite ?(F2_length _ _ _ K1), ?(F2_length _ _ _ K2); exact Hj).
  unfold BLMCtlSpec.interacts, cat_arr. cbv zeta.
  destruct (gc_wi (column (Cat j))); reflexivity.
Qed.
Lemma with_A_cts j x p : kinds p -> (j < length ctss)%nat ->
  with_A (Cts j) (unstack nl (size (Cts j)) x) p
  = if gc_wi (column (Cts j))
    then set_A_cts j (XInter (fun l => nth l x 0)) (XInter (fun l => nth (nl + l) x 0)) p
    else set_A_cts j (XShared (nth 0 x 0)) (XShared (nth nl x 0)) p.
Proof.
  intros K Hj. destruct (K false) as (_ & _ & K1 & _). destruct (K true) as (_ & _ & K2 & _).
  cbn [Actsp] in K1, K2.
  assert (E : cts_arr (gc_wi (column (Cts j))) (unstack nl (size (Cts j)) x false)
    = if gc_wi (column (Cts j)) then XInter (fun l => nth l x 0) else XShared (nth 0 x 0)).
  { unfold cts_arr, unstack, half1. cbn [BLMCtlSpec.size]. destruct (gc_wi (column (Cts j))); [|reflexivity].
    f_equal. apply functional_extensionality. intros l. f_equal. lia. }
  assert (E' : cts_arr (gc_wi (column (Cts j))) (unstack nl (size (Cts j)) x true)
    = if gc_wi (column (Cts j)) then XInter (fun l => nth (nl + l) x 0) else XShared (nth nl x 0)).
  { unfold cts_arr, unstack, half2. cbn [BLMCtlSpec.size]. destruct (gc_wi (column (Cts j))).
    - f_equal. apply functional_extensionality. intros l. f_equal. lia.
    - f_equal. f_equal. lia. }
  unfold BLMCtlSpec.with_A. rewrite !put_lput by (rewrite ?(F2_length _ _ _ K1), ?(F2_length _ _ _ K2); exact Hj).
  unfold BLMCtlSpec.interacts. rewrite E, E'.
  destruct (gc_wi (column (Cts j))); reflexivity.
Qed.

Lemma cat_A_ok j col qa p : kinds p -> (j < length cats)%nat -> col = column (Cat j) ->
  (forall x, accepts qa x <-> okA (Cat j) k0 x) ->
  exists p' P, cat_A solver nl data c qi j col qa (p, adj p) = Ok (p', adj p', P) /\
    turn (Cat j) p p' /\ P_ok (Cat j) q p P.
Proof.
  intros K Hj -> Hqa. assert (Hb : In (Cat j) blocks) by (now apply in_cat).
  unfold cat_A. cbv zeta. set (wi := gc_wi (column (Cat j))) in *.
  change (fun (t : bool) (o : obs) => cat_read 0 (code t j o) (cat_of j (Acatp t p))) with (cat_own j p).
  fold (opened wi (cat_own j p) p).
  destruct (both_cols_ok (Cat j) (fun t l o => weight (Cat j) q p t l o * reg (Cat j) t o ^ 2)
              (wts_cat data j p qi) Hb) as (P & EP & HP).
  { intros t l Hl. rewrite wts_cat_w by exact Hl. apply map_ext. intros o. cbn [reg]. ring. }
  change (both_cols nl data (gc_n (column (Cat j))) (fun t => code t j) (wts_cat data j p qi))
    with (both_cols nl data (size (Cat j)) (key (Cat j)) (wts_cat data j p qi)).
  rewrite EP. cbn [bind]. unfold turn.
  assert (Same : (if wi then opened wi (cat_own j p) p else yminus data (cat_own j p) (opened wi (cat_own j p) p))
                 = adj p).
  { apply (closed_adj wi (cat_own j p) (cat_own j p) p p). intros t o _. destruct wi; lra. }
  assert (New : forall a, (if wi then opened wi (cat_own j p) p
      else yminus data (cat_own j (with_A (Cat j) a p)) (opened wi (cat_own j p) p)) = adj (with_A (Cat j) a p)).
  { intros a. apply (closed_adj wi (cat_own j p) (cat_own j (with_A (Cat j) a p)) p). intros t o Ho.
    now apply non_cat. }
  destruct (cs_a c).
  - destruct (both_cols_ok (Cat j) (fun t l o => weight (Cat j) q p t l o * reg (Cat j) t o * rest (Cat j) p t l o)
      (fun t l => map2 Rmult (wts_cat data j p qi t l)
         (net data p (opened wi (cat_own j p) p)
            (fun t l o => if wi then cat_read l (code t j o) (cat_of j (Acatp t p)) else 0) (firm p) t l)) Hb)
      as (v & Ev & Hv).
    { intros t l Hl. unfold wi. rewrite wts_cat_w, net_cat, map2_mult by assumption.
      apply map_ext. intros o. cbn [reg]. ring. }
    match goal with |- context [both_cols nl data (gc_n (column (Cat j))) _ ?w] =>
      change (both_cols nl data (gc_n (column (Cat j))) (fun t => code t j) w)
        with (both_cols nl data (size (Cat j)) (key (Cat j)) w) end.
    rewrite Ev. cbn [bind].
    pose proof (A_solved (Cat j) k0 q p P v qa Hb k0_lt K HP Hv Hqa) as H.
    destruct (solved solver P (map Ropp v) qa) as [x| |]; cbn [bind].
    + exists (with_A (Cat j) (unstack nl (size (Cat j)) x) p), P.
      split; [|split; [exact H|exact HP]].
      rewrite <- (New (unstack nl (size (Cat j)) x)). rewrite (with_A_cat j x p K Hj). cbv zeta. fold wi.
      reflexivity.
    + exists p, P. split; [|split; [exact H|exact HP]]. rewrite <- Same. reflexivity.
    + exists p, P. split; [|split; [exact H|exact HP]]. rewrite <- Same. reflexivity.
  - cbn [bind]. exists p, P. split; [|split; [reflexivity|exact HP]]. rewrite <- Same. reflexivity.
Qed.

Lemma dot_rows {A} (f g : A -> R) l : dot (map f l) (map g l) = rsum (map (fun a => f a * g a) l).
Proof. unfold dot. now rewrite map2_mult. Qed.

Lemma cts_A_ok j col qa p : kinds p -> (j < length ctss)%nat -> col = column (Cts j) ->
  (forall x, accepts qa x <-> okA (Cts j) k0 x) ->
  exists p' P, cts_A solver nl data c qi j col qa (p, adj p) = Ok (p', adj p', P) /\
    turn (Cts j) p p' /\ P_ok (Cts j) q p P.
Proof.
  intros K Hj -> Hqa. assert (Hb : In (Cts j) blocks) by (now apply in_cts).
  unfold cts_A. cbv zeta. set (wi := gc_wi (column (Cts j))) in *.
  change (fun (t : bool) (o : obs) => cts_read 0 (cts_of j (Actsp t p)) * xval t j o) with (cts_own j p).
  fold (opened wi (cts_own j p) p).
  set (P := both_cts nl (fun t l => dot (xw_cts data j p qi t l) (map (xval t j) data))).
  assert (HP : P_ok (Cts j) q p P).
  { apply both_cts_ok. intros t l Hl. rewrite xw_cts_w, dot_rows by exact Hl. apply rsum_map_ext. intros o _.
    cbn [reg]. unfold xval. ring. }
  unfold turn.
  assert (Same : (if wi then opened wi (cts_own j p) p else yminus data (cts_own j p) (opened wi (cts_own j p) p))
                 = adj p).
  { apply (closed_adj wi (cts_own j p) (cts_own j p) p p). intros t o _. destruct wi; lra. }
  assert (New : forall a, (if wi then opened wi (cts_own j p) p
      else yminus data (cts_own j (with_A (Cts j) a p)) (opened wi (cts_own j p) p)) = adj (with_A (Cts j) a p)).
  { intros a. apply (closed_adj wi (cts_own j p) (cts_own j (with_A (Cts j) a p)) p). intros t o Ho.
    now apply non_cts. }
  destruct (cs_a c).
  - set (v := both_cts nl (fun t l => dot (xw_cts data j p qi t l) _)).
    assert (Hv : cells_of (Cts j) v
       (fun t l o => weight (Cts j) q p t l o * reg (Cts j) t o * rest (Cts j) p t l o)).
    { apply both_cts_ok. intros t l Hl. unfold wi. rewrite xw_cts_w, net_cts, dot_rows by assumption.
      apply rsum_map_ext. intros o _. cbn [reg]. unfold xval. ring. }
    pose proof (A_solved (Cts j) k0 q p P v qa Hb k0_lt K HP Hv Hqa) as H.
    destruct (solved solver P (map Ropp v) qa) as [x| |]; cbn [bind].
    + exists (with_A (Cts j) (unstack nl (size (Cts j)) x) p), P.
      split; [|split; [exact H|exact HP]].
      rewrite <- (New (unstack nl (size (Cts j)) x)). rewrite (with_A_cts j x p K Hj). fold wi.
      reflexivity.
    + exists p, P. split; [|split; [exact H|exact HP]]. rewrite <- Same. reflexivity.
    + exists p, P. split; [|split; [exact H|exact HP]]. rewrite <- Same. reflexivity.
  - cbn [bind]. exists p, P. split; [|split; [reflexivity|exact HP]]. rewrite <- Same. reflexivity.
Qed.

(* ---- all effects ---- *)
Lemma turn_moved b p p' : turn b p p' -> p' = p \/ exists a, p' = with_A b a p.
Proof.
  unfold turn. destruct (cs_a c); [|auto]. intros [(a & _ & ->)|[_ ->]]; [right; now exists a|now left].
Qed.
Definition S_same (p p' : par) : Prop := forall b, sd b p' = sd b p.
Lemma turn_keeps b p p' : In b blocks -> kinds p -> turn b p p' ->
  kinds p' /\ S_same p p' /\ pk1 p' = pk1 p.
Proof.
  intros Hb K T. destruct (turn_moved b p p' T) as [->|(a & ->)].
  - repeat split; auto; apply K.
  - split; [now apply kinds_with_A|]. split; [intros b'; apply sd_field|apply pk1_field].
Qed.
Lemma P_ok_same b p p' P : S_same p p' -> P_ok b q p P -> P_ok b q p' P.
Proof. intros E. unfold P_ok, weight. now rewrite (E b). Qed.

Lemma in_turn_app step bs bs' p p1 p2 :
  in_turn step bs p p1 -> in_turn step bs' p1 p2 -> in_turn step (bs ++ bs') p p2.
Proof.
  revert p. induction bs as [|b bs IH]; intros p; cbn [in_turn app].
  - intros ->. auto.
  - intros (p0 & H & H1) H2. exists p0. split; [exact H|]. now apply IH.
Qed.
Lemma in_turn_turn bs p p' : in_turn turn bs p p' ->
  if cs_a c then in_turn (A_done nl nk cats ctss data s k0 q) bs p p' else p' = p.
Proof.
  unfold turn. destruct (cs_a c); [auto|]. revert p.
  induction bs as [|b bs IH]; intros p; cbn [in_turn]; [auto|]. intros (p1 & -> & H). now apply IH.
Qed.

Section Loop.
Variable mk : nat -> block.
Variable upd : nat -> gcol -> qp -> par * (bool -> list R) -> res (par * (bool -> list R) * list R).
Variable okcol : nat * gcol * (qp * qp) -> Prop.
Hypothesis mk_in : forall j col qq, okcol (j, col, qq) -> In (mk j) blocks.
Hypothesis upd_ok : forall j col qq p, okcol (j, col, qq) -> kinds p ->
  exists p' P, upd j col (fst qq) (p, adj p) = Ok (p', adj p', P) /\ turn (mk j) p p' /\ P_ok (mk j) q p P.

Lemma loop_A L : Forall okcol L -> forall p Ps, kinds p ->
  exists p' Ps',
    for_each L (fun jc st =>
       let '(j, col, q) := jc in
       let '(p, ya, Ps) := st in
       ' (p, ya, P) <- upd j col (fst q) (p, ya) ;;
       Ok (p, ya, Ps ++ [P])) (p, adj p, Ps) = Ok (p', adj p', Ps ++ Ps') /\
    in_turn turn (map (fun jc => mk (fst (fst jc))) L) p p' /\
    kinds p' /\ S_same p p' /\ pk1 p' = pk1 p /\
    Forall2 (fun jc P => P_ok (mk (fst (fst jc))) q p' P) L Ps'.
Proof.
  induction 1 as [|[[j col] qq] L Ho F IH]; intros p Ps K.
  - exists p, []. cbn [for_each map in_turn]. rewrite app_nil_r.
    repeat (split; [solve [auto|intros b; reflexivity]|]). constructor.
  - destruct (upd_ok j col qq p Ho K) as (p1 & P & E & T & HP).
    destruct (turn_keeps _ p p1 (mk_in _ _ _ Ho) K T) as (K1 & S1 & X1).
    destruct (IH p1 (Ps ++ [P]) K1) as (p' & Ps' & E' & T' & K' & S' & X' & F').
    exists p', (P :: Ps'). cbn [for_each]. rewrite E. cbn [bind]. rewrite E'.
    split; [now rewrite <- app_assoc|]. split; [cbn [map fst in_turn]; now exists p1|].
    split; [exact K'|]. split; [intros b; now rewrite S', S1|]. split; [congruence|].
    constructor; [|exact F']. cbn [fst]. apply (P_ok_same _ p1); [exact S'|].
    now apply (P_ok_same _ p).
Qed.
End Loop.

(* the columns with their constraints *)
Lemma cat_cols cols : Forall2 (col_spec s nl) (cats ++ ctss) cols ->
  Forall (fun jc => (fst (fst jc) < length cats)%nat /\ snd (fst jc) = column (Cat (fst (fst jc))) /\
                    col_spec s nl (snd (fst jc)) (snd jc))
    (combine (enumerate cats) (firstn (length cats) cols)) /\
  map (fun jc => fst (fst jc)) (combine (enumerate cats) (firstn (length cats) cols)) = range (length cats).
Proof.
  intros F. apply Forall2_app_inv_l in F as (l1 & l2 & F1 & F2 & ->).
  rewrite firstn_app, (F2_length _ _ _ F1), firstn_all2, Nat.sub_diag by (now rewrite (F2_length _ _ _ F1)).
  cbn [firstn]. rewrite app_nil_r. cbn [BLMCtlSpec.column]. unfold enumerate, range.
  assert (G : forall k pre, length pre = k ->
    Forall (fun jc : nat * gcol * (qp * qp) => (fst (fst jc) < k + length cats)%nat /\
       snd (fst jc) = nth (fst (fst jc)) (pre ++ cats) (mkgcol 0 true None None) /\
       col_spec s nl (snd (fst jc)) (snd jc)) (combine (combine (seq k (length cats)) cats) l1) /\
    map (fun jc : nat * gcol * (qp * qp) => fst (fst jc)) (combine (combine (seq k (length cats)) cats) l1)
    = seq k (length cats)); [|exact (G 0%nat [] eq_refl)].
  clear -F1. induction F1 as [|a b la lb H F IH]; intros k pre Hk; [split; constructor|].
  cbn [length seq combine map fst snd]. destruct (IH (S k) (pre ++ [a])) as [I1 I2].
  { rewrite app_length, Hk. cbn. lia. }
  split.
  - constructor.
    + cbn [fst snd]. split; [lia|]. split; [|exact H]. rewrite app_nth2, Hk, Nat.sub_diag by lia. reflexivity.
    + rewrite <- app_assoc in I1. cbn [app] in I1. eapply Forall_impl; [|exact I1].
      intros x (Q1 & Q2 & Q3). split; [lia|]. split; assumption.
  - now rewrite I2.
Qed.
Lemma cts_cols cols : Forall2 (col_spec s nl) (cats ++ ctss) cols ->
  Forall (fun jc => (fst (fst jc) < length ctss)%nat /\ snd (fst jc) = column (Cts (fst (fst jc))) /\
                    col_spec s nl (snd (fst jc)) (snd jc))
    (combine (enumerate ctss) (skipn (length cats) cols)) /\
  map (fun jc => fst (fst jc)) (combine (enumerate ctss) (skipn (length cats) cols)) = range (length ctss).
Proof.
  intros F. apply Forall2_app_inv_l in F as (l0 & l1 & F0 & F1 & ->).
  rewrite skipn_app, (F2_length _ _ _ F0), skipn_all2, Nat.sub_diag by (now rewrite (F2_length _ _ _ F0)).
  cbn [skipn app]. cbn [BLMCtlSpec.column]. unfold enumerate, range.
  assert (G : forall k pre, length pre = k ->
    Forall (fun jc : nat * gcol * (qp * qp) => (fst (fst jc) < k + length ctss)%nat /\
       snd (fst jc) = nth (fst (fst jc)) (pre ++ ctss) (mkgcol 1 true None None) /\
       col_spec s nl (snd (fst jc)) (snd jc)) (combine (combine (seq k (length ctss)) ctss) l1) /\
    map (fun jc : nat * gcol * (qp * qp) => fst (fst jc)) (combine (combine (seq k (length ctss)) ctss) l1)
    = seq k (length ctss)); [|exact (G 0%nat [] eq_refl)].
  clear -F1. induction F1 as [|a b la lb H F IH]; intros k pre Hk; [split; constructor|].
  cbn [length seq combine map fst snd]. destruct (IH (S k) (pre ++ [a])) as [I1 I2].
  { rewrite app_length, Hk. cbn. lia. }
  split.
  - constructor.
    + cbn [fst snd]. split; [lia|]. split; [|exact H]. rewrite app_nth2, Hk, Nat.sub_diag by lia. reflexivity.
    + rewrite <- app_assoc in I1. cbn [app] in I1. eapply Forall_impl; [|exact I1].
      intros x (Q1 & Q2 & Q3). split; [lia|]. split; assumption.
  - now rewrite I2.
Qed.

Lemma col_okA b qq : In b blocks -> b <> Firm -> col_spec s nl (column b) qq ->
  (forall x, accepts (fst qq) x <-> okA b k0 x) /\ (forall x, accepts (snd qq) x <-> okV b x).
Proof.
  intros Hb Hf [H1 H2]. unfold okA, okV, BLMCtlSpec.interacts. rewrite size_col by exact Hb. split; intros x.
  - rewrite H1. tauto.
  - rewrite H2. tauto.
Qed.

Lemma all_A_ok cols p : kinds p -> Forall2 (col_spec s nl) (cats ++ ctss) cols ->
  exists p' Pc Px, all_A solver nl cats ctss data c qi cols p (adj p) = Ok (p', adj p', Pc, Px) /\
    in_turn turn (tl blocks) p p' /\ kinds p' /\ S_same p p' /\ pk1 p' = pk1 p /\
    Forall2 (fun jc P => P_ok (Cat (fst (fst jc))) q p' P) (combine (enumerate cats) (firstn (length cats) cols)) Pc /\
    Forall2 (fun jc P => P_ok (Cts (fst (fst jc))) q p' P) (combine (enumerate ctss) (skipn (length cats) cols)) Px.
Proof.
  intros K HC. destruct (cat_cols cols HC) as [Fc Mc]. destruct (cts_cols cols HC) as [Fx Mx].
  pose (okc := fun jc : nat * gcol * (qp * qp) => (fst (fst jc) < length cats)%nat /\
     snd (fst jc) = column (Cat (fst (fst jc))) /\ col_spec s nl (snd (fst jc)) (snd jc)).
  pose (okx := fun jc : nat * gcol * (qp * qp) => (fst (fst jc) < length ctss)%nat /\
     snd (fst jc) = column (Cts (fst (fst jc))) /\ col_spec s nl (snd (fst jc)) (snd jc)).
  assert (Uc : forall j col qq p, okc (j, col, qq) -> kinds p ->
    exists p' P, cat_A solver nl data c qi j col (fst qq) (p, adj p) = Ok (p', adj p', P) /\
      turn (Cat j) p p' /\ P_ok (Cat j) q p P).
  { intros j col qq p0 (H1 & H2 & H3) K0. cbn [fst snd] in *. subst col. apply cat_A_ok; auto.
    apply (col_okA (Cat j) qq); auto; [now apply in_cat|discriminate]. }
  assert (Ux : forall j col qq p, okx (j, col, qq) -> kinds p ->
    exists p' P, cts_A solver nl data c qi j col (fst qq) (p, adj p) = Ok (p', adj p', P) /\
      turn (Cts j) p p' /\ P_ok (Cts j) q p P).
  { intros j col qq p0 (H1 & H2 & H3) K0. cbn [fst snd] in *. subst col. apply cts_A_ok; auto.
    apply (col_okA (Cts j) qq); auto; [now apply in_cts|discriminate]. }
  destruct (loop_A Cat (cat_A solver nl data c qi) okc
    (fun j col qq H => proj2 (in_cat j) (proj1 H)) Uc _ Fc p [] K) as (p1 & Pc & E1 & T1 & K1 & S1 & X1 & Q1).
  destruct (loop_A Cts (cts_A solver nl data c qi) okx
    (fun j col qq H => proj2 (in_cts j) (proj1 H)) Ux _ Fx p1 [] K1) as (p2 & Px & E2 & T2 & K2 & S2 & X2 & Q2).
  exists p2, Pc, Px. unfold all_A. rewrite E1. cbn [bind app]. rewrite E2. cbn [bind app].
  split; [reflexivity|]. split; [|split; [exact K2|split; [|split; [congruence|split; [|exact Q2]]]]].
  - cbn [BLMCtlSpec.blocks tl]. rewrite <- (map_map (fun jc => fst (fst jc)) Cat) in T1.
    rewrite <- (map_map (fun jc => fst (fst jc)) Cts) in T2. rewrite Mc in T1. rewrite Mx in T2.
    now apply (in_turn_app _ _ _ _ p1).
  - intros b. now rewrite S2, S1.
  - eapply F2_impl; [|exact Q1]. intros jc P. now apply P_ok_same.
Qed.

(* ---- variances ---- *)
Definition with_S (b : block) (v : vals) (p : par) : par :=
  match b with
  | Firm => set_S (v false) (v true) p
  | Cat j => set_S_cat j (cat_arr (interacts b) (v false)) (cat_arr (interacts b) (v true)) p
  | Cts j => set_S_cts j (cts_arr (interacts b) (v false)) (cts_arr (interacts b) (v true)) p
  end.
Lemma with_S_same b v p : same_but_S p (with_S b v p).
Proof. destruct b; repeat split. Qed.
Lemma Scat_S t b v p : Scatp t (with_S b v p)
  = match b with Cat j => lput j (cat_arr (interacts b) (v t)) (Scatp t p) | _ => Scatp t p end.
Proof. destruct b, t; reflexivity. Qed.
Lemma Scts_S t b v p : Sctsp t (with_S b v p)
  = match b with Cts j => lput j (cts_arr (interacts b) (v t)) (Sctsp t p) | _ => Sctsp t p end.
Proof. destruct b, t; reflexivity. Qed.
Lemma kinds_with_S b v p : In b blocks -> kinds p -> kinds (with_S b v p).
Proof.
  intros Hb K t. destruct (K t) as (K1 & K2 & K3 & K4). rewrite Scat_S, Scts_S.
  replace (Acatp t (with_S b v p)) with (Acatp t p) by (destruct b, t; reflexivity).
  replace (Actsp t (with_S b v p)) with (Actsp t p) by (destruct b, t; reflexivity).
  split; [exact K1|]. split; [|split; [exact K3|]].
  - destruct b as [|j|j]; try exact K2. apply in_cat in Hb.
    apply (Forall2_lput _ _ _ _ _ (mkgcol 0 true None None)); [exact K2|exact Hb|apply (cat_arr_kind j)].
  - destruct b as [|j|j]; try exact K4. apply in_cts in Hb.
    apply (Forall2_lput _ _ _ _ _ (mkgcol 1 true None None)); [exact K4|exact Hb|apply (cts_arr_kind j)].
Qed.
Lemma sd_with_S b v p t l n : In b blocks -> kinds p -> (n < size b)%nat ->
  sd b (with_S b v p) t l n = v t (if interacts b then l else 0%nat) n.
Proof.
  intros Hb K Hn. unfold sd. rewrite Scat_S, Scts_S. destruct (K t) as (_ & K2 & _ & K4).
  destruct b as [|j|j].
  - destruct t; reflexivity.
  - apply in_cat in Hb. rewrite nth_lput, Nat.eqb_refl by (now rewrite (F2_length _ _ _ K2)).
    unfold cat_arr. destruct (interacts (Cat j)); reflexivity.
  - apply in_cts in Hb. rewrite nth_lput, Nat.eqb_refl by (now rewrite (F2_length _ _ _ K4)).
    cbn in Hn. assert (n = 0)%nat as -> by lia.
    unfold cts_arr. destruct (interacts (Cts j)); reflexivity.
Qed.
Lemma sd_with_S_other b b' v p t l n : In b blocks -> kinds p -> b' <> b ->
  sd b' (with_S b v p) t l n = sd b' p t l n.
Proof.
  intros Hb K Hne. unfold sd. rewrite Scat_S, Scts_S. destruct (K t) as (_ & K2 & _ & K4).
  destruct b as [|j|j], b' as [|i|i]; try congruence; try (destruct t; reflexivity).
  - apply in_cat in Hb. rewrite nth_lput by (now rewrite (F2_length _ _ _ K2)).
    destruct (Nat.eqb_spec i j); [congruence|reflexivity].
  - apply in_cts in Hb. rewrite nth_lput by (now rewrite (F2_length _ _ _ K4)).
    destruct (Nat.eqb_spec i j); [congruence|reflexivity].
Qed.

(* what the update of a block's standard deviations, computed at p, does *)
Definition S_fun (b : block) (p : par) (f : par -> par) : Prop :=
  (exists v, best (V_ok b) (V_loss b q p) v /\ forall p', f p' = with_S b (fun t l n => sqrt (v t l n)) p') \/
  ((forall v, ~ best (V_ok b) (V_loss b q p) v) /\ forall p', f p' = p').

Lemma V_same b v t l n : V_ok b v -> (l < nl)%nat -> (n < size b)%nat -> interacts b = false ->
  v t 0%nat n = v t l n.
Proof.
  intros (x & H & _ & _ & Hs) Hl Hn E. specialize (Hs E).
  rewrite <- (H t l n Hl Hn), <- (H t 0%nat n nl_pos Hn). apply Hs; auto. destruct t; lia.
Qed.

Lemma fold_S p0 bs fs : Forall2 (fun b f => S_fun b p0 f) bs fs -> NoDup bs -> (forall b, In b bs -> In b blocks) ->
  forall p, kinds p ->
  let p' := fold_left (fun p f => f p) fs p in
  kinds p' /\ same_but_S p p' /\
  (forall b t l n, ~ In b bs -> sd b p' t l n = sd b p t l n) /\
  forall b, In b bs ->
    (exists v, best (V_ok b) (V_loss b q p0) v /\
       forall t l n, (l < nl)%nat -> (n < size b)%nat -> sd b p' t l n = sqrt (v t l n)) \/
    ((forall v, ~ best (V_ok b) (V_loss b q p0) v) /\ forall t l n, sd b p' t l n = sd b p t l n).
Proof.
  induction 1 as [|b f bs fs Hf F IH]; intros ND Hin p K.
  - cbv zeta. cbn [fold_left]. split; [exact K|]. split; [repeat split|]. split; [reflexivity|].
    intros b [].
  - inversion ND as [|? ? Hni ND']; subst. cbv zeta. cbn [fold_left].
    assert (Hb : In b blocks) by (apply Hin; now left).
    assert (K1 : kinds (f p)).
    { destruct Hf as [(v & _ & E)|[_ E]]; rewrite E; [now apply kinds_with_S|exact K]. }
    assert (S1 : same_but_S p (f p)).
    { destruct Hf as [(v & _ & E)|[_ E]]; rewrite E; [apply with_S_same|repeat split]. }
    assert (O1 : forall b' t l n, b' <> b -> sd b' (f p) t l n = sd b' p t l n).
    { intros b' t l n Hne. destruct Hf as [(v & _ & E)|[_ E]]; rewrite E; [|reflexivity].
      now apply sd_with_S_other. }
    destruct (IH ND' (fun b' H => Hin b' (or_intror H)) (f p) K1) as (K2 & S2 & O2 & H2).
    split; [exact K2|]. split.
    { unfold same_but_S in *. decompose [and] S1. decompose [and] S2. repeat split; congruence. }
    split.
    { intros b' t l n Hn. rewrite O2 by (intros Hi; apply Hn; now right).
      apply O1. intros ->. apply Hn. now left. }
    intros b' [<-|Hb'].
    + destruct Hf as [(v & Hv & E)|[Hv E]].
      * left. exists v. split; [exact Hv|]. intros t l n Hl Hn. rewrite O2 by exact Hni.
        rewrite E, sd_with_S by assumption. f_equal.
        destruct (interacts b) eqn:Ei; [reflexivity|]. apply (V_same b v); auto. apply Hv.
      * right. split; [exact Hv|]. intros t l n. rewrite O2 by exact Hni. now rewrite E.
    + assert (Hne : b' <> b) by (intros ->; now apply Hni).
      destruct (H2 b' Hb') as [H|[Hv H]]; [left; exact H|right].
      split; [exact Hv|]. intros t l n. rewrite H. now apply O1.
Qed.

Lemma blocks_nodup : NoDup blocks.
Proof.
  unfold BLMCtlSpec.blocks. constructor.
  - intros H. apply in_app_or in H as [H|H]; apply in_map_iff in H as (i & E & _); discriminate.
  - assert (NC : NoDup (map Cat (range (length cats)))).
    { apply FinFun.Injective_map_NoDup; [intros x y E; now injection E|apply seq_NoDup]. }
    assert (NX : NoDup (map Cts (range (length ctss)))).
    { apply FinFun.Injective_map_NoDup; [intros x y E; now injection E|apply seq_NoDup]. }
    assert (Dj : forall b, In b (map Cat (range (length cats))) -> ~ In b (map Cts (range (length ctss)))).
    { intros b Hc Hx. apply in_map_iff in Hc as (i & <- & _). apply in_map_iff in Hx as (k & E & _). discriminate. }
    revert NC Dj. generalize (map Cat (range (length cats))). intros l NC Dj.
    induction NC as [|a l Ha NC IH]; [exact NX|]. cbn [app]. constructor.
    + intros H. apply in_app_or in H as [H|H]; [now apply Ha|]. exact (Dj a (or_introl eq_refl) H).
    + apply IH. intros b Hb. apply Dj. now right.
Qed.

(* positive standard deviations *)
Definition sd_pos (p : par) : Prop := forall b t l n, In b blocks -> (l < nl)%nat -> (n < size b)%nat ->
  0 < sd b p t l n.
Lemma weight_nonneg b p t l o : sd_pos p -> In b blocks -> In o data -> (l < nl)%nat ->
  0 <= weight b q p t l o.
Proof.
  intros Hp Hb Ho Hl. unfold weight. pose proof (Hp b t l (key b t o) Hb Hl (key_lt b t o Hb Ho)) as Hs.
  apply Rmult_le_pos.
  - apply Rmult_le_pos; [left; now apply wp_pos|now apply q_nonneg].
  - left. apply Rinv_0_lt_compat. now apply pow_lt.
Qed.
Lemma V_reg_one b p t l o : sd_pos p -> In b blocks -> (l < nl)%nat -> (forall j, b <> Cts j) ->
  V_reg b q p t l o = 1.
Proof.
  intros Hp Hb Hl Hc. assert (R1 : forall o, reg b t o = 1) by (intros; destruct b; try reflexivity; congruence).
  unfold BLMCtlSpec.V_reg. rewrite R1. destruct (Rle_dec 0 (covar data b q p t l)) as [|Hn]; [reflexivity|].
  exfalso. apply Hn. unfold covar. apply rsum_nonneg. intros x Hx. apply in_map_iff in Hx as (o' & <- & Ho').
  rewrite R1, Rmult_1_r. apply Rmult_le_pos; [now apply weight_nonneg|]. unfold resid_sq. apply pow2_ge_0.
Qed.

Lemma firm_S_ok qs P p : sd_pos p -> P_ok Firm q p P -> (forall x, accepts qs x <-> okV Firm x) ->
  exists f, firm_S solver nl nk data qi qs P p (adj p) = Ok f /\ S_fun Firm p f.
Proof.
  intros Hp HP Hqs. unfold firm_S. assert (Hb : In Firm blocks) by (now left).
  destruct (both_cols_ok Firm (fun t l o => weight Firm q p t l o * V_reg Firm q p t l o * resid_sq t p l o)
    (fun t l => map2 Rmult (wts data p qi t l) (eps_sq data p (adj p) t l)) Hb) as (v & Ev & Hv).
  { intros t l Hl. rewrite wts_w, net_eps, map2_mult by exact Hl. apply map_ext. intros o.
    rewrite V_reg_one by (auto; discriminate). ring. }
  match goal with |- context [both_cols nl data nk gp ?w] =>
    change (both_cols nl data nk gp w) with (both_cols nl data (size Firm) (key Firm) w) end.
  rewrite Ev. cbn [bind]. pose proof (V_solved Firm q p P v qs Hb HP Hv Hqs) as H.
  eexists. split; [reflexivity|]. destruct (solved solver P (map Ropp v) qs) as [x| |].
  - left. exists (unstack nl (size Firm) x). split; [apply H|]. reflexivity.
  - right. now split.
  - right. now split.
Qed.
Lemma cat_S_ok j col qs P p : sd_pos p -> (j < length cats)%nat -> col = column (Cat j) -> P_ok (Cat j) q p P ->
  (forall x, accepts qs x <-> okV (Cat j) x) ->
  exists f, cat_S solver nl data qi j col qs P p (adj p) = Ok f /\ S_fun (Cat j) p f.
Proof.
  intros Hp Hj -> HP Hqs. unfold cat_S. assert (Hb : In (Cat j) blocks) by (now apply in_cat).
  destruct (both_cols_ok (Cat j) (fun t l o => weight (Cat j) q p t l o * V_reg (Cat j) q p t l o * resid_sq t p l o)
    (fun t l => map2 Rmult (wts_cat data j p qi t l) (eps_sq data p (adj p) t l)) Hb) as (v & Ev & Hv).
  { intros t l Hl. rewrite wts_cat_w, net_eps, map2_mult by exact Hl. apply map_ext. intros o.
    rewrite V_reg_one by (auto; discriminate). ring. }
  match goal with |- context [both_cols nl data (gc_n (column (Cat j))) _ ?w] =>
    change (both_cols nl data (gc_n (column (Cat j))) (fun t => code t j) w)
      with (both_cols nl data (size (Cat j)) (key (Cat j)) w) end.
  rewrite Ev. cbn [bind]. pose proof (V_solved (Cat j) q p P v qs Hb HP Hv Hqs) as H.
  eexists. split; [reflexivity|]. destruct (solved solver P (map Ropp v) qs) as [x| |].
  - left. exists (unstack nl (size (Cat j)) x). split; [apply H|]. intros p'. unfold with_S, BLMCtlSpec.interacts, cat_arr.
    destruct (gc_wi (column (Cat j))); reflexivity.
  - right. now split.
  - right. now split.
Qed.
Lemma cts_S_ok j col qs P p : (j < length ctss)%nat -> col = column (Cts j) -> P_ok (Cts j) q p P ->
  (forall x, accepts qs x <-> okV (Cts j) x) ->
  S_fun (Cts j) p (cts_S solver nl data qi j col qs P p (adj p)).
Proof.
  intros Hj -> HP Hqs. unfold cts_S. assert (Hb : In (Cts j) blocks) by (now apply in_cts).
  set (v := both_cts nl _).
  assert (Hv : cells_of (Cts j) v
     (fun t l o => weight (Cts j) q p t l o * V_reg (Cts j) q p t l o * resid_sq t p l o)).
  { apply both_cts_ok. intros t l Hl. rewrite xw_cts_w, net_eps, dot_rows by assumption.
    assert (E : rsum (map (fun o => xval t j o * weight (Cts j) q p t l o * resid_sq t p l o) data)
                = covar data (Cts j) q p t l).
    { unfold covar. apply rsum_map_ext. intros o _. cbn [reg]. unfold xval. ring. }
    rewrite E. unfold BLMCtlSpec.V_reg. destruct (Rle_dec 0 (covar data (Cts j) q p t l)) as [Hc|Hc].
    - rewrite Rabs_right by lra. reflexivity.
    - rewrite Rabs_left by lra. unfold covar.
      replace (- rsum (map (fun o => weight (Cts j) q p t l o * reg (Cts j) t o * resid_sq t p l o) data))
        with (-1 * rsum (map (fun o => weight (Cts j) q p t l o * reg (Cts j) t o * resid_sq t p l o) data)) by ring.
      rewrite <- rsum_map_scal. apply rsum_map_ext. intros o _. ring. }
  pose proof (V_solved (Cts j) q p P v qs Hb HP Hv Hqs) as H.
  destruct (solved solver P (map Ropp v) qs) as [x| |].
  - left. exists (unstack nl (size (Cts j)) x). split; [apply H|]. intros p'.
    unfold with_S, BLMCtlSpec.interacts, cts_arr, unstack, half1, half2. cbn [BLMCtlSpec.size].
    destruct (gc_wi (column (Cts j))); f_equal; f_equal.
    + apply functional_extensionality. intros l. do 2 f_equal. lia.
    + apply functional_extensionality. intros l. do 2 f_equal. lia.
    + do 2 f_equal. lia.
  - right. now split.
  - right. now split.
Qed.

(* ---- the M-step ---- *)
Lemma F2_combine {A B} (P : A -> Prop) (Q : A -> B -> Prop) la lb : Forall P la -> Forall2 Q la lb ->
  Forall (fun e => P (fst e) /\ Q (fst e) (snd e)) (combine la lb) /\ map fst (combine la lb) = la.
Proof.
  intros H F. induction F as [|a b la lb Hq F IH]; [split; constructor|].
  inversion H as [|? ? Ha Hr]; subst. destruct (IH Hr) as [I1 I2]. cbn [combine map fst]. split.
  - constructor; [now split|exact I1].
  - now rewrite I2.
Qed.
Lemma F2_map_l {A B C} (g : A -> B) (P : B -> C -> Prop) la lc :
  Forall2 (fun a c => P (g a) c) la lc -> Forall2 P (map g la) lc.
Proof. induction 1; constructor; auto. Qed.
Lemma F2_map_r {A B} (P : A -> B -> Prop) (g : A -> B) la :
  Forall (fun a => P a (g a)) la -> Forall2 P la (map g la).
Proof. induction 1; constructor; auto. Qed.

Lemma all_S_ok qs cols P Pc Px p : sd_pos p -> kinds p ->
  (forall x, accepts qs x <-> okV Firm x) -> Forall2 (col_spec s nl) (cats ++ ctss) cols -> P_ok Firm q p P ->
  Forall2 (fun jc P => P_ok (Cat (fst (fst jc))) q p P) (combine (enumerate cats) (firstn (length cats) cols)) Pc ->
  Forall2 (fun jc P => P_ok (Cts (fst (fst jc))) q p P) (combine (enumerate ctss) (skipn (length cats) cols)) Px ->
  exists p', all_S solver nl nk cats ctss data qi qs cols P Pc Px p (adj p) = Ok p' /\
    kinds p' /\ same_but_S p p' /\ forall b, In b blocks -> V_done nl nk cats ctss data s q p p' b.
Proof.
  intros Hp K Hqs HC HP HPc HPx.
  destruct (cat_cols cols HC) as [Fc Mc]. destruct (cts_cols cols HC) as [Fx Mx].
  destruct (F2_combine _ _ _ _ Fc HPc) as [Gc Nc]. destruct (F2_combine _ _ _ _ Fx HPx) as [Gx Nx].
  rewrite Forall_forall in Gc, Gx.
  destruct (firm_S_ok qs P p Hp HP Hqs) as (f & Ef & Sf).
  unfold all_S. rewrite Ef. cbn [bind].
  set (Lc := combine (combine (enumerate cats) _) Pc) in *.
  set (Lx := combine (combine (enumerate ctss) _) Px) in *.
  destruct (traverse_forall2 (fun jcqP : nat * gcol * (qp * qp) * list R =>
      let '(j, col, q0, P0) := jcqP in cat_S solver nl data qi j col (snd q0) P0 p (adj p))
    (fun e f => S_fun (Cat (fst (fst (fst e)))) p f) Lc) as (fc & Ec & Sc).
  { intros [[[j col] qq] P0] Hi. destruct (Gc _ Hi) as ((H1 & H2 & H3) & H4). cbn [fst snd] in *. subst col.
    apply cat_S_ok; auto. apply (col_okA (Cat j) qq); auto; [now apply in_cat|discriminate]. }
  rewrite Ec. cbn [bind]. eexists. split; [reflexivity|].
  set (fx := map _ Lx).
  assert (Sx : Forall2 (fun e f => S_fun (Cts (fst (fst (fst e)))) p f) Lx fx).
  { apply F2_map_r. apply Forall_forall. intros [[[j col] qq] P0] Hi.
    destruct (Gx _ Hi) as ((H1 & H2 & H3) & H4). cbn [fst snd] in *. subst col.
    apply cts_S_ok; auto. apply (col_okA (Cts j) qq); auto; [now apply in_cts|discriminate]. }
  assert (Bc : map (fun e : nat * gcol * (qp * qp) * list R => Cat (fst (fst (fst e)))) Lc
               = map Cat (range (length cats))).
  { rewrite <- Mc, <- Nc, !map_map. reflexivity. }
  assert (Bx : map (fun e : nat * gcol * (qp * qp) * list R => Cts (fst (fst (fst e)))) Lx
               = map Cts (range (length ctss))).
  { rewrite <- Mx, <- Nx, !map_map. reflexivity. }
  assert (Sall : Forall2 (fun b f => S_fun b p f) blocks (f :: fc ++ fx)).
  { unfold BLMCtlSpec.blocks. constructor; [exact Sf|]. apply Forall2_app.
    - rewrite <- Bc. now apply F2_map_l.
    - rewrite <- Bx. now apply F2_map_l. }
  destruct (fold_S p blocks (f :: fc ++ fx) Sall blocks_nodup (fun b H => H) p K) as (K' & S' & _ & H').
  split; [exact K'|]. split; [exact S'|]. intros b Hb. unfold V_done. cbv zeta.
  destruct (H' b Hb) as [H|[H1 H2]]; [left; exact H|right]. split; [exact H1|]. intros; apply H2.
Qed.

Lemma non_zero p t o : any_non cats ctss = false -> kinds p -> non t p o = 0.
Proof.
  unfold any_non. intros E K.
  assert (Hw : forall col, In col (cats ++ ctss) -> gc_wi col = true).
  { intros col Hc. destruct (gc_wi col) eqn:Ew; [reflexivity|]. exfalso.
    assert (X : existsb (fun c => negb (gc_wi c)) (cats ++ ctss) = true)
      by (apply existsb_exists; exists col; now rewrite Ew). congruence. }
  destruct (K t) as (K1 & _ & K3 & _). unfold non. rewrite non_nl_sum.
  assert (Z1 : forall cs (a : list catpar) ns, (forall col, In col cs -> gc_wi col = true) ->
    Forall2 cat_kind cs a -> rsum (map2 cat_sh a ns) = 0).
  { intros cs a ns H F. revert ns. induction F as [|c0 a0 cs a H0 F IH]; intros [|n ns]; cbn; auto.
    rewrite IH by (intros; apply H; now right). specialize (H c0 (or_introl eq_refl)).
    destruct a0; cbn [cat_kind cat_sh] in *; [lra|congruence]. }
  assert (Z2 : forall cs (a : list ctspar) ns, (forall col, In col cs -> gc_wi col = true) ->
    Forall2 cts_kind cs a -> rsum (map2 cts_sh a ns) = 0).
  { intros cs a ns H F. revert ns. induction F as [|c0 a0 cs a H0 F IH]; intros [|n ns]; cbn; auto.
    rewrite IH by (intros; apply H; now right). specialize (H c0 (or_introl eq_refl)).
    destruct a0; cbn [cts_kind cts_sh] in *; [lra|congruence]. }
  rewrite (Z1 cats), (Z2 ctss); auto; [lra| |]; intros; apply Hw; apply in_or_app; auto.
Qed.

Definition lb_pos := 0 < p_lb s.
Lemma V_done_pos p p' b : lb_pos -> sd_pos p -> V_done nl nk cats ctss data s q p p' b -> In b blocks ->
  forall t l n, (l < nl)%nat -> (n < size b)%nat -> 0 < sd b p' t l n.
Proof.
  intros Hlb Hp H Hb t l n Hl Hn. destruct H as [(v & [(x & Hx & Ha & _) _] & E)|[_ E]]; rewrite E by assumption.
  - apply sqrt_lt_R0. rewrite <- (Hx t l n Hl Hn). unfold lb_pos in Hlb.
    eapply Rlt_le_trans; [exact Hlb|]. apply Ha; auto. destruct t; lia.
  - now apply Hp.
Qed.

Lemma adj_same p p' : same_but_S p p' -> adj p' = adj p.
Proof.
  intros (H1 & H2 & H3 & H4 & H5 & H6 & _). apply functional_extensionality. intros t. unfold adj.
  destruct t; cbn [Acatp Actsp]; rewrite ?H3, ?H4, ?H5, ?H6; reflexivity.
Qed.

Lemma sums_of_adj p : (fun t => map2 (fun o y => yp t o - y) data (adj p t)) = start_sums data p.
Proof.
  apply functional_extensionality. intros t. unfold adj, start_sums. rewrite map2_map_r. apply map_ext. intros o. lra.
Qed.
Lemma adj_of_sums p : kinds p ->
  (fun t => if any_non cats ctss then map2 (fun o a => yp t o - a) data (start_sums data p t) else map (yp t) data)
  = adj p.
Proof.
  intros K. apply functional_extensionality. intros t. destruct (any_non cats ctss) eqn:E.
  - unfold start_sums. now rewrite map2_map_r.
  - unfold adj. apply map_ext. intros o. pose proof (non_zero p t o E K) as H. unfold non in H. rewrite H. lra.
Qed.

Lemma m_step_ok qa qs cols p : kinds p -> sd_pos p -> lb_pos -> (cs_a c = true -> cs_s c = true) ->
  (forall x, accepts qa x <-> okA Firm k0 x) -> (forall x, accepts qs x <-> okV Firm x) ->
  Forall2 (col_spec s nl) (cats ++ ctss) cols ->
  exists p' p2, m_step_ctl solver nl nk cats ctss data c qi (qa, qs, cols) p (adj p) (start_sums data p)
      = Ok (p', adj p', start_sums data p') /\
    (if cs_a c then in_turn (A_done nl nk cats ctss data s k0 q) blocks p p2 else p2 = p) /\
    (if cs_s c then same_but_S p2 p' /\ forall b, In b blocks -> V_done nl nk cats ctss data s q p2 p' b
     else p' = p2) /\
    kinds p' /\ sd_pos p' /\ pk1 p' = pk1 p.
Proof.
  intros K Hp Hlb Has Hqa Hqs HC. unfold m_step_ctl.
  destruct (cs_s c) eqn:Es.
  2:{ destruct (cs_a c); [specialize (Has eq_refl); discriminate|]. cbn [orb].
      exists p, p. repeat (split; [solve [reflexivity|auto]|]). reflexivity. }
  rewrite orb_true_r. destruct (firm_A_ok qa p K Hqa) as (p1 & P & E1 & Ea & T1 & HP). rewrite E1. cbn [bind].
  destruct (turn_keeps Firm p p1 (or_introl eq_refl) K T1) as (K1 & S1 & X1). rewrite <- Ea.
  destruct (all_A_ok cols p1 K1 HC) as (p2 & Pc & Px & E2 & T2 & K2 & S2 & X2 & Qc & Qx).
  rewrite E2. cbn [bind].
  assert (S02 : S_same p p2) by (intros b; now rewrite S2, S1).
  assert (Hp2 : sd_pos p2) by (intros b t l n Hb Hl Hn; rewrite S02; now apply Hp).
  destruct (all_S_ok qs cols P Pc Px p2 Hp2 K2 Hqs HC (P_ok_same _ _ _ _ S02 HP) Qc Qx)
    as (p' & E3 & K3 & S3 & V3).
  rewrite E3. cbn [bind]. exists p', p2. split.
  { rewrite (adj_same p2 p' S3). f_equal. f_equal.
    assert (Esum : start_sums data p' = start_sums data p2).
    { rewrite <- !sums_of_adj. now rewrite (adj_same p2 p' S3). }
    destruct (any_non cats ctss) eqn:En.
    - rewrite Esum. apply sums_of_adj.
    - rewrite Esum. apply functional_extensionality. intros t. unfold start_sums. apply map_ext. intros o.
      fold (non t p o). fold (non t p2 o). now rewrite !non_zero. }
  split.
  { apply in_turn_turn. exists p1. split; [exact T1|exact T2]. }
  split; [split; assumption|]. split; [exact K3|]. split.
  - intros b t l n Hb Hl Hn. apply (V_done_pos p2 p' b); auto.
  - destruct S3 as (_ & _ & _ & _ & _ & _ & X3 & _). congruence.
Qed.
End Ctl.
