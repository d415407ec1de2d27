(* Lemmas about the plots of log earnings and of likelihoods. *)
From Verif Require Import Base BaseLemmas UtilModel UtilSpec BLMModel BLMSpec BLMSortLemmas BLMCtlRunLemmas
  DBLMModel DBLMSpec DBLMSortLemmas BLMRealModel BLMRunModel PlotModel PlotSpec PlotLemmas.
From Coq Require Import Permutation Sorted.
Local Open Scope res_scope.
Local Open Scope R_scope.

(* ---- ranks ---- *)
Lemma sorted_map_range n f : (forall i j, (i < j < n)%nat -> f i <= f j) -> StronglySorted Rle (map f (range n)).
Proof.
  intros H. unfold range. assert (G : forall a, (forall i j, (a <= i < j)%nat -> (j < a + n)%nat -> f i <= f j) ->
    StronglySorted Rle (map f (seq a n))).
  { clear H. induction n as [|n IH]; intros a H; [constructor|]. cbn [seq map]. constructor.
    - apply IH. intros i j L1 L2. apply H; lia.
    - rewrite Forall_forall. intros y Iy. apply in_map_iff in Iy as (j & <- & Ij). apply in_seq in Ij. apply H; lia. }
  apply G. intros i j L1 L2. apply H. lia.
Qed.
Lemma same_ranks n f s t : relabelling n s -> relabelling n t ->
  (forall i j, (i < n)%nat -> (j < n)%nat -> f i = f j -> i = j) ->
  (forall i j, (i < j < n)%nat -> f (s i) <= f (s j)) -> (forall i j, (i < j < n)%nat -> f (t i) <= f (t j)) ->
  forall i, (i < n)%nat -> s i = t i.
Proof.
  intros Rs Rt Hf Hs Ht i Li.
  assert (E : map (fun i => f (s i)) (range n) = map (fun i => f (t i)) (range n)).
  { apply sorted_perm_eq; [now apply sorted_map_range|now apply sorted_map_range|].
    rewrite <- (map_map s f), <- (map_map t f). apply Permutation_map. eapply perm_trans; [exact Rs|apply Permutation_sym, Rt]. }
  apply Hf; [now apply relabelling_lt|now apply relabelling_lt|].
  assert (E' : nth i (map (fun i => f (s i)) (range n)) 0 = nth i (map (fun i => f (t i)) (range n)) 0) by now rewrite E.
  rewrite !(nth_map_in _ _ _ 0%nat) in E' by now rewrite length_range.
  now rewrite !nth_range in E'.
Qed.
Lemma relabelling_comp n s t : relabelling n s -> relabelling n t -> relabelling n (fun i => s (t i)).
Proof.
  intros Hs Ht. unfold relabelling in *. rewrite <- (map_map t s).
  eapply perm_trans; [apply Permutation_map, Ht|exact Hs].
Qed.

Lemma worker_mean_eq pp nl nk s t A B A' B' l : relabelling nk t ->
  (forall l k, (l < nl)%nat -> (k < nk)%nat -> A' l k = A (s l) (t k) /\ B' l k = B (s l) (t k)) -> (l < nl)%nat ->
  worker_mean pp nk A' B' l = worker_mean pp nk A B (s l).
Proof.
  intros Ht H Hl. unfold worker_mean. f_equal.
  rewrite <- (relabelling_sumn nk t (fun k => primary pp A B (s l) k) Ht).
  apply sumn_ext. intros k Hk. destruct (H l k Hl Hk) as [E1 E2]. destruct pp; simpl; rewrite ?E1, ?E2; reflexivity.
Qed.
Lemma firm_mean_eq pp nl nk s t A B A' B' k : relabelling nl s ->
  (forall l k, (l < nl)%nat -> (k < nk)%nat -> A' l k = A (s l) (t k) /\ B' l k = B (s l) (t k)) -> (k < nk)%nat ->
  firm_mean pp nl A' B' k = firm_mean pp nl A B (t k).
Proof.
  intros Hs H Hk. unfold firm_mean. f_equal.
  rewrite <- (relabelling_sumn nl s (fun l => primary pp A B l (t k)) Hs).
  apply sumn_ext. intros l Hl. destruct (H l k Hl Hk) as [E1 E2]. destruct pp; simpl; rewrite ?E1, ?E2; reflexivity.
Qed.

(* e' holds e sorted *)
Definition sorts (pp : period) (nl nk : nat) (e e' : effects) : Prop :=
  exists s t, ranks pp nl nk e s t /\
    forall l k, (l < nl)%nat -> (k < nk)%nat -> fst e' l k = fst e (s l) (t k) /\ snd e' l k = snd e (s l) (t k).

Lemma sort_sorts argsort pp nl nk m : (forall l, is_argsort l (argsort l)) ->
  let p := sort_parameters argsort pp nl nk true false m in sorts pp nl nk (A1 m, A2 m) (A1 p, A2 p).
Proof.
  intros Ha p. destruct (sort_spec argsort Ha pp nl nk true false m) as (s & t & Rs & Rt & _ & Hr & Hw & Hf).
  fold p in Hr, Hw, Hf. pose proof (r_A _ _ _ _ _ _ Hr) as HA.
  exists s, t. split; [|exact HA]. split; [exact Rs|]. split; [exact Rt|]. split.
  - intros l l' L. cbn [fst snd].
    rewrite <- (worker_mean_eq pp nl nk s t _ _ _ _ l Rt HA) by lia.
    rewrite <- (worker_mean_eq pp nl nk s t _ _ _ _ l' Rt HA) by lia. now apply (Hw l l').
  - intros l l' L. cbn [fst snd].
    rewrite <- (firm_mean_eq pp nl nk s t _ _ _ _ l Rs HA) by lia.
    rewrite <- (firm_mean_eq pp nl nk s t _ _ _ _ l' Rs HA) by lia. now apply (Hf eq_refl l l').
Qed.
Lemma dsort_sorts argsort pp nl nk m : (forall l, is_argsort l (argsort l)) ->
  let p := dsort_parameters argsort pp nl nk true false m in
  sorts pp nl nk (dA m T12, dA m T43) (dA p T12, dA p T43).
Proof.
  intros Ha p. destruct (dsort_spec argsort Ha pp nl nk true false m) as (s & t & Rs & Rt & _ & Hr & Hw & Hf).
  fold p in Hr, Hw, Hf. pose proof (dr_A _ _ _ _ _ _ Hr) as HA0.
  assert (HA : forall l k, (l < nl)%nat -> (k < nk)%nat ->
    dA p T12 l k = dA m T12 (s l) (t k) /\ dA p T43 l k = dA m T43 (s l) (t k)) by (intros; split; now apply HA0).
  exists s, t. split; [|exact HA]. split; [exact Rs|]. split; [exact Rt|]. split.
  - intros l l' L. cbn [fst snd].
    rewrite <- (worker_mean_eq pp nl nk s t _ _ _ _ l Rt HA) by lia.
    rewrite <- (worker_mean_eq pp nl nk s t _ _ _ _ l' Rt HA) by lia. now apply (Hw l l').
  - intros l l' L. cbn [fst snd].
    rewrite <- (firm_mean_eq pp nl nk s t _ _ _ _ l Rs HA) by lia.
    rewrite <- (firm_mean_eq pp nl nk s t _ _ _ _ l' Rs HA) by lia. now apply (Hf eq_refl l l').
Qed.

(* two sorted versions of the same effects *)
Lemma sorts_renamed pp nl nk e e' d d' : distinct_types pp nl nk e -> renamed nl nk e e' ->
  sorts pp nl nk e d -> sorts pp nl nk e' d' ->
  forall l k, (l < nl)%nat -> (k < nk)%nat -> fst d' l k = fst d l k /\ snd d' l k = snd d l k.
Proof.
  intros [Dw Df] (u & v & Ru & Rv & He) (s & t & (Rs & Rt & Ws & Fs) & Hd) (s' & t' & (Rs' & Rt' & Ws' & Fs') & Hd')
    l k Hl Hk.
  pose proof (fun i => relabelling_lt nl s' i Rs') as Ls. pose proof (fun i => relabelling_lt nk t' i Rt') as Lt.
  destruct (Hd l k Hl Hk) as [-> ->]. destruct (Hd' l k Hl Hk) as [-> ->].
  destruct (He (s' l) (t' k) (Ls l Hl) (Lt k Hk)) as [-> ->].
  rewrite (same_ranks nl (worker_mean pp nk (fst e) (snd e)) s (fun i => u (s' i)) Rs (relabelling_comp _ _ _ Ru Rs') Dw Ws);
    [|intros i j L|exact Hl].
  2:{ rewrite <- (worker_mean_eq pp nl nk u v _ _ _ _ (s' i) Rv He) by (apply Ls; lia).
      rewrite <- (worker_mean_eq pp nl nk u v _ _ _ _ (s' j) Rv He) by (apply Ls; lia). now apply Ws'. }
  rewrite (same_ranks nk (firm_mean pp nl (fst e) (snd e)) t (fun i => v (t' i)) Rt (relabelling_comp _ _ _ Rv Rt') Df Fs);
    [|intros i j L|exact Hk].
  2:{ rewrite <- (firm_mean_eq pp nl nk u v _ _ _ _ (t' i) Ru He) by (apply Lt; lia).
      rewrite <- (firm_mean_eq pp nl nk u v _ _ _ _ (t' j) Ru He) by (apply Lt; lia). now apply Fs'. }
  now split.
Qed.

(* ---- the plot of sorted effects ---- *)
Definition plot_of (nl nk : nat) (per : rperiod) (ds : list effects) : res (list (list bar)) :=
  ms <- traverse (fun d => pick per (fst d) (snd d)) ds ;; plot_bars nl nk ms.

Lemma plot_of_eq nl nk per ds : per <> ROther -> plot_of nl nk per ds = plot_bars nl nk (map (earn per) ds).
Proof.
  intros H. unfold plot_of. rewrite (traverse_ok _ (earn per)); [reflexivity|].
  intros d _. destruct per; try reflexivity. congruence.
Qed.
Lemma plot_of_other nl nk ds : plot_of nl nk ROther ds = match ds with [] => Err IndexError | _ => Err ValueError end.
Proof. destruct ds; reflexivity. Qed.

Lemma plot_bars_ext nl nk ms ms' :
  (forall l k, (l < nl)%nat -> (k < nk)%nat -> map (fun A : mat => A l k) ms = map (fun A : mat => A l k) ms') ->
  length ms = length ms' -> plot_bars nl nk ms = plot_bars nl nk ms'.
Proof.
  intros H E. unfold plot_bars. destruct ms as [|m ms], ms' as [|m' ms']; try discriminate; [reflexivity|].
  apply traverse_ext. intros l Il. f_equal. apply map_ext_in. intros k Ik. f_equal.
  apply in_seq in Il, Ik. apply H; lia.
Qed.

Lemma traverse_errorbar (f : nat -> list bar) L lines : traverse (fun l => errorbar (f l)) L = Ok lines ->
  lines = map f L /\ forall l b, In l L -> In b (f l) -> 0 <= b_down b /\ 0 <= b_up b.
Proof.
  revert lines. induction L as [|l L IH]; intros lines E; cbn [traverse] in E.
  - injection E as <-. split; [reflexivity|]. intros ? ? [].
  - unfold errorbar at 1 in E. destruct (existsb negative (f l)) eqn:N; [discriminate|]. cbn [bind] in E.
    destruct (traverse _ L) as [ls|] eqn:T; [|discriminate]. cbn [bind] in E. injection E as <-.
    destruct (IH ls eq_refl) as [-> H]. split; [reflexivity|].
    intros l' b [<-|I] Ib; [|now apply (H l')].
    destruct (negative b) eqn:Nb.
    + assert (existsb negative (f l) = true) by (apply existsb_exists; eauto). congruence.
    + unfold negative in Nb. destruct (Rlt_dec (b_down b) 0); [discriminate|]. destruct (Rlt_dec (b_up b) 0); [discriminate|]. lra.
Qed.

Lemma forall2_choice {A B} (P : A -> B -> Prop) l : (forall a, In a l -> exists b, P a b) -> exists bs, Forall2 P l bs.
Proof.
  induction l as [|a l IH]; intros H; [exists []; constructor|].
  destruct (H a (or_introl eq_refl)) as (b & Hb). destruct IH as (bs & Hbs); [intros x Hx; apply H; now right|].
  exists (b :: bs). now constructor.
Qed.

Lemma at_range {B} (f : nat -> B) n i b : nth_error (map f (range n)) i = Some b -> (i < n)%nat /\ b = f i.
Proof.
  intros E. assert (L : (i < n)%nat).
  { assert (N : nth_error (map f (range n)) i <> None) by (rewrite E; discriminate).
    apply nth_error_Some in N. now rewrite map_length, length_range in N. }
  split; [exact L|]. rewrite nth_error_map in E. destruct (nth_error (range n) i) as [j|] eqn:Ej; [|discriminate].
  apply nth_error_nth with (d := 0%nat) in Ej. rewrite nth_range in Ej by exact L. subst j. now injection E.
Qed.

Section Shows.
Variables (pp : period) (nl nk : nat) (per : rperiod).
Hypothesis Hper : per <> ROther.

Lemma cells es ds : Forall2 (sorts pp nl nk) es ds ->
  exists rs, Forall2 (fun e r => ranks pp nl nk e (fst r) (snd r)) es rs /\
    forall l k, (l < nl)%nat -> (k < nk)%nat ->
      map (fun d => earn per d l k) ds = map2 (fun e r => earn per e (fst r l) (snd r k)) es rs.
Proof.
  induction 1 as [|e d es ds (s & t & Hr & Hd) F (rs & Fr & IH)].
  - exists []. split; [constructor|reflexivity].
  - exists ((s, t) :: rs). split; [constructor; assumption|]. intros l k Hl Hk. cbn [map map2].
    rewrite IH by assumption. f_equal. destruct (Hd l k Hl Hk) as [E1 E2]. cbn [fst snd].
    destruct per; cbn [earn]; rewrite ?E1, ?E2; reflexivity.
Qed.

Lemma map2_length' {A B C} (f : A -> B -> C) l m : length l = length m -> length (map2 f l m) = length l.
Proof. revert m. induction l as [|a l IH]; intros [|b m] E; try discriminate; cbn; [reflexivity|]. now rewrite IH by (now injection E). Qed.

Lemma plot_shows es ds lines : Forall2 (sorts pp nl nk) es ds -> plot_of nl nk per ds = Ok lines ->
  shows pp nl nk per es lines.
Proof.
  intros F E. rewrite plot_of_eq in E by exact Hper. destruct (cells es ds F) as (rs & Fr & C).
  unfold plot_bars in E. destruct (map (earn per) ds) as [|m0 ms0] eqn:Em; [discriminate|]. rewrite <- Em in E.
  assert (Hne : ds <> []) by (intros ->; discriminate). clear Em m0 ms0.
  apply traverse_errorbar in E as [-> Hb].
  exists rs. split; [exact Fr|]. split; [now rewrite map_length, length_range|]. split.
  { rewrite Forall_forall. intros line I. apply in_map_iff in I as (l & <- & _). now rewrite map_length, length_range. }
  intros l k line b El Ek x.
  apply at_range in El as [Ll ->]. pose proof (nth_error_In _ _ Ek) as Ib. apply at_range in Ek as [Lk ->].
  assert (Ex : map (fun A : mat => A l k) (map (earn per) ds) = x) by (rewrite map_map; now apply C).
  rewrite Ex. rewrite Ex in Ib.
  assert (Lx : length x = length es).
  { rewrite <- Ex, !map_length. symmetry. clear - F. induction F; cbn; congruence. }
  assert (Hx : x <> []) by (rewrite <- Ex; destruct ds; [congruence|discriminate]).
  assert (Hn : INR (length x) <> 0) by (apply not_0_INR; destruct x; [congruence|discriminate]).
  cbn [mk_bar b_mean b_down b_up].
  split; [rewrite <- Lx; field; exact Hn|].
  split; [replace (_ - _) with (percentile (25 / 1000) x) by ring; apply percentile_quantile; [lra|exact Hx]|].
  split; [replace (_ + _) with (percentile (975 / 1000) x) by ring; apply percentile_quantile; [lra|exact Hx]|].
  apply (Hb l (mk_bar x)); [apply in_seq; lia|exact Ib].
Qed.

Lemma plot_served ds : ds <> [] -> (length ds <= 40)%nat -> exists lines, plot_of nl nk per ds = Ok lines.
Proof.
  intros Hne L. rewrite plot_of_eq by exact Hper.
  unfold plot_bars. destruct (map (earn per) ds) as [|m0 ms0] eqn:Em; [destruct ds; [congruence|discriminate]|]. rewrite <- Em. clear Em m0 ms0.
  eexists. apply (traverse_ok _ (fun l => map (fun k => mk_bar (map (fun A : mat => A l k) (map (earn per) ds))) (range nk))).
  intros l _. unfold errorbar. destruct (existsb negative _) eqn:N; [|reflexivity]. exfalso.
  apply existsb_exists in N as (b & Ib & Nb). apply in_map_iff in Ib as (k & <- & _).
  set (x := map _ _) in Nb.
  assert (Lx : length x = length ds) by (unfold x; now rewrite !map_length).
  assert (Hx : x <> []) by (intros E0; rewrite E0 in Lx; destruct ds; [congruence|discriminate]).
  assert (Hn : 0 < INR (length x)) by (apply lt_0_INR; destruct x; [congruence|cbn; lia]).
  assert (L40 : (length x <= 40)%nat) by lia.
  pose proof (mean_below x _ Hx L40 (percentile_quantile (975 / 1000) x ltac:(lra) Hx)) as H1.
  pose proof (mean_above x _ Hx L40 (percentile_quantile (25 / 1000) x ltac:(lra) Hx)) as H2.
  assert (Em : rsum x = INR (length x) * (rsum x / INR (length x))) by (field; lra).
  rewrite Em in H1, H2. apply Rmult_le_reg_l in H1; [|exact Hn]. apply Rmult_le_reg_l in H2; [|exact Hn].
  unfold negative, mk_bar in Nb. cbn [b_down b_up] in Nb.
  destruct (Rlt_dec _ 0) as [r|_] in Nb; [lra|]. destruct (Rlt_dec _ 0) as [r|_] in Nb; [lra|discriminate].
Qed.
End Shows.

Lemma plot_labels pp nl nk per es es' ds ds' : Forall2 (sorts pp nl nk) es ds -> Forall2 (sorts pp nl nk) es' ds' ->
  Forall (distinct_types pp nl nk) es -> Forall2 (renamed nl nk) es es' ->
  plot_of nl nk per ds' = plot_of nl nk per ds.
Proof.
  intros F F' D Rn.
  assert (C : forall l k, (l < nl)%nat -> (k < nk)%nat -> map (fun d => earn per d l k) ds' = map (fun d => earn per d l k) ds
    /\ length ds' = length ds).
  { intros l k Hl Hk. revert ds ds' F F'. induction Rn as [|e e' es es' R0 Rn IH]; intros ds ds' F F'.
    - inversion F. inversion F'. now split.
    - inversion F as [|? d ? ds0 S0 F0]; subst. inversion F' as [|? d' ? ds0' S0' F0']; subst.
      inversion D as [|? ? D0 D1]; subst. destruct (IH D1 _ _ F0 F0') as [E1 E2].
      cbn [map length]. rewrite E1, E2. split; [|reflexivity]. f_equal.
      destruct (sorts_renamed pp nl nk e e' d d' D0 R0 S0 S0' l k Hl Hk) as [X Y].
      destruct per; cbn [earn]; rewrite ?X, ?Y; reflexivity. }
  assert (EL : length ds' = length ds).
  { clear - F F' Rn. assert (length es = length ds) by (clear - F; induction F; cbn; congruence).
    assert (length es' = length ds') by (clear - F'; induction F'; cbn; congruence).
    assert (length es = length es') by (clear - Rn; induction Rn; cbn; congruence). congruence. }
  assert (Hd : {per = ROther} + {per <> ROther}) by (destruct per; [right|right|right|left]; congruence).
  destruct Hd as [->|Hp].
  - rewrite !plot_of_other. destruct ds, ds'; try discriminate; reflexivity.
  - rewrite !plot_of_eq by exact Hp. apply plot_bars_ext; [|now rewrite !map_length].
    intros l k Hl Hk. rewrite !map_map. now apply C.
Qed.

(* ---- more than forty models ---- *)
Lemma nth_repeat_last n i (a b : R) : (i < n)%nat -> nth i (repeat a n ++ [b]) 0 = a.
Proof.
  intros H. rewrite app_nth1 by now rewrite repeat_length.
  revert i H. induction n as [|n IH]; intros i H; [lia|]. destruct i; cbn; [reflexivity|]. apply IH. lia.
Qed.
Lemma outlier_sorted n : StronglySorted Rle (repeat 0 n ++ [1]).
Proof.
  induction n as [|n IH]; cbn [repeat app]; [repeat constructor|]. constructor; [exact IH|].
  rewrite Forall_forall. intros y I. apply in_app_or in I as [I|[<-|[]]]; [apply repeat_spec in I; subst; lra|lra].
Qed.
Lemma outlier_quantile n x : (40 <= n)%nat -> Permutation x (repeat 0 n ++ [1]) -> percentile (975 / 1000) x = 0.
Proof.
  intros Hn P.
  assert (Lx : length x = S n) by (rewrite (Permutation_length P), app_length, repeat_length; cbn; lia).
  assert (Hx : x <> []) by (intros ->; discriminate).
  destruct (percentile_quantile (975 / 1000) x ltac:(lra) Hx) as (s & i & Ps & Hs & Li & Hi & ->).
  assert (Es : s = repeat 0 n ++ [1]).
  { apply sorted_perm_eq; [|apply outlier_sorted|eapply perm_trans; [apply Permutation_sym, Ps|exact P]].
    clear - Hs. induction s as [|a s IH]; [constructor|]. constructor.
    - apply IH. intros i j L. apply (Hs (S i) (S j)). cbn. lia.
    - rewrite Forall_forall. intros y I. destruct (In_nth _ _ 0 I) as (j & Lj & <-). apply (Hs 0 (S j))%nat. cbn. lia. }
  subst s. rewrite Lx in *. rewrite S_INR in *.
  assert (Hn' : 40 <= INR n) by (rewrite INR_IZR_INZ; apply IZR_le; lia).
  set (h := 975 / 1000 * (INR n + 1 - 1)) in *.
  assert (Lin : (i < n)%nat) by (apply INR_lt; unfold h in Hi; lra).
  rewrite nth_repeat_last by exact Lin.
  destruct (Nat.eq_dec (S i) n) as [E|E].
  - assert (INR i = INR n - 1) by (rewrite <- E, S_INR; lra).
    assert (h - INR i = 0) by (unfold h in *; lra). rewrite H0. ring.
  - rewrite (nth_repeat_last n (S i)) by lia. ring.
Qed.

Definition flat (c : R) (e : effects) : Prop := forall l k, fst e l k = c /\ snd e l k = c.
Lemma flat_sorts pp nl nk c e d : flat c e -> sorts pp nl nk e d ->
  forall l k, (l < nl)%nat -> (k < nk)%nat -> fst d l k = c /\ snd d l k = c.
Proof. intros H (s & t & _ & Hd) l k Hl Hk. destruct (Hd l k Hl Hk) as [-> ->]. apply H. Qed.

Lemma outlier_plot pp nl nk per n es ds : per <> ROther -> (40 <= n)%nat -> (0 < nl)%nat -> (0 < nk)%nat ->
  Forall2 (sorts pp nl nk) es ds -> Forall2 flat (repeat 0 n ++ [1]) es ->
  plot_of nl nk per ds = Err ValueError.
Proof.
  intros Hper Hn Hl Hk F G. rewrite plot_of_eq by exact Hper.
  assert (C : map (fun d => earn per d 0%nat 0%nat) ds = repeat 0 n ++ [1]).
  { revert G F. generalize (repeat 0 n ++ [1]) as cs. intros cs G. revert ds. induction G as [|c e cs es Hc G IH]; intros ds F.
    - now inversion F.
    - inversion F as [|? d ? ds0 S0 F0]; subst. cbn [map]. rewrite IH by exact F0. f_equal.
      destruct (flat_sorts pp nl nk c e d Hc S0 0%nat 0%nat Hl Hk) as [X Y].
      destruct per; cbn [earn]; rewrite ?X, ?Y; try reflexivity; [lra|congruence]. }
  unfold plot_bars. destruct (map (earn per) ds) as [|m0 ms0] eqn:Em.
  { destruct ds; [|discriminate]. destruct n; discriminate. }
  rewrite <- Em. clear Em m0 ms0.
  destruct nl as [|nl0]; [lia|]. destruct nk as [|nk0]; [lia|]. clear F G.
  unfold range at 2. cbn [seq traverse]. unfold range at 1. cbn [seq map]. rewrite (map_map _ (fun A : mat => A 0%nat 0%nat)), C.
  unfold errorbar at 1. cbn [existsb].
  assert (N : negative (mk_bar (repeat 0 n ++ [1])) = true).
  { unfold negative, mk_bar. cbn [b_down b_up]. rewrite (outlier_quantile n _ Hn (Permutation_refl _)).
    assert (0 < rsum (repeat 0 n ++ [1]) / INR (length (repeat 0 n ++ [1]))).
    { apply Rdiv_lt_0_compat; [|apply lt_0_INR; rewrite app_length; cbn; lia].
      rewrite rsum_app. replace (rsum (repeat 0 n)) with 0; [cbn; lra|].
      clear. induction n as [|n IH]; [reflexivity|]. cbn [repeat]. change (0 = 0 + rsum (repeat 0 n)). lra. }
    destruct (Rlt_dec _ 0); [reflexivity|]. destruct (Rlt_dec _ 0) as [|n1]; [reflexivity|]. exfalso. apply n1. lra. }
  rewrite N. reflexivity.
Qed.

(* ---- the two plots ---- *)
Section Two.
Variable argsort : list R -> list nat.
Hypothesis Ha : forall l, is_argsort l (argsort l).
Variables (pp : period) (nl nk : nat) (per : rperiod).
Definition sorted_effs (m : par) : effects := effs (sort_parameters argsort pp nl nk true false m).
Definition dsorted_effs (m : dpar) : effects := deffs (dsort_parameters argsort pp nl nk true false m).

Lemma plot_is models : plot_log_earnings argsort pp nl nk per models = plot_of nl nk per (map sorted_effs models).
Proof. unfold plot_log_earnings, plot_of. now rewrite traverse_map. Qed.
Lemma dplot_is models : dplot_log_earnings argsort pp nl nk per models = plot_of nl nk per (map dsorted_effs models).
Proof. unfold dplot_log_earnings, plot_of. now rewrite traverse_map. Qed.
Lemma sorts_all models : Forall2 (sorts pp nl nk) (map effs models) (map sorted_effs models).
Proof. induction models; constructor; [now apply sort_sorts|assumption]. Qed.
Lemma dsorts_all models : Forall2 (sorts pp nl nk) (map deffs models) (map dsorted_effs models).
Proof. induction models; constructor; [now apply dsort_sorts|assumption]. Qed.

Lemma shown_lemma models lines : plot_log_earnings argsort pp nl nk per models = Ok lines ->
  per <> ROther /\ shows pp nl nk per (map effs models) lines.
Proof.
  rewrite plot_is. intros E.
  assert (Hp : per <> ROther) by (intros Ep; rewrite Ep, plot_of_other in E; destruct (map sorted_effs models); discriminate).
  split; [exact Hp|]. eapply plot_shows; [exact Hp|apply sorts_all|exact E].
Qed.
Lemma dshown_lemma models lines : dplot_log_earnings argsort pp nl nk per models = Ok lines ->
  per <> ROther /\ shows pp nl nk per (map deffs models) lines.
Proof.
  rewrite dplot_is. intros E.
  assert (Hp : per <> ROther) by (intros Ep; rewrite Ep, plot_of_other in E; destruct (map dsorted_effs models); discriminate).
  split; [exact Hp|]. eapply plot_shows; [exact Hp|apply dsorts_all|exact E].
Qed.
Lemma served_lemma models dmodels : per <> ROther -> (0 < length models <= 40)%nat -> (0 < length dmodels <= 40)%nat ->
  (exists lines, plot_log_earnings argsort pp nl nk per models = Ok lines) /\
  (exists lines, dplot_log_earnings argsort pp nl nk per dmodels = Ok lines).
Proof.
  intros Hp H1 H2. rewrite plot_is, dplot_is. split; apply plot_served; try exact Hp; rewrite ?map_length; try lia.
  - destruct models; [cbn in H1; lia|discriminate].
  - destruct dmodels; [cbn in H2; lia|discriminate].
Qed.
Lemma labels_lemma models models' : Forall (distinct_types pp nl nk) (map effs models) ->
  Forall2 (renamed nl nk) (map effs models) (map effs models') ->
  plot_log_earnings argsort pp nl nk per models' = plot_log_earnings argsort pp nl nk per models.
Proof. intros D Rn. rewrite !plot_is. exact (plot_labels pp nl nk per _ _ _ _ (sorts_all _) (sorts_all _) D Rn). Qed.
Lemma dlabels_lemma models models' : Forall (distinct_types pp nl nk) (map deffs models) ->
  Forall2 (renamed nl nk) (map deffs models) (map deffs models') ->
  dplot_log_earnings argsort pp nl nk per models' = dplot_log_earnings argsort pp nl nk per models.
Proof. intros D Rn. rewrite !dplot_is. exact (plot_labels pp nl nk per _ _ _ _ (dsorts_all _) (dsorts_all _) D Rn). Qed.
Lemma many_lemma n models dmodels : per <> ROther -> (0 < nl)%nat -> (0 < nk)%nat -> (40 <= n)%nat ->
  Forall2 flat (repeat 0 n ++ [1]) (map effs models) -> Forall2 flat (repeat 0 n ++ [1]) (map deffs dmodels) ->
  plot_log_earnings argsort pp nl nk per models = Err ValueError /\
  dplot_log_earnings argsort pp nl nk per dmodels = Err ValueError.
Proof.
  intros Hp Hl Hk Hn F G. rewrite plot_is, dplot_is.
  split; [exact (outlier_plot pp nl nk per n _ _ Hp Hn Hl Hk (sorts_all _) F)|
          exact (outlier_plot pp nl nk per n _ _ Hp Hn Hl Hk (dsorts_all _) G)].
Qed.
End Two.

(* n models without effects and one with effects 1 *)
Definition const_par (c : R) : par :=
  mkpar (fun _ _ => c) (fun _ _ => c) (fun _ _ => 1) (fun _ _ => 1) [] [] [] [] [] [] [] []
    (fun _ _ => 1) (fun _ _ => 1) (fun _ _ => 1) (fun _ => 1).
Definition const_dpar (c : R) : dpar :=
  mkdpar (fun _ _ _ => c) (fun _ _ => 0) (fun _ _ _ => 1) (fun _ _ => 1)
    (fun _ _ => 1) (fun _ _ => 1) (fun _ _ => 1) (fun _ => 1) 0 0 0 0.
Lemma many_refuted n : (41 <= n)%nat -> exists models dmodels, length models = n /\ length dmodels = n /\
  forall argsort pp nl nk per, (forall l, is_argsort l (argsort l)) -> (0 < nl)%nat -> (0 < nk)%nat -> per <> ROther ->
    plot_log_earnings argsort pp nl nk per models = Err ValueError /\
    dplot_log_earnings argsort pp nl nk per dmodels = Err ValueError.
Proof.
  intros Hn. destruct n as [|n]; [lia|].
  exists (map const_par (repeat 0 n ++ [1])), (map const_dpar (repeat 0 n ++ [1])).
  split; [rewrite map_length, app_length, repeat_length; cbn; lia|].
  split; [rewrite map_length, app_length, repeat_length; cbn; lia|].
  intros argsort pp nl nk per Ha Hl Hk Hp. apply (many_lemma argsort Ha pp nl nk per n); try assumption; [lia| |].
  - generalize (repeat 0 n ++ [1]) as cs. induction cs; constructor; [now split|assumption].
  - generalize (repeat 0 n ++ [1]) as cs. induction cs; constructor; [now split|assumption].
Qed.
