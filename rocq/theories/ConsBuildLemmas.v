(* Each constraint builder: no exception on valid input, shapes, and the exact
   meaning of the constraint. *)
From Verif Require Import Base BaseLemmas UtilModel ConsModel ConsSpec ConsLemmas.
Local Open Scope R_scope.

Ltac in_idx :=
  repeat match goal with
  | H : In (_, _, _) (L3 _ _ _) |- _ => apply In_L3 in H as (? & ? & ?)
  | H : In (_, _) (L2 _ _) |- _ => apply In_L2 in H as (? & ?)
  | H : In _ (range _) |- _ => apply In_range in H
  | H : In (_, _) (enumerate _) |- _ => apply In_enumerate in H
  end.

Lemma nth_error_lt {A} (l : list A) i x : nth_error l i = Some x -> (i < length l)%nat.
Proof. intros H. apply nth_error_Some. congruence. Qed.

Lemma fresh_cols r c v r' c' v' : c <> c' -> fresh (W r c v false) (W r' c' v' false).
Proof. intros H _ [_ E]. cbn in E. congruence. Qed.

(* A list of overwriting writes to one row with distinct columns is fresh. *)
Lemma fresh_row r (l : list (nat * R)) :
  NoDup (map fst l) ->
  ForallOrdPairs fresh (map (fun p => W r (fst p) (snd p) false) l).
Proof.
  induction l as [|[c v] l IH]; intros H; simpl in *; [constructor|].
  inversion H as [|? ? Hn HN]; subst. constructor; [|now apply IH].
  rewrite Forall_forall. intros w Hw. apply in_map_iff in Hw as [[c' v'] [<- Hin]].
  apply fresh_cols. cbn. intros ->. apply Hn. apply in_map_iff. now exists (c', v').
Qed.

(* Equality systems: all rows zero iff all generators zero. *)
Lemma all_eq_gens {G} (L : list G) (row : G -> nat) (S : G -> (nat -> R) -> R) m x :
  (forall r, (r < nr m)%nat -> exists g, In g L /\ row g = r) ->
  (forall g, In g L -> (row g < nr m)%nat) ->
  (forall g x, In g L -> rowdot m (row g) x = S g x) ->
  (all_eq m (full (nr m) 0) x <-> forall g, In g L -> S g x = 0).
Proof.
  intros Hcov Hlt Hrow. unfold all_eq. split.
  - intros H g Hg. rewrite <- Hrow by exact Hg.
    rewrite H by now apply Hlt. apply nth_full. now apply Hlt.
  - intros H r Hr. destruct (Hcov r Hr) as [g [Hg <-]].
    rewrite Hrow, H by exact Hg. symmetry. apply nth_full. now apply Hlt.
Qed.

Lemma all_le_gens {G} (L : list G) (row : G -> nat) (S : G -> (nat -> R) -> R) m d x :
  (forall r, (r < nr m)%nat -> exists g, In g L /\ row g = r) ->
  (forall g, In g L -> (row g < nr m)%nat) ->
  (forall g x, In g L -> rowdot m (row g) x = S g x) ->
  (all_le m (full (nr m) d) x <-> forall g, In g L -> S g x <= d).
Proof.
  intros Hcov Hlt Hrow. unfold all_le. split.
  - intros H g Hg. rewrite <- Hrow by exact Hg.
    rewrite <- (nth_full (nr m) d (row g)) by now apply Hlt. apply H, Hlt, Hg.
  - intros H r Hr. destruct (Hcov r Hr) as [g [Hg <-]].
    rewrite Hrow by exact Hg. rewrite nth_full by now apply Hlt. now apply H.
Qed.

(* ================================================================ Linear *)
Definition lin_idx (nnt : list nat) (nl nk : nat) :=
  L3 (enumerate nnt) (range nk) (range (nl - 2)).
Definition lin_row (nl nk : nat) (g : nat * nat * nat * nat) : nat :=
  let '(i, p, k, l) := g in (i * (nl - 2) * nk + k * (nl - 2) + l)%nat.
Definition lin_ws (nl nk : nat) (g : nat * nat * nat * nat) : list wr :=
  let '(i, p, k, l) := g in
  map (fun q => W (lin_row nl nk g) (fst q) (snd q) false)
    [((p * nl * nk + k * 1 + nk * l)%nat, 1);
     ((p * nl * nk + k * 1 + nk * (l + 1))%nat, -2);
     ((p * nl * nk + k * 1 + nk * (l + 2))%nat, 1)].

Lemma linear_rows_ops nnt nl nk A :
  linear_rows nnt nl nk A
  = for_each (flat_map (lin_ws nl nk) (lin_idx nnt nl nk)) apply1 A.
Proof.
  unfold linear_rows, lin_idx. rewrite for_each_L3. apply for_each_ext.
  intros [i p] s _.
  rewrite (shift_loop2 nk (fun k rs cs s => for_each (range (nl - 2)) (fun l A =>
        bind (aset (rs + l) (cs + nk * l) 1 A) (fun A =>
        bind (aset (rs + l) (cs + nk * (l + 1)) (-2) A) (fun A =>
        aset (rs + l) (cs + nk * (l + 2)) 1 A))) s)).
  transitivity (for_each (range nk) (fun k s => for_each (range (nl - 2)) (fun l A =>
     for_each (lin_ws nl nk (i, p, k, l)) apply1 A) s) s); [|reflexivity].
  match goal with |- bind (bind ?x _) _ = _ => transitivity x; [now destruct x|] end.
  apply for_each_ext. intros k s1 _. apply for_each_ext. intros l s2 _.
  cbn [lin_ws lin_row map for_each fst snd]. unfold apply1; cbn [w_r w_c w_v w_add].
  destruct (aset _ _ 1 s2) as [m|]; cbn [bind]; [|reflexivity].
  destruct (aset _ _ (-2) m) as [m'|]; cbn [bind]; [|reflexivity].
  now rewrite bind_ok.
Qed.

Lemma lin_inj nnt nl nk g g' :
  In g (lin_idx nnt nl nk) -> In g' (lin_idx nnt nl nk) ->
  lin_row nl nk g = lin_row nl nk g' -> g = g'.
Proof.
  destruct g as [[[i p] k] l], g' as [[[i' p'] k'] l']. unfold lin_idx. intros H H' E.
  in_idx. cbn [lin_row] in E. apply mr3_inj in E as (-> & -> & ->); try assumption.
  congruence.
Qed.

Lemma lin_bound nt nl nk nnt g w :
  in_periods nnt nt -> In g (lin_idx nnt nl nk) -> In w (lin_ws nl nk g) ->
  w_r w = lin_row nl nk g /\ (w_c w < nt * nl * nk)%nat.
Proof.
  destruct g as [[[i p] k] l]. unfold lin_idx. intros Hp Hg Hw. in_idx.
  assert (Ht : (p < nt)%nat) by (apply Hp; eapply nth_error_In; eassumption).
  cbn [lin_ws map fst snd] in Hw.
  destruct Hw as [<-|[<-|[<-|[]]]]; cbn [w_r w_c]; (split; [reflexivity|]).
  - pose proof (col_lt nt nl nk p l k Ht). nia.
  - pose proof (col_lt nt nl nk p (l + 1) k Ht). nia.
  - pose proof (col_lt nt nl nk p (l + 2) k Ht). nia.
Qed.

Lemma lin_fresh nl nk nnt g :
  In g (lin_idx nnt nl nk) -> ForallOrdPairs fresh (lin_ws nl nk g).
Proof.
  destruct g as [[[i p] k] l]. unfold lin_idx. intros Hg. in_idx. apply fresh_row.
  cbn [map fst]. repeat constructor; cbn [In]; intuition nia.
Qed.

Lemma lin_NoDup nnt nl nk : NoDup (lin_idx nnt nl nk).
Proof. apply NoDup_L3; auto using NoDup_enumerate, NoDup_range. Qed.

Lemma lin_sum nl nk (x : nat -> R) i p k l :
  rsum (map (fun w => w_v w * x (w_c w)) (lin_ws nl nk (i, p, k, l)))
  = eff nl nk x p l k - 2 * eff nl nk x p (l + 1) k + eff nl nk x p (l + 2) k.
Proof.
  cbn [lin_ws map fst snd w_v w_c rsum]. unfold eff.
  replace (p * nl * nk + k * 1 + nk * l)%nat with (p * nl * nk + l * nk + k)%nat by ring.
  replace (p * nl * nk + k * 1 + nk * (l + 1))%nat
    with (p * nl * nk + (l + 1) * nk + k)%nat by ring.
  replace (p * nl * nk + k * 1 + nk * (l + 2))%nat
    with (p * nl * nk + (l + 2) * nk + k)%nat by ring. lra.
Qed.

Lemma lin_gens_iff nnt nl nk x :
  (forall g, In g (lin_idx nnt nl nk) ->
     rsum (map (fun w => w_v w * x (w_c w)) (lin_ws nl nk g)) = 0)
  <-> forall t k, In t nnt -> (k < nk)%nat -> linear_in_l nl nk x t k.
Proof.
  split.
  - intros H t k Ht Hk l Hl. apply In_nth_error in Ht as [i Hi].
    specialize (H (i, t, k, l)). rewrite lin_sum in H.
    assert (E : eff nl nk x t l k - 2 * eff nl nk x t (l + 1) k
                + eff nl nk x t (l + 2) k = 0).
    { apply H. unfold lin_idx. apply In_L3. rewrite In_enumerate, !In_range.
      repeat split; try assumption. lia. }
    lra.
  - intros H [[[i p] k] l] Hg. rewrite lin_sum. unfold lin_idx in Hg. in_idx.
    assert (Hp : In p nnt) by (eapply nth_error_In; eassumption).
    specialize (H p k Hp H1 l ltac:(lia)). lra.
Qed.

Lemma lin_cover nnt nl nk r :
  (r < length nnt * (nl - 2) * nk)%nat ->
  exists g, In g (lin_idx nnt nl nk) /\ lin_row nl nk g = r.
Proof.
  intros Hr. destruct (mr3_decode _ _ _ _ Hr) as (i & k & l & Hi & Hk & Hl & ->).
  destruct (nth_error nnt i) as [p|] eqn:Ep.
  2:{ apply nth_error_None in Ep. lia. }
  exists (i, p, k, l). split; [|reflexivity].
  unfold lin_idx. apply In_L3. rewrite In_enumerate, !In_range. auto.
Qed.

Lemma lin_row_lt nnt nl nk g :
  In g (lin_idx nnt nl nk) -> (lin_row nl nk g < length nnt * (nl - 2) * nk)%nat.
Proof.
  destruct g as [[[i p] k] l]. unfold lin_idx. intros Hg. in_idx. cbn [lin_row].
  apply mr3_lt; try assumption. eapply nth_error_lt; eassumption.
Qed.

Lemma Linear_spec nnt nt nl nk :
  (2 <= nl)%nat -> in_periods nnt nt ->
  exists c, Linear nnt nt nl nk = Ok c /\ cons_wf (nt * nl * nk) c
    /\ forall x, sat c x <->
         forall t k, In t nnt -> (k < nk)%nat -> linear_in_l nl nk x t k.
Proof.
  intros Hnl Hp. unfold Linear.
  rewrite (zeros_ok _ _ (length nnt * (nl - 2) * nk) (nt * nl * nk))
    by (unfold zn; nia). cbn [bind]. rewrite linear_rows_ops.
  destruct (rows_spec (lin_idx nnt nl nk) (lin_row nl nk) (lin_ws nl nk)
              (length nnt * (nl - 2) * nk) (nt * nl * nk)) as (m & E & H1 & H2 & H3).
  - apply lin_NoDup.
  - intros; eapply lin_inj; eassumption.
  - intros; now apply lin_row_lt.
  - intros; eapply lin_bound; eassumption.
  - intros; eapply lin_fresh; eassumption.
  - rewrite E; cbn [bind]. eexists; split; [reflexivity|]. split.
    + split; [exact I|]. split; [exact H2|]. apply length_full.
    + intros x. unfold sat; cbn [c_G c_A].
      rewrite (all_eq_gens (lin_idx nnt nl nk) (lin_row nl nk)
         (fun g x => rsum (map (fun w => w_v w * x (w_c w)) (lin_ws nl nk g)))).
      * rewrite lin_gens_iff. tauto.
      * intros r Hr. apply lin_cover. lia.
      * intros g Hg. rewrite H1. now apply lin_row_lt.
      * exact (fun g x Hg => H3 g x Hg).
Qed.

(* A single worker type: the matrix would have a negative number of rows. *)
Lemma Linear_one nnt nt nk :
  nnt <> [] -> (1 <= nk)%nat -> Linear nnt nt 1 nk = Err ValueError.
Proof.
  intros Hn Hk. unfold Linear, zeros, zn.
  assert (0 < length nnt)%nat by (destruct nnt; simpl; [congruence|lia]).
  destruct (Z.ltb_spec (Z.of_nat (length nnt) * (Z.of_nat 1 - 2) * Z.of_nat nk) 0); [reflexivity|].
  nia.
Qed.
