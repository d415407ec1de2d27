(* Builders whose rows collect several index tuples (means over firm types,
   worker types or periods), and StationaryFirmTypeVariation. *)
From Verif Require Import Base BaseLemmas UtilModel ConsModel ConsSpec ConsLemmas
  ConsBuildLemmas ConsBuild2Lemmas.
Local Open Scope R_scope.

Lemma enumerate_snd {A} (l : list A) : map snd (enumerate l) = l.
Proof.
  unfold enumerate. generalize 0%nat. induction l as [|x l IH]; intros k; simpl; [reflexivity|].
  now rewrite IH.
Qed.

Lemma rsum_enumerate_snd {A} (F : A -> R) (l : list A) :
  rsum (map (fun ip => F (snd ip)) (enumerate l)) = rsum (map F l).
Proof. rewrite <- (enumerate_snd l) at 2. now rewrite map_map. Qed.

Lemma rsum_zero {A} (F : A -> R) l : (forall x, In x l -> F x = 0) -> rsum (map F l) = 0.
Proof.
  induction l as [|x l IH]; intros H; simpl; [reflexivity|].
  rewrite H by now left. rewrite IH; [lra|]. intros; apply H; now right.
Qed.

(* One generator per (i-th period p, a, j-th inner index k); row rs i + j. *)
Section Shared.
Context (cross : bool) (nnt : list nat) (na : nat) (J : list nat) (C : nat).
Context (f : nat -> nat -> nat -> list (nat * R)).

Definition sh_rs (i : nat) : nat := if cross then 0%nat else (i * length J)%nat.
Definition sh_rows : nat := ((if cross then 1 else length nnt) * length J)%nat.
Definition sh_idx := L3 (enumerate nnt) (range na) (enumerate J).
Definition sh_row (g : nat * nat * nat * (nat * nat)) : nat :=
  let '(i, p, a, (j, k)) := g in (sh_rs i + j)%nat.
Definition sh_ws (g : nat * nat * nat * (nat * nat)) : list wr :=
  let '(i, p, a, (j, k)) := g in
  map (fun q => W (sh_rs i + j)%nat (fst q) (snd q) false) (f p a k).
Definition sh_val (x : nat -> R) (p a k : nat) : R :=
  rsum (map (fun q => snd q * x (fst q)) (f p a k)).

(* Turning the row statements into statements on periods and inner indices. *)
Lemma sh_cover (r : nat) : (nnt <> [] \/ cross = false) -> (r < sh_rows)%nat ->
  exists i p j k, nth_error nnt i = Some p /\ nth_error J j = Some k /\ r = (sh_rs i + j)%nat.
Proof.
  intros Hne Hr. unfold sh_rows, sh_rs in *.
  destruct (mr_decode _ _ _ Hr) as (i & j & Hi & Hj & ->).
  destruct (nth_error J j) as [k|] eqn:Ek; [|apply nth_error_None in Ek; lia].
  destruct cross.
  - destruct nnt as [|p l]; [destruct Hne; congruence|].
    exists 0%nat, p, j, k. repeat split; auto. nia.
  - destruct (nth_error nnt i) as [p|] eqn:Ep; [|apply nth_error_None in Ep; lia].
    exists i, p, j, k. auto.
Qed.

Definition sh_lhs (x : nat -> R) (p k : nat) : R :=
  if cross then rsum (map (fun p => sumn na (fun a => sh_val x p a k)) nnt)
  else sumn na (fun a => sh_val x p a k).

Lemma sh_rows_iff (m : dmat) (Q : R -> Prop) (x : nat -> R) :
  (nnt <> [] \/ cross = false) -> nr m = sh_rows ->
  (forall i p j k x, nth_error nnt i = Some p -> nth_error J j = Some k ->
         rowdot m (sh_rs i + j) x = sh_lhs x p k) ->
  (forall r, (r < nr m)%nat -> Q (rowdot m r x)) <->
  (forall p k, In p nnt -> In k J -> Q (sh_lhs x p k)).
Proof.
  intros Hne Hnr Hrow. split.
  - intros H p k Hp Hk. apply In_nth_error in Hp as [i Hi]. apply In_nth_error in Hk as [j Hj].
    rewrite <- (Hrow i p j k x Hi Hj). apply H. rewrite Hnr. unfold sh_rows, sh_rs.
    apply nth_error_lt in Hi. apply nth_error_lt in Hj. destruct cross; nia.
  - intros H r Hr. rewrite Hnr in Hr. destruct (sh_cover r Hne Hr) as (i & p & j & k & Hi & Hj & ->).
    rewrite (Hrow i p j k x Hi Hj). apply H; eapply nth_error_In; eassumption.
Qed.
Hypothesis Hcross : cross = true -> NoDup nnt.
Hypothesis Hcol : forall p a k q, In p nnt -> (a < na)%nat -> In k J -> In q (f p a k) ->
  (fst q < C)%nat.
Hypothesis Hnd : forall p a k, In p nnt -> (a < na)%nat -> In k J -> NoDup (map fst (f p a k)).
Hypothesis Hdis : forall p a p' a' k q q', In p nnt -> In p' nnt -> (a < na)%nat ->
  (a' < na)%nat -> In k J -> In q (f p a k) -> In q' (f p' a' k) ->
  fst q = fst q' -> p = p' /\ a = a'.

Lemma sh_row_lt i p a j k : In (i, p, a, (j, k)) sh_idx -> (sh_rs i + j < sh_rows)%nat.
Proof.
  intros H. unfold sh_idx in H. in_idx. unfold sh_rs, sh_rows.
  repeat match goal with E : nth_error _ _ = Some _ |- _ => apply nth_error_lt in E end.
  destruct cross; nia.
Qed.

Lemma sh_matrix :
  exists m, for_each (flat_map sh_ws sh_idx) apply1 (mkmat sh_rows C (fun _ _ => 0)) = Ok m
    /\ nr m = sh_rows /\ nc m = C
    /\ (forall i p j k x, nth_error nnt i = Some p -> nth_error J j = Some k ->
         rowdot m (sh_rs i + j) x
         = if cross then rsum (map (fun p => sumn na (fun a => sh_val x p a k)) nnt)
           else sumn na (fun a => sh_val x p a k)).
Proof.
  destruct (writes_zero (flat_map sh_ws sh_idx) sh_rows C) as (m & E & H1 & H2 & H3).
  - intros w Hw. apply in_flat_map in Hw as [[[[i p] a] [j k]] [Hg Hw]].
    pose proof (sh_row_lt _ _ _ _ _ Hg) as Hlt.
    unfold sh_idx in Hg. in_idx. cbn [sh_ws] in Hw.
    apply in_map_iff in Hw as [q [<- Hq]]. cbn [w_r w_c]. split; [exact Hlt|].
    eapply Hcol; try eassumption; eapply nth_error_In; eassumption.
  - apply FOP_flat_map.
    + apply NoDup_L3; auto using NoDup_enumerate, NoDup_range.
    + intros [[[i p] a] [j k]] Hg. unfold sh_idx in Hg. in_idx. cbn [sh_ws].
      apply fresh_row. apply Hnd; try assumption; eapply nth_error_In; eassumption.
    + intros [[[i p] a] [j k]] [[[i' p'] a'] [j' k']] w w' Hg Hg' Hne Hw Hw' _ [Er Ec].
      unfold sh_idx in Hg, Hg'. in_idx. cbn [sh_ws] in Hw, Hw'.
      apply in_map_iff in Hw as [q [<- Hq]]. apply in_map_iff in Hw' as [q' [<- Hq']].
      cbn [w_r w_c] in Er, Ec. apply Hne.
      assert (Hj : (j < length J)%nat) by (eapply nth_error_lt; eassumption).
      assert (Hj' : (j' < length J)%nat) by (eapply nth_error_lt; eassumption).
      assert (Ej : j = j' /\ (cross = false -> i = i')).
      { unfold sh_rs in Er. destruct cross; [split; [lia|discriminate]|].
        apply mr_inj in Er as [-> ->]; auto. }
      destruct Ej as [<- Ei].
      assert (k' = k) by congruence. subst k'.
      assert (Ep : p = p' /\ a = a').
      { eapply Hdis with (q := q) (q' := q'); try eassumption; eapply nth_error_In; eassumption. }
      destruct Ep as [<- <-].
      assert (i = i').
      { destruct cross; [|auto]. eapply NoDup_nth_error; [apply Hcross; reflexivity| |congruence].
        eapply nth_error_lt; eassumption. }
      now subst.
  - exists m. split; [exact E|]. split; [exact H1|]. split; [exact H2|].
    intros i0 p0 j0 k0 x Hi0 Hj0. rewrite H3, rsum_map_flat.
    rewrite (rsum_map_ext _ (fun g => let '(i, p, a, (j, k)) := g in
      if (sh_rs i + j =? sh_rs i0 + j0)%nat then sh_val x p a k else 0)).
    2:{ intros [[[i p] a] [j k]] _. unfold sh_ws. apply contrib_same. exact (fun _ => 0). }
    unfold sh_idx. rewrite rsum_L3.
    assert (Hin : forall i p a, nth_error nnt i = Some p ->
      rsum (map (fun jk => let '(j, k) := jk in
          if (sh_rs i + j =? sh_rs i0 + j0)%nat then sh_val x p a k else 0) (enumerate J))
      = if (cross || (i =? i0)%nat) then sh_val x p a k0 else 0).
    { intros i p a Hi. destruct (cross || (i =? i0)%nat) eqn:Eb.
      - assert (Es : sh_rs i = sh_rs i0).
        { unfold sh_rs. destruct cross; [reflexivity|]. cbn in Eb.
          apply Nat.eqb_eq in Eb. now subst. }
        rewrite Es.
        rewrite (rsum_map_ext _ (fun jk => if (fst jk =? fst (j0, k0))%nat
                    then sh_val x p a (snd jk) else 0)).
        2:{ intros [j k] _. cbn [fst snd].
            destruct (Nat.eqb_spec (sh_rs i0 + j) (sh_rs i0 + j0)), (Nat.eqb_spec j j0);
              try lia; reflexivity. }
        rewrite rsum_pick; [reflexivity|apply NoDup_enumerate|now apply In_enumerate|].
        intros [j k] Hjk Ej. cbn [fst] in Ej. apply In_enumerate in Hjk. subst.
        f_equal. congruence.
      - apply rsum_zero. intros [j k] Hjk. apply In_enumerate in Hjk.
        destruct cross eqn:Ecr; [discriminate|]. cbn in Eb. apply Nat.eqb_neq in Eb.
        destruct (Nat.eqb_spec (sh_rs i + j) (sh_rs i0 + j0)) as [Er|_]; [|reflexivity].
        exfalso. apply Eb. unfold sh_rs in Er. rewrite Ecr in Er.
        apply nth_error_lt in Hjk. apply nth_error_lt in Hj0.
        now apply mr_inj in Er as [-> _]. }
    rewrite (rsum_map_ext _ (fun ip => if (cross || (fst ip =? i0)%nat)
               then sumn na (fun a => sh_val x (snd ip) a k0) else 0)).
    2:{ intros [i p] Hip. apply In_enumerate in Hip. cbn [fst snd].
        rewrite (rsum_map_ext _ (fun a => if (cross || (i =? i0)%nat)
                   then sh_val x p a k0 else 0)).
        2:{ intros a _. now apply Hin. }
        destruct (cross || (i =? i0)%nat); [reflexivity|]. apply rsum_zero. reflexivity. }
    destruct cross.
    + cbn [orb]. now rewrite (rsum_enumerate_snd (fun p => sumn na (fun a => sh_val x p a k0))).
    + cbn [orb].
      etransitivity.
      { apply (rsum_pick (enumerate nnt) fst
          (fun ip => sumn na (fun a => sh_val x (snd ip) a k0)) (i0, p0)).
      * apply NoDup_enumerate.
      * now apply In_enumerate.
      * intros [i p] Hip Ei. cbn [fst] in Ei. apply In_enumerate in Hip. subst.
        f_equal. congruence. }
      reflexivity.
Qed.

End Shared.

Lemma rsum_scal {A} c (F : A -> R) l : rsum (map (fun x => c * F x) l) = c * rsum (map F l).
Proof. induction l as [|x l IH]; simpl; [lra|]. rewrite IH. lra. Qed.

Lemma rsum_minus {A} (F G : A -> R) l :
  rsum (map (fun x => F x - G x) l) = rsum (map F l) - rsum (map G l).
Proof. induction l as [|x l IH]; simpl; [lra|]. rewrite IH. lra. Qed.

(* ========================================================== MonotonicMean *)
Definition mm_w (cross : bool) (nnt : list nat) (n : nat) : R :=
  if cross then 1 / (INR (length nnt) * INR n) else 1 / INR n.
Definition mm_f (w : R) (nl nk p k l : nat) : list (nat * R) :=
  [((p * nl * nk + k + l * nk)%nat, w); ((p * nl * nk + k + (l + 1) * nk)%nat, - w)].

Lemma mm_ops (cross : bool) nnt nl nk G :
  for_each (enumerate nnt) (fun ip G =>
    let '(i, period) := ip in
    let row_shift := if cross then 0%nat else (i * (nl - 1))%nat in
    for_each (range nk) (fun k G =>
      for_each (range (nl - 1)) (fun l G =>
        if cross
        then
          bind (aset (row_shift + l) (period * nl * nk + k + l * nk)
                 (1 / (INR (length nnt) * INR nk)) G) (fun G =>
          aset (row_shift + l) (period * nl * nk + k + (l + 1) * nk)
                 (- (1 / (INR (length nnt) * INR nk))) G)
        else
          bind (aset (row_shift + l) (period * nl * nk + k + l * nk) (1 / INR nk) G) (fun G =>
          aset (row_shift + l) (period * nl * nk + k + (l + 1) * nk)
                 (- (1 / INR nk)) G)) G) G) G
  = for_each (flat_map (sh_ws cross (range (nl - 1)) (mm_f (mm_w cross nnt nk) nl nk))
      (sh_idx nnt nk (range (nl - 1)))) apply1 G.
Proof.
  unfold sh_idx. rewrite for_each_L3. apply for_each_ext. intros [i p] s _. cbv zeta.
  apply for_each_ext. intros k s1 _. rewrite enumerate_range, for_each_map.
  apply for_each_ext. intros l s2 _.
  cbn [sh_ws mm_f map for_each fst snd]. unfold apply1; cbn [w_r w_c w_v w_add].
  unfold sh_rs, mm_w. rewrite length_range.
  destruct cross.
  - destruct (aset _ _ (1 / _) s2) as [m|]; cbn [bind]; [|reflexivity]. now rewrite bind_ok.
  - destruct (aset _ _ (1 / _) s2) as [m|]; cbn [bind]; [|reflexivity]. now rewrite bind_ok.
Qed.

Lemma mean_diff (cross : bool) (nnt : list nat) (n : nat) (F G : nat -> nat -> R) p :
  (if cross then rsum (map (fun p => sumn n (fun a => mm_w true nnt n * (F p a - G p a))) nnt)
   else sumn n (fun a => mm_w false nnt n * (F p a - G p a)))
  = if cross then mean_over nnt (fun t => mean n (F t)) - mean_over nnt (fun t => mean n (G t))
    else mean n (F p) - mean n (G p).
Proof.
  assert (E : forall c p, sumn n (fun a => c * (F p a - G p a)) = c * (sumn n (F p) - sumn n (G p))).
  { intros c q. rewrite sumn_scal, sumn_minus. reflexivity. }
  destruct cross; unfold mm_w, mean_over, mean.
  - rewrite (rsum_map_ext _ (fun p => (1 / (INR (length nnt) * INR n)) * (sumn n (F p) - sumn n (G p))))
      by (intros; apply E).
    rewrite rsum_scal, rsum_minus.
    rewrite (rsum_map_ext (fun t => sumn n (F t) / INR n) (fun t => / INR n * sumn n (F t)))
      by (intros; unfold Rdiv; ring).
    rewrite (rsum_map_ext (fun t => sumn n (G t) / INR n) (fun t => / INR n * sumn n (G t)))
      by (intros; unfold Rdiv; ring).
    rewrite !rsum_scal. unfold Rdiv. rewrite Rinv_mult. ring.
  - rewrite E. unfold Rdiv. ring.
Qed.

Lemma MonotonicMean_spec (md : R) (inc cross : bool) nnt nt nl nk :
  (1 <= nl)%nat -> in_periods nnt nt -> (cross = true -> NoDup nnt /\ nnt <> []) ->
  exists c, MonotonicMean md inc cross nnt nt nl nk = Ok c /\ cons_wf (nt * nl * nk) c
    /\ forall x, sat c x <->
         forall t l, In t nnt -> (l + 1 < nl)%nat ->
           let m l := if cross then mean_over nnt (fun t => mean nk (eff nl nk x t l))
                      else mean nk (eff nl nk x t l) in
           if inc then m (l + 1)%nat >= m l + md else m (l + 1)%nat <= m l - md.
Proof.
  intros Hnl Hp Hc. unfold MonotonicMean.
  pose (w := mm_w cross nnt nk). pose (J := range (nl - 1)).
  assert (Ez : (if cross
        then zeros (zn nl - 1) (zn nt * zn nl * zn nk)
        else zeros (zn (length nnt) * (zn nl - 1)) (zn nt * zn nl * zn nk))
        = Ok (mkmat (sh_rows cross nnt J) (nt * nl * nk) (fun _ _ => 0))).
  { unfold sh_rows, J. rewrite length_range.
    destruct cross; apply zeros_ok; unfold zn; nia. }
  rewrite Ez. cbn [bind]. rewrite mm_ops. fold J w.
  destruct (sh_matrix cross nnt nk J (nt * nl * nk) (mm_f w nl nk)) as (m & E & H1 & H2 & H3).
  - intros E. now apply Hc.
  - intros p a k q Hp' Ha Hk Hq. unfold J in Hk. apply In_range in Hk.
    pose proof (col_lt nt nl nk p k a (Hp _ Hp')). pose proof (col_lt nt nl nk p (k + 1) a (Hp _ Hp')).
    destruct Hq as [<-|[<-|[]]]; cbn [fst]; lia.
  - intros p a k _ Ha _. cbn [mm_f map fst]. repeat constructor; cbn [In]; intuition nia.
  - intros p a p' a' k q q' Hp1 Hp2 Ha Ha' Hk Hq Hq' Eq.
    unfold J in Hk. apply In_range in Hk.
    assert (G : forall l l', (l < nl)%nat -> (l' < nl)%nat ->
       (p * nl * nk + a + l * nk = p' * nl * nk + a' + l' * nk)%nat -> p = p' /\ a = a').
    { intros l l' Hl Hl' El.
      assert (El' : (p * nl * nk + l * nk + a = p' * nl * nk + l' * nk + a')%nat) by lia.
      apply col_inj in El' as (? & ? & ?); auto. }
    destruct Hq as [<-|[<-|[]]], Hq' as [<-|[<-|[]]]; cbn [fst] in Eq;
      eapply G; try exact Eq; lia.
  - rewrite E. cbn [bind]. eexists; split; [reflexivity|]. split.
    + split; [|exact I]. cbn [c_G half_wf]. rewrite nc_flip, nr_flip. split; [exact H2|].
      apply length_full.
    + intros x. unfold sat; cbn [c_G c_A]. unfold all_le. rewrite nr_flip.
      assert (L : forall p l x, sh_lhs cross nnt nk (mm_f w nl nk) x p l
         = if cross then mean_over nnt (fun t => mean nk (eff nl nk x t l))
                         - mean_over nnt (fun t => mean nk (eff nl nk x t (l + 1)))
           else mean nk (eff nl nk x p l) - mean nk (eff nl nk x p (l + 1))).
      { intros p l y. rewrite <- (mean_diff cross nnt nk (fun t => eff nl nk y t l)
                                  (fun t => eff nl nk y t (l + 1)) p).
        unfold sh_lhs.
        assert (V : forall p a, sh_val (mm_f w nl nk) y p a l
                  = w * (eff nl nk y p l a - eff nl nk y p (l + 1) a)).
        { intros q a. unfold sh_val. cbn [mm_f map rsum fst snd]. unfold eff.
          replace (q * nl * nk + a + l * nk)%nat with (q * nl * nk + l * nk + a)%nat by ring.
          replace (q * nl * nk + a + (l + 1) * nk)%nat
            with (q * nl * nk + (l + 1) * nk + a)%nat by ring. ring. }
        subst w. destruct cross.
        - apply rsum_map_ext. intros q _. apply sumn_ext. intros a _. apply V.
        - apply sumn_ext. intros a _. apply V. }
      transitivity (forall r, (r < nr m)%nat ->
         (fun v => (if negb inc then - v else v) <= - md) (rowdot m r x)).
      { split.
        - intros [H _] r Hr. specialize (H r Hr). rewrite rowdot_flip, nth_full in H by exact Hr.
          exact H.
        - intros H. split; [|exact I]. intros r Hr. rewrite rowdot_flip, nth_full by exact Hr.
          now apply H. }
      etransitivity; [apply (sh_rows_iff cross nnt nk J (mm_f w nl nk) m
          (fun v => (if negb inc then - v else v) <= - md) x);
        [destruct cross; [left; now apply Hc|now right]|exact H1|exact H3]|].
      split; intros H t l Ht Hl.
      * cbv zeta. assert (Hl' : In l J) by (unfold J; apply In_range; lia).
        specialize (H t l Ht Hl'). rewrite L in H. destruct inc, cross; cbn [negb] in H; lra.
      * unfold J in Hl. apply In_range in Hl. rewrite L.
        specialize (H t l Ht ltac:(lia)). cbv zeta in H. destruct inc, cross; cbn [negb]; lra.
Qed.

(* ============================================================ MinFirmType *)
Definition others (k0 nk : nat) : list nat := range k0 ++ range2 (k0 + 1) nk.

Lemma In_others k0 nk k : (k0 < nk)%nat -> In k (others k0 nk) <-> (k < nk)%nat /\ k <> k0.
Proof.
  intros H. unfold others, range2. rewrite in_app_iff, In_range, in_seq. lia.
Qed.

Lemma length_others k0 nk : (k0 < nk)%nat -> length (others k0 nk) = (nk - 1)%nat.
Proof. intros H. unfold others, range2. rewrite app_length, length_range, seq_length. lia. Qed.

Definition mf_f (w : R) (nl nk k0 p l k : nat) : list (nat * R) :=
  [((p * nl * nk + l * nk + k0)%nat, w); ((p * nl * nk + l * nk + k)%nat, - w)].

Lemma aset4_ok nt nl nk r t l k v m :
  (t < nt)%nat -> (l < nl)%nat -> (k < nk)%nat ->
  aset4 nt nl nk r t l k v m = aset r (t * nl * nk + l * nk + k) v m.
Proof.
  intros Ht Hl Hk. unfold aset4.
  apply Nat.ltb_lt in Ht, Hl, Hk. now rewrite Ht, Hl, Hk.
Qed.

Lemma mf_ops (cross : bool) k0 nnt nt nl nk G :
  (k0 < nk)%nat -> in_periods nnt nt ->
  for_each (enumerate nnt) (fun ip G =>
    let '(i, period) := ip in
    let row_shift := if cross then 0%nat else (i * (nk - 1))%nat in
    for_each (range nl) (fun l G =>
      for_each (enumerate (range k0 ++ range2 (k0 + 1) nk))
        (fun jk G =>
          let '(j, k) := jk in
          if cross
          then
            bind (aset4 nt nl nk (row_shift + j) period l k0
                   (1 / (INR (length nnt) * INR nl)) G) (fun G =>
            aset4 nt nl nk (row_shift + j) period l k
                   (- (1 / (INR (length nnt) * INR nl))) G)
          else
            bind (aset4 nt nl nk (row_shift + j) period l k0
                   (1 / INR nl) G) (fun G =>
            aset4 nt nl nk (row_shift + j) period l k (- (1 / INR nl)) G)) G) G) G
  = for_each (flat_map (sh_ws cross (others k0 nk) (mf_f (mm_w cross nnt nl) nl nk k0))
      (sh_idx nnt nl (others k0 nk))) apply1 G.
Proof.
  intros Hk0 Hp. unfold sh_idx. rewrite for_each_L3. apply for_each_ext.
  intros [i p] s Hip. apply In_enumerate in Hip.
  assert (Ht : (p < nt)%nat) by (apply Hp; eapply nth_error_In; eassumption).
  cbv zeta. apply for_each_ext. intros l s1 Hl. apply In_range in Hl.
  fold (others k0 nk). apply for_each_ext. intros [j k] s2 Hk. apply In_enumerate in Hk.
  apply nth_error_In, In_others in Hk as [Hk _]; [|exact Hk0].
  cbn [sh_ws mf_f map for_each fst snd]. unfold apply1; cbn [w_r w_c w_v w_add].
  unfold sh_rs, mm_w. rewrite length_others by exact Hk0.
  destruct cross.
  - rewrite aset4_ok by assumption.
    destruct (aset _ _ (1 / _) s2) as [m|]; cbn [bind]; [|reflexivity].
    rewrite bind_ok. now apply aset4_ok.
  - rewrite aset4_ok by assumption.
    destruct (aset _ _ (1 / _) s2) as [m|]; cbn [bind]; [|reflexivity].
    rewrite bind_ok. now apply aset4_ok.
Qed.

Lemma MinFirmType_spec k0 (md : R) (mn cross : bool) nnt nt nl nk :
  (k0 < nk)%nat -> in_periods nnt nt -> (cross = true -> NoDup nnt /\ nnt <> []) ->
  exists c, MinFirmType k0 md mn cross nnt nt nl nk = Ok c /\ cons_wf (nt * nl * nk) c
    /\ forall x, sat c x <->
         forall t k, In t nnt -> (k < nk)%nat -> k <> k0 ->
           let m k := if cross then mean_over nnt (fun t => mean nl (fun l => eff nl nk x t l k))
                      else mean nl (fun l => eff nl nk x t l k) in
           if mn then m k0 + md <= m k else m k0 - md >= m k.
Proof.
  intros Hk0 Hp Hc. unfold MinFirmType.
  set (w := mm_w cross nnt nl). set (J := others k0 nk).
  assert (Ez : (if cross
        then zeros (zn nk - 1) (zn nt * zn nl * zn nk)
        else zeros (zn (length nnt) * (zn nk - 1)) (zn nt * zn nl * zn nk))
        = Ok (mkmat (sh_rows cross nnt J) (nt * nl * nk) (fun _ _ => 0))).
  { unfold sh_rows, J. rewrite length_others by exact Hk0.
    destruct cross; apply zeros_ok; unfold zn; nia. }
  rewrite Ez. cbn [bind]. rewrite mf_ops by assumption. fold J w.
  destruct (sh_matrix cross nnt nl J (nt * nl * nk) (mf_f w nl nk k0)) as (m & E & H1 & H2 & H3).
  - intros E. now apply Hc.
  - intros p a k q Hp' Ha Hk Hq. unfold J in Hk. apply In_others in Hk as [Hk _]; [|exact Hk0].
    destruct Hq as [<-|[<-|[]]]; cbn [fst]; apply col_lt; auto.
  - intros p a k _ Ha Hk. unfold J in Hk. apply In_others in Hk as [Hk Hne]; [|exact Hk0].
    cbn [mf_f map fst]. repeat constructor; cbn [In]; intuition lia.
  - intros p a p' a' k q q' Hp1 Hp2 Ha Ha' Hk Hq Hq' Eq.
    unfold J in Hk. apply In_others in Hk as [Hk Hne]; [|exact Hk0].
    destruct Hq as [<-|[<-|[]]], Hq' as [<-|[<-|[]]]; cbn [fst] in Eq;
      apply col_inj in Eq as (? & ? & ?); auto.
  - rewrite E. cbn [bind]. eexists; split; [reflexivity|]. split.
    + split; [|exact I]. cbn [c_G half_wf]. rewrite nc_flip, nr_flip. split; [exact H2|].
      apply length_full.
    + intros x. unfold sat; cbn [c_G c_A]. unfold all_le. rewrite nr_flip.
      assert (L : forall p k x, sh_lhs cross nnt nl (mf_f w nl nk k0) x p k
         = if cross then mean_over nnt (fun t => mean nl (fun l => eff nl nk x t l k0))
                         - mean_over nnt (fun t => mean nl (fun l => eff nl nk x t l k))
           else mean nl (fun l => eff nl nk x p l k0) - mean nl (fun l => eff nl nk x p l k)).
      { intros p k y. rewrite <- (mean_diff cross nnt nl (fun t l => eff nl nk y t l k0)
                                  (fun t l => eff nl nk y t l k) p).
        unfold sh_lhs.
        assert (V : forall p a, sh_val (mf_f w nl nk k0) y p a k
                  = w * (eff nl nk y p a k0 - eff nl nk y p a k)).
        { intros q a. unfold sh_val. cbn [mf_f map rsum fst snd]. unfold eff. ring. }
        subst w. destruct cross.
        - apply rsum_map_ext. intros q _. apply sumn_ext. intros a _. apply V.
        - apply sumn_ext. intros a _. apply V. }
      transitivity (forall r, (r < nr m)%nat ->
         (fun v => (if negb mn then - v else v) <= - md) (rowdot m r x)).
      { split.
        - intros [H _] r Hr. specialize (H r Hr). rewrite rowdot_flip, nth_full in H by exact Hr.
          exact H.
        - intros H. split; [|exact I]. intros r Hr. rewrite rowdot_flip, nth_full by exact Hr.
          now apply H. }
      etransitivity; [apply (sh_rows_iff cross nnt nl J (mf_f w nl nk k0) m
          (fun v => (if negb mn then - v else v) <= - md) x);
        [destruct cross; [left; now apply Hc|now right]|exact H1|exact H3]|].
      split.
      * intros H t k Ht Hk Hne. cbv zeta.
        assert (Hk' : In k J) by (unfold J; now apply In_others).
        specialize (H t k Ht Hk'). rewrite L in H. destruct mn, cross; cbn [negb] in H; lra.
      * intros H t k Ht Hk. unfold J in Hk. apply In_others in Hk as [Hk Hne]; [|exact Hk0].
        rewrite L. specialize (H t k Ht Hk Hne). cbv zeta in H.
        destruct mn, cross; cbn [negb]; lra.
Qed.

(* ====================================== NormalizeLowest and NormalizeAll *)
Definition nz_w (cross : bool) (nnt : list nat) : R := if cross then 1 / INR (length nnt) else 1.
Definition nz_f (w : R) (nl nk k0 p a l : nat) : list (nat * R) :=
  [((p * nl * nk + l * nk + k0)%nat, w)].

Lemma nz_lhs (cross : bool) nnt nl nk k0 x p l :
  sh_lhs cross nnt 1 (nz_f (nz_w cross nnt) nl nk k0) x p l
  = if cross then mean_over nnt (fun t => eff nl nk x t l k0) else eff nl nk x p l k0.
Proof.
  unfold sh_lhs, sh_val, nz_f, sumn. cbn [range seq map rsum fst snd]. destruct cross; cbn [nz_w].
  - unfold mean_over.
    rewrite (rsum_map_ext _ (fun t => 1 / INR (length nnt) * eff nl nk x t l k0))
      by (intros; unfold eff; lra).
    rewrite rsum_scal. unfold Rdiv. ring.
  - unfold eff. lra.
Qed.

Lemma nz_matrix (cross : bool) nnt nt nl nk k0 (J : list nat) :
  (k0 < nk)%nat -> in_periods nnt nt -> (cross = true -> NoDup nnt /\ nnt <> []) ->
  (forall l, In l J -> (l < nl)%nat) ->
  exists m, for_each (flat_map (sh_ws cross J (nz_f (nz_w cross nnt) nl nk k0))
      (sh_idx nnt 1 J)) apply1 (mkmat (sh_rows cross nnt J) (nt * nl * nk) (fun _ _ => 0)) = Ok m
   /\ nc m = (nt * nl * nk)%nat
   /\ forall x, all_eq m (full (nr m) 0) x <->
        forall t l, In t nnt -> In l J ->
          (if cross then mean_over nnt (fun t => eff nl nk x t l k0)
           else eff nl nk x t l k0) = 0.
Proof.
  intros Hk0 Hp Hc HJ.
  destruct (sh_matrix cross nnt 1 J (nt * nl * nk) (nz_f (nz_w cross nnt) nl nk k0))
    as (m & E & H1 & H2 & H3).
  - intros E. now apply Hc.
  - intros p a k q Hp' Ha Hk [<-|[]]. cbn [fst]. apply col_lt; auto.
  - intros p a k _ _ _. cbn [nz_f map fst]. repeat constructor; cbn [In]; tauto.
  - intros p a p' a' k q q' Hp1 Hp2 Ha Ha' Hk [<-|[]] [<-|[]] Eq. cbn [fst] in Eq.
    apply col_inj in Eq as (? & _ & _); auto. split; [assumption|lia].
  - exists m. split; [exact E|]. split; [exact H2|]. intros x. unfold all_eq.
    transitivity (forall r, (r < nr m)%nat -> (fun v => v = 0) (rowdot m r x)).
    { split; intros H r Hr; specialize (H r Hr); rewrite nth_full in *; auto. }
    etransitivity; [apply (sh_rows_iff cross nnt 1 J (nz_f (nz_w cross nnt) nl nk k0) m
        (fun v => v = 0) x);
      [destruct cross; [left; now apply Hc|now right]|exact H1|exact H3]|].
    split; intros H t l Ht Hl; specialize (H t l Ht Hl); rewrite nz_lhs in *; exact H.
Qed.

Lemma for_each_range1 {St} (f : nat -> St -> res St) s : for_each (range 1) f s = f 0%nat s.
Proof. cbn [range seq for_each]. apply bind_ok. Qed.

Lemma NormalizeLowest_spec k0 (cross : bool) nnt nt nl nk :
  (k0 < nk)%nat -> (1 <= nl)%nat -> in_periods nnt nt ->
  (cross = true -> NoDup nnt /\ nnt <> []) ->
  exists c, NormalizeLowest k0 cross nnt nt nl nk = Ok c /\ cons_wf (nt * nl * nk) c
    /\ forall x, sat c x <->
         if cross then mean_over nnt (fun t => eff nl nk x t 0 k0) = 0
         else forall t, In t nnt -> eff nl nk x t 0 k0 = 0.
Proof.
  intros Hk0 Hnl Hp Hc. unfold NormalizeLowest.
  assert (Ez : (if cross then zeros 1 (zn nt * zn nl * zn nk)
        else zeros (zn (length nnt)) (zn nt * zn nl * zn nk))
        = Ok (mkmat (sh_rows cross nnt [0%nat]) (nt * nl * nk) (fun _ _ => 0))).
  { unfold sh_rows. cbn [length]. destruct cross; apply zeros_ok; unfold zn; nia. }
  rewrite Ez. cbn [bind].
  destruct (nz_matrix cross nnt nt nl nk k0 [0%nat]) as (m & E & H2 & H3); auto.
  { intros l [<-|[]]. exact Hnl. }
  match goal with |- exists c, bind ?p ?f = _ /\ _ => assert (Ep : p = Ok m) end.
  { rewrite <- E. unfold sh_idx. rewrite for_each_L3. apply for_each_ext.
    intros [i p] s _. rewrite for_each_range1. cbn [enumerate length seq combine for_each].
    rewrite bind_ok. cbn [sh_ws nz_f map for_each fst snd]. rewrite bind_ok.
    unfold apply1, sh_rs, nz_w; cbn [w_r w_c w_v w_add length].
    rewrite Nat.mul_0_l, Nat.mul_1_r, !Nat.add_0_r. destruct cross; reflexivity. }
  rewrite Ep. cbn [bind]. eexists; split; [reflexivity|]. split.
  - split; [exact I|]. split; [exact H2|]. apply length_full.
  - intros x. unfold sat; cbn [c_G c_A]. rewrite H3. split.
    + intros [_ H]. destruct cross.
      * destruct (Hc eq_refl) as [_ Hne]. destruct nnt as [|t ts]; [congruence|].
        apply (H t 0%nat); now left.
      * intros t Ht. apply (H t 0%nat); [exact Ht|now left].
    + intros H. split; [exact I|]. intros t l Ht [<-|[]]. destruct cross; auto.
Qed.

Lemma NormalizeAll_spec k0 (cross : bool) nnt nt nl nk :
  (k0 < nk)%nat -> in_periods nnt nt -> (cross = true -> NoDup nnt /\ nnt <> []) ->
  exists c, NormalizeAll k0 cross nnt nt nl nk = Ok c /\ cons_wf (nt * nl * nk) c
    /\ forall x, sat c x <->
         forall l, (l < nl)%nat ->
           if cross then mean_over nnt (fun t => eff nl nk x t l k0) = 0
           else forall t, In t nnt -> eff nl nk x t l k0 = 0.
Proof.
  intros Hk0 Hp Hc. unfold NormalizeAll.
  assert (Ez : (if cross then zeros (zn nl) (zn nt * zn nl * zn nk)
        else zeros (zn (length nnt) * zn nl) (zn nt * zn nl * zn nk))
        = Ok (mkmat (sh_rows cross nnt (range nl)) (nt * nl * nk) (fun _ _ => 0))).
  { unfold sh_rows. rewrite length_range. destruct cross; apply zeros_ok; unfold zn; nia. }
  rewrite Ez. cbn [bind].
  destruct (nz_matrix cross nnt nt nl nk k0 (range nl)) as (m & E & H2 & H3); auto.
  { intros l. apply In_range. }
  match goal with |- exists c, bind ?p ?f = _ /\ _ => assert (Ep : p = Ok m) end.
  { rewrite <- E. unfold sh_idx. rewrite for_each_L3. apply for_each_ext.
    intros [i p] s _. rewrite for_each_range1. rewrite enumerate_range, for_each_map.
    apply for_each_ext. intros l s1 _.
    cbn [sh_ws nz_f map for_each fst snd]. rewrite bind_ok.
    unfold apply1, sh_rs, nz_w; cbn [w_r w_c w_v w_add]. rewrite length_range.
    destruct cross; reflexivity. }
  rewrite Ep. cbn [bind]. eexists; split; [reflexivity|]. split.
  - split; [exact I|]. split; [exact H2|]. apply length_full.
  - intros x. unfold sat; cbn [c_G c_A]. rewrite H3. split.
    + intros [_ H] l Hl. destruct cross.
      * destruct (Hc eq_refl) as [_ Hne]. destruct nnt as [|t ts]; [congruence|].
        apply (H t l); [now left|now apply In_range].
      * intros t Ht. apply (H t l); [exact Ht|now apply In_range].
    + intros H. split; [exact I|]. intros t l Ht Hl. apply In_range in Hl.
      specialize (H l Hl). destruct cross; auto.
Qed.

(* ============================================ StationaryFirmTypeVariation *)
Definition sv_idx (nnt : list nat) (nl nk : nat) := L3 (enumerate nnt) (range nl) (range nk).
Definition sv_row (nl nk : nat) (g : nat * nat * nat * nat) : nat :=
  let '(i, p, l, k) := g in (i * nl * nk + l * nk + k)%nat.
Definition sv_ws (nl nk : nat) (g : nat * nat * nat * nat) : list wr :=
  let '(i, p, l, k1) := g in
  let r := sv_row nl nk g in
  flat_map (fun k2 => [W r (l * nk + k2)%nat (- (1 / INR nk)) false;
                       W r (p * nl * nk + l * nk + k2)%nat (1 / INR nk) false]) (range nk)
  ++ [W r (l * nk + k1)%nat 1 true; W r (p * nl * nk + l * nk + k1)%nat (-1) true].

Lemma sv_ops nnt nl nk A :
  for_each (enumerate nnt) (fun ip A =>
    let '(i, period) := ip in
    bind (for_each (range nl) (fun l st =>
      let '(A, row_shift, col_shift) := st in
      bind (for_each (range nk) (fun k1 A =>
        bind (for_each (range nk) (fun k2 A =>
          bind (aset (row_shift + k1) ((col_shift - period * nl * nk) + k2)
                 (- (1 / INR nk)) A) (fun A =>
          aset (row_shift + k1) (col_shift + k2) (1 / INR nk) A)) A) (fun A =>
        bind (aadd (row_shift + k1) ((col_shift - period * nl * nk) + k1) 1 A) (fun A =>
        aadd (row_shift + k1) (col_shift + k1) (-1) A))) A) (fun A =>
      Ok (A, row_shift + nk, col_shift + nk)%nat))
      (A, i * nl * nk, period * nl * nk)%nat) (fun '(A, _, _) =>
    Ok A)) A
  = for_each (flat_map (sv_ws nl nk) (sv_idx nnt nl nk)) apply1 A.
Proof.
  unfold sv_idx. rewrite for_each_L3. apply for_each_ext. intros [i p] s _.
  rewrite (shift_loop2 nl (fun l rs cs s => for_each (range nk) (fun k1 A =>
        bind (for_each (range nk) (fun k2 A =>
          bind (aset (rs + k1) ((cs - p * nl * nk) + k2) (- (1 / INR nk)) A) (fun A =>
          aset (rs + k1) (cs + k2) (1 / INR nk) A)) A) (fun A =>
        bind (aadd (rs + k1) ((cs - p * nl * nk) + k1) 1 A) (fun A =>
        aadd (rs + k1) (cs + k1) (-1) A))) s)).
  match goal with |- bind (bind ?x _) _ = _ => transitivity x; [now destruct x|] end.
  apply for_each_ext. intros l s1 _. apply for_each_ext. intros k1 s2 _.
  cbn [sv_ws sv_row]. rewrite for_each_app, <- for_each_flat.
  replace (p * nl * nk + l * nk - p * nl * nk)%nat with (l * nk)%nat by lia.
  assert (Ein : forall s, for_each (range nk) (fun k2 A =>
          bind (aset (i * nl * nk + l * nk + k1) (l * nk + k2) (- (1 / INR nk)) A) (fun A =>
          aset (i * nl * nk + l * nk + k1) (p * nl * nk + l * nk + k2) (1 / INR nk) A)) s
    = for_each (range nk) (fun k2 => for_each
         [W (i * nl * nk + l * nk + k1) (l * nk + k2)%nat (- (1 / INR nk)) false;
          W (i * nl * nk + l * nk + k1) (p * nl * nk + l * nk + k2)%nat (1 / INR nk) false]
         apply1) s).
  { intros s3. apply for_each_ext. intros k2 s4 _. cbn [for_each].
    unfold apply1; cbn [w_r w_c w_v w_add].
    destruct (aset _ _ _ s4) as [m|]; cbn [bind]; [|reflexivity]. now rewrite bind_ok. }
  rewrite Ein. destruct (for_each (range nk) _ s2) as [m|]; cbn [bind]; [|reflexivity].
  cbn [for_each]. unfold apply1; cbn [w_r w_c w_v w_add].
  destruct (aadd _ _ _ m) as [m'|]; cbn [bind]; [|reflexivity]. now rewrite bind_ok.
Qed.

Lemma sv_sum nl nk x i p l k :
  rsum (map (fun w => w_v w * x (w_c w)) (sv_ws nl nk (i, p, l, k)))
  = (eff nl nk x 0 l k - mean nk (eff nl nk x 0 l))
    - (eff nl nk x p l k - mean nk (eff nl nk x p l)).
Proof.
  cbn [sv_ws]. rewrite map_app, rsum_app, rsum_map_flat.
  cbn [map w_v w_c rsum]. rewrite rsum_range. unfold mean, Rdiv.
  rewrite (sumn_ext _ _ (fun k2 => / INR nk * (eff nl nk x p l k2 - eff nl nk x 0 l k2))).
  2:{ intros k2 _. unfold eff.
      replace (0 * nl * nk + l * nk + k2)%nat with (l * nk + k2)%nat by lia. ring. }
  rewrite sumn_scal, sumn_minus.
  change (x (p * nl * nk + l * nk + k)%nat) with (eff nl nk x p l k).
  replace (x (l * nk + k)%nat) with (eff nl nk x 0 l k) by (unfold eff; f_equal; lia).
  change (fun i0 => eff nl nk x p l i0) with (eff nl nk x p l).
  change (fun i0 => eff nl nk x 0 l i0) with (eff nl nk x 0 l). ring.
Qed.

Lemma SFTV_spec nnt nt nl nk :
  (forall t, In t nnt -> 1 <= t < nt)%nat ->
  exists c, StationaryFirmTypeVariation nnt nt nl nk = Ok c /\ cons_wf (nt * nl * nk) c
    /\ forall x, sat c x <-> forall t, In t nnt -> stationary_variation nl nk x t.
Proof.
  intros Hp. unfold StationaryFirmTypeVariation.
  rewrite (zeros_ok _ _ (length nnt * nl * nk) (nt * nl * nk)) by (unfold zn; nia).
  cbn [bind]. rewrite sv_ops.
  assert (Hlt : forall g, In g (sv_idx nnt nl nk) -> (sv_row nl nk g < length nnt * nl * nk)%nat).
  { intros [[[i p] l] k] Hg. unfold sv_idx in Hg. in_idx. cbn [sv_row]. apply col_lt; auto.
    eapply nth_error_lt; eassumption. }
  destruct (rows_spec (sv_idx nnt nl nk) (sv_row nl nk) (sv_ws nl nk)
              (length nnt * nl * nk) (nt * nl * nk)) as (m & E & H1 & H2 & H3).
  - apply NoDup_L3; auto using NoDup_enumerate, NoDup_range.
  - intros [[[i p] l] k] [[[i' p'] l'] k'] Hg Hg' Er. unfold sv_idx in *. in_idx.
    cbn [sv_row] in Er. apply col_inj in Er as (-> & -> & ->); try assumption. congruence.
  - exact Hlt.
  - intros [[[i p] l] k] w Hg Hw. unfold sv_idx in Hg. in_idx. cbn [sv_ws] in Hw.
    assert (Ht : (1 <= p < nt)%nat) by (apply Hp; eapply nth_error_In; eassumption).
    assert (C0 : forall k, (k < nk -> l * nk + k < nt * nl * nk)%nat).
    { intros k' Hk'. pose proof (col_lt nt nl nk 0 l k'). lia. }
    assert (Cp : forall k, (k < nk -> p * nl * nk + l * nk + k < nt * nl * nk)%nat).
    { intros k' Hk'. apply col_lt; lia. }
    apply in_app_or in Hw as [Hw|Hw].
    + apply in_flat_map in Hw as [k2 [Hk2 Hw]]. apply In_range in Hk2.
      destruct Hw as [<-|[<-|[]]]; cbn [w_r w_c]; auto.
    + destruct Hw as [<-|[<-|[]]]; cbn [w_r w_c]; auto.
  - intros [[[i p] l] k] Hg. unfold sv_idx in Hg. in_idx.
    assert (Ht : (1 <= p < nt)%nat) by (apply Hp; eapply nth_error_In; eassumption).
    assert (Hlow : forall k2 k3, (k2 < nk)%nat -> (k3 < nk)%nat ->
       (l * nk + k2 <> p * nl * nk + l * nk + k3)%nat).
    { intros k2 k3 Hk2 Hk3 Eq.
      assert (Eq' : (0 * nl * nk + l * nk + k2 = p * nl * nk + l * nk + k3)%nat) by lia.
      apply col_inj in Eq' as (? & _ & _); lia. }
    cbn [sv_ws]. apply FOP_app.
    + apply FOP_flat_map; [apply NoDup_range| |].
      * intros k2 Hk2. apply In_range in Hk2. repeat constructor. apply fresh_cols. now apply Hlow.
      * intros k2 k3 w w' Hk2 Hk3 Hne Hw Hw'. apply In_range in Hk2, Hk3.
        destruct Hw as [<-|[<-|[]]], Hw' as [<-|[<-|[]]]; apply fresh_cols; try lia.
        -- now apply Hlow.
        -- apply Nat.neq_sym. now apply Hlow.
    + repeat constructor. intros Hf; discriminate.
    + intros a b _ [<-|[<-|[]]] Hf; discriminate.
  - rewrite E. cbn [bind]. eexists; split; [reflexivity|]. split.
    + split; [exact I|]. split; [exact H2|]. apply length_full.
    + intros x. unfold sat; cbn [c_G c_A].
      rewrite (all_eq_gens (sv_idx nnt nl nk) (sv_row nl nk)
        (fun g x => rsum (map (fun w => w_v w * x (w_c w)) (sv_ws nl nk g)))).
      * split.
        -- intros [_ H] t Ht l k Hl Hk. apply In_nth_error in Ht as [i Hi].
           assert (Hg : In (i, t, l, k) (sv_idx nnt nl nk)).
           { unfold sv_idx. apply In_L3. rewrite In_enumerate, !In_range. auto. }
           specialize (H _ Hg). rewrite sv_sum in H. lra.
        -- intros H. split; [exact I|]. intros [[[i p] l] k] Hg. rewrite sv_sum.
           unfold sv_idx in Hg. in_idx. rewrite (H p); try assumption; [lra|].
           eapply nth_error_In; eassumption.
      * intros r Hr. rewrite H1 in Hr.
        destruct (mr_decode (length nnt * nl) nk r Hr) as (q & k & Hq & Hk & ->).
        destruct (mr_decode (length nnt) nl q Hq) as (i & l & Hi & Hl & ->).
        destruct (nth_error nnt i) as [p|] eqn:Ep; [|apply nth_error_None in Ep; lia].
        exists (i, p, l, k). split; [|cbn [sv_row]; ring].
        unfold sv_idx. apply In_L3. rewrite In_enumerate, !In_range. auto.
      * intros g Hg. rewrite H1. now apply Hlt.
      * exact (fun g x Hg => H3 g x Hg).
Qed.
