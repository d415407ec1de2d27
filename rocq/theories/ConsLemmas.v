(* Machinery for the constraint builders: a nest of loops that writes cells is
   a list of writes; if no write hits a cell written before, each row of the
   final matrix is the sum of the writes to that row. *)
From Verif Require Import Base BaseLemmas UtilModel ConsModel ConsSpec.
Local Open Scope R_scope.

(* ---- lists of writes ---- *)
Record wr : Type := W { w_r : nat; w_c : nat; w_v : R; w_add : bool }.
Definition apply1 (w : wr) (m : dmat) : res dmat :=
  if w_add w then aadd (w_r w) (w_c w) (w_v w) m else aset (w_r w) (w_c w) (w_v w) m.

(* [b] after [a]: an overwriting write must hit a different cell. *)
Definition fresh (a b : wr) : Prop :=
  w_add b = false -> ~ (w_r a = w_r b /\ w_c a = w_c b).

Definition contrib (r : nat) (x : nat -> R) (w : wr) : R :=
  if (w_r w =? r)%nat then w_v w * x (w_c w) else 0.

Lemma sumn_point n c (d : R) (x : nat -> R) :
  (c < n)%nat -> sumn n (fun j => (if (j =? c)%nat then d else 0) * x j) = d * x c.
Proof.
  intros Hc. rewrite (sumn_single n c) by
    (try exact Hc; intros j _ Hj; destruct (Nat.eqb_spec j c); try congruence; lra).
  now rewrite Nat.eqb_refl.
Qed.

Lemma rowdot_delta m m' r c d r' x :
  nc m' = nc m -> (c < nc m)%nat ->
  (forall i j, ent m' i j = ent m i j + (if ((i =? r) && (j =? c))%nat then d else 0)) ->
  rowdot m' r' x = rowdot m r' x + (if (r =? r')%nat then d * x c else 0).
Proof.
  intros Hn Hc He. unfold rowdot. rewrite Hn.
  rewrite (sumn_ext _ _ (fun j => ent m r' j * x j
     + (if ((r' =? r) && (j =? c))%nat then d else 0) * x j)).
  2:{ intros j _. rewrite He. lra. }
  rewrite sumn_plus. f_equal. rewrite (Nat.eqb_sym r r').
  destruct (r' =? r)%nat; simpl.
  - now apply sumn_point.
  - apply sumn_zero. intros; lra.
Qed.

Lemma apply1_spec w m :
  (w_r w < nr m)%nat -> (w_c w < nc m)%nat ->
  (w_add w = false -> ent m (w_r w) (w_c w) = 0) ->
  exists m', apply1 w m = Ok m' /\ nr m' = nr m /\ nc m' = nc m
    /\ (forall i j, ent m' i j = ent m i j +
          (if ((i =? w_r w) && (j =? w_c w))%nat then w_v w else 0))
    /\ (forall r x, rowdot m' r x = rowdot m r x + contrib r x w).
Proof.
  intros Hr Hc Hz. unfold apply1.
  destruct w as [r c v []]; cbn [w_r w_c w_v w_add] in *.
  - unfold aadd. rewrite (proj2 (Nat.ltb_lt _ _) Hr), (proj2 (Nat.ltb_lt _ _) Hc).
    cbn [andb]. eexists; split; [reflexivity|]. split; [reflexivity|]. split; [reflexivity|].
    assert (He : forall i j, ent (mkmat (nr m) (nc m)
       (fun i j => if ((i =? r) && (j =? c))%nat then ent m i j + v else ent m i j)) i j
       = ent m i j + (if ((i =? r) && (j =? c))%nat then v else 0)).
    { intros i j. cbn [ent]. destruct ((i =? r) && (j =? c))%nat; lra. }
    split; [exact He|]. intros r' x. unfold contrib; cbn [w_r w_c w_v].
    eapply (rowdot_delta m); [reflexivity|exact Hc|exact He].
  - unfold aset. rewrite (proj2 (Nat.ltb_lt _ _) Hr), (proj2 (Nat.ltb_lt _ _) Hc).
    cbn [andb]. eexists; split; [reflexivity|]. split; [reflexivity|]. split; [reflexivity|].
    assert (He : forall i j, ent (mkmat (nr m) (nc m)
       (fun i j => if ((i =? r) && (j =? c))%nat then v else ent m i j)) i j
       = ent m i j + (if ((i =? r) && (j =? c))%nat then v else 0)).
    { intros i j. cbn [ent]. destruct (Nat.eqb_spec i r) as [->|]; simpl; [|lra].
      destruct (Nat.eqb_spec j c) as [->|]; [|lra]. rewrite (Hz eq_refl). lra. }
    split; [exact He|]. intros r' x. unfold contrib; cbn [w_r w_c w_v].
    eapply (rowdot_delta m); [reflexivity|exact Hc|exact He].
Qed.

Lemma writes_spec ws m :
  (forall w, In w ws -> (w_r w < nr m)%nat /\ (w_c w < nc m)%nat) ->
  ForallOrdPairs fresh ws ->
  (forall w, In w ws -> w_add w = false -> ent m (w_r w) (w_c w) = 0) ->
  exists m', for_each ws apply1 m = Ok m' /\ nr m' = nr m /\ nc m' = nc m
    /\ forall r x, rowdot m' r x = rowdot m r x + rsum (map (contrib r x) ws).
Proof.
  revert m; induction ws as [|w ws IH]; intros m Hb Hf Hz; simpl.
  - exists m. repeat split. intros; lra.
  - destruct (apply1_spec w m) as (m1 & E & Hr & Hc & He & Hd).
    + apply (Hb w); now left.
    + apply (Hb w); now left.
    + intros Ha. apply Hz; [now left|exact Ha].
    + rewrite E; cbn [bind]. inversion Hf as [|? ? Hw Hf']; subst.
      rewrite Forall_forall in Hw.
      destruct (IH m1) as (m2 & E2 & Hr2 & Hc2 & Hd2).
      * intros w' Hw'. rewrite Hr, Hc. apply Hb; now right.
      * exact Hf'.
      * intros w' Hw' Ha. rewrite He, (Hz w') by (first [now right|exact Ha]).
        specialize (Hw w' Hw' Ha).
        destruct (Nat.eqb_spec (w_r w') (w_r w)); simpl; [|lra].
        destruct (Nat.eqb_spec (w_c w') (w_c w)); [|lra]. exfalso; apply Hw; split; congruence.
      * exists m2. split; [exact E2|]. split; [congruence|]. split; [congruence|].
        intros r x. rewrite Hd2, Hd. lra.
Qed.

(* On a zero matrix the rows are the sums of the writes. *)
Lemma writes_zero ws R C :
  (forall w, In w ws -> (w_r w < R)%nat /\ (w_c w < C)%nat) ->
  ForallOrdPairs fresh ws ->
  exists m', for_each ws apply1 (mkmat R C (fun _ _ => 0)) = Ok m' /\ nr m' = R /\ nc m' = C
    /\ forall r x, rowdot m' r x = rsum (map (contrib r x) ws).
Proof.
  intros Hb Hf.
  destruct (writes_spec ws (mkmat R C (fun _ _ => 0))) as (m' & E & H1 & H2 & H3);
    try assumption; [reflexivity|].
  exists m'. split; [exact E|]. split; [exact H1|]. split; [exact H2|].
  intros r x. rewrite H3. unfold rowdot at 1; cbn [nc ent].
  rewrite sumn_zero by (intros; lra). lra.
Qed.

(* ---- turning loop nests into lists of writes ---- *)
Lemma for_each_ext {A St} (l : list A) (f g : A -> St -> res St) s :
  (forall x s, In x l -> f x s = g x s) -> for_each l f s = for_each l g s.
Proof.
  revert s; induction l as [|x l IH]; intros s H; simpl; [reflexivity|].
  rewrite H by now left. destruct (g x s); simpl; [|reflexivity].
  apply IH. intros; apply H; now right.
Qed.

Lemma for_each_flat {A B St} (l : list A) (f : A -> list B) (g : B -> St -> res St) s :
  for_each l (fun x => for_each (f x) g) s = for_each (flat_map f l) g s.
Proof.
  revert s; induction l as [|x l IH]; intros s; simpl; [reflexivity|].
  rewrite for_each_app. destruct (for_each (f x) g s); simpl; [apply IH|reflexivity].
Qed.

Lemma bind_ok {A} (x : res A) : bind x Ok = x.
Proof. now destruct x. Qed.

(* Loops with running shifts: the shift at iteration k is base + k * step. *)
Lemma shift_loop2 {St} n (body : nat -> nat -> nat -> St -> res St) a b s0 rs0 cs0 :
  for_each (range n) (fun k (st : St * nat * nat) =>
      let '(s, rs, cs) := st in
      bind (body k rs cs s) (fun s => Ok (s, rs + a, cs + b)%nat)) (s0, rs0, cs0)
  = bind (for_each (range n) (fun k s => body k (rs0 + k * a)%nat (cs0 + k * b)%nat s) s0)
         (fun s => Ok (s, rs0 + n * a, cs0 + n * b)%nat).
Proof.
  unfold range. induction n as [|n IH].
  - simpl. now rewrite !Nat.add_0_r.
  - rewrite seq_S, !for_each_app. simpl. rewrite IH.
    destruct (for_each (seq 0 n) _ s0) as [s|e]; simpl; [|reflexivity].
    destruct (body n _ _ s) as [s'|e]; simpl; [|reflexivity].
    f_equal. f_equal; [f_equal|]; lia.
Qed.

Lemma shift_loop1 {St} n (body : nat -> nat -> St -> res St) a s0 rs0 :
  for_each (range n) (fun k (st : St * nat) =>
      let '(s, rs) := st in
      bind (body k rs s) (fun s => Ok (s, rs + a)%nat)) (s0, rs0)
  = bind (for_each (range n) (fun k s => body k (rs0 + k * a)%nat s) s0)
         (fun s => Ok (s, rs0 + n * a)%nat).
Proof.
  unfold range. induction n as [|n IH].
  - simpl. now rewrite !Nat.add_0_r.
  - rewrite seq_S, !for_each_app. simpl. rewrite IH.
    destruct (for_each (seq 0 n) _ s0) as [s|e]; simpl; [|reflexivity].
    destruct (body n _ s) as [s'|e]; simpl; [|reflexivity].
    f_equal. f_equal. lia.
Qed.

(* ---- freshness of nests ---- *)
Lemma FOP_app {A} (P : A -> A -> Prop) l m :
  ForallOrdPairs P l -> ForallOrdPairs P m ->
  (forall a b, In a l -> In b m -> P a b) -> ForallOrdPairs P (l ++ m).
Proof.
  intros Hl Hm H. induction Hl as [|x l Hx Hl IH]; simpl; [exact Hm|].
  constructor.
  - rewrite Forall_forall in *. intros y Hy. apply in_app_or in Hy as [Hy|Hy].
    + now apply Hx.
    + apply H; [now left|exact Hy].
  - apply IH. intros; apply H; [now right|assumption].
Qed.

Lemma FOP_flat_map {A B} (P : B -> B -> Prop) (f : A -> list B) l :
  NoDup l -> (forall x, In x l -> ForallOrdPairs P (f x)) ->
  (forall x y a b, In x l -> In y l -> x <> y -> In a (f x) -> In b (f y) -> P a b) ->
  ForallOrdPairs P (flat_map f l).
Proof.
  induction 1 as [|x l Hx Hnd IH]; intros H1 H2; simpl; [constructor|].
  apply FOP_app.
  - apply H1; now left.
  - apply IH; [intros; apply H1; now right|].
    intros y z a b Hy Hz. apply H2; now right.
  - intros a b Ha Hb. apply in_flat_map in Hb as [y [Hy Hb]].
    apply (H2 x y); try assumption; [now left|now right|].
    intros ->. contradiction.
Qed.

Lemma NoDup_range n : NoDup (range n).
Proof. apply seq_NoDup. Qed.

Lemma In_range n i : In i (range n) <-> (i < n)%nat.
Proof. unfold range. rewrite in_seq. lia. Qed.

Lemma In_enumerate {A} (l : list A) i x :
  In (i, x) (enumerate l) <-> nth_error l i = Some x.
Proof.
  split.
  - intros H. apply In_nth_error in H as [j Hj]. rewrite nth_error_enumerate in Hj.
    destruct (nth_error l j) eqn:E; simpl in Hj; [|discriminate]. congruence.
  - intros H. apply nth_error_In with (n := i). now rewrite nth_error_enumerate, H.
Qed.

Lemma NoDup_enumerate {A} (l : list A) : NoDup (enumerate l).
Proof.
  unfold enumerate. generalize 0%nat. induction l as [|x l IH]; intros k; simpl; [constructor|].
  constructor; [|apply IH]. intros H. apply in_combine_l in H. apply in_seq in H. lia.
Qed.

(* Two- and three-level nests. *)
Lemma FOP2 {X Y B} (P : B -> B -> Prop) (L1 : list X) (L2 : list Y) (f : X -> Y -> list B) :
  NoDup L1 -> NoDup L2 ->
  (forall x y, In x L1 -> In y L2 -> ForallOrdPairs P (f x y)) ->
  (forall x y x' y' a b, In x L1 -> In y L2 -> In x' L1 -> In y' L2 ->
     (x, y) <> (x', y') -> In a (f x y) -> In b (f x' y') -> P a b) ->
  ForallOrdPairs P (flat_map (fun x => flat_map (f x) L2) L1).
Proof.
  intros N1 N2 H1 H2. apply FOP_flat_map; [exact N1| |].
  - intros x Hx. apply FOP_flat_map; [exact N2|auto|].
    intros y y' a b Hy Hy' Hne Ha Hb. apply (H2 x y x y'); auto. congruence.
  - intros x x' a b Hx Hx' Hne Ha Hb.
    apply in_flat_map in Ha as [y [Hy Ha]]. apply in_flat_map in Hb as [y' [Hy' Hb]].
    apply (H2 x y x' y'); auto. congruence.
Qed.

Lemma FOP3 {X Y Z B} (P : B -> B -> Prop) (L1 : list X) (L2 : list Y) (L3 : list Z)
    (f : X -> Y -> Z -> list B) :
  NoDup L1 -> NoDup L2 -> NoDup L3 ->
  (forall x y z, In x L1 -> In y L2 -> In z L3 -> ForallOrdPairs P (f x y z)) ->
  (forall x y z x' y' z' a b, In x L1 -> In y L2 -> In z L3 ->
     In x' L1 -> In y' L2 -> In z' L3 ->
     (x, y, z) <> (x', y', z') -> In a (f x y z) -> In b (f x' y' z') -> P a b) ->
  ForallOrdPairs P
    (flat_map (fun x => flat_map (fun y => flat_map (f x y) L3) L2) L1).
Proof.
  intros N1 N2 N3 H1 H2.
  apply (FOP2 P L1 L2 (fun x y => flat_map (f x y) L3)); [exact N1|exact N2| |].
  - intros x y Hx Hy. apply FOP_flat_map; [exact N3|auto|].
    intros z z' a b Hz Hz' Hne Ha Hb. apply (H2 x y z x y z'); auto. congruence.
  - intros x y x' y' a b Hx Hy Hx' Hy' Hne Ha Hb.
    apply in_flat_map in Ha as [z [Hz Ha]]. apply in_flat_map in Hb as [z' [Hz' Hb]].
    apply (H2 x y z x' y' z'); auto. congruence.
Qed.

(* ---- sums over nests ---- *)
Lemma rsum_map_flat {A B} (F : B -> R) (f : A -> list B) l :
  rsum (map F (flat_map f l)) = rsum (map (fun x => rsum (map F (f x))) l).
Proof.
  induction l as [|x l IH]; simpl; [reflexivity|].
  rewrite map_app, rsum_app, IH. reflexivity.
Qed.

Lemma rsum_enumerate {A} (F : nat * A -> R) (l : list A) d :
  rsum (map F (enumerate l)) = sumn (length l) (fun i => F (i, nth i l d)).
Proof.
  unfold sumn, enumerate, range.
  assert (G : forall (l : list A) k, rsum (map F (combine (seq k (length l)) l))
    = rsum (map (fun i => F ((k + i)%nat, nth i l d)) (seq 0 (length l)))).
  { clear. induction l as [|x l IH]; intros k; simpl; [reflexivity|].
    rewrite Nat.add_0_r. f_equal. rewrite IH, <- seq_shift, map_map.
    apply rsum_map_ext. intros i _. f_equal. f_equal. lia. }
  rewrite G. reflexivity.
Qed.

Lemma rsum_range (F : nat -> R) n : rsum (map F (range n)) = sumn n F.
Proof. reflexivity. Qed.

(* ---- mixed radix ---- *)
Lemma mr_inj b q q' l l' :
  (l < b)%nat -> (l' < b)%nat -> (q * b + l = q' * b + l')%nat -> q = q' /\ l = l'.
Proof.
  intros Hl Hl' E.
  assert (q = q') by (destruct (Nat.lt_total q q') as [H|[H|H]]; [nia|exact H|nia]).
  subst. lia.
Qed.

Lemma mr_decode a b r : (r < a * b)%nat -> exists i j, (i < a)%nat /\ (j < b)%nat /\ (r = i * b + j)%nat.
Proof.
  intros H. assert (b <> 0)%nat by nia. exists (r / b)%nat, (r mod b)%nat. repeat split.
  - apply Nat.div_lt_upper_bound; [assumption|]. rewrite Nat.mul_comm. exact H.
  - now apply Nat.mod_upper_bound.
  - rewrite (Nat.div_mod r b) at 1 by assumption. lia.
Qed.

Lemma mr_lt a b i j : (i < a)%nat -> (j < b)%nat -> (i * b + j < a * b)%nat.
Proof. nia. Qed.

(* Three digits, in the layout used by the builders. *)
Lemma mr3_inj a b i k l i' k' l' :
  (k < a)%nat -> (k' < a)%nat -> (l < b)%nat -> (l' < b)%nat ->
  (i * b * a + k * b + l = i' * b * a + k' * b + l')%nat -> i = i' /\ k = k' /\ l = l'.
Proof.
  intros Hk Hk' Hl Hl' E.
  replace (i * b * a + k * b + l)%nat with ((i * a + k) * b + l)%nat in E by ring.
  replace (i' * b * a + k' * b + l')%nat with ((i' * a + k') * b + l')%nat in E by ring.
  apply mr_inj in E as [E ->]; [|assumption..].
  apply mr_inj in E as [-> ->]; [|assumption..]. auto.
Qed.

Lemma mr3_decode n a b r : (r < n * b * a)%nat ->
  exists i k l, (i < n)%nat /\ (k < a)%nat /\ (l < b)%nat /\ (r = i * b * a + k * b + l)%nat.
Proof.
  intros H. destruct (mr_decode (n * a) b r) as (q & l & Hq & Hl & ->); [lia|].
  destruct (mr_decode n a q Hq) as (i & k & Hi & Hk & ->).
  exists i, k, l. repeat split; try assumption. ring.
Qed.

Lemma mr3_lt n a b i k l : (i < n)%nat -> (k < a)%nat -> (l < b)%nat ->
  (i * b * a + k * b + l < n * b * a)%nat.
Proof.
  intros Hi Hk Hl.
  replace (i * b * a + k * b + l)%nat with ((i * a + k) * b + l)%nat by ring.
  replace (n * b * a)%nat with (n * a * b)%nat by ring.
  apply mr_lt; [|exact Hl]. now apply mr_lt.
Qed.

(* A parameter index lies inside the vector. *)
Lemma col_lt nt nl nk t l k : (t < nt)%nat -> (l < nl)%nat -> (k < nk)%nat ->
  (t * nl * nk + l * nk + k < nt * nl * nk)%nat.
Proof.
  intros Ht Hl Hk.
  replace (t * nl * nk + l * nk + k)%nat with ((t * nl + l) * nk + k)%nat by ring.
  apply mr_lt; [|exact Hk]. now apply mr_lt.
Qed.

Lemma col_inj nl nk t l k t' l' k' :
  (l < nl)%nat -> (k < nk)%nat -> (l' < nl)%nat -> (k' < nk)%nat ->
  (t * nl * nk + l * nk + k = t' * nl * nk + l' * nk + k')%nat -> t = t' /\ l = l' /\ k = k'.
Proof.
  intros Hl Hk Hl' Hk' E.
  replace (t * nl * nk + l * nk + k)%nat with ((t * nl + l) * nk + k)%nat in E by ring.
  replace (t' * nl * nk + l' * nk + k')%nat with ((t' * nl + l') * nk + k')%nat in E by ring.
  apply mr_inj in E as [E ->]; [|assumption..].
  apply mr_inj in E as [-> ->]; [|assumption..]. auto.
Qed.

(* Selecting one term of a nested sum by its row. *)
Lemma sum2_pick n b (F : nat -> nat -> R) i0 l0 (row : nat -> nat -> nat) :
  (i0 < n)%nat -> (l0 < b)%nat ->
  (forall i l, (i < n)%nat -> (l < b)%nat -> row i l = row i0 l0 -> i = i0 /\ l = l0) ->
  sumn n (fun i => sumn b (fun l => if (row i l =? row i0 l0)%nat then F i l else 0))
  = F i0 l0.
Proof.
  intros Hi Hl Hinj. rewrite (sumn_single n i0).
  - rewrite (sumn_single b l0).
    + now rewrite Nat.eqb_refl.
    + exact Hl.
    + intros l Hl' Hne. destruct (Nat.eqb_spec (row i0 l) (row i0 l0)) as [E|]; [|reflexivity].
      apply Hinj in E; [|assumption..]. destruct E; congruence.
  - exact Hi.
  - intros i Hi' Hne. apply sumn_zero. intros l Hl'.
    destruct (Nat.eqb_spec (row i l) (row i0 l0)) as [E|]; [|reflexivity].
    apply Hinj in E; [|assumption..]. destruct E; congruence.
Qed.

Lemma sum3_pick n a b (F : nat -> nat -> nat -> R) i0 k0 l0 (row : nat -> nat -> nat -> nat) :
  (i0 < n)%nat -> (k0 < a)%nat -> (l0 < b)%nat ->
  (forall i k l, (i < n)%nat -> (k < a)%nat -> (l < b)%nat ->
     row i k l = row i0 k0 l0 -> i = i0 /\ k = k0 /\ l = l0) ->
  sumn n (fun i => sumn a (fun k => sumn b (fun l =>
     if (row i k l =? row i0 k0 l0)%nat then F i k l else 0)))
  = F i0 k0 l0.
Proof.
  intros Hi Hk Hl Hinj. rewrite (sumn_single n i0).
  - apply (sum2_pick a b (F i0) k0 l0 (row i0) Hk Hl).
    intros k l Hk' Hl' E. destruct (Hinj i0 k l) as (_ & H); auto.
  - exact Hi.
  - intros i Hi' Hne. apply sumn_zero. intros k Hk'. apply sumn_zero. intros l Hl'.
    destruct (Nat.eqb_spec (row i k l) (row i0 k0 l0)) as [E|]; [|reflexivity].
    apply Hinj in E; [|assumption..]. destruct E; congruence.
Qed.

(* ---- right-hand sides ---- *)
Lemma nth_full n v r : (r < n)%nat -> nth r (full n v) 0 = v.
Proof.
  intros Hr. unfold full. rewrite (nth_map_in _ _ _ 0%nat); [reflexivity|].
  unfold range. now rewrite seq_length.
Qed.

Lemma length_full n v : length (full n v) = n.
Proof. unfold full. rewrite map_length. unfold range. apply seq_length. Qed.

Lemma zeros_ok r c rn cn :
  r = zn rn -> c = zn cn -> zeros r c = Ok (mkmat rn cn (fun _ _ => 0)).
Proof.
  intros -> ->. unfold zeros, zn.
  destruct (Z.ltb_spec (Z.of_nat rn) 0); [lia|].
  destruct (Z.ltb_spec (Z.of_nat cn) 0); [lia|]. simpl. now rewrite !Nat2Z.id.
Qed.

Lemma rowdot_scal c m r x : rowdot (scal_mat c m) r x = c * rowdot m r x.
Proof.
  unfold rowdot; cbn [nc scal_mat ent]. rewrite <- sumn_scal. apply sumn_ext. intros; lra.
Qed.

Lemma rowdot_flip f m r x :
  rowdot (flip_sign f m) r x = if f then - rowdot m r x else rowdot m r x.
Proof. destruct f; cbn [flip_sign]; [rewrite rowdot_scal; lra|reflexivity]. Qed.

Lemma nr_flip f m : nr (flip_sign f m) = nr m.
Proof. now destruct f. Qed.
Lemma nc_flip f m : nc (flip_sign f m) = nc m.
Proof. now destruct f. Qed.

Lemma contrib_same r0 (F : nat -> R) r x (l : list (nat * R)) :
  rsum (map (contrib r x) (map (fun p => W r0 (fst p) (snd p) false) l))
  = if (r0 =? r)%nat then rsum (map (fun p => snd p * x (fst p)) l) else 0.
Proof.
  induction l as [|[c v] l IH]; simpl; [now destruct (r0 =? r)%nat|].
  rewrite IH. unfold contrib; cbn [w_r w_c w_v]. destruct (r0 =? r)%nat; lra.
Qed.

(* ---- one generator per row ---- *)
Lemma rsum_pick {G} (L : list G) (row : G -> nat) (F : G -> R) g0 :
  NoDup L -> In g0 L ->
  (forall g, In g L -> row g = row g0 -> g = g0) ->
  rsum (map (fun g => if (row g =? row g0)%nat then F g else 0) L) = F g0.
Proof.
  intros HN Hin Hinj. induction HN as [|g L Hg HN IH]; [destruct Hin|]. simpl.
  destruct Hin as [->|Hin].
  - rewrite Nat.eqb_refl. rewrite rsum_zero; [lra|]. intros g Hg'.
    destruct (Nat.eqb_spec (row g) (row g0)) as [E|]; [|reflexivity].
    apply Hinj in E; [|now right]. subst. contradiction.
  - destruct (Nat.eqb_spec (row g) (row g0)) as [E|].
    + apply Hinj in E; [|now left]. subst. contradiction.
    + rewrite IH; [lra|exact Hin|]. intros; apply Hinj; [now right|assumption].
Qed.

Lemma contrib_row r x ws r0 :
  (forall w, In w ws -> w_r w = r0) ->
  rsum (map (contrib r x) ws)
  = if (r0 =? r)%nat then rsum (map (fun w => w_v w * x (w_c w)) ws) else 0.
Proof.
  induction ws as [|w ws IH]; intros H; simpl; [now destruct (r0 =? r)%nat|].
  rewrite IH by (intros; apply H; now right).
  unfold contrib. rewrite (H w) by now left. destruct (r0 =? r)%nat; lra.
Qed.

Lemma rows_spec {G} (L : list G) (row : G -> nat) (f : G -> list wr) R C :
  NoDup L ->
  (forall g g', In g L -> In g' L -> row g = row g' -> g = g') ->
  (forall g, In g L -> (row g < R)%nat) ->
  (forall g w, In g L -> In w (f g) -> w_r w = row g /\ (w_c w < C)%nat) ->
  (forall g, In g L -> ForallOrdPairs fresh (f g)) ->
  exists m', for_each (flat_map f L) apply1 (mkmat R C (fun _ _ => 0)) = Ok m'
    /\ nr m' = R /\ nc m' = C
    /\ forall g x, In g L ->
         rowdot m' (row g) x = rsum (map (fun w => w_v w * x (w_c w)) (f g)).
Proof.
  intros HN Hinj HR Hw Hf.
  destruct (writes_zero (flat_map f L) R C) as (m' & E & H1 & H2 & H3).
  - intros w Hin. apply in_flat_map in Hin as [g [Hg Hin]].
    destruct (Hw g w Hg Hin) as [-> Hc]. auto.
  - apply FOP_flat_map; [exact HN|exact Hf|].
    intros g g' a b Hg Hg' Hne Ha Hb _ [Er _].
    destruct (Hw g a Hg Ha) as [Ea _]. destruct (Hw g' b Hg' Hb) as [Eb _].
    apply Hne, Hinj; [assumption..|congruence].
  - exists m'. split; [exact E|]. split; [exact H1|]. split; [exact H2|].
    intros g x Hg. rewrite H3, rsum_map_flat.
    rewrite (rsum_map_ext _ (fun g' => if (row g' =? row g)%nat
        then rsum (map (fun w => w_v w * x (w_c w)) (f g')) else 0)).
    + apply (rsum_pick L row (fun g => rsum (map (fun w => w_v w * x (w_c w)) (f g))));
        [exact HN|exact Hg|]. intros; apply Hinj; assumption.
    + intros g' Hg'. apply contrib_row. intros w Hin. now apply (Hw g' w).
Qed.

(* Index lists of two- and three-level nests. *)
Definition L2 {X Y} (l1 : list X) (l2 : list Y) : list (X * Y) :=
  flat_map (fun x => map (fun y => (x, y)) l2) l1.
Definition L3 {X Y Z} (l1 : list X) (l2 : list Y) (l3 : list Z) : list (X * Y * Z) :=
  L2 (L2 l1 l2) l3.

Lemma In_L2 {X Y} (l1 : list X) (l2 : list Y) x y :
  In (x, y) (L2 l1 l2) <-> In x l1 /\ In y l2.
Proof.
  unfold L2. rewrite in_flat_map. split.
  - intros [x' [Hx H]]. apply in_map_iff in H as [y' [E Hy]]. inversion E; subst. auto.
  - intros [Hx Hy]. exists x. split; [exact Hx|]. apply in_map_iff. eauto.
Qed.

Lemma In_L3 {X Y Z} (l1 : list X) (l2 : list Y) (l3 : list Z) x y z :
  In (x, y, z) (L3 l1 l2 l3) <-> In x l1 /\ In y l2 /\ In z l3.
Proof. unfold L3. rewrite !In_L2. tauto. Qed.

Lemma NoDup_flat_map {A B} (f : A -> list B) l :
  NoDup l -> (forall x, In x l -> NoDup (f x)) ->
  (forall x y a, In x l -> In y l -> In a (f x) -> In a (f y) -> x = y) ->
  NoDup (flat_map f l).
Proof.
  induction 1 as [|x l Hx HN IH]; intros H1 H2; simpl; [constructor|].
  assert (G : forall l m : list B, NoDup l -> NoDup m ->
            (forall a, In a l -> In a m -> False) -> NoDup (l ++ m)).
  { clear. intros l m Hl Hm H. induction Hl as [|a l Ha Hl IH]; simpl; [exact Hm|].
    constructor.
    - rewrite in_app_iff. intros [H'|H']; [contradiction|]. apply (H a); [now left|exact H'].
    - apply IH. intros b Hb. apply H. now right. }
  apply G.
  - apply H1; now left.
  - apply IH; [intros; apply H1; now right|].
    intros y z a Hy Hz. apply H2; now right.
  - intros a Ha Hb. apply in_flat_map in Hb as [y [Hy Hb]].
    assert (x = y) by (apply (H2 x y a); [now left|now right|assumption..]).
    subst. contradiction.
Qed.

Lemma NoDup_L2 {X Y} (l1 : list X) (l2 : list Y) : NoDup l1 -> NoDup l2 -> NoDup (L2 l1 l2).
Proof.
  intros H1 H2. apply NoDup_flat_map; [exact H1| |].
  - intros x _. apply FinFun.Injective_map_NoDup; [|exact H2]. intros a b E. congruence.
  - intros x y a _ _ Ha Hb. apply in_map_iff in Ha as [u [<- _]].
    apply in_map_iff in Hb as [v [E _]]. congruence.
Qed.

Lemma NoDup_L3 {X Y Z} (l1 : list X) (l2 : list Y) (l3 : list Z) :
  NoDup l1 -> NoDup l2 -> NoDup l3 -> NoDup (L3 l1 l2 l3).
Proof. intros. apply NoDup_L2; [|assumption]. now apply NoDup_L2. Qed.

Lemma flat_map_flat_map {A B C} (f : B -> list C) (g : A -> list B) l :
  flat_map f (flat_map g l) = flat_map (fun x => flat_map f (g x)) l.
Proof.
  induction l as [|x l IH]; simpl; [reflexivity|]. now rewrite flat_map_app, IH.
Qed.

Lemma flat_map_map {A B C} (f : B -> list C) (g : A -> B) l :
  flat_map f (map g l) = flat_map (fun x => f (g x)) l.
Proof. induction l as [|x l IH]; simpl; [reflexivity|]. now rewrite IH. Qed.

Lemma flat_map_ext_in {A B} (f g : A -> list B) l :
  (forall x, In x l -> f x = g x) -> flat_map f l = flat_map g l.
Proof.
  induction l as [|x l IH]; intros H; simpl; [reflexivity|].
  rewrite H by now left. rewrite IH; [reflexivity|]. intros; apply H; now right.
Qed.

Lemma for_each_L2 {X Y B St} (l1 : list X) (l2 : list Y) (f : X * Y -> list B)
    (g : B -> St -> res St) s :
  for_each (flat_map f (L2 l1 l2)) g s
  = for_each l1 (fun x => for_each l2 (fun y => for_each (f (x, y)) g)) s.
Proof.
  unfold L2. rewrite flat_map_flat_map.
  rewrite <- for_each_flat. apply for_each_ext. intros x s' _.
  rewrite flat_map_map. symmetry. apply for_each_flat.
Qed.

Lemma for_each_L3 {X Y Z B St} (l1 : list X) (l2 : list Y) (l3 : list Z)
    (f : X * Y * Z -> list B) (g : B -> St -> res St) s :
  for_each (flat_map f (L3 l1 l2 l3)) g s
  = for_each l1 (fun x => for_each l2 (fun y => for_each l3
       (fun z => for_each (f (x, y, z)) g))) s.
Proof.
  unfold L3, L2 at 1. rewrite flat_map_flat_map.
  erewrite (flat_map_ext_in _ (fun p : X * Y => flat_map (fun z => f (p, z)) l3)).
  2:{ intros [x y] _. now rewrite flat_map_map. }
  rewrite for_each_L2. apply for_each_ext. intros x s' _. apply for_each_ext.
  intros y s'' _. symmetry. apply for_each_flat.
Qed.

Lemma rsum_L2 {X Y} (l1 : list X) (l2 : list Y) (F : X * Y -> R) :
  rsum (map F (L2 l1 l2)) = rsum (map (fun x => rsum (map (fun y => F (x, y)) l2)) l1).
Proof.
  unfold L2. rewrite rsum_map_flat. apply rsum_map_ext. intros x _. now rewrite map_map.
Qed.

Lemma rsum_L3 {X Y Z} (l1 : list X) (l2 : list Y) (l3 : list Z) (F : X * Y * Z -> R) :
  rsum (map F (L3 l1 l2 l3))
  = rsum (map (fun x => rsum (map (fun y => rsum (map (fun z => F (x, y, z)) l3)) l2)) l1).
Proof. unfold L3. now rewrite !rsum_L2. Qed.
