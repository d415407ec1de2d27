(* Proofs about AttritionIncreasing. *)
Set Warnings "-notation-overridden,-ambiguous-paths".
From Coq Require Import ZArith QArith Qround Qabs Lia Lqa.
From mathcomp Require Import all_ssreflect.
From Verif Require Base.
From Verif Require Import AttrModel AttrSpec AttrLemmas.

Set Implicit Arguments.
Unset Strict Implicit.
Unset Printing Implicit Defensive.
Local Open Scope nat_scope.

Lemma natQ_ge0 n : Qle 0 (natQ n).
Proof. by rewrite /natQ -[0%Q]/(inject_Z 0) -Zle_Qle; lia. Qed.

Section Later.
Variable dss : bool.
Variable draw2 : nat -> seq nat -> nat -> seq nat.
Hypothesis dv : forall t, valid_draw (draw2 t).
Variables (nv : nat) (stayers : seq nat) (f : option (seq nat)).

Definition full (D : seq nat) := if dss then undup (D ++ stayers) else D.

(* One step: from the set D to the set D'. *)
Definition step_ok (frac : Q) (D D' : seq nat) : Prop :=
  [/\ uniq D', {subset D' <= D} &
      Qle (inject_Z 0) frac ->
      Z.of_nat (size D') = Z.min (np_round (Qmult frac (natQ nv))) (Z.of_nat (size D))].

Fixpoint chain (D : seq nat) (fracs : seq Q) (Ds : seq (seq nat)) : Prop :=
  match fracs, Ds with
  | [::], [::] => True
  | frac :: fracs', D' :: Ds' => step_ok frac D D' /\ chain D' fracs' Ds'
  | _, _ => False
  end.

Lemma later_ok fracs t (D : seq nat) : uniq D ->
  exists Ds, chain D fracs Ds
    /\ later_subsets dss draw2 t nv stayers f D fracs = Base.Ok [seq (f, opt (full E)) | E <- Ds].
Proof.
elim: fracs t D => [|frac fracs IH] t D uD /=; first by exists [::].
set n := Z.min _ _.
have [D' [sD' ->]] : exists D', step_ok frac D D' /\
   (if Z.eqb n 0 then Base.Ok [::]
    else if (Z.ltb 0 n && Z.ltb n (Z.of_nat (size D)))%Z then rng_choice (draw2 t) D n
    else Base.Ok D) = Base.Ok D'.
  case: (Z.eqb_spec n 0) => [n0|n0].
    by exists [::]; split=> //; split=> // _; rewrite -/(natQ nv) -/n n0.
  case: (Z.ltb_spec 0 n) => [np|np] /=; last first.
    exists D; split=> //; split=> // fr.
    have : (0 <= np_round (Qmult frac (natQ nv)))%Z.
      by apply: np_round_ge0; apply: Qmult_le_0_compat => //; exact: natQ_ge0.
    by move: n0 np; rewrite /n /natQ; lia.
  case: (Z.ltb_spec n (Z.of_nat (size D))) => [nl|nl]; last first.
    by exists D; split=> //; split=> // _; move: nl; rewrite /n /natQ; lia.
  exists (draw2 t D (Z.to_nat n)).
  have [|u s sub] := @dv t D (Z.to_nat n) uD; first by apply/leP; lia.
  split; first by split=> // _; rewrite s /n /natQ; lia.
  rewrite /rng_choice; case: (Z.ltb_spec n 0) => [|_] /=; first by lia.
  by case: (Z.ltb_spec (Z.of_nat (size D)) n) => [|_] //; lia.
have [uD' _ _] := sD'; have [Ds [c ->]] := IH t.+1 D' uD'.
by exists (D' :: Ds).
Qed.

Lemma chain_size D fracs Ds : chain D fracs Ds -> size Ds = size fracs.
Proof. by elim: fracs D Ds => [|x fr IH] D [|D' Ds] //= [_ /IH ->]. Qed.

Lemma chain_sub D fracs Ds a b : chain D fracs Ds -> a <= b -> b <= size Ds ->
  {subset nth [::] (D :: Ds) b <= nth [::] (D :: Ds) a}.
Proof.
elim: fracs D Ds a b => [|x fr IH] D [|D' Ds] a b //=.
  by move=> _ ab; rewrite leqn0 => /eqP b0; move: ab; rewrite b0 leqn0 => /eqP ->.
move=> [[_ sub _] c]; case: b => [|b]; first by rewrite leqn0 => /eqP -> _ i.
case: a => [|a] ab lb; last exact: (IH D' Ds a b c ab lb).
move=> i /(IH D' Ds 0 b c) h; apply: sub; exact: h.
Qed.

Lemma chain_uniq (D : seq nat) fracs Ds b : uniq D -> chain D fracs Ds -> uniq (nth [::] (D :: Ds) b).
Proof.
elim: fracs D Ds b => [|x fr IH] D [|D' Ds] b //= uD; first by case: b => [|[]].
by move=> [[uD' _ _] c]; case: b => //= b; apply: (IH D').
Qed.

(* The sizes, for non-negative fractions that do not increase. *)
Lemma chain_count D fracs Ds b : chain D fracs Ds ->
  (forall k, k < size fracs -> Qle (inject_Z 0) (nth (inject_Z 0) fracs k)) ->
  (forall k l, k <= l -> l < size fracs ->
     Qle (nth (inject_Z 0) fracs l) (nth (inject_Z 0) fracs k)) ->
  b < size fracs ->
  Z.of_nat (size (nth [::] Ds b))
  = Z.min (np_round (Qmult (nth (inject_Z 0) fracs b) (natQ nv))) (Z.of_nat (size D)).
Proof.
elim: fracs D Ds b => [|x fr IH] D [|D' Ds] b //= [[_ _ cnt] c] pos dec.
have x0 : Qle (inject_Z 0) x by exact: (pos 0).
case: b => [_|b lb] /=; first exact: cnt.
rewrite (IH D' Ds b c) //; last 2 first.
- by move=> k lk; apply: (pos k.+1).
- by move=> k l kl ll; apply: (dec k.+1 l.+1).
rewrite (cnt x0).
have : (np_round (Qmult (nth (inject_Z 0) fr b) (natQ nv)) <= np_round (Qmult x (natQ nv)))%Z.
  apply: np_round_le; apply: Qmult_le_compat_r; first exact: (dec 0 b.+1).
  exact: natQ_ge0.
by lia.
Qed.
End Later.

Section Increasing.
Variable weighted dss : bool.
Variables (min_firms n_draws : nat).
Variable clean : seq obs -> Base.res (seq obs).
Variables draw1 draw2 : nat -> seq nat -> nat -> seq nat.
Hypothesis dv2 : forall t, valid_draw (draw2 t).
Hypothesis cl : prunes clean.
Variables (shares : seq Q) (rows : seq obs).
Local Notation gen := (gen_increasing weighted dss min_firms n_draws clean draw1 draw2 shares rows).

Lemma first_subset_ok left t frac drops s1 :
  first_subset min_firms clean draw1 left t frac rows = Base.Ok (drops, s1) ->
  clean (drop_i drops rows) = Base.Ok s1.
Proof.
elim: left t => //= left IH t.
case: (rng_choice _ _ _) => // ds; case e: (clean _) => [s|[]] //=.
- by case: ifP => _ => [[<- <-]|]; [|case: left IH => // left' IH; exact: IH].
- by case: left IH => // left' IH; exact: IH.
Qed.

(* The structure of a successful result: the firms of the cleaned first subset,
   the workers dropped first, and the decreasing sets dropped later. *)
Lemma gen_structure l : gen = Base.Ok l ->
  exists frac fracs drops, exists fs ws : seq nat, exists Ds,
    let s1 := [seq r <- drop_i drops rows | (ob_j r \in fs) && (ob_i r \in ws)] in
    let s2 := keep_j (fids s1) rows in
    let f := opt [seq j <- fids rows | j \notin fids s1] in
    [/\ [seq Qminus (inject_Z 1) x | x <- shares] = frac :: fracs,
        forall i, i \notin ws -> ~~ is_mover (keep_j (fids s1) (drop_i drops rows)) i,
        chain (size (movers s2)) [seq i <- movers s2 | i \notin movers s1] fracs Ds
      & l = (f, opt (full dss (single_stayers weighted s1) drops))
            :: [seq (f, opt (full dss (single_stayers weighted s2) D)) | D <- Ds]].
Proof.
rewrite /gen_increasing; case: ifP => // _.
case e: (map _ shares) => [|frac fracs] //.
case e1: (first_subset _ _ _ _ _ _ _) => [[drops s1]|] //.
have [fs [ws [es1 nm]]] := cl (first_subset_ok e1).
set s2 := keep_j _ rows; set D := [seq i <- movers s2 | _].
have uD : uniq D by exact/filter_uniq/uniq_movers.
have [Ds [c ->]] := later_ok dss dv2 (size (movers s2)) (single_stayers weighted s2)
  (opt [seq j <- fids rows | j \notin fids s1]) fracs 0 uD.
move=> [<-]; exists frac, fracs, drops, fs, ws, Ds; rewrite -es1.
by split.
Qed.

(* Facts about one draw. *)
Section Draw.
Variables (drops fs ws : seq nat).
Local Notation s1 := [seq r <- drop_i drops rows | (ob_j r \in fs) && (ob_i r \in ws)].
Local Notation s2 := (keep_j (fids s1) rows).
Hypothesis nm : forall i, i \notin ws -> ~~ is_mover (keep_j (fids s1) (drop_i drops rows)) i.
Definition gone : seq nat := drops ++ [seq i <- wids rows | i \notin ws].

Lemma eq_filter_all (p q : pred obs) (l : seq obs) :
  all (fun r => p r == q r) l -> filter p l = filter q l.
Proof. by elim: l => //= r l IH /andP [/eqP -> /IH ->]. Qed.

Lemma all_i : all (fun r => ob_i r \in wids rows) rows.
Proof.
by rewrite -(all_map ob_i (fun i => i \in wids rows)); apply/allP => i; rewrite mem_undup.
Qed.

Lemma s1_drop : s1 = drop_i gone s2.
Proof.
pose p r := ((ob_j r \in fs) && (ob_i r \in ws)) && (ob_i r \notin drops).
have e : s1 = filter p rows by rewrite -filter_predI.
have h1 : all (fun r => p r ==> (ob_j r \in fids s1)) rows.
  rewrite -all_filter -e -(all_map ob_j (fun j => j \in fids s1)).
  by apply/allP => j; rewrite mem_undup.
have h2 j : j \in fids s1 -> j \in fs.
  rewrite mem_undup; apply: (allP _ j); rewrite all_map.
  by apply: sub_all (filter_all _ _) => r /= /andP [].
rewrite /keep_j; move: (fids s1) h1 h2 => vf h1 h2.
rewrite /drop_i -!filter_predI; apply: eq_filter_all.
have := all_i; have : all (fun r => (p r ==> (ob_j r \in vf)) && (ob_i r \in wids rows)) rows.
  by rewrite all_predI h1 all_i.
move=> h _; apply: sub_all h => r /= /andP []; rewrite /p /gone mem_cat mem_filter => h iw.
rewrite iw andbT negb_or negbK.
case: (ob_i r \in drops) h => /=; rewrite ?andbF // !andbT.
case: (ob_i r \in ws) => /=; rewrite ?andbF // !andbT.
by case: (ob_j r \in fs) (h2 (ob_j r)) => /= [_ ->|h _] //; case: (_ \in vf) h => // /(_ isT).
Qed.

Lemma drop_firms : (if opt [seq j <- fids rows | j \notin fids s1] is Some f then drop_j f rows else rows) = s2.
Proof.
have -> : forall F, (if opt F is Some f then drop_j f rows else rows) = drop_j F rows.
  by case=> //; rewrite /drop_j /=; elim: rows => //= r l <-.
rewrite /drop_j /keep_j; apply: eq_filter_all.
have : all (fun r => ob_j r \in fids rows) rows.
  by rewrite -(all_map ob_j (fun j => j \in fids rows)); apply/allP => j; rewrite mem_undup.
by apply: sub_all => r h; rewrite mem_filter h andbT negbK.
Qed.

Lemma kept_at W : kept (opt [seq j <- fids rows | j \notin fids s1], opt W) rows = drop_i W s2.
Proof. by rewrite /kept /= drop_firms opt_drop_i. Qed.

(* Movers that were not drawn were dropped. *)
Lemma gone_mover i : i \in movers s2 -> (i \in gone) = (i \in drops).
Proof.
rewrite /gone mem_cat mem_filter; case di: (i \in drops) => //= m2.
apply/negbTE/negP => /andP [/nm nmi _].
have e : is_mover (keep_j (fids s1) (drop_i drops rows)) i = is_mover s2 i.
  have -> : keep_j (fids s1) (drop_i drops rows) = drop_i drops s2.
    by rewrite /keep_j /drop_i -!filter_predI; apply: eq_filter => r /=; rewrite andbC.
  by rewrite is_mover_drop di.
by move: m2; rewrite mem_filter -e (negbTE nmi).
Qed.
Lemma movers_s1 : movers s1 = [seq i <- movers s2 | i \notin drops].
Proof.
rewrite {1}s1_drop movers_drop; apply: eq_in_filter => i mi.
by rewrite gone_mover.
Qed.
Lemma undrawn_dropped i : i \in movers s2 -> i \notin movers s1 -> i \in drops.
Proof. by move=> m2; rewrite movers_s1 mem_filter m2 andbT negbK. Qed.
Lemma single_s1 : {subset single_stayers weighted s1 <= single_stayers weighted s2}.
Proof. by move=> i; rewrite {1}s1_drop single_drop mem_filter => /andP []. Qed.

(* The workers excluded at the first and at a later subset. *)
Lemma full_mem (st D : seq nat) i : (i \in full dss st D) = (i \in D) || dss && (i \in st).
Proof. by rewrite /full; case: dss; rewrite ?mem_undup ?mem_cat ?orbF. Qed.

(* What is used is s2 without the excluded workers and without single stayers. *)
Lemma used_at W :
  used_increasing weighted dss (opt [seq j <- fids rows | j \notin fids s1], opt W) rows
  = drop_i (if dss then W ++ single_stayers weighted s2 else W) s2.
Proof.
rewrite /used_increasing kept_at; case: dss => //.
rewrite drop_i_cat single_drop; apply: eq_drop_i => i.
by rewrite !mem_cat mem_filter orbC; case: (i \in W).
Qed.

Lemma sub_drop W1 W2 (l : seq obs) : {subset W2 <= W1} -> sub_obs (drop_i W1 l) (drop_i W2 l).
Proof. by move=> h; apply: sub_filter => r; apply: contra; apply: h. Qed.

Lemma full_sub st (D1 D2 : seq nat) : {subset D2 <= D1} ->
  {subset (if dss then full dss (single_stayers weighted s2) D2 ++ single_stayers weighted s2
           else full dss (single_stayers weighted s2) D2)
   <= (if dss then full dss st D1 ++ single_stayers weighted s2 else full dss st D1)}.
Proof.
move=> h i; rewrite /full; case: dss; last exact: h.
rewrite !(mem_cat, mem_undup) => /orP [/orP [/h -> //|->]|->]; by rewrite !orbT.
Qed.
End Draw.

Lemma sub_obs_refl a : sub_obs a a.
Proof. by exists (nseq (size a) true); rewrite mask_true. Qed.

(* Nested subsets. *)
Lemma inc_nested l a b : gen = Base.Ok l -> a <= b -> b < size l ->
  sub_obs (used_increasing weighted dss (sub_at l a) rows) (used_increasing weighted dss (sub_at l b) rows).
Proof.
case/gen_structure => frac [fracs [drops [fs [ws [Ds [e nm c ->]]]]]] ab lb.
case: b ab lb => [|b] ab lb.
  by move: ab; rewrite leqn0 => /eqP ->; apply: sub_obs_refl.
have lb' : b < size Ds by move: lb; rewrite /= size_map.
rewrite {2}/sub_at /= (nth_map [::]) // used_at.
case: a ab => [|a] ab.
  rewrite /sub_at /= used_at; apply: sub_drop; apply: full_sub => i.
  move/(chain_sub (a := 0) (b := b.+1) c isT lb'); rewrite mem_filter => /andP [n1 m2].
  exact: (undrawn_dropped nm m2 n1).
rewrite /sub_at /= (nth_map [::]) ?(leq_ltn_trans _ lb') // used_at; apply: sub_drop.
by apply: full_sub => i; apply: (chain_sub (a := a.+1) (b := b.+1) c ab lb').
Qed.

Lemma inc_size l : gen = Base.Ok l -> size l = size shares.
Proof.
case/gen_structure => frac [fracs [drops [fs [ws [Ds [e nm c ->]]]]]].
rewrite /= size_map (chain_size c) -(size_map (fun x => Qminus (inject_Z 1) x) shares).
by move: e => /(congr1 size) ->.
Qed.

(* The firms of the first subset, at every step. *)
Lemma inc_firms l a : gen = Base.Ok l -> a < size l -> (sub_at l a).1 = (sub_at l 0).1.
Proof.
case/gen_structure => frac [fracs [drops [fs [ws [Ds [e nm c ->]]]]]].
by case: a => // a la; rewrite /sub_at /= (nth_map [::]) //; move: la; rewrite /= size_map.
Qed.

(* The firms of the first subset are at least min_firms. *)
Lemma first_subset_min left t frac drops s1 :
  first_subset min_firms clean draw1 left t frac rows = Base.Ok (drops, s1) ->
  min_firms <= size (fids s1).
Proof.
elim: left t => //= left IH t.
case: (rng_choice _ _ _) => // ds; case e: (clean _) => [s|[]] //=.
- by case: ifP => h => [[_ <-]|]; [|case: left IH => // left' IH; exact: IH].
- by case: left IH => // left' IH; exact: IH.
Qed.

Lemma mem_map_filter (p : pred obs) (l : seq obs) j : j \in map ob_j (filter p l) -> j \in map ob_j l.
Proof.
elim: l => //= r l IH; case: (p r); rewrite /= ?inE; last by move=> /IH ->; rewrite orbT.
by case/orP => [->//|/IH ->]; rewrite orbT.
Qed.
Lemma mem_keep (vf : seq nat) (l : seq obs) j : j \in vf -> j \in map ob_j l -> j \in map ob_j (keep_j vf l).
Proof.
move=> jv; elim: l => //= r l IH; rewrite inE => /orP [/eqP e|/IH h]; first by rewrite -e jv /= inE e eqxx.
by case: (_ \in vf) => //=; rewrite inE h orbT.
Qed.

Lemma inc_min l : gen = Base.Ok l ->
  min_firms <= size (fids (kept ((sub_at l 0).1, None) rows)).
Proof.
rewrite /gen_increasing; case: ifP => // _.
case e: (map _ shares) => [|frac fracs] //.
case e1: (first_subset _ _ _ _ _ _ _) => [[drops s1]|] //.
have m1 := first_subset_min e1.
have [fs [ws [es1 nm]]] := cl (first_subset_ok e1).
case: (later_subsets _ _ _ _ _ _ _ _) => // l' [<-] /=; apply: (leq_trans m1).
rewrite /kept /= es1 drop_firms -es1.
apply: uniq_leq_size (undup_uniq _) _ => j js.
rewrite mem_undup; apply: mem_keep (js) _.
by move: js; rewrite mem_undup es1 => /mem_map_filter /mem_map_filter.
Qed.

Lemma size_minus (m D : seq nat) : uniq m -> uniq D -> {subset D <= m} ->
  size [seq i <- m | i \notin D] = size m - size D.
Proof.
move=> um uD sub; rewrite size_filter -(count_predC (mem D) m).
have -> : count (mem D) m = size D.
  rewrite -size_filter; apply: perm_size; apply: uniq_perm; rewrite ?filter_uniq //.
  by move=> i; rewrite mem_filter /=; case h: (i \in D) => //=; apply: sub.
by rewrite addKn.
Qed.

Lemma size_split (m drops : seq nat) :
  size [seq i <- m | i \notin drops] + size [seq i <- m | i \notin [seq i <- m | i \notin drops]] = size m.
Proof.
rewrite !size_filter -[RHS](count_predC (fun i => i \notin drops)); congr (_ + _).
by apply: eq_in_count => i mi /=; rewrite mem_filter mi andbT.
Qed.

(* The number of movers. *)
Lemma inc_count l b : gen = Base.Ok l -> shares01 shares -> increasing shares ->
  0 < b -> b < size l ->
  let V := n_movers (kept ((sub_at l 0).1, None) rows) in
  Z.of_nat (n_movers (used_increasing weighted dss (sub_at l b) rows))
    = Z.max (Z.of_nat V - np_round (Qmult (Qminus (inject_Z 1) (nth (inject_Z 0) shares b)) (natQ V)))
            (Z.of_nat (n_movers (used_increasing weighted dss (sub_at l 0) rows))).
Proof.
case/gen_structure => frac [fracs [drops [fs [ws [Ds [e nm c ->]]]]]] s01 inc.
case: b => // b _ lb; have lb' : b < size Ds by move: lb; rewrite /= size_map.
rewrite /sub_at /= (nth_map [::]) // !used_at /kept /= drop_firms.
set s1 := [seq r <- drop_i drops rows | (ob_j r \in fs) && (ob_i r \in ws)]; set s2 := keep_j (fids s1) rows.
rewrite -/s1 -/s2 in c; set D0 := [seq i <- movers s2 | i \notin movers s1] in c.
have uD0 : uniq D0 by exact/filter_uniq/uniq_movers.
have mov (st D : seq nat) : {subset st <= single_stayers weighted s2} ->
   movers (drop_i (if dss then full dss st D ++ single_stayers weighted s2 else full dss st D) s2)
   = [seq i <- movers s2 | i \notin D].
  move=> hst; rewrite movers_drop; apply: eq_in_filter => i mi.
  have ns : i \notin single_stayers weighted s2 by apply: contraL mi; exact: single_not_mover.
  have ns' : i \notin st by apply: contra ns; apply: hst.
  have fE : (i \in full dss st D) = (i \in D) by rewrite full_mem (negbTE ns') andbF orbF.
  by case: dss fE => fE; rewrite ?mem_cat ?(negbTE ns) ?orbF fE.
have st1 : {subset single_stayers weighted s1 <= single_stayers weighted s2}.
  exact: single_s1.
rewrite /n_movers !mov // {mov}.
set Db := nth [::] Ds b.
have sizes : size fracs = size Ds by rewrite (chain_size c).
have sh : size shares = (size fracs).+1.
  by move: e => /(congr1 size); rewrite size_map.
have fr k : k < size fracs -> nth (inject_Z 0) fracs k = Qminus (inject_Z 1) (nth (inject_Z 0) shares k.+1).
  move=> lk; move: e => /(congr1 (fun s => nth (inject_Z 0) s k.+1)) /= <-.
  by rewrite (nth_map (inject_Z 0)) // sh ltnS.
have lbf : b < size fracs by rewrite sizes.
have cnt := @chain_count (size (movers s2)) D0 fracs Ds b c.
rewrite -(fr b lbf).
have -> : [seq i <- movers s2 | i \notin drops] = movers s1 by exact/esym/(movers_s1 nm).
have sD : {subset Db <= movers s2}.
  move=> i /(chain_sub (a := 0) (b := b.+1) c isT lb').
  by rewrite mem_filter => /andP [].
have uDb : uniq Db by exact: (chain_uniq b.+1 uD0 c).
rewrite (size_minus (uniq_movers s2) uDb sD).
have s0 : size (movers s1) + size D0 = size (movers s2).
  rewrite /D0 (_ : movers s1 = [seq i <- movers s2 | i \notin drops]); last exact: (movers_s1 nm).
  exact: size_split.
have le : size Db <= size (movers s2) by apply: uniq_leq_size.
have {}cnt := cnt _ _ lbf.
rewrite -/Db in cnt; rewrite /natQ in cnt *; rewrite Nat2Z.inj_sub; last exact/leP.
have {}s0 : (Z.of_nat (@size nat (movers s1)) + Z.of_nat (@size nat D0) = Z.of_nat (@size nat (movers s2)))%Z.
  by rewrite -s0 -plusE Nat2Z.inj_add.
rewrite cnt; first by lia.
- by move=> k lk; rewrite fr //; have [_] := s01 k.+1 (ltac:(by rewrite sh)); rewrite /inject_Z; lra.
- move=> k k' kk lk; rewrite !fr //; last exact: (leq_ltn_trans kk lk).
  by have := inc k.+1 k'.+1 kk (ltac:(by rewrite sh)); lra.
Qed.
End Increasing.
