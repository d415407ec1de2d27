(* Named covariates of the estimator with controls: selection of columns and
   coefficients, and the pairs of rows counted by clustered standard errors. *)
Set Warnings "-notation-overridden,-ambiguous-paths".
From mathcomp Require Import all_ssreflect all_algebra.
From Verif Require Base.
From Verif Require Import FEModel FESpec FECovLemmas FECtlModel FECtlSpec FECtlLemmas.

Set Implicit Arguments.
Unset Strict Implicit.
Unset Printing Implicit Defensive.

Import GRing.Theory Num.Theory.
Local Open Scope ring_scope.

Section Names.
Variable F : realFieldType.
Variable N : eqType.
Variables npsi nalpha : N.
Variable d : cdata F N.
Local Notation bs := (blocks npsi nalpha d).
Local Notation nblock := (N * block F)%type.
Local Notation known k := (k \in [seq b.1 | b <- bs]).
Local Notation off l1 := (sumn [seq width b.2 | b <- l1]).
Hypothesis nok : names_ok npsi nalpha d.
Hypothesis iok : ids_ok npsi nalpha d.

Lemma split_fst (l : seq nblock) k : k \in map fst l ->
  exists l1 b l2, l = l1 ++ b :: l2 /\ b.1 = k.
Proof.
elim: l => //= b l IH; rewrite in_cons => /orP [/eqP -> | /IH [l1 [b' [l2 [-> e]]]]].
  by exists [::], b, l.
by exists (b :: l1), b', l2.
Qed.

(* The part of a row of A that belongs to one block. *)
Lemma A_row_part l1 b l2 r : bs = l1 ++ b :: l2 ->
  [seq nth 0 (A_row npsi nalpha d r) k | k <- iota (off l1) (width b.2)] = brow b.2 r.
Proof.
move=> e; rewrite map_nth_iota; last first.
  by rewrite size_A_row // n_covE // e map_cat sumn_cat /= leq_add2l leq_addr.
rewrite sliceE A_rowE // e map_cat flatten_cat /= -(size_rows_flatten l1 r) drop_size_cat //.
by rewrite take_size_cat // size_brow.
Qed.

Definition idx_of (k : N) : seq nat :=
  if dget (cov_indices npsi nalpha d) k is Base.Ok ab then iota ab.1 (ab.2 - ab.1) else [::].
Definition coefs_of (Z : seq F) (k : N) : seq F :=
  if dget (cov_indices npsi nalpha d) k is Base.Ok ab then slice ab.1 ab.2 Z else [::].

Lemma name_indicesE k : known k -> name_indices npsi nalpha d k = Base.Ok (idx_of k).
Proof.
move=> /split_fst [l1 [b [l2 [e <-]]]].
by rewrite /name_indices /idx_of (dget_layout nok e).
Qed.
Lemma name_sliceE Z k : known k -> name_slice npsi nalpha d Z k = Base.Ok (coefs_of Z k).
Proof.
move=> /split_fst [l1 [b [l2 [e <-]]]].
by rewrite /name_slice /coefs_of (dget_layout nok e).
Qed.
Lemma unknown_get k : ~~ known k -> dget (cov_indices npsi nalpha d) k = Base.Err Base.KeyError.
Proof. by move=> nk; rewrite dget_none // /cov_indices unpackE // map_fst_layout. Qed.

Lemma cat_indicesE acc names : all (fun k => known k) names ->
  cat_indices npsi nalpha d acc names = Base.Ok (acc ++ flatten (map idx_of names)).
Proof.
elim: names acc => [|k l IH] acc /=; first by rewrite cats0.
by move=> /andP [kk kl]; rewrite name_indicesE // IH // catA.
Qed.
Lemma A_indicesE names : names != [::] -> all (fun k => known k) names ->
  A_indices npsi nalpha d names = Base.Ok (flatten (map idx_of names)).
Proof.
by case: names => //= k l _ /andP [kk kl]; rewrite name_indicesE // cat_indicesE.
Qed.
Lemma cat_slicesE Z acc names : all (fun k => known k) names ->
  cat_slices npsi nalpha d Z acc names = Base.Ok (acc ++ flatten (map (coefs_of Z) names)).
Proof.
elim: names acc => [|k l IH] acc /=; first by rewrite cats0.
by move=> /andP [kk kl]; rewrite name_sliceE // IH // catA.
Qed.
Lemma sub_ZE Z names : names != [::] -> all (fun k => known k) names ->
  sub_Z npsi nalpha d Z names = Base.Ok (flatten (map (coefs_of Z) names)).
Proof.
by case: names => //= k l _ /andP [kk kl]; rewrite name_sliceE // cat_slicesE.
Qed.

(* One unknown name makes the whole list fail. *)
Lemma A_indices_unknown names : has (fun k => ~~ known k) names ->
  A_indices npsi nalpha d names = Base.Err Base.KeyError.
Proof.
have F1 l : forall acc, has (fun k => ~~ known k) l ->
    cat_indices npsi nalpha d acc l = Base.Err Base.KeyError.
  elim: l => //= k l IH acc; case kk: (known k) => /=.
    by rewrite name_indicesE // => h; rewrite IH.
  by rewrite /name_indices unknown_get ?kk.
case: names => //= k l; case kk: (known k) => /=.
  by rewrite name_indicesE // => h; rewrite F1.
by rewrite /name_indices unknown_get ?kk.
Qed.

(* One name's columns against one name's coefficients. *)
Lemma part_of l1 b l2 r : bs = l1 ++ b :: l2 ->
  [seq nth 0 (A_row npsi nalpha d r) k | k <- idx_of b.1] = brow b.2 r.
Proof. by move=> e; rewrite /idx_of (dget_layout nok e) /= addKn (A_row_part _ e). Qed.

Definition eff_of gh r (k : N) : F := \sum_(e <- effects npsi nalpha d gh r | e.1 == k) e.2.

Lemma map_fst_eff gh l n r : map fst (eff_at gh l n r) = map fst (l : seq nblock).
Proof. by elim: l n => //= b l IH n; rewrite -(IH (n + width b.2)%N). Qed.

Lemma sum_absent (s : seq (N * F)) k : k \notin map fst s ->
  \sum_(e <- s | e.1 == k) e.2 = 0.
Proof.
elim: s => [|e s IH] /=; first by rewrite big_nil.
rewrite in_cons negb_or eq_sym => /andP [/negbTE ne nk].
by rewrite big_cons ne IH.
Qed.

Lemma eff_ofE gh r l1 b l2 : bs = l1 ++ b :: l2 ->
  eff_of gh r b.1 = effect b.2 (slice (off l1) (off l1 + width b.2) gh) r.
Proof.
move=> e; have := nok; rewrite /names_ok e map_cat cat_uniq /= negb_or.
move=> /and3P [_ /andP [n1 _] /andP [n2 _]].
rewrite /eff_of effectsE e eff_at_cat big_cat /= sum_absent ?map_fst_eff // add0r.
rewrite {1}/eff_at /= big_cons /= eqxx add0n -/(eff_at gh l2 _ r).
by rewrite (@sum_absent (eff_at gh l2 _ r)) ?addr0 ?map_fst_eff.
Qed.

Lemma dotp_of gh r k : (r < c_nn d)%N -> size gh = n_cov npsi nalpha d -> known k ->
  dotp [seq nth 0 (A_row npsi nalpha d r) c | c <- idx_of k] (coefs_of gh k) = eff_of gh r k.
Proof.
move=> lt sg /split_fst [l1 [b [l2 [e <-]]]].
rewrite (part_of r e) /coefs_of (dget_layout nok e) /= (eff_ofE _ _ e) dotp_brow //.
  exact: (in_range_at iok lt e).
exact: (size_slice nok e sg).
Qed.

Lemma size_coefs gh k : size gh = n_cov npsi nalpha d -> known k ->
  size (coefs_of gh k) = size (idx_of k).
Proof.
move=> sg /split_fst [l1 [b [l2 [e <-]]]].
by rewrite /coefs_of /idx_of (dget_layout nok e) /= size_iota addKn (size_slice nok e).
Qed.

Lemma dotp_names gh r names : (r < c_nn d)%N -> size gh = n_cov npsi nalpha d ->
  all (fun k => known k) names ->
  dotp [seq nth 0 (A_row npsi nalpha d r) c | c <- flatten (map idx_of names)]
       (flatten (map (coefs_of gh) names)) = \sum_(k <- names) eff_of gh r k.
Proof.
move=> lt sg; elim: names => [|k l IH] /=; first by rewrite big_nil.
move=> /andP [kk kl]; rewrite map_cat dotp_cat ?size_map ?size_coefs //.
by rewrite dotp_of // IH // big_cons.
Qed.

Lemma sum_names gh r names : uniq names ->
  \sum_(k <- names) eff_of gh r k = named_effect npsi nalpha d names gh r.
Proof.
move=> un; rewrite /eff_of /named_effect (exchange_big_dep xpredT) //= [RHS]big_mkcond /=.
apply: eq_bigr => e _; rewrite -big_filter big_const_seq count_predT.
have -> : [seq i <- names | e.1 == i] = [seq i <- names | pred1 e.1 i].
  by apply: eq_filter => i; rewrite /= eq_sym.
by rewrite size_filter count_uniq_mem //; case: (_ \in _) => //=; rewrite addr0.
Qed.

Lemma covariate_effectE names gh : good_names npsi nalpha d names -> size gh = n_cov npsi nalpha d ->
  exists f, covariate_effect npsi nalpha d names gh = Base.Ok f
    /\ forall r, (r < c_nn d)%N -> f r = named_effect npsi nalpha d names gh r.
Proof.
move=> /and3P [ne un kn] sg.
rewrite /covariate_effect /covariate_init undup_id // eqxx /=.
rewrite /ctl_get_Q A_indicesE // /ctl_Q_mult sub_ZE //; eexists; split; first reflexivity.
by move=> r lt; rewrite /= dotp_names // sum_names.
Qed.

Lemma covariate_dup names gh : ~~ uniq names ->
  covariate_effect npsi nalpha d names gh = Base.Err Base.ValueError.
Proof.
move=> nu; rewrite /covariate_effect /covariate_init.
have -> : size names != size (undup names); last by [].
by rewrite -ltn_size_undup in nu; rewrite neq_ltn nu orbT.
Qed.

Lemma covariate_unknown names gh : uniq names -> has (fun k => ~~ known k) names ->
  covariate_effect npsi nalpha d names gh = Base.Err Base.KeyError.
Proof.
move=> un h; rewrite /covariate_effect /covariate_init undup_id // eqxx /=.
by rewrite /ctl_get_Q A_indices_unknown.
Qed.

(* Clusters. *)
Lemma sum_prod_dotp (a b : seq F) (idx : seq nat) :
  \sum_(k <- idx) nth 0 a k * nth 0 b k = dotp [seq nth 0 a k | k <- idx] [seq nth 0 b k | k <- idx].
Proof. by elim: idx => [|k l IH]; rewrite ?big_nil // big_cons IH. Qed.

Lemma brow_cross (b : block F) r s : in_range b r -> in_range b s ->
  (if b is Slope _ then false else true) ->
  dotp (brow b r) (brow b s) = ((category b r == category b s) && ~~ normalised_away b r)%:R.
Proof.
move=> ir is_; case: b ir is_ => [n id|n id|x] //= ir is_ _.
- rewrite dotp_onehot1 ?size_behead ?size_onehot //.
  have [z|] := boolP (id r == 0%N); first by rewrite (eqP z) andbF.
  rewrite andbT; case: (id r) ir => // k ir _; rewrite nth_behead_onehot; last by case: n ir {is_}.
  by rewrite -[Some _ == _]/(k.+1 == id s) eq_sym.
- by rewrite dotp_onehot ?size_onehot // nth_onehot // andbT eq_sym.
Qed.

Lemma share_at names r s : all (fun k => known k) names ->
  categorical npsi nalpha d names -> (r < c_nn d)%N -> (s < c_nn d)%N ->
  S_entry npsi nalpha d (flatten (map idx_of names)) r s
  = (share_counted npsi nalpha d names r s)%:R.
Proof.
move=> kn cn lr ls; rewrite /S_entry.
pose cnt (b : nblock) := (category b.2 r == category b.2 s) && ~~ normalised_away b.2 r.
have one k : k \in names -> exists l1 b l2, [/\ bs = l1 ++ b :: l2, b.1 = k &
    \sum_(c <- idx_of k) nth 0 (A_row npsi nalpha d r) c * nth 0 (A_row npsi nalpha d s) c
    = (cnt b)%:R].
  move=> kin; have := allP kn _ kin => /split_fst [l1 [b [l2 [e eb]]]].
  exists l1, b, l2; split=> //; rewrite sum_prod_dotp -eb !(part_of _ e) brow_cross //.
  - exact: (in_range_at iok lr e).
  - exact: (in_range_at iok ls e).
  - by move: cn; rewrite /categorical e all_cat /= eb kin => /and3P [].
pose g k := has (fun b : nblock => (b.1 == k) && cnt b) bs.
have gE l1 b l2 : bs = l1 ++ b :: l2 -> g b.1 = cnt b.
  move=> e; have := nok; rewrite /names_ok /g e map_cat cat_uniq /= negb_or has_cat /= eqxx /=.
  move=> /and3P [_ /andP [n1 _] /andP [n2 _]].
  have absent (l : seq nblock) : b.1 \notin map fst l -> has (fun x : nblock => (x.1 == b.1) && cnt x) l = false.
    elim: l => //= x l IH; rewrite in_cons negb_or eq_sym => /andP [/negbTE ne nk].
    by rewrite ne IH.
  by rewrite !absent // orbF.
rewrite big_flatten big_map /=.
have -> : \sum_(k <- names) \sum_(c <- idx_of k)
     nth 0 (A_row npsi nalpha d r) c * nth 0 (A_row npsi nalpha d s) c
   = (\sum_(k <- names) (g k : nat))%:R :> F.
  rewrite natr_sum big_seq [RHS]big_seq; apply: eq_bigr => k /one [l1 [b [l2 [e <- ->]]]].
  by rewrite (gE _ _ _ e).
have -> : (\sum_(k <- names) (g k : nat))%N = count g names.
  by rewrite -sum1_count [RHS]big_mkcond /=; apply: eq_bigr => k _; case: (g k).
rewrite pnatr_eq0 -leqn0 leqNgt -has_count.
have -> : has g names = share_counted npsi nalpha d names r s; last by case: (share_counted _ _ _ _ _ _).
apply/idP/idP.
- case/hasP=> k kin /=; rewrite /g /share_counted; elim: (blocks _ _ _) => //= b l IH.
  case/orP; last by move/IH => ->; rewrite orbT.
  by case/andP=> /eqP eb c; rewrite eb kin /=; move: c; rewrite /cnt => ->.
- rewrite /share_counted => h; apply/hasP.
  have : exists2 k, k \in names & g k; last by [].
  move: h; rewrite /g; elim: (blocks _ _ _) => //= b l IH.
  case/orP.
    by case/andP=> bin c; exists b.1 => //; rewrite eqxx /cnt c.
  by move/IH => [k kin h]; exists k => //; rewrite h orbT.
Qed.

Lemma clustered_varE names E u : names != [::] -> all (fun k => known k) names ->
  categorical npsi nalpha d names ->
  clustered_var npsi nalpha d names E u
  = Base.Ok (\sum_(0 <= r < c_nn d) \sum_(0 <= s < c_nn d | share_counted npsi nalpha d names r s)
       (E r * u r) * (E s * u s)).
Proof.
move=> ne kn cn; rewrite /clustered_var A_indicesE //; congr Base.Ok.
rewrite big_nat [RHS]big_nat; apply: eq_bigr => r /andP [_ lr].
rewrite big_nat [RHS]big_nat_cond [LHS]big_mkcond [RHS]big_mkcond; apply: eq_bigr => s _ /=.
case: ifP => //= ls; rewrite share_at //.
by case: share_counted; rewrite ?mulr1 ?mulr0 ?mul0r.
Qed.

End Names.
