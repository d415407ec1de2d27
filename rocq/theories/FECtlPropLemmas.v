(* Proofs of the property statements for the estimator with controls. *)
Set Warnings "-notation-overridden,-ambiguous-paths".
From Coq Require Import ZArith QArith.
From mathcomp Require Import all_ssreflect all_algebra.
From Verif Require Base.
From Verif Require Import FEModel FESpec FECovLemmas FECtlModel FECtlSpec FECtlLemmas
  FECtlNameLemmas QRat.

Set Implicit Arguments.
Unset Strict Implicit.
Unset Printing Implicit Defensive.

Import GRing.Theory Num.Theory.
Local Open Scope ring_scope.

Section Props.
Variable F : realFieldType.
Variable N : eqType.
Variables npsi nalpha : N.
Variable d : cdata F N.
Local Notation bs := (blocks npsi nalpha d).
Hypothesis nok : names_ok npsi nalpha d.

Lemma c_layout l1 b l2 : bs = l1 ++ b :: l2 ->
  dget (cov_indices npsi nalpha d) b.1
  = Base.Ok (first_col l1, (first_col l1 + width b.2)%N).
Proof. exact: dget_layout. Qed.

Lemma c_columns l1 b l2 c r : bs = l1 ++ b :: l2 -> (c < width b.2)%N ->
  nth 0 (A_row npsi nalpha d r) (first_col l1 + c) = column_entry b.2 c r.
Proof.
move=> e lt; have := A_row_part nok r e => /(congr1 (fun s => nth 0 s c)).
rewrite (nth_map 0%N) ?size_iota // nth_iota // /first_col => ->.
case: b lt {e} => k [n id|n id|x] /= lt.
- by rewrite nth_behead_onehot.
- by rewrite nth_onehot.
- by case: c lt.
Qed.

Hypothesis iok : ids_ok npsi nalpha d.

Lemma c_var names gh : good_names npsi nalpha d names -> size gh = n_cov npsi nalpha d ->
  ctl_var_fe npsi nalpha d names gh
  = Base.Ok (var_w (cwgt (d := d)) (fun r => named_effect npsi nalpha d names gh r)).
Proof.
move=> gn sg; have [f [e fE]] := covariate_effectE nok iok gn sg.
rewrite /ctl_var_fe e weighted_varE; congr Base.Ok; apply: eq_cov_w.
- by move=> r; rewrite /cwgt /c_wopt; case: (c_w d).
- by move=> r; rewrite /as_col mxE; apply: fE; exact: ltn_ord.
- by move=> r; rewrite /as_col mxE; apply: fE; exact: ltn_ord.
Qed.

Variable sq : F -> F.
Hypothesis sqok : forall w r, c_w d = Some w -> (r < c_nn d)%N -> sq (w r * w r) = w r.

Lemma c_sq_same : sq_same sq (c_wopt d).
Proof. by move=> r; rewrite /c_wopt; case e: (c_w d) => [w|] //=; apply: sqok. Qed.

Lemma c_cov n1 n2 gh : good_names npsi nalpha d n1 -> good_names npsi nalpha d n2 ->
  size gh = n_cov npsi nalpha d ->
  ctl_cov_fe npsi nalpha d sq n1 n2 gh
  = Base.Ok (cov_w (cwgt (d := d)) (fun r => named_effect npsi nalpha d n1 gh r)
                                   (fun r => named_effect npsi nalpha d n2 gh r)).
Proof.
move=> g1 g2 sg; have [f1 [e1 f1E]] := covariate_effectE nok iok g1 sg.
have [f2 [e2 f2E]] := covariate_effectE nok iok g2 sg.
rewrite /ctl_cov_fe e1 e2 weighted_cov_same; last exact: c_sq_same.
congr Base.Ok; apply: eq_cov_w.
- by move=> r; rewrite /cwgt /c_wopt; case: (c_w d).
- by move=> r; rewrite /as_col mxE; apply: f1E; exact: ltn_ord.
- by move=> r; rewrite /as_col mxE; apply: f2E; exact: ltn_ord.
Qed.

Lemma c_sym n1 n2 gh : good_names npsi nalpha d n1 -> good_names npsi nalpha d n2 ->
  size gh = n_cov npsi nalpha d ->
  ctl_cov_fe npsi nalpha d sq n1 n2 gh = ctl_cov_fe npsi nalpha d sq n2 n1 gh.
Proof. by move=> g1 g2 sg; rewrite !c_cov // cov_w_sym. Qed.

End Props.

Section Clusters.
Variable F : realFieldType.
Variable N : eqType.
Variables npsi nalpha : N.
Variable d : cdata F N.
Hypothesis nok : names_ok npsi nalpha d.
Hypothesis iok : ids_ok npsi nalpha d.
Local Notation bs := (blocks npsi nalpha d).

(* No row is in the normalised category of a clustering column. *)
Lemma c_share_all names r s :
  all (fun b : N * block F => (b.1 \in names) ==> ~~ normalised_away b.2 r) bs ->
  share_counted npsi nalpha d names r s = share npsi nalpha d names r s.
Proof.
rewrite /share_counted /share; elim: (blocks _ _ _) => //= b l IH /andP [h a].
by rewrite IH //; case: (_ \in _) h => //= ->; rewrite andbT.
Qed.

Lemma c_share_none names r s :
  all (fun b : N * block F => (b.1 \in names) ==> normalised_away b.2 r) bs ->
  share_counted npsi nalpha d names r s = false.
Proof.
rewrite /share_counted; elim: (blocks _ _ _) => //= b l IH /andP [h a].
by rewrite IH // orbF; case: (_ \in _) h => //= ->; rewrite andbF.
Qed.

Local Notation known k := (k \in [seq b.1 | b <- bs]).

Lemma c_cluster_full names E u : names != [::] -> all (fun k => known k) names ->
  categorical npsi nalpha d names ->
  (forall r, (r < c_nn d)%N -> all (fun b : N * block F => (b.1 \in names) ==> ~~ normalised_away b.2 r) bs) ->
  clustered_var npsi nalpha d names E u
  = Base.Ok (\sum_(0 <= r < c_nn d) \sum_(0 <= s < c_nn d | share npsi nalpha d names r s)
       (E r * u r) * (E s * u s)).
Proof.
move=> ne kn cn h; rewrite clustered_varE //; congr Base.Ok.
rewrite big_nat [RHS]big_nat; apply: eq_bigr => r /andP [_ lr].
by apply: eq_bigl => s; rewrite c_share_all // h.
Qed.

Lemma c_cluster_zero names E u : names != [::] -> all (fun k => known k) names ->
  categorical npsi nalpha d names ->
  (forall r, (r < c_nn d)%N -> all (fun b : N * block F => (b.1 \in names) ==> normalised_away b.2 r) bs) ->
  clustered_var npsi nalpha d names E u = Base.Ok 0.
Proof.
move=> ne kn cn h; rewrite clustered_varE //; congr Base.Ok.
rewrite big_nat big1 // => r /andP [_ lr].
by apply: big_pred0 => s; rewrite c_share_none // h.
Qed.

End Clusters.

(* Example: three firms, two workers, a categorical control with two categories
   and a continuous control; names 0 = psi, 1 = alpha, 2, 3; weights 1 and 4. *)
Definition cd_j (r : nat) : nat := (nth 0 [:: 0; 1; 2; 0] r)%N.
Definition cd_i (r : nat) : nat := (nth 0 [:: 0; 0; 1; 1] r)%N.
Definition cd_g (r : nat) : nat := (nth 0 [:: 1; 0; 1; 0] r)%N.
Definition cd_x (r : nat) : rat := nth 0 [:: 2%:R; 3%:R; 5%:R; 7%:R] r.
Definition cd_w (r : nat) : rat := if (r < 2)%N then 1 else 4%:R.
Definition cd : cdata rat_realFieldType nat_eqType :=
  @CData rat_realFieldType nat_eqType 4 3 2 cd_j cd_i
    [:: @CatCol nat_eqType 2%N 1 2 cd_g] [:: [:: @CtsCol rat_realFieldType nat_eqType 3%N cd_x]]
    (Some cd_w).
Definition cd_gh : seq rat := [:: 1; 2%:R; 3%:R; 4%:R; 5%:R; 6%:R].

Lemma cd_names : names_ok (0%N : nat_eqType) 1%N cd.
Proof. by []. Qed.
Lemma cd_ids : ids_ok (0%N : nat_eqType) 1%N cd.
Proof. by case=> [|[|[|[|]]]]. Qed.

(* Two rows at firm 0 with the same residuals. *)
Definition ce : cdata rat_realFieldType nat_eqType :=
  @CData rat_realFieldType nat_eqType 2 2 2 (fun _ => 0%N) id [::] [::] None.
Lemma ce_names : names_ok (0%N : nat_eqType) 1%N ce.
Proof. by []. Qed.
Lemma ce_ids : ids_ok (0%N : nat_eqType) 1%N ce.
Proof. by case=> [|[|]]. Qed.

Lemma c_cluster_refuted :
  clustered_var (0%N : nat_eqType) 1%N ce [:: 0%N] (fun _ => 1) (fun _ => 1)
  <> Base.Ok (\sum_(0 <= r < c_nn ce) \sum_(0 <= s < c_nn ce
        | share (0%N : nat_eqType) 1%N ce [:: 0%N] r s) (1 * 1) * (1 * 1)).
Proof.
rewrite (c_cluster_zero ce_names ce_ids) //.
move=> [e]; have /eqP := e; rewrite eq_sym !big_mkord !big_ord_recl !big_ord0 /=.
by rewrite !big_mkord !big_mkcond /= !big_ord_recl !big_ord0.
Qed.

Section Clusters.
Variable F : realFieldType.
Variable N : eqType.
Variables npsi nalpha : N.
Variable d : cdata F N.
Hypothesis nok : names_ok npsi nalpha d.
Hypothesis iok : ids_ok npsi nalpha d.

Lemma p_names : [/\ npsi != nalpha, npsi \notin [seq b.1 | b <- drop 2 (blocks npsi nalpha d)]
  & nalpha \notin [seq b.1 | b <- drop 2 (blocks npsi nalpha d)]].
Proof.
move: nok; rewrite /names_ok /= inE negb_or drop0 => /andP[/andP[h1 h2] /andP[h3 _]].
by split.
Qed.

Lemma p_cluster names (same : nat -> nat -> bool) E u :
  names != [::] -> all (fun k => k \in [:: npsi; nalpha]) names ->
  (forall r s, same r s = ((npsi \in names) && (c_j d r == c_j d s) && (c_j d r != 0%N))
                          || ((nalpha \in names) && (c_i d r == c_i d s))) ->
  clustered_var npsi nalpha d names E u
  = Base.Ok (\sum_(0 <= r < c_nn d) \sum_(0 <= s < c_nn d | same r s) (E r * u r) * (E s * u s)).
Proof.
move=> n0 /allP ns hs; have [pa np na] := p_names.
have out : all (fun b => b.1 \notin names) (drop 2 (blocks npsi nalpha d)).
  have : all (fun k => k \notin names) [seq b.1 | b <- drop 2 (blocks npsi nalpha d)].
    by apply/allP => k kb; apply/negP => /ns; rewrite !inE => /orP[]/eqP e; rewrite -e kb in np na.
  by rewrite all_map.
have [rest er] : exists rest, rest = drop 2 (blocks npsi nalpha d) by eexists.
rewrite -er in out.
have cut : blocks npsi nalpha d = [:: (npsi, @Normalised F (c_nf d) (c_j d)); (nalpha, @Free F (c_nw d) (c_i d))]
     ++ rest by rewrite er /= drop0.
rewrite clustered_varE //.
- congr Base.Ok; apply: eq_bigr => r _; apply: eq_bigl => s.
  rewrite /share_counted hs.
  rewrite cut.
  rewrite has_cat /= orbF -andbA andbT.
  rewrite (_ : has _ rest = false) ?orbF //.
  apply/negbTE; rewrite -all_predC; apply: sub_all out => b /= /negbTE -> //.
- by apply/allP => k /ns; rewrite !inE => /orP[]/eqP ->; rewrite eqxx ?orbT.
- rewrite /categorical.
  rewrite cut.
  rewrite all_cat /= !implybT /=.
  by apply: sub_all out => b /= /negbTE ->.
Qed.

Lemma p_clusters ni nj E u : ni != nj ->
  let S same := Base.Ok (\sum_(0 <= r < c_nn d) \sum_(0 <= s < c_nn d | same r s) (E r * u r) * (E s * u s)) in
  let cv c := clustered_var npsi nalpha d (se_clusters npsi nalpha ni nj c) E u in
  [/\ cv (Some [:: ni]) = S (fun r s => c_i d r == c_i d s),
      cv (Some [:: nj]) = S (fun r s => (c_j d r == c_j d s) && (c_j d r != 0%N)),
      cv (Some [:: ni; nj]) = cv None
    & cv None = S (fun r s => (c_i d r == c_i d s) || (c_j d r == c_j d s) && (c_j d r != 0%N))].
Proof.
move=> nij S cv; have [pa _ _] := p_names.
have ji : (nj == ni) = false by rewrite eq_sym (negbTE nij).
rewrite /cv /se_clusters /= eqxx ji eqxx.
have e4 l : perm_eq l [:: npsi; nalpha] -> clustered_var npsi nalpha d l E u
   = S (fun r s => (c_i d r == c_i d s) || (c_j d r == c_j d s) && (c_j d r != 0%N)).
  move=> pl; apply: p_cluster.
  - by case: l pl => // /perm_size.
  - by rewrite (perm_all _ pl) /= !inE !eqxx orbT.
  - by move=> r s; rewrite !(perm_mem pl) !inE !eqxx orbT /= orbC.
split.
- apply: p_cluster => //=; first by rewrite !inE eqxx orbT.
  by move=> r s; rewrite !inE eqxx (negbTE pa).
- apply: p_cluster => //=; first by rewrite !inE eqxx.
  by move=> r s; rewrite !inE eqxx [nalpha == _]eq_sym (negbTE pa) /= orbF.
- by rewrite !e4 // -[[:: nalpha; npsi]]/([:: nalpha] ++ [:: npsi]) perm_catC.
- exact: e4.
Qed.

Lemma p_prep : (prep_vars npsi nalpha d = Base.Ok (n_cov npsi nalpha d)
    /\ forall c, c \in [seq cat_sub c | c <- c_cats d] -> (c <= 1)%N)
  \/ (prep_vars npsi nalpha d = Base.Err Base.NotImplementedError
    /\ exists c, c \in [seq cat_sub c | c <- c_cats d] /\ (1 < c)%N).
Proof.
rewrite /prep_vars; elim: (c_cats d) => [|c l IH] /=; first by left.
case: ltnP => h /=.
  by right; split=> //; exists (cat_sub c); rewrite inE eqxx.
case: IH; case: ifP => hl [e h1] //; [left|right]; split=> //.
  by move=> x; rewrite inE => /orP[/eqP ->|/h1].
by case: h1 => x [h1 h2]; exists x; rewrite inE h1 orbT.
Qed.
End Clusters.
