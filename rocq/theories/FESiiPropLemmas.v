(* Statements of C78 assembled, and example data for C77-C79. *)
Set Warnings "-notation-overridden,-ambiguous-paths".
From Coq Require Import ZArith QArith.
From mathcomp Require Import all_ssreflect all_algebra.
From Verif Require Base.
From Verif Require Import FieldTac FEModel FESpec FEMxLemmas FESolveLemmas FELsLemmas
  FELevLemmas FECovLemmas FEExpLemmas FEBiasLemmas FETraceLemmas FEFinLemmas FEDrawLemmas
  FEPropLemmas FEProp2Lemmas QRat FECases FESiiSpec FESiiLemmas FELinkLemmas.

Set Implicit Arguments.
Unset Strict Implicit.
Unset Printing Implicit Defensive.

Import GRing.Theory Num.Theory Order.POrderTheory.
Local Open Scope ring_scope.

Section P3.
Variable F : realFieldType.
Variable sq : F -> F.
Variables nn nf1 nw : nat.
Variable d : frame F nn nf1 nw.
Variable solver : 'M[F]_nf1 -> 'cV[F]_nf1 -> 'cV[F]_nf1.
Add Field Ff : (field_th F).
Local Notation H := (hat d (row_root d sq)).
Local Notation Pd b r := ((H *m signs F b) r 0 ^+ 2).
Local Notation Md b r := ((signs F b r 0 - (H *m signs F b) r 0) ^+ 2).

Lemma p_jla ndraw (st : lev_stats F nn) (P : 'I_nn -> F) r (p m : F) :
  P r = p -> m = 1 - p -> m != 0 -> (0 < ndraw)%N ->
  jla_factor ndraw st P r
  = 1 - ((p * st_M2 st r / m - st_PM st r) / m
         + (2%:R * m * st_P2 st r - 2%:R * p * st_M2 st r + 3%:R * (m - p) * st_PM st r) / m)
        / ndraw%:R.
Proof.
move=> pE mE m0 n0; rewrite /jla_factor pE -mE.
have k0 : ndraw%:R != 0 :> F by rewrite pnatr_eq0 -lt0n.
have -> : p = 1 - m by rewrite mE opprB addrC subrK.
move: (st_M2 st r) (st_P2 st r) (st_PM st r) => a b c.
by ffield F; repeat split; apply/eqP.
Qed.

Hypothesis pw : positive_weights d.
Hypothesis ob : workers_observed d.
Hypothesis cn : connected d.
Hypothesis ex : exact_solver solver (Minv sq d).
Hypothesis rok : root_ok d sq.

Lemma p_moments r k : (0 < k)%N ->
  let st (z : {ffun 'I_k -> {ffun 'I_nn -> bool}}) :=
    leverage_approx sq d solver [seq signs F (z t) | t <- enum 'I_k] in
  uniform (fun z => st_P2 (st z) r) = uniform (fun b => Pd b r ^+ 2)
  /\ uniform (fun z => st_M2 (st z) r) = uniform (fun b => Md b r ^+ 2)
  /\ uniform (fun z => st_PM (st z) r) = uniform (fun b => Pd b r * Md b r).
Proof.
move=> k0 st.
have gen (g : F -> F -> F) : uniform (fun z : {ffun 'I_k -> {ffun 'I_nn -> bool}} =>
    foldl (fun t R2 => t + g ((lev_draw sq d solver R2).1 r) ((lev_draw sq d solver R2).2 r)) 0
      [seq signs F (z t) | t <- enum 'I_k] / (size [seq signs F (z t) | t <- enum 'I_k])%:R)
  = uniform (fun b => g (Pd b r) (Md b r)).
  rewrite -(uniform_mean_draws (fun b => g (Pd b r) (Md b r)) (card_ff _) k0).
  rewrite /uniform; congr (_ / _); apply: eq_bigr => z _.
  rewrite (foldl_sum (fun R2 => g ((lev_draw sq d solver R2).1 r) ((lev_draw sq d solver R2).2 r))).
  rewrite add0r big_map big_enum /= /mean_draws size_map size_enum_ord.
  by congr (_ / _); apply: eq_bigr => t _; rewrite !(proj_hat pw ob cn ex).
split; [|split].
- exact: (gen (fun a _ => a ^+ 2)).
- exact: (gen (fun _ b => b ^+ 2)).
- exact: (gen (fun a b => a * b)).
Qed.

Lemma p_order r k : (0 < k)%N -> H r r < 1 ->
  let p := H r r in let m := 1 - H r r in
  uniform (fun z : {ffun 'I_k -> {ffun 'I_nn -> bool}} =>
    taylor2 p m (mean_draws (fun t => Pd (z t) r)) (mean_draws (fun t => Md (z t) r)))
  = 1 / m * (1 + (p * uniform (fun b => Md b r ^+ 2) / m
                  - uniform (fun b => Pd b r * Md b r)) / m / k%:R).
Proof.
move=> k0 lt p m.
have m0 : m != 0 by rewrite /m subr_eq0 eq_sym lt_eqF.
apply: (p_taylor_mean (f := fun b => Pd b r) (g := fun b => Md b r)) => //.
- exact: card_ff.
- rewrite -[RHS](draw_P pw ob cn ex rok) /uniform; congr (_ / _); apply: eq_bigr => b _.
  by rewrite /= (proj_hat pw ob cn ex).
- rewrite -[RHS](draw_M pw ob cn ex rok) /uniform; congr (_ / _); apply: eq_bigr => b _.
  by rewrite /= (proj_hat pw ob cn ex).
- by rewrite /p /m addrC subrK.
Qed.
End P3.

(* Two movers between two firms with weights 1 and 4, and a third worker who
   stays at firm 0 with two rows of weights 1 and 4. *)
Definition f6 (r : 'I_6) : 'I_2 := if (r < 4)%N then o4 (odd r) else ord0.
Definition i6 (r : 'I_6) : 'I_3 := inord (r %/ 2).
Definition w6 (r : 'I_6) : rat_realFieldType := if ((2 <= r)%N && (val r != 4)%N) then 4%:R else 1.
Definition d6 : frame rat_realFieldType 6 1 3 :=
  Frame f6 i6 (Some w6) (fun r : 'I_6 => (r < 4)%N).

Lemma d6_pos : positive_weights d6.
Proof. by move=> r; rewrite /wgt /= /w6; case: ifP. Qed.
Lemma d6_obs : workers_observed d6.
Proof.
move=> i; exists (inord (2 * i)); rewrite /= /i6; apply/val_inj.
have lt : (2 * i < 6)%N by have := ltn_ord i; case: (val i) => [|[|[|]]].
by rewrite /= !inordK // mulKn //.
Qed.
Lemma d6_con : connected d6.
Proof.
move=> j; case: (I2 j) => ->; first exact: reach_0.
have e : fj d6 (inord 1) = ord_max by rewrite /= /f6 inordK.
rewrite -e; apply: (@reach_step _ _ _ _ d6 (inord 0)); first by rewrite /= /i6 !inordK.
have -> : fj d6 (inord 0) = ord0 by rewrite /= /f6 inordK.
exact: reach_0.
Qed.
Lemma d6_root : root_ok d6 sq4.
Proof. by move=> r; rewrite /wgt /= /w6; case: ifP. Qed.
Lemma d6_root2 : root_sq_ok d6 sq4.
Proof. by move=> r; rewrite /wgt /= /w6; case: ifP. Qed.
Lemma d6_exact : exact_solver (@direct 1) (Minv sq4 d6).
Proof. exact/direct_exact/(Minv_unit _ d6_pos d6_obs d6_con). Qed.

Definition c6 (r : 'I_6) : rat := if ((2 <= r)%N && (val r != 4)%N) then 1 / 2%:R else 1.
Lemma d6_unc : uncorrelated (@pn 6) (epsn c6) (fun r => 1 / wgt d6 r).
Proof.
have [h1 h2] := epsn_unc c6; split=> // r s; rewrite h2; case: eqP => // _.
by rewrite /c6 /wgt /= /w6; case: ifP.
Qed.

Lemma d6_edge (r s : 'I_6) : s != r ->
  connect (edge_without d6 r) (inr (i6 s)) (inl (f6 s))
  /\ connect (edge_without d6 r) (inl (f6 s)) (inr (i6 s)).
Proof.
move=> ne; split; apply/connect1/existsP; exists s; rewrite ne /= !eqxx ?orbT //.
Qed.

(* The other three cells of the square link the worker and the firm of a
   mover's row. *)
Lemma d6_linked (r : 'I_6) : fm d6 r -> linked_without d6 r.
Proof.
move=> /= m4; rewrite /linked_without /=.
have lt (a : nat) : (a < 6)%N -> a != r :> nat -> (inord a : 'I_6) != r.
  by move=> a6; apply: contraNneq => <-; rewrite inordK.
have ff (a : nat) : (a < 4)%N -> f6 (inord a) = o4 (odd a).
  by move=> a4; rewrite /f6 inordK ?a4 // ltnW // ltnW.
have ii (a : nat) : (a < 4)%N -> i6 (inord a) = inord (a %/ 2).
  by move=> a4; rewrite /i6 inordK // ltnW // ltnW.
have go (a b c : nat) : (a < 4)%N -> (b < 4)%N -> (c < 4)%N ->
   a != r :> nat -> b != r :> nat -> c != r :> nat ->
   i6 (inord a) = i6 r -> f6 (inord a) = f6 (inord b) -> i6 (inord b) = i6 (inord c) ->
   f6 (inord c) = f6 r ->
   connect (edge_without d6 r) (inr (i6 r)) (inl (f6 r)).
  move=> a4 b4 c4 na nb nc e1 e2 e3 e4.
  have l6 (x : nat) : (x < 4)%N -> (x < 6)%N by move=> h; rewrite ltnW // ltnW.
  have [A1 _] := d6_edge (lt a (l6 _ a4) na).
  have [_ B1] := d6_edge (lt b (l6 _ b4) nb).
  have [C1 _] := d6_edge (lt c (l6 _ c4) nc).
  rewrite -e1 -e4; apply: connect_trans A1 _; rewrite e2.
  by apply: connect_trans B1 _; rewrite e3.
case: r m4 lt go => [[|[|[|[|//]]]] p] m4 lt go.
- apply: (go 1 3 2)%N => //; rewrite ?ff ?ii //.
- apply: (go 0 2 3)%N => //; rewrite ?ff ?ii //.
- apply: (go 3 1 0)%N => //; rewrite ?ff ?ii //.
- apply: (go 2 0 1)%N => //; rewrite ?ff ?ii //.
Qed.

Lemma d6_lev (r : 'I_6) : fm d6 r -> hat d6 (row_root d6 sq4) r r < 1.
Proof. by move=> m; apply: (linked_lt1 d6_pos d6_obs d6_con d6_root); exact: d6_linked. Qed.

Lemma d6_movers : movers_everywhere d6.
Proof.
move=> r /= m; exists (inord 0); split; first by rewrite inordK.
by rewrite /f6 inordK // m; apply/val_inj.
Qed.

(* The stayer's second row, of weight 4. *)
Definition r5 : 'I_6 := inord 5.
Lemma d6_stayer : stayer_row d6 r5.
Proof.
move=> s /= e.
have s3 : (3 < s)%N.
  have := congr1 val e; rewrite /i6 /r5 /= !inordK //.
    by case: s {e} => [[|[|[|[|]]]]].
  by case: s {e} => [[|[|[|[|[|[|//]]]]]]].
have s4 : (s < 4)%N = false by apply: negbTE; rewrite -leqNgt.
by rewrite s4 /f6 s4 /r5 inordK.
Qed.
Lemma d6_weight : worker_weight d6 r5 = 5%:R.
Proof.
rewrite /worker_weight big_mkcond /= !big_ord_recl big_ord0 /wgt /= /i6 /w6 /r5.
rewrite inordK //=.
have ne (a b : nat) : (a < 3)%N -> (b < 3)%N -> ((inord a : 'I_3) == inord b) = (a == b).
  by move=> a3 b3; rewrite -val_eqE /= !inordK.
by rewrite !ne.
Qed.

(* One worker with three rows at one firm: leverages 1/3. *)
Definition d3 : frame rat_realFieldType 3 0 1 :=
  Frame (fun _ => ord0) (fun _ => ord0) None (fun _ => false).
Lemma d3_pos : positive_weights d3. Proof. by []. Qed.
Lemma d3_obs : workers_observed d3.
Proof. by move=> i; exists ord0; rewrite [i]ord1. Qed.
Lemma d3_con : connected d3.
Proof. by move=> j; rewrite [j]ord1; exact: reach_0. Qed.
Lemma d3_root : root_ok d3 sq4. Proof. by []. Qed.
Lemma d3_exact : exact_solver (@direct 0) (Minv sq4 d3).
Proof. by move=> b; apply/colP => -[]. Qed.

Lemma d3_hat r s : hat d3 (row_root d3 sq4) r s = 1 / 3%:R.
Proof.
have D : design d3 = const_mx 1 :> 'M_(3, 0 + 1).
  by apply/matrixP => i j; rewrite /design mxE; case: splitP => [[]//|k _]; rewrite !mxE [k]ord1.
have N : normal_mx d3 = 3%:R%:M :> 'M_(0 + 1).
  apply/matrixP => i j; rewrite /normal_mx D mul_mx_diag mxE (eq_bigr (fun _ => 1)); last first.
    by move=> k _; rewrite !mxE !mulr1.
  by rewrite sumr_const card_ord !mxE !ord1.
have I : invmx (normal_mx d3) = (3%:R^-1)%:M by rewrite N invmx_scalar.
rewrite /hat I D.
have -> : diag_mx (\row_r0 row_root d3 sq4 r0) = 1%:M :> 'M_3 by apply/matrixP => i j; rewrite !mxE.
rewrite mul1mx mulmx1 mxE big_ord1 mxE big_ord1 !mxE eqxx /= !mul1r mulr1 //.
Qed.

Lemma sum_signs3 (g : {ffun 'I_3 -> bool} -> rat) (h : bool -> bool -> bool -> rat) :
  (forall b, g b = h (b ord0) (b (inord 1)) (b (inord 2))) ->
  \sum_b g b = \sum_(x : bool) \sum_(y : bool) \sum_(z : bool) h x y z.
Proof.
move=> gh.
pose mk (t : bool * (bool * bool)) : {ffun 'I_3 -> bool} :=
  [ffun i : 'I_3 => nth t.1 [:: t.1; t.2.1; t.2.2] i].
pose un (b : {ffun 'I_3 -> bool}) : bool * (bool * bool) := (b ord0, (b (inord 1), b (inord 2))).
have mkK : cancel mk un.
  by move=> [x [y z]]; rewrite /un /mk !ffunE /= !inordK.
have unK : cancel un mk.
  move=> b; apply/ffunP => i; rewrite /mk /un ffunE /=.
  case: i => [[|[|[|//]]] p] /=; congr (b _); apply/val_inj => //=; by rewrite inordK.
rewrite (reindex mk); last by exists un => ? _; [exact: mkK | exact: unK].
under eq_bigr do rewrite gh.
transitivity (\sum_(t : bool * (bool * bool)) h t.1 t.2.1 t.2.2).
  by apply: eq_bigr => -[x [y z]] _; rewrite /mk !ffunE /= !inordK.
rewrite -(pair_bigA _ (fun x (p : bool * bool) => h x p.1 p.2)) /=; apply: eq_bigr => x _.
by rewrite [RHS](pair_bigA _ (fun y z => h x y z)).
Qed.

Add Field rF : (field_th rat_realFieldType).
Lemma d3_mul (b : {ffun 'I_3 -> bool}) r :
  (hat d3 (row_root d3 sq4) *m signs rat_realFieldType b) r 0
  = (sgn rat_realFieldType (b ord0) + sgn rat_realFieldType (b (inord 1))
     + sgn rat_realFieldType (b (inord 2))) / 3%:R.
Proof.
rewrite mxE (eq_bigr (fun s => signs rat_realFieldType b s 0 / 3%:R)); last first.
  by move=> s _; rewrite d3_hat mul1r mulrC.
rewrite -mulr_suml !big_ord_recl big_ord0 addr0 !signsE addrA; congr ((_ + sgn _ (b _) + sgn _ (b _)) / _).
  by apply/val_inj; rewrite /= inordK.
by apply/val_inj; rewrite /= inordK.
Qed.

Lemma d3_moments :
  let Pd b : rat := (hat d3 (row_root d3 sq4) *m signs rat_realFieldType b) ord0 0 ^+ 2 in
  let Md b : rat := (signs rat_realFieldType b ord0 0
     - (hat d3 (row_root d3 sq4) *m signs rat_realFieldType b) ord0 0) ^+ 2 in
  uniform (F := rat_realFieldType) (fun b => Pd b ^+ 2) = 7%:R / 27%:R
  /\ uniform (F := rat_realFieldType) (fun b => Md b ^+ 2) = 8%:R / 9%:R
  /\ uniform (F := rat_realFieldType) (fun b => Pd b * Md b) = 2%:R / 27%:R.
Proof.
move=> Pd Md.
pose a x y z : rat := (sgn rat_realFieldType x + sgn rat_realFieldType y + sgn rat_realFieldType z) / 3%:R.
have c8 : #|{: {ffun 'I_3 -> bool}}| = 8%N by rewrite card_ffun card_bool card_ord.
rewrite /uniform c8; split; [|split].
- rewrite (sum_signs3 (h := fun x y z => (a x y z ^+ 2) ^+ 2)); last first.
    by move=> b; rewrite /Pd d3_mul.
  by rewrite !big_bool /a /sgn /=; ffield rat_realFieldType; repeat split; apply/eqP.
- rewrite (sum_signs3 (h := fun x y z => ((sgn rat_realFieldType x - a x y z) ^+ 2) ^+ 2)); last first.
    by move=> b; rewrite /Md d3_mul signsE.
  by rewrite !big_bool /a /sgn /=; ffield rat_realFieldType; repeat split; apply/eqP.
- rewrite (sum_signs3 (h := fun x y z => a x y z ^+ 2 * (sgn rat_realFieldType x - a x y z) ^+ 2)); last first.
    by move=> b; rewrite /Pd /Md d3_mul signsE.
  by rewrite !big_bool /a /sgn /=; ffield rat_realFieldType; repeat split; apply/eqP.
Qed.

Section Factor.
Variable F : realFieldType.
Variable sq : F -> F.
Variables nn nf1 nw : nat.
Variable d : frame F nn nf1 nw.
Local Notation lev r := (hat d (row_root d sq) r r).
Local Notation Pd b r := ((hat d (row_root d sq) *m signs F b) r 0 ^+ 2).
Local Notation Md b r := ((signs F b r 0 - (hat d (row_root d sq) *m signs F b) r 0) ^+ 2).

Lemma p_rest_neq0 (x : F) : x < 1 -> 1 - x != 0.
Proof. by move=> lt; rewrite subr_eq0 eq_sym lt_eqF. Qed.

Lemma p_factor r k (st : lev_stats F nn) P :
  lev r < 1 -> (0 < k)%N -> P r = lev r ->
  st_P2 st r = uniform (fun b => Pd b r ^+ 2) ->
  st_M2 st r = uniform (fun b => Md b r ^+ 2) ->
  st_PM st r = uniform (fun b => Pd b r * Md b r) ->
  let p := lev r in let m := 1 - lev r in
  let c := (p * uniform (fun b => Md b r ^+ 2) / m - uniform (fun b => Pd b r * Md b r)) / m in
  let delta := (2%:R * m * uniform (fun b => Pd b r ^+ 2) - 2%:R * p * uniform (fun b => Md b r ^+ 2)
                + 3%:R * (m - p) * uniform (fun b => Pd b r * Md b r)) / m in
  jla_factor k st P r = 1 - (c + delta) / k%:R.
Proof. by move=> lt k0 eP <- <- <- p m c delta; exact: p_jla eP erefl (p_rest_neq0 lt) k0. Qed.
End Factor.

Lemma p_factor_refuted :
  let H := hat d3 (row_root d3 sq4) in
  let Pd b := (H *m signs rat_realFieldType b) ord0 0 ^+ 2 in
  let Md b := (signs rat_realFieldType b ord0 0 - (H *m signs rat_realFieldType b) ord0 0) ^+ 2 in
  let st := LevStats (fun _ => 1 / 3%:R) (fun _ => uniform (fun b => Pd b ^+ 2))
              (fun _ => 2%:R / 3%:R) (fun _ => uniform (fun b => Md b ^+ 2))
              (fun _ => uniform (fun b => Pd b * Md b)) in
  (forall r, H r r = 1 / 3%:R)
  /\ (1 / 3%:R * uniform (fun b => Md b ^+ 2) / (2%:R / 3%:R) - uniform (fun b => Pd b * Md b))
       / (2%:R / 3%:R) = 5%:R / 9%:R
  /\ forall k, (0 < k)%N ->
     jla_factor k st (fun r => H r r) ord0 = 1 - 8%:R / 27%:R / k%:R.
Proof.
move=> H Pd Md st.
have [m1 [m2 m3]] := d3_moments.
split; first by move=> r; exact: d3_hat.
split.
  rewrite m2 m3.
  by ffield rat_realFieldType; repeat split; apply/eqP.
move=> k k0; have k1 : k%:R != 0 :> rat by rewrite pnatr_eq0 -lt0n.
have e : H ord0 ord0 = 1 / 3%:R by exact: d3_hat.
have lt : (1 - 1 / 3%:R : rat) != 0 by [].
rewrite (p_jla st (P := fun r => H r r) (r := ord0) e erefl lt k0) /= m1 m2 m3.
by ffield rat_realFieldType; repeat split; apply/eqP.
Qed.

Lemma d6_case :
  (forall o, exists S, estimate_Sii_he sq4 d6 (@direct 1) FirmMean
     (fun r => hat d6 (row_root d6 sq4) r r) None
     (outcome d6 (fun _ => 5%:R) (fun _ => 7%:R) (epsn c6 o)) = Base.Ok S)
  /\ (forall r, fm d6 r -> hat d6 (row_root d6 sq4) r r < 1)
  /\ movers_everywhere d6 /\ stayer_row d6 r5 /\ fm d6 r5 = false
  /\ wgt d6 r5 < worker_weight d6 r5 /\ wgt d6 r5 <> 1
  /\ uncorrelated (@pn 6) (epsn c6) (fun r => 1 / wgt d6 r).
Proof.
split; first by move=> o; eexists; reflexivity.
split; first exact: d6_lev.
split; first exact: d6_movers.
split; first exact: d6_stayer.
have v5 : nat_of_ord r5 = 5%N by rewrite /r5 inordK.
have w5 : wgt d6 r5 = 4%:R by rewrite /wgt /= /w6 /= v5.
split; first by rewrite /= v5.
split; first by rewrite d6_weight w5.
split; first by rewrite w5.
exact: d6_unc.
Qed.

Lemma d4_files : exists P,
  precomputed_leverages d4 FirmMean [:: fun _ => 1 / 4%:R : rat_realFieldType; fun _ => 3%:R / 4%:R]
    = Base.Ok P /\ P ord0 = 1 / 2%:R.
Proof.
rewrite /precomputed_leverages /lev_check.
case: existsP => [_|[]]; last by exists ord0.
case: existsP => [[r /andP[_ ge]]|_]; first by exfalso; move: ge; apply/negP.
by eexists; split; first reflexivity.
Qed.

(* A worker who visits firm 1 once: rows (worker 0, firm 0), (worker 0, firm 1),
   (worker 1, firm 0). *)
Definition dline : frame rat_realFieldType 3 1 2 :=
  Frame (fun r : 'I_3 => o4 (r == 1 :> nat)%N) (fun r : 'I_3 => o4 (r == 2 :> nat)%N) None
        (fun r : 'I_3 => (r < 2)%N).

Lemma d6_line : (forall r, fm d6 r -> linked_without d6 r)
  /\ exists r : 'I_3, fm dline r /\ ~ linked_without dline r.
Proof.
split; first exact: d6_linked.
exists (inord 1); split; first by rewrite /= inordK.
rewrite /linked_without => /connectP [q].
have : inl (fj dline (inord 1)) != inr (fi dline (inord 1)) :> 'I_2 + 'I_2 by [].
elim/last_ind: q => [|q x _] ne; first by move=> _ /= e; rewrite e eqxx in ne.
rewrite last_rcons rcons_path => /andP[_ e] ex; move: e; rewrite -ex.
case/existsP => s /andP[ns /orP[]/andP[_ /eqP]] //= [] e.
move: ns e; rewrite inordK //=.
case: s => [[|[|[|//]]] p] //= ns; rewrite /o4 //=.
by case/eqP: ns; apply/val_inj; rewrite /= inordK.
Qed.
