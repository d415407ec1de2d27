(* Lemmas behind the properties of the linear estimator of the interacted model. *)
Set Warnings "-notation-overridden,-ambiguous-paths".
From mathcomp Require Import all_ssreflect all_algebra.
From Verif Require Base.
From Verif Require Import FieldTac FEMxLemmas FEGramLemmas FERegSpec LinModel LinSpec LinLemmas.

Set Implicit Arguments.
Unset Strict Implicit.
Unset Printing Implicit Defensive.

Import GRing.Theory Num.Theory Order.POrderTheory.
Local Open Scope ring_scope.

Section Props.
Variable F : realFieldType.
Add Field linp_field : (field_th F).
Variable sq : F -> F.
Variable rss_solve : forall k, 'M[F]_k -> 'cV[F]_k -> 'cV[F]_k.
Variable qp : forall k, 'M[F]_k -> 'cV[F]_k -> 'cV[F]_k.
Variable eigv : forall k, 'M[F]_k -> 'cV[F]_k.
Variable n : nat.
Variable d : edata F n.
Variables nf nw : nat.
Variable p : lparams F.
Hypothesis fo : firms_ok d nf.
Hypothesis nf0 : (0 < nf)%N.

Lemma firms_in : [exists r, (nf <= e_j1 d r)%N || (nf <= e_j2 d r)%N] = false.
Proof.
apply/negbTE; rewrite negb_exists; apply/forallP => r; have [f1 f2] := fo r.
by rewrite negb_or -!ltnNge f1 f2.
Qed.

Lemma ins_ok : instruments_exist d p nw -> exists zs, instruments d nf nw p = Base.Ok zs.
Proof.
rewrite /instruments_exist /instruments; case: (l_instrument p).
  by case: (l_coarse p) => [|c] _; eexists.
move=> [-> h]; have -> : [forall r, (e_i d r < nw)%N] by apply/forallP.
by eexists.
Qed.

Section Free.
Variables A1 A2 B1 B2 : nat -> F.
Variable alpha : 'I_n -> F.
Hypothesis nfree : e_noise_free d A1 A2 B1 B2 alpha.
Hypothesis nzB : forall j, (j < nf)%N -> B1 j != 0 /\ B2 j != 0.
Hypothesis hsb : l_stat_b p -> forall j, (j < nf)%N -> B1 j = B2 j.
Hypothesis hsa : l_stat_a p -> forall j, (j < nf)%N -> A1 j / B1 j = A2 j / B2 j.
Hypothesis hnorm : (l_norm p < nf)%N.
Let s := B1 (l_norm p).
Let c := A1 0%N / B1 0%N.

Lemma t_iv :
  l_method p = MIv -> l_profiling p = false ->
  (forall r, 0 < e_wgt d r) -> 0 <= l_tik p ->
  instruments_exist d p nw -> relevant d nf p (fun r => sq (e_wgt d r)) ->
  (forall k (M : 'M[F]_k) (v : 'cV[F]_k), M \in unitmx -> M *m qp M v = v) ->
  exists A1h A2h B1h B2h,
    fit_a_b sq rss_solve qp eigv d nf nw p = Base.Ok (A1h, A2h, B1h, B2h) /\
    forall j, (j < nf)%N ->
      [/\ B1h j = B1 j / s, B2h j = B2 j / s, A1h j = A1 j - B1 j * c & A2h j = A2 j - B2 j * c].
Proof.
move=> em ep pw tik0 ie rel hqp; have [zs hz] := ins_ok ie.
have u := rel_unit fo nf0 pw tik0 hnorm hz rel.
rewrite /fit_a_b em ep !andbF firms_in hz /= leqNgt (sizeB d hnorm) /=.
have := iv_recovers fo nf0 nfree nzB hsb hsa hnorm hqp u.
case: (extract _ _ _) => [[[A1h A2h] B1h] B2h] h.
by exists A1h, A2h, B1h, B2h.
Qed.

Lemma t_liml :
  l_method p = MLiml1 -> l_profiling p = false -> instruments_exist d p nw ->
  fit_a_b sq rss_solve qp eigv d nf nw p = Base.Err Base.LinAlgError.
Proof.
move=> em ep ie; have [zs hz] := ins_ok ie.
rewrite /fit_a_b em ep !andbF firms_in hz /= /liml_beta.
case u : (_ \in unitmx) => //; exfalso.
pose b := bsB nf p (fun j => s / B1 j) (fun j => s / B2 j)
          ++ bsA nf p (fun j => s * (A1 j / B1 j - c)) (fun j => s * (A2 j / B2 j - c)).
have sb : size b = size (colsB d nf p ++ colsA d nf p).
  by rewrite /b !size_cat (size_bsB d) (size_bsA d).
have z : cmx (colsB d nf p ++ colsA d nf p) *m cvl _ b = 0.
  apply/colP => r; rewrite cmx_dotl vlst_cvl // mxE /b dotl_cat ?(size_bsB d) //.
  exact: (eq_zero fo nf0 nfree nzB hsb hsa).
have v0 : cvl (size (colsB d nf p ++ colsA d nf p)) b = 0.
  by rewrite -(mulKmx u (cvl _ b)) /liml_Wx -mulmxA z !mulmx0.
have ln : (l_norm p < size (colsB d nf p ++ colsA d nf p))%N.
  by rewrite size_cat (leq_trans (sizeB d hnorm)) // leq_addr.
have := f_equal (fun v : 'cV[F]_ _ => v (Ordinal ln) 0) v0; rewrite !mxE /= /b nth_bsB1 //.
rewrite /s divff; last by have [] := nzB hnorm.
by move/eqP; rewrite oner_eq0.
Qed.

(* stayers *)
Section Stayers.
Variable m : nat.
Variable sd : edata F m.
Variable beta : 'I_m -> F.
Hypothesis sfree : e_noise_free sd A1 A2 B1 B2 beta.
Hypothesis stay : forall r, e_j1 sd r = e_j2 sd r.
Hypothesis sfo : firms_ok sd nf.
Hypothesis spw : forall r, 0 < e_wgt sd r.
Variables A1h A2h B1h B2h : nat -> F.
Hypothesis rec : forall j, (j < nf)%N ->
  [/\ B1h j = B1 j / s, B2h j = B2 j / s, A1h j = A1 j - B1 j * c & A2h j = A2 j - B2 j * c].

Lemma sfirms : [seq j <- iota 0 (\max_r e_j1 sd r).+1 | [exists r, e_j1 sd r == j]]
             = [seq j <- iota 0 nf | [exists r, e_j1 sd r == j]].
Proof.
have le : ((\max_r e_j1 sd r).+1 <= maxn nf (\max_r e_j1 sd r).+1)%N by rewrite leq_maxr.
have gen N : (\max_r e_j1 sd r < N)%N ->
   [seq j <- iota 0 (\max_r e_j1 sd r).+1 | [exists r, e_j1 sd r == j]]
   = [seq j <- iota 0 N | [exists r, e_j1 sd r == j]].
  move=> lN; rewrite -(subnKC lN) iotaD filter_cat [X in _ = _ ++ X](_ : _ = [::]) ?cats0 //.
  apply/eqP; rewrite -[_ == _]negbK -has_filter; apply/hasPn => j; rewrite mem_iota add0n => /andP[lj _].
  apply/existsP => [[r /eqP e]]; move: lj; rewrite -e ltnNge.
  by rewrite (leq_bigmax_cond (F := fun r => e_j1 sd r)).
apply: gen; case: (pickP (fun r : 'I_m => true)) => [r _|none].
  by rewrite -[nf](prednK nf0) ltnS; apply/bigmax_leqP => q _; rewrite -ltnS prednK //; have [] := sfo q.
by rewrite big_pred0.
Qed.

Lemma a_stayer r :
  (e_y1 sd r - A1h (e_j1 sd r)) / B1h (e_j1 sd r) + (e_y2 sd r - A2h (e_j2 sd r)) / B2h (e_j2 sd r)
  = 2%:R * (s * (beta r + c)).
Proof.
have [-> ->] := sfree r; have [f1 f2] := sfo r.
have [r1 _ r3 _] := rec f1; have [_ r2 _ r4] := rec f2; rewrite r1 r2 r3 r4.
have [n1 _] := nzB f1; have [_ n2] := nzB f2; have ns : s != 0 by have [] := nzB hnorm.
move: (A1 _) (A2 _) (B1 _) (B2 _) (beta r) n1 n2 s ns c => x1 x2 y1 y2 be n1 n2 s0 ns0 c0.
by ffield F; repeat split; apply/eqP.
Qed.

Lemma t_alpha :
  stayers_alpha sd A1h A2h B1h B2h
  = [seq s * (firm_mean sd beta j + c) | j <- iota 0 nf & [exists r, e_j1 sd r == j]].
Proof.
rewrite /stayers_alpha sfirms; apply/eq_in_map => j; rewrite mem_filter => /andP[/existsP[r0 j0] _].
rewrite /firm_mean.
have ws : \sum_(r | e_j1 sd r == j) e_wgt sd r != 0.
  apply: lt0r_neq0; rewrite (bigD1 r0) //= ltr_paddr // sumr_ge0 // => q _; exact: ltW.
have num : \sum_(r | e_j1 sd r == j) (2%:R * (s * (beta r + c))) * e_wgt sd r
   = 2%:R * s * (\sum_(r | e_j1 sd r == j) e_wgt sd r * beta r + c * \sum_(r | e_j1 sd r == j) e_wgt sd r).
  rewrite mulr_sumr -big_split /= mulr_sumr; apply: eq_bigr => r _.
  by move: (beta r) (e_wgt sd r) s c => x y s0 c0; fring F.
have n2 : 2%:R != 0 :> F by rewrite pnatr_eq0.
have fin (u v : F) : v != 0 -> 2%:R^-1 * (2%:R * s * (u + c * v) / v) = s * (u / v + c).
  move=> nv; move: s c => s0 c0; move: (2%:R : F) n2 => t nt.
  by ffield F; repeat split; apply/eqP.
rewrite -fin // -num /e_wgt; case: (e_w sd) => [w|]; congr (_ * (_ / _)).
  by apply: eq_bigr => r _; rewrite a_stayer.
by apply: eq_bigr => r _; rewrite a_stayer mulr1.
Qed.
End Stayers.
End Free.

Section Linear.
Hypothesis pw : forall r, 0 < e_wgt d r.
Hypothesis em : l_method p = MLinear.
Hypothesis ep : l_profiling p = false.
Hypothesis eb : l_stat_b p = false.
Hypothesis hs : forall k (M : 'M[F]_k), consistent (@rss_solve k) M.

Lemma t_linear :
  exists A1h A2h,
    [/\ fit_a_b sq rss_solve qp eigv d nf nw p = Base.Ok (A1h, A2h, fun=> 1, fun=> 1),
        A1h 0%N = 0, (l_stat_a p -> A2h = A1h),
        (forall A1 A2, (l_stat_a p -> forall j, (j < nf)%N -> A1 j = A2 j) ->
           change_ssr d A1h A2h <= change_ssr d A1 A2)
      & forall A1 A2 alpha, e_noise_free d A1 A2 (fun=> 1) (fun=> 1) alpha ->
          (l_stat_a p -> forall j, (j < nf)%N -> A1 j = A2 j) ->
          (forall j, (j < nf)%N -> e_linked d (l_stat_a p) false j -> A1h j = A1 j - A1 0%N) /\
          (forall j, (j < nf)%N -> e_linked d (l_stat_a p) true j -> A2h j = A2 j - A1 0%N)].
Proof.
exists (lin_A1 rss_solve d nf p), (lin_A2 rss_solve d nf p); split=> //.
- by rewrite /fit_a_b em ep eb /= firms_in.
- exact: lin_same.
- move=> A1 A2 ea.
  have := @lin_min _ _ rss_solve _ _ _ fo nf0 pw (@hs _ _) (fun j => A1 j - A1 0%N) (fun j => A2 j - A1 0%N).
  rewrite subrr => /(_ p erefl) h.
  have {}h := h (fun q j lj => f_equal (fun x => x - A1 0%N) (ea q j lj)).
  have -> : change_ssr d A1 A2 = change_ssr d (fun j => A1 j - A1 0%N) (fun j => A2 j - A1 0%N).
    by apply: eq_bigr => r _; congr (_ * (_ - _) ^+ 2); move: (A1 _) (A1 _) (A2 _) => x y z; fring F.
  by rewrite h ler_addl sumr_ge0 // => r _; rewrite mulr_ge0 ?sqr_ge0 // ltW.
- move=> A1 A2 alpha nfr ea; split=> j lj lk.
    exact: (lin_linked fo nf0 pw (@hs _ _) nfr ea lk lj).
  exact: (lin_linked fo nf0 pw (@hs _ _) nfr ea lk lj).
Qed.
End Linear.

Lemma t_coarse_workers : l_instrument p = WorkerIds -> l_coarse p != 0%N ->
  l_method p <> MLinear -> l_profiling p = false -> (l_norm p < nf)%N ->
  fit_a_b sq rss_solve qp eigv d nf nw p = Base.Err Base.UnboundLocalError.
Proof.
rewrite /fit_a_b /instruments => -> ; case: (l_coarse p) => // k _ hm -> hn; rewrite !andbF firms_in.
by case: (l_method p) hm => //= _; rewrite andbF.
Qed.

Lemma t_ids : l_instrument p = WorkerIds -> l_coarse p = 0%N ->
  l_method p <> MLinear -> l_profiling p = false -> (exists r, (nw <= e_i d r)%N) ->
  fit_a_b sq rss_solve qp eigv d nf nw p = Base.Err Base.ValueError.
Proof.
rewrite /fit_a_b /instruments => -> -> hm -> [r hr].
have -> : [forall r, (e_i d r < nw)%N] = false.
  by apply/negbTE; rewrite negb_forall; apply/existsP; exists r; rewrite -leqNgt.
by case: (l_method p) hm => //= _; rewrite !andbF firms_in.
Qed.

Lemma t_refused : l_stat_b p -> l_profiling p \/ l_method p = MLinear ->
  fit_a_b sq rss_solve qp eigv d nf nw p = Base.Err Base.ValueError.
Proof. by rewrite /fit_a_b => -> [->|->] //=; case: ifP. Qed.

Lemma size_colsB : (nf <= size (colsB d nf p))%N.
Proof. by rewrite /colsB; case: ifP => _; rewrite ?size_cat !size_map size_iota ?leq_addr. Qed.

Lemma t_normalised A1h A2h B1h B2h : (l_norm p < nf)%N -> l_method p <> MLinear ->
  fit_a_b sq rss_solve qp eigv d nf nw p = Base.Ok (A1h, A2h, B1h, B2h) ->
  A1h 0%N = 0 /\ (B1h (l_norm p) != 0 -> B1h (l_norm p) = 1).
Proof.
move=> hn hm; rewrite /fit_a_b; do 5 (case: ifP => // _).
have sB : (l_norm p < size (colsB d nf p))%N := leq_trans hn size_colsB.
case: (l_method p) hm => // _; case: (instruments d nf nw p) => //= zs.
- case: ifP => // _ [<- _ <- _]; split; first by rewrite mul0r.
  rewrite /iv_beta; set b := vlst _; suff -> : nth 0 (take (l_norm p) b ++ 1 :: drop (l_norm p) b) (l_norm p) = 1
    by rewrite invr1.
  have sb : (l_norm p <= size b)%N.
    rewrite /b /vlst size_map size_enum_ord /iv_cols size_cat size_take sB.
    exact: leq_addr.
  by rewrite nth_cat size_takel // ltnn subnn.
- rewrite /liml_beta; case: ifP => // _ /=; case: ifP => // hsz [<- _ <- _]; split; first by rewrite mul0r.
  set b := vlst _; set x := nth 0 b (l_norm p).
  have sb : (l_norm p < size b)%N.
    by rewrite /b /vlst size_map size_enum_ord size_cat (leq_trans sB) // leq_addr.
  rewrite (nth_map 0) // -/x; case: (altP (x =P 0)) => [->|nx]; first by rewrite mul0r invr0 eqxx.
  by rewrite divff // invr1.
Qed.

End Props.

(* ---- examples ------------------------------------------------------------- *)

Section Cases.
Variable F : realFieldType.
Add Field linc_field : (field_th F).

(* Two movers between two firms, weighted, firm pairs as instruments. *)
Definition A2f : nat -> F := fun j => if j == 1%N then 1 else 0.
Definition B2f : nat -> F := fun j => if j == 1%N then 2%:R else 1.
Definition al2 : 'I_2 -> F := fun r => if r == ord0 then 0 else 1.
Definition d81 : edata F 2 :=
  {| e_y1 := fun r => if r == ord0 then 0 else 3%:R; e_y2 := fun r => 1;
     e_j1 := fun r => if r == ord0 then 0%N else 1%N;
     e_j2 := fun r => if r == ord0 then 1%N else 0%N;
     e_i := fun r => r; e_w := Some (fun r => if r == ord0 then (1, 2%:R) else (3%:R, 1)) |}.
Definition p81 : lparams F :=
  {| l_method := MIv; l_norm := 1; l_stat_a := true; l_stat_b := true; l_profiling := false;
     l_instrument := FirmPairs; l_coarse := 0; l_tik := 0 |}.

Lemma ord2 (r : 'I_2) : r = ord0 \/ r = lift ord0 ord0.
Proof. by case: r => [[|[|k]] h] //; [left|right]; apply: val_inj. Qed.

Lemma lt2 j : (j < 2)%N -> j = 0%N \/ j = 1%N.
Proof. by case: j => [|[|j]] //; [left|right]. Qed.

Lemma d81_firms : firms_ok d81 2.
Proof. by move=> r; case: (ord2 r) => ->. Qed.

Lemma d81_free : e_noise_free d81 A2f A2f B2f B2f al2.
Proof. by move=> r; case: (ord2 r) => -> /=; split; rewrite /A2f /B2f /al2 /=; fring F. Qed.

Lemma d81_pos r : 0 < e_wgt d81 r.
Proof. by rewrite /e_wgt; case: (ord2 r) => -> /=; rewrite ?mul1r ?mulr1 ltr0n. Qed.

Lemma d81_rel (u : 'I_2 -> F) : (forall r, u r != 0) -> relevant d81 2 p81 u.
Proof.
move=> nu b1 b2 a1 a2 bn a0 sb sa mo.
have e0 : u ord0 * e_resid d81 b1 b2 a1 a2 ord0 = 0.
  have := mo 0%N 1%N; rewrite (big_pred1 ord0) // => r.
  by case: (ord2 r) => ->.
have e1 : u (lift ord0 ord0) * e_resid d81 b1 b2 a1 a2 (lift ord0 ord0) = 0.
  have := mo 1%N 0%N; rewrite (big_pred1 (lift ord0 ord0)) // => r.
  by case: (ord2 r) => ->.
move/eqP: e0; move/eqP: e1; rewrite !mulf_eq0 !(negbTE (nu _)) /= /e_resid /=.
move/eqP=> e1 /eqP e0.
have s0 := sb isT 0%N isT; have s1 := sb isT 1%N isT; have t0 := sa isT 0%N isT; have t1 := sa isT 1%N isT.
rewrite /= in bn; rewrite -s1 bn a0 in e0; rewrite bn -s0 -t0 a0 in e1.
have z2 : a2 1%N = 0 by apply/eqP; rewrite -oppr_eq0 -e0; apply/eqP; fring F.
have z1 : b1 0%N = 0 by rewrite -[RHS]e1 t1 z2; fring F.
by move=> j /lt2[->| ->]; split; rewrite -?s0 -?s1 -?t0 ?t1.
Qed.

(* Four movers between two firms, the ratio of intercept and slope is the same in
   both periods, worker ids as instruments. *)
Definition A1r : nat -> F := fun j => if j == 1%N then 1 else 0.
Definition A2r : nat -> F := fun j => if j == 1%N then 2%:R else 0.
Definition B1r : nat -> F := fun j => 1.
Definition B2r : nat -> F := fun j => if j == 1%N then 2%:R else 1.
Definition al4 : 'I_4 -> F := fun r => if odd r then 1 else 0.
Definition d82 : edata F 4 :=
  {| e_y1 := fun r => nth 0 [:: 0; 1; 1; 2%:R] r; e_y2 := fun r => nth 0 [:: 2%:R; 4%:R; 0; 1] r;
     e_j1 := fun r => if (r < 2)%N then 0%N else 1%N;
     e_j2 := fun r => if (r < 2)%N then 1%N else 0%N;
     e_i := fun r => r; e_w := None |}.
Definition p82 : lparams F :=
  {| l_method := MIv; l_norm := 0; l_stat_a := true; l_stat_b := false; l_profiling := false;
     l_instrument := WorkerIds; l_coarse := 0; l_tik := 0 |}.
(* One stayer, at the second firm. *)
Definition sd82 : edata F 1 :=
  {| e_y1 := fun=> 6%:R; e_y2 := fun=> 12%:R; e_j1 := fun=> 1%N; e_j2 := fun=> 1%N;
     e_i := fun=> 4%N; e_w := None |}.

Definition o4 k (h : (k < 4)%N) : 'I_4 := Ordinal h.
Lemma ord4 (P : 'I_4 -> Prop) :
  P (o4 (isT : (0 < 4)%N)) -> P (o4 (isT : (1 < 4)%N)) -> P (o4 (isT : (2 < 4)%N)) ->
  P (o4 (isT : (3 < 4)%N)) -> forall r, P r.
Proof.
move=> p0 p1 p2 p3 [[|[|[|[|k]]]] h] //;
  [rewrite (_ : Ordinal h = o4 (isT : (0 < 4)%N))|rewrite (_ : Ordinal h = o4 (isT : (1 < 4)%N))
  |rewrite (_ : Ordinal h = o4 (isT : (2 < 4)%N))|rewrite (_ : Ordinal h = o4 (isT : (3 < 4)%N))] => //;
  exact: val_inj.
Qed.

Lemma d82_firms : firms_ok d82 2.
Proof. by move=> r /=; case: ifP. Qed.
Lemma d82_free : e_noise_free d82 A1r A2r B1r B2r al4.
Proof. by apply: ord4 => /=; split; rewrite /A1r /A2r /B1r /B2r /al4 /=; fring F. Qed.
Lemma d82_slopes j : (j < 2)%N -> B1r j != 0 /\ B2r j != 0.
Proof. move=> _; split; first exact: oner_neq0.
by rewrite /B2r; case: ifP => _; [rewrite pnatr_eq0|exact: oner_neq0]. Qed.
Lemma d82_ratio j : (j < 2)%N -> A1r j / B1r j = A2r j / B2r j.
Proof.
have n2 : 2%:R != 0 :> F by rewrite pnatr_eq0.
by rewrite /A1r /B1r /A2r /B2r => _; case: eqP => _; rewrite ?divff ?oner_eq0 ?mul0r.
Qed.
Lemma sd82_free : e_noise_free sd82 A1r A2r B1r B2r (fun=> 5%:R).
Proof. by move=> r /=; rewrite /A1r /A2r /B1r /B2r /=; split; fring F. Qed.

Lemma d82_rel (u : 'I_4 -> F) : (forall r, u r != 0) -> relevant d82 2 p82 u.
Proof.
move=> nu b1 b2 a1 a2 bn a0 _ sa mo.
have row r : e_resid d82 b1 b2 a1 a2 r = 0.
  have := mo r; rewrite (big_pred1 r) //.
  by move/eqP; rewrite mulf_eq0 (negbTE (nu r)) /= => /eqP.
have e0 := row (o4 (isT : (0 < 4)%N)); have e1 := row (o4 (isT : (1 < 4)%N)).
have e2 := row (o4 (isT : (2 < 4)%N)); have e3 := row (o4 (isT : (3 < 4)%N)).
rewrite /e_resid /= in e0 e1 e2 e3; rewrite /= in bn.
have t0 := sa isT 0%N isT; have t1 := sa isT 1%N isT.
rewrite a0 bn in e0 e1; rewrite -t0 a0 t1 in e2 e3.
have n2 : 2%:R != 0 :> F by rewrite pnatr_eq0.
have z1 : b2 1%N = 0.
  have : 2%:R * b2 1%N = 0 by rewrite -[RHS](subrr 0) -{1}e1 -e0; fring F.
  by move/eqP; rewrite mulf_eq0 (negbTE n2) /= => /eqP.
have z2 : a2 1%N = 0 by rewrite -[RHS]oppr0 -{1}e0 z1; fring F.
have z3 : b1 1%N = 0 by rewrite -[RHS]oppr0 -{1}e2 z2; fring F.
have z4 : b2 0%N = 0 by rewrite -[RHS]e3 z2 z3; fring F.
by move=> j /lt2[->| ->]; split; rewrite -?t0 ?t1.
Qed.

(* A stayer at each firm. *)
Definition be2 : 'I_2 -> F := fun r => if r == ord0 then 5%:R else 7%:R.
Definition sd82b : edata F 2 :=
  {| e_y1 := fun r => if r == ord0 then 5%:R else 8%:R;
     e_y2 := fun r => if r == ord0 then 5%:R else 16%:R;
     e_j1 := fun r => r; e_j2 := fun r => r; e_i := fun r => (4 + r)%N;
     e_w := Some (fun r => (1, 2%:R)) |}.
Lemma sd82b_free : e_noise_free sd82b A1r A2r B1r B2r be2.
Proof. by move=> r; case: (ord2 r) => -> /=; rewrite /A1r /A2r /B1r /B2r /be2 /=; split; fring F. Qed.

End Cases.
