(* Properties of the linear estimators of the interacted model.
   Model: LinModel.v.  Vocabulary: LinSpec.v, FERegSpec.v. *)
Set Warnings "-notation-overridden,-ambiguous-paths".
From mathcomp Require Import all_ssreflect all_algebra.
From Verif Require Base.
From Verif Require Import FieldTac FERegSpec InterPropLemmas LinModel LinSpec LinPropLemmas.

Set Implicit Arguments.
Unset Strict Implicit.
Unset Printing Implicit Defensive.

Import GRing.Theory Num.Theory Order.POrderTheory.
Local Open Scope ring_scope.

Section Props.
Variable F : realFieldType.
Variable sq : F -> F.
Variable rss_solve : forall k, 'M[F]_k -> 'cV[F]_k -> 'cV[F]_k.
Variable qp : forall k, 'M[F]_k -> 'cV[F]_k -> 'cV[F]_k.
Variable eigv : forall k, 'M[F]_k -> 'cV[F]_k.
Variables (n nf nw : nat).
Implicit Types (d : edata F n) (p : lparams F).

(* C81: method 'iv' recovers slopes and intercepts from wages without noise for
   any weights and instruments that identify them; slopes relative to norm_fid,
   intercepts with firm 0 normalised to 0.  Stationary intercepts mean equal
   ratios of intercept and slope. *)
Theorem C81_iv d p A1 A2 B1 B2 alpha :
  firms_ok d nf -> (l_norm p < nf)%N ->
  e_noise_free d A1 A2 B1 B2 alpha ->
  (forall j, (j < nf)%N -> B1 j != 0 /\ B2 j != 0) ->
  (l_stat_b p -> forall j, (j < nf)%N -> B1 j = B2 j) ->
  (l_stat_a p -> forall j, (j < nf)%N -> A1 j / B1 j = A2 j / B2 j) ->
  l_method p = MIv -> l_profiling p = false ->
  (forall r, 0 < e_wgt d r) -> 0 <= l_tik p ->
  instruments_exist d p nw -> relevant d nf p (fun r => sq (e_wgt d r)) ->
  (forall k (M : 'M[F]_k) (v : 'cV[F]_k), M \in unitmx -> M *m qp M v = v) ->
  exists A1h A2h B1h B2h,
    fit_a_b sq rss_solve qp eigv d nf nw p = Base.Ok (A1h, A2h, B1h, B2h) /\
    forall j, (j < nf)%N ->
      [/\ B1h j = B1 j / B1 (l_norm p), B2h j = B2 j / B1 (l_norm p),
          A1h j = A1 j - B1 j * (A1 0%N / B1 0%N)
        & A2h j = A2 j - B2 j * (A1 0%N / B1 0%N)].
Proof.
move=> fo hn nfr nz sb sa; apply: t_iv => //.
exact: leq_ltn_trans (leq0n _) hn.
Qed.

(* C81: method 'linear' sets the slopes to 1; no intercepts fit the wage changes of
   movers better, and those linked to firm 0 by moves are recovered from wages
   without noise. *)
Theorem C81_linear d p :
  firms_ok d nf -> (0 < nf)%N -> (forall r, 0 < e_wgt d r) ->
  l_method p = MLinear -> l_profiling p = false -> l_stat_b p = false ->
  (forall k (M : 'M[F]_k), consistent (@rss_solve k) M) ->
  exists A1h A2h,
    [/\ fit_a_b sq rss_solve qp eigv d nf nw p = Base.Ok (A1h, A2h, fun=> 1, fun=> 1),
        A1h 0%N = 0, (l_stat_a p -> A2h = A1h),
        (forall A1 A2, (l_stat_a p -> forall j, (j < nf)%N -> A1 j = A2 j) ->
           change_ssr d A1h A2h <= change_ssr d A1 A2)
      & forall A1 A2 alpha, e_noise_free d A1 A2 (fun=> 1) (fun=> 1) alpha ->
          (l_stat_a p -> forall j, (j < nf)%N -> A1 j = A2 j) ->
          (forall j, (j < nf)%N -> e_linked d (l_stat_a p) false j -> A1h j = A1 j - A1 0%N) /\
          (forall j, (j < nf)%N -> e_linked d (l_stat_a p) true j -> A2h j = A2 j - A1 0%N)].
Proof. by move=> fo nf0 pw em ep eb hs; exact: t_linear. Qed.

(* C81, method 'liml_1', the default: on wages without noise the matrix to be
   inverted is singular for every set of parameters and instruments. *)
Theorem C81_default_refuted d p A1 A2 B1 B2 alpha :
  firms_ok d nf -> (l_norm p < nf)%N ->
  e_noise_free d A1 A2 B1 B2 alpha ->
  (forall j, (j < nf)%N -> B1 j != 0 /\ B2 j != 0) ->
  (l_stat_b p -> forall j, (j < nf)%N -> B1 j = B2 j) ->
  (l_stat_a p -> forall j, (j < nf)%N -> A1 j / B1 j = A2 j / B2 j) ->
  l_method p = MLiml1 -> l_profiling p = false -> instruments_exist d p nw ->
  fit_a_b sq rss_solve qp eigv d nf nw p = Base.Err Base.LinAlgError.
Proof.
move=> fo hn nfr nz sb sa em ep ie.
exact: (t_liml _ _ _ _ fo (leq_ltn_trans (leq0n _) hn) nfr nz sb sa hn em ep ie).
Qed.

(* C81: worker ids as instruments cannot be coarsened (WW is not assigned), and ids
   of movers that are not numbered from 0 are refused. *)
Theorem C81_worker_ids_refuted d p :
  firms_ok d nf -> l_instrument p = WorkerIds -> l_method p <> MLinear -> l_profiling p = false ->
  (l_norm p < nf)%N ->
  (l_coarse p != 0%N ->
   fit_a_b sq rss_solve qp eigv d nf nw p = Base.Err Base.UnboundLocalError) /\
  (l_coarse p = 0%N -> (exists r, (nw <= e_i d r)%N) ->
   fit_a_b sq rss_solve qp eigv d nf nw p = Base.Err Base.ValueError).
Proof.
move=> fo ei em ep hn; split=> [hc|hc hr]; first exact: t_coarse_workers.
exact: t_ids.
Qed.

(* C81: stationary slopes cannot be combined with profiling or with 'linear'. *)
Theorem C81_refused d p : l_stat_b p -> l_profiling p \/ l_method p = MLinear ->
  fit_a_b sq rss_solve qp eigv d nf nw p = Base.Err Base.ValueError.
Proof. exact: t_refused. Qed.

(* C81: whatever 'iv' and 'liml_1' return is normalised: firm 0 has intercept 0,
   and firm norm_fid slope 1 (0 stands for an infinite slope). *)
Theorem C81_normalised d p A1h A2h B1h B2h : (l_norm p < nf)%N -> l_method p <> MLinear ->
  fit_a_b sq rss_solve qp eigv d nf nw p = Base.Ok (A1h, A2h, B1h, B2h) ->
  A1h 0%N = 0 /\ (B1h (l_norm p) != 0 -> B1h (l_norm p) = 1).
Proof. exact: t_normalised. Qed.

End Props.

Print Assumptions C81_refused.
Print Assumptions C81_normalised.

Print Assumptions C81_iv.
Print Assumptions C81_linear.
Print Assumptions C81_default_refuted.
Print Assumptions C81_worker_ids_refuted.

(* C81: stationary_a=True ("constrain a1==a2") returns different intercepts. *)
Theorem C81_stationary_a_refuted (F : realFieldType) rss_solve qp eigv :
  (forall k (M : 'M[F]_k) (v : 'cV[F]_k), M \in unitmx -> M *m qp k M v = v) ->
  exists n (d : edata F n) p A1h A2h B1h B2h,
    l_stat_a p /\
    fit_a_b (fun x => x) rss_solve qp eigv d 2 n p = Base.Ok (A1h, A2h, B1h, B2h) /\
    A1h 1%N = 1 /\ A2h 1%N = 2%:R.
Proof.
move=> hqp.
have [A1h [A2h [B1h [B2h [e h]]]]] :
  exists A1h A2h B1h B2h,
    fit_a_b (fun x => x) rss_solve qp eigv (d82 F) 2 4 (p82 F) = Base.Ok (A1h, A2h, B1h, B2h) /\
    forall j, (j < 2)%N ->
      [/\ B1h j = B1r F j / B1r F 0, B2h j = B2r F j / B1r F 0,
          A1h j = A1r F j - B1r F j * (A1r F 0 / B1r F 0)
        & A2h j = A2r F j - B2r F j * (A1r F 0 / B1r F 0)].
  apply: (@C81_iv F (fun x => x) rss_solve qp eigv 4 2 4 (d82 F) (p82 F)) => //.
  - exact: d82_firms.
  - exact: d82_free.
  - exact: d82_slopes.
  - by move=> _; exact: d82_ratio.
  - by move=> r; exact: ltr01.
  - by split=> // r; exact: ltn_ord.
  - by apply: d82_rel => r; exact: oner_neq0.
exists 4%N, (d82 F), (p82 F), A1h, A2h, B1h, B2h; split=> //; split=> //.
have [_ _ -> ->] := h 1%N isT.
by rewrite /A1r /A2r /= !mul0r !mulr0 !subr0.
Qed.
Print Assumptions C81_stationary_a_refuted.

(* Two firms with intercepts 0, 1 and slopes 1, 2, relative to the second. *)
Example C81_case (F : realFieldType) :
  exists A1h A2h B1h B2h,
    fit_a_b (fun x : F => x) (@psolve F) (@psolve F) (fun k M => 0) (d81 F) 2 2 (p81 F)
    = Base.Ok (A1h, A2h, B1h, B2h) /\
    [/\ A1h 0%N = 0, A1h 1%N = 1, B1h 0%N = 1 / 2%:R & B1h 1%N = 1].
Proof.
have n2 : 2%:R != 0 :> F by rewrite pnatr_eq0.
have [A1h [A2h [B1h [B2h [e h]]]]] :
  exists A1h A2h B1h B2h,
    fit_a_b (fun x => x) (@psolve F) (@psolve F) (fun k M => 0) (d81 F) 2 2 (p81 F)
    = Base.Ok (A1h, A2h, B1h, B2h) /\
    forall j, (j < 2)%N ->
      [/\ B1h j = B2f F j / B2f F 1, B2h j = B2f F j / B2f F 1,
          A1h j = A2f F j - B2f F j * (A2f F 0 / B2f F 0)
        & A2h j = A2f F j - B2f F j * (A2f F 0 / B2f F 0)].
  apply: (@C81_iv F (fun x => x) (@psolve F) (@psolve F) _ 2 2 2 (d81 F) (p81 F)) => //.
  - exact: d81_firms.
  - exact: d81_free.
  - by move=> j _; rewrite /B2f; case: ifP => _; split; rewrite // oner_neq0.
  - exact: d81_pos.
  - by apply: d81_rel => r; exact: lt0r_neq0 (d81_pos F r).
  - by move=> k M v u; apply: psolve_ok; exists (invmx M *m v); rewrite mulKVmx.
exists A1h, A2h, B1h, B2h; split=> //.
have [b0 _ a0 _] := h 0%N isT; have [b1 _ a1 _] := h 1%N isT.
by split; rewrite ?b0 ?b1 ?a0 ?a1 /A2f /B2f /= ?mul0r ?mulr0 ?subr0 ?divff.
Qed.

Section Alpha.
Variable F : realFieldType.
Variable sq : F -> F.
Variable rss_solve : forall k, 'M[F]_k -> 'cV[F]_k -> 'cV[F]_k.
Variable qp : forall k, 'M[F]_k -> 'cV[F]_k -> 'cV[F]_k.
Variable eigv : forall k, 'M[F]_k -> 'cV[F]_k.
Variables (n m nf nw : nat).
Implicit Types (d : edata F n) (sd : edata F m) (p : lparams F).

(* C82: with method 'iv' fit returns, on wages without noise, the weighted mean of
   the worker effects of the stayers of each firm that has stayers, on the scale of
   the returned intercepts and slopes. *)
Theorem C82_alpha d sd p A1 A2 B1 B2 alpha beta :
  firms_ok d nf -> (l_norm p < nf)%N ->
  e_noise_free d A1 A2 B1 B2 alpha ->
  (forall j, (j < nf)%N -> B1 j != 0 /\ B2 j != 0) ->
  (l_stat_b p -> forall j, (j < nf)%N -> B1 j = B2 j) ->
  (l_stat_a p -> forall j, (j < nf)%N -> A1 j / B1 j = A2 j / B2 j) ->
  l_method p = MIv -> l_profiling p = false ->
  (forall r, 0 < e_wgt d r) -> 0 <= l_tik p ->
  instruments_exist d p nw -> relevant d nf p (fun r => sq (e_wgt d r)) ->
  (forall k (M : 'M[F]_k) (v : 'cV[F]_k), M \in unitmx -> M *m qp M v = v) ->
  e_noise_free sd A1 A2 B1 B2 beta -> firms_ok sd nf -> (forall r, 0 < e_wgt sd r) ->
  let s := B1 (l_norm p) in let c := A1 0%N / B1 0%N in
  exists Ah Bh alphah,
    [/\ fit_linear sq rss_solve qp eigv d nf nw p sd = Base.Ok (Ah, Bh, alphah),
        forall j, (j < nf)%N -> Ah j = A1 j - B1 j * c /\ Bh j = B1 j / s
      & alphah = [seq s * (firm_mean sd beta j + c) | j <- iota 0 nf & [exists r, e_j1 sd r == j]]].
Proof.
move=> fo hn nfr nz sb sa em ep pw tk ie rel hqp sfr sfo spw s c.
have [A1h [A2h [B1h [B2h [e h]]]]] :=
  C81_iv rss_solve eigv fo hn nfr nz sb sa em ep pw tk ie rel hqp.
exists A1h, B1h, (stayers_alpha sd A1h A2h B1h B2h); split.
- by rewrite /fit_linear e.
- by move=> j lj; have [-> _ -> _] := h j lj.
- exact: (t_alpha (leq_ltn_trans (leq0n _) hn) nz hn sfr sfo spw h).
Qed.
End Alpha.

Print Assumptions C82_alpha.

(* C82 with a firm without stayers: the list of worker effects is shorter than the
   list of firms, and its first entry is that of the second firm. *)
Theorem C82_missing_refuted (F : realFieldType) rss_solve qp eigv :
  (forall k (M : 'M[F]_k) (v : 'cV[F]_k), M \in unitmx -> M *m qp k M v = v) ->
  exists n (d : edata F n) m (sd : edata F m) p A1 A2 B1 B2 alpha beta Ah Bh,
    firms_ok d 2 /\ e_noise_free d A1 A2 B1 B2 alpha /\ e_noise_free sd A1 A2 B1 B2 beta /\
    (forall r, e_j1 sd r = 1%N /\ beta r = 5%:R) /\
    fit_linear (fun x => x) rss_solve qp eigv d 2 n p sd = Base.Ok (Ah, Bh, [:: 5%:R]).
Proof.
move=> hqp.
have [Ah [Bh [alphah [e _ ea]]]] :=
  C82_alpha (sq := fun x => x) rss_solve eigv (d82_firms F) (isT : (l_norm (p82 F) < 2)%N) (d82_free F) (@d82_slopes F)
    (fun h : l_stat_b (p82 F) => False_rect _ (Bool.diff_false_true h)) (fun _ => @d82_ratio F) erefl erefl
    (fun r => ltr01) (lexx _) (conj erefl (fun r : 'I_4 => ltn_ord r))
    (d82_rel (fun r => oner_neq0 F)) hqp (sd82_free F) (fun r => conj isT isT) (fun r => ltr01).
exists 4%N, (d82 F), 1%N, (sd82 F), (p82 F), (A1r F), (A2r F), (B1r F), (B2r F), (al4 F), (fun=> 5%:R), Ah, Bh.
split; first exact: d82_firms.
split; first exact: d82_free.
split; first exact: sd82_free.
split=> //; rewrite e ea; congr (Base.Ok (_, _, _)).
have -> : [seq j <- iota 0 2 | [exists r, e_j1 (sd82 F) r == j]] = [:: 1%N].
  have -> : iota 0 2 = [:: 0%N; 1%N] by [].
  rewrite /=; have -> : [exists r : 'I_1, 1%N == 0%N] = false by apply/existsP => [[]].
  by have -> : [exists r : 'I_1, 1%N == 1%N] by apply/existsP; exists ord0.
have p1 (g : 'I_1 -> F) : \sum_(r | e_j1 (sd82 F) r == 1%N) g r = g ord0.
  by rewrite (big_pred1 ord0) // => r; rewrite (ord1 r).
rewrite [map _ _]/= /firm_mean !p1 /e_wgt /= mul1r divr1 /B1r /A1r /=.
by rewrite !mul1r mul0r addr0.
Qed.
Print Assumptions C82_missing_refuted.

(* Stayers with worker effects 5 and 7 at the two firms of the same economy; there are
   two entries. *)
Example C82_case (F : realFieldType) :
  exists (sd : edata F 2) Ah Bh,
    (forall r : 'I_2, e_j1 sd r = r) /\
    fit_linear (fun x => x) (@psolve F) (@psolve F) (fun k M => 0) (d82 F) 2 4 (p82 F) sd
    = Base.Ok (Ah, Bh, [:: 5%:R; 7%:R]).
Proof.
pose sd := sd82b F; have sf := sd82b_free F.
have hqp k (M : 'M[F]_k) (v : 'cV[F]_k) : M \in unitmx -> M *m psolve M v = v.
  by move=> u; apply: psolve_ok; exists (invmx M *m v); rewrite mulKVmx.
have pw r : 0 < e_wgt sd r by rewrite /e_wgt /= mul1r ltr0n.
have [Ah [Bh [alphah [e _ ea]]]] :=
  C82_alpha (sq := fun x => x) (@psolve F) (fun k M => 0) (d82_firms F) (isT : (l_norm (p82 F) < 2)%N)
    (d82_free F) (@d82_slopes F)
    (fun h : l_stat_b (p82 F) => False_rect _ (Bool.diff_false_true h)) (fun _ => @d82_ratio F) erefl erefl
    (fun r => ltr01) (lexx _) (conj erefl (fun r : 'I_4 => ltn_ord r))
    (d82_rel (fun r => oner_neq0 F)) hqp sf
    (fun r : 'I_2 => conj (ltn_ord r) (ltn_ord r)) pw.
exists sd, Ah, Bh; split=> //; rewrite e ea; congr (Base.Ok (_, _, _)).
have -> : [seq j <- iota 0 2 | [exists r, e_j1 sd r == j]] = [:: 0%N; 1%N].
  have -> : iota 0 2 = [:: 0%N; 1%N] by [].
  rewrite /=; have -> : [exists r : 'I_2, r == 0%N :> nat] by apply/existsP; exists ord0.
  by have -> : [exists r : 'I_2, r == 1%N :> nat] by apply/existsP; exists (lift ord0 ord0).
have p1 (g : 'I_2 -> F) (q : 'I_2) : \sum_(r | e_j1 sd r == q) g r = g q by rewrite (big_pred1 q).
have n2 : 2%:R != 0 :> F by rewrite pnatr_eq0.
have m0 : firm_mean sd (be2 F) 0%N = 5%:R.
  by rewrite /firm_mean !(p1 _ ord0) /e_wgt /= mul1r /be2 /= [_ * 5%:R]mulrC mulfK.
have m1 : firm_mean sd (be2 F) 1%N = 7%:R.
  by rewrite /firm_mean !(p1 _ (lift ord0 ord0)) /e_wgt /= mul1r /be2 /= [_ * 7%:R]mulrC mulfK.
by rewrite [map _ _]/= m0 m1 /B1r /A1r /= mul0r !addr0 !mul1r.
Qed.
