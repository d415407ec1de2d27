(* The attrition properties. *)
Set Warnings "-notation-overridden,-ambiguous-paths".
From Coq Require Import ZArith QArith Qabs String.
From mathcomp Require Import all_ssreflect.
From Verif Require Base.
From Verif Require Import AttrModel AttrSpec AttrLemmas AttrIncLemmas AttrDecLemmas.
From Verif Require Import AttrCombModel AttrCombSpec AttrCombLemmas AttrPropLemmas.

Set Implicit Arguments.
Unset Strict Implicit.
Unset Printing Implicit Defensive.
Local Open Scope nat_scope.

(* C35.  Increasing attrition: what is used at a smaller share is used at every
   larger one, for every outcome of the draws and every cleaning that takes a
   connected set. *)
Theorem C35_increasing_nested (weighted dss : bool) (min_firms n_draws : nat)
    (clean : seq obs -> Base.res (seq obs)) (draw1 draw2 : nat -> seq nat -> nat -> seq nat)
    (shares : seq Q) (rows : seq obs) (l : seq subset) (a b : nat) :
  (forall t, valid_draw (draw2 t)) -> prunes clean ->
  gen_increasing weighted dss min_firms n_draws clean draw1 draw2 shares rows = Base.Ok l ->
  a <= b -> b < size l ->
  sub_obs (used_increasing weighted dss (sub_at l a) rows)
          (used_increasing weighted dss (sub_at l b) rows).
Proof. by move=> dv cl; apply: (inc_nested dv cl). Qed.
Print Assumptions C35_increasing_nested.

(* One subset per share. *)
Theorem C35_increasing_size (weighted dss : bool) (min_firms n_draws : nat)
    (clean : seq obs -> Base.res (seq obs)) (draw1 draw2 : nat -> seq nat -> nat -> seq nat)
    (shares : seq Q) (rows : seq obs) (l : seq subset) :
  (forall t, valid_draw (draw2 t)) -> prunes clean ->
  gen_increasing weighted dss min_firms n_draws clean draw1 draw2 shares rows = Base.Ok l ->
  size l = size shares.
Proof. by move=> dv cl; apply: (inc_size dv cl). Qed.
Print Assumptions C35_increasing_size.

(* The same firms are dropped at every share. *)
Theorem C35_increasing_firms (weighted dss : bool) (min_firms n_draws : nat)
    (clean : seq obs -> Base.res (seq obs)) (draw1 draw2 : nat -> seq nat -> nat -> seq nat)
    (shares : seq Q) (rows : seq obs) (l : seq subset) (a : nat) :
  (forall t, valid_draw (draw2 t)) -> prunes clean ->
  gen_increasing weighted dss min_firms n_draws clean draw1 draw2 shares rows = Base.Ok l ->
  a < size l -> (sub_at l a).1 = (sub_at l 0).1.
Proof. by move=> dv cl; apply: (inc_firms dv cl). Qed.
Print Assumptions C35_increasing_firms.

(* They leave at least the minimum number of firms. *)
Theorem C35_increasing_min (weighted dss : bool) (min_firms n_draws : nat)
    (clean : seq obs -> Base.res (seq obs)) (draw1 draw2 : nat -> seq nat -> nat -> seq nat)
    (shares : seq Q) (rows : seq obs) (l : seq subset) :
  (forall t, valid_draw (draw2 t)) -> prunes clean ->
  gen_increasing weighted dss min_firms n_draws clean draw1 draw2 shares rows = Base.Ok l ->
  min_firms <= size (fids (kept ((sub_at l 0).1, None) rows)).
Proof. by move=> _ cl; apply: (inc_min cl). Qed.
Print Assumptions C35_increasing_min.

(* Of the V movers at the firms of the first subset, the rounded share to be dropped
   is dropped, unless this would leave fewer movers than the first subset has. *)
Theorem C35_increasing_count (weighted dss : bool) (min_firms n_draws : nat)
    (clean : seq obs -> Base.res (seq obs)) (draw1 draw2 : nat -> seq nat -> nat -> seq nat)
    (shares : seq Q) (rows : seq obs) (l : seq subset) (b : nat) :
  (forall t, valid_draw (draw2 t)) -> prunes clean ->
  gen_increasing weighted dss min_firms n_draws clean draw1 draw2 shares rows = Base.Ok l ->
  shares01 shares -> increasing shares -> 0 < b < size l ->
  let V := n_movers (kept ((sub_at l 0).1, None) rows) in
  let movers_used k := Z.of_nat (n_movers (used_increasing weighted dss (sub_at l k) rows)) in
  movers_used b = Z.max (Z.of_nat V
    - np_round (Qmult (Qminus (inject_Z 1) (nth (inject_Z 0) shares b)) (natQ V)))%Z (movers_used 0).
Proof. by move=> dv cl g s01 inc /andP [b0 bl]; apply: (inc_count dv cl g s01 inc b0 bl). Qed.
Print Assumptions C35_increasing_count.

(* Rounding is to a nearest integer. *)
Theorem C35_round (x : Q) : nearest (np_round x) x.
Proof. exact: np_round_nearest. Qed.
Print Assumptions C35_round.

(* Taking the largest connected set meets the condition on cleaning. *)
Theorem C35_connected : prunes clean_connected.
Proof. exact: connected_prunes. Qed.
Print Assumptions C35_connected.

Example C35_case_increasing :
  (forall t, valid_draw (draw_inc t))
  /\ gen_increasing false true 2 5 clean_connected draw_inc draw_inc shares_inc rows_inc = Base.Ok subs_inc
  /\ shares01 shares_inc /\ increasing shares_inc
  /\ [seq n_movers (used_increasing false true s rows_inc) | s <- subs_inc] = [:: 3; 4; 5].
Proof.
by split; [exact: draw_inc_valid | split; [exact: subs_inc_ok |
  split; [exact: shares_inc01 | split; [exact: shares_inc_ok | by vm_compute]]]].
Qed.

(* Decreasing attrition: each step keeps a part of the previous one. *)
Theorem C35_decreasing_nested (draw : nat -> seq nat -> nat -> seq nat) (shares : seq Q)
    (rows : seq obs) (l : seq subset) (a b : nat) :
  (forall t, valid_draw (draw t)) -> gen_decreasing draw shares rows = Base.Ok l ->
  a <= b -> b < size l -> sub_obs (kept (sub_at l b) rows) (kept (sub_at l a) rows).
Proof. by move=> dv; apply: (dec_nested dv). Qed.
Print Assumptions C35_decreasing_nested.

(* It never fails and gives one subset per share. *)
Theorem C35_decreasing_total (draw : nat -> seq nat -> nat -> seq nat) (shares : seq Q) (rows : seq obs) :
  (forall t, valid_draw (draw t)) ->
  exists l, gen_decreasing draw shares rows = Base.Ok l /\ size l = size shares.
Proof. by move=> dv; have [l h] := dec_total dv shares rows; exists l; split=> //; apply: (dec_size dv h). Qed.
Print Assumptions C35_decreasing_total.

(* At every step the number of movers is scaled by the ratio of the two shares, up
   to rounding: M(k+1) = M(k) * s(k+1) / s(k) within 1/2. *)
Theorem C35_decreasing_step (draw : nat -> seq nat -> nat -> seq nat) (shares : seq Q)
    (rows : seq obs) (l : seq subset) (k : nat) :
  (forall t, valid_draw (draw t)) -> gen_decreasing draw shares rows = Base.Ok l ->
  shares01 shares -> decreasing shares -> k.+1 < size l ->
  let M j := natQ (n_movers (kept (sub_at l j) rows)) in
  let s j := nth (inject_Z 0) shares j in
  Qle (Qabs (Qminus (Qmult (s k) (M k.+1)) (Qmult (s k.+1) (M k)))) (Qmult (s k) (1 # 2)).
Proof. by move=> dv; apply: (dec_step dv). Qed.
Print Assumptions C35_decreasing_step.

(* Against the requested share of all movers, half an observation per step. *)
Theorem C35_decreasing_count (draw : nat -> seq nat -> nat -> seq nat) (shares : seq Q)
    (rows : seq obs) (l : seq subset) (k : nat) :
  (forall t, valid_draw (draw t)) -> gen_decreasing draw shares rows = Base.Ok l ->
  shares01 shares -> decreasing shares -> k < size l ->
  Qle (Qabs (Qminus (natQ (n_movers (kept (sub_at l k) rows)))
                    (Qmult (nth (inject_Z 0) shares k) (natQ (n_movers rows)))))
      (Qmult (natQ k.+1) (1 # 2)).
Proof. by move=> dv; apply: (dec_count dv). Qed.
Print Assumptions C35_decreasing_count.

(* Finding: the observations used for estimation, after the largest connected set is
   taken, need not be a part of those used at the previous step. *)
Theorem C35_decreasing_used_refuted :
  exists draw shares rows l u0 u1,
    (forall t, valid_draw (draw t)) /\ shares01 shares /\ decreasing shares
    /\ gen_decreasing draw shares rows = Base.Ok l
    /\ used_decreasing (sub_at l 0) rows = Base.Ok u0
    /\ used_decreasing (sub_at l 1) rows = Base.Ok u1 /\ ~ sub_obs u1 u0.
Proof.
have [u0 [u1 h]] := dec_used_switch; exists draw_dec, shares_dec, rows_dec, subs_dec, u0, u1.
by split; [exact: draw_dec_valid | split; [exact: shares_dec01 | split; [exact: shares_dec_ok |
   split; [exact: subs_dec_ok | exact: h]]]].
Qed.
Print Assumptions C35_decreasing_used_refuted.

Example C35_case_decreasing :
  gen_decreasing draw_dec shares_dec rows_dec = Base.Ok subs_dec
  /\ [seq n_movers (kept s rows_dec) | s <- subs_dec] = [:: 7; 6] /\ n_movers rows_dec = 8.
Proof. by split; [exact: subs_dec_ok | split; vm_compute]. Qed.

(* C36.  The k-th result belongs to the k-th share and is computed with the k-th
   seed, for any number of cores and any order in which the jobs finish. *)
Theorem C36_order (Seed Res : Type) (interior : subset -> Seed -> Res) (spawn : nat -> Seed)
    (ncore : nat) (finish : seq nat) (c : nat) (subsets : seq subset) :
  perm_eq finish (iota 0 (size subsets)) ->
  run_jobs interior spawn ncore finish c subsets
  = Base.Ok [seq interior (sub_at subsets k) (spawn (c + k)) | k <- iota 0 (size subsets)].
Proof. exact: run_jobs_ok. Qed.
Print Assumptions C36_order.

(* All simulations together do not depend on the cores or on the finishing orders. *)
Theorem C36_cores (State Seed Res : Type) (gen : bool -> State -> Base.res (seq subset * State))
    (interior : bool -> subset -> Seed -> Res) (spawn : nat -> Seed)
    (fin1 fin2 : nat -> nat -> seq nat) (ncore1 ncore2 N c : nat) (st : State) :
  (forall r n, perm_eq (fin1 r n) (iota 0 n)) -> (forall r n, perm_eq (fin2 r n) (iota 0 n)) ->
  attrition gen interior spawn ncore1 fin1 0 N c st = attrition gen interior spawn ncore2 fin2 0 N c st.
Proof. exact: attrition_orders. Qed.
Print Assumptions C36_cores.

Example C36_case :
  run_jobs (fun s k => (s, k)) id 4 [:: 2; 0; 1] 10 subs_inc
  = Base.Ok [:: (sub_at subs_inc 0, 10); (sub_at subs_inc 1, 11); (sub_at subs_inc 2, 12)]
  /\ perm_eq [:: 2; 0; 1] (iota 0 (size subs_inc)).
Proof. by split; vm_compute. Qed.

(* C60.  When the subsets are drawn, the caller's cleaning parameters are as before. *)
Theorem C60_partial (weighted flag : bool) (min_firms n_draws : nat)
    (clean : bool -> seq obs -> Base.res (seq obs)) (draw1 draw2 : nat -> seq nat -> nat -> seq nat)
    (shares : seq Q) (rows : seq obs) (l : seq subset) :
  let g := gen_increasing_state weighted flag min_firms n_draws clean draw1 draw2 shares rows in
  g.1 = Base.Ok l -> g.2 = flag.
Proof. exact: flag_restored. Qed.
Print Assumptions C60_partial.

(* Finding: not when an exception is raised. *)
Theorem C60_refuted :
  exists min_firms n_draws clean draw1 draw2 shares rows,
  let g := gen_increasing_state false true min_firms n_draws clean draw1 draw2 shares rows in
  g.1 = Base.Err Base.ValueError /\ g.2 = false.
Proof. by exists 2, 5, clean_fails, draw_inc, draw_inc, shares_inc, rows_inc; exact: flag_lost. Qed.
Print Assumptions C60_refuted.

Example C60_case :
  gen_increasing_state false true 2 5 (fun _ => clean_connected) draw_inc draw_inc shares_inc rows_inc
  = (Base.Ok subs_inc, true).
Proof. by vm_compute. Qed.

(* C61.  The table of an estimator holds at (i, j) the variance of the firm effects
   (the covariance) of simulation i at share j in percent of the variance of y. *)
Theorem C61_tables (res_non_he res_he : results) (shares : seq Q) (mpf : Q) (to_plot : string -> bool)
    (with_line : bool) (digits : nat) (out : combined) (e : est) (k : nat) :
  combine_res res_non_he res_he shares mpf to_plot with_line digits = Base.Ok out ->
  k < size estimators -> nth e estimators k = e -> to_plot (e_name e) ->
  exists t l0 t', res_non_he "fe"%string = Some t /\ t = l0 :: t' /\
  let N := size t in let M := size l0 in
  table_ok res_he e_var N M (c_var_he out) e /\ table_ok res_he e_cov N M (c_cov_he out) e
  /\ (e_name e <> "he"%string ->
      table_ok res_non_he e_var N M (c_var_non_he out) e
      /\ table_ok res_non_he e_cov N M (c_cov_non_he out) e).
Proof. exact: combine_tables. Qed.
Print Assumptions C61_tables.

(* The numbers are those documented for the estimator, and there are six. *)
Theorem C61_estimators :
  (forall (e : est) (k : nat), k < size estimators -> nth e estimators k = e -> documented e)
  /\ forall name : string, List.In name [:: "fe"; "ho"; "he"; "cre"; "bs1"; "bs2"]%string ->
     exists e k, [/\ k < size estimators, nth e estimators k = e & e_name e = name].
Proof. exact: (conj p_documented p_six). Qed.
Print Assumptions C61_estimators.

(* The x axis lists the shares in percent, in their order. *)
Theorem C61_axis (res_non_he res_he : results) (shares : seq Q) (mpf : Q) (to_plot : string -> bool)
    (with_line : bool) (digits : nat) (out : combined) :
  combine_res res_non_he res_he shares mpf to_plot with_line digits = Base.Ok out ->
  c_x out = [seq np_round_to digits (Qmult (inject_Z 100) s) | s <- shares].
Proof. exact: combine_x. Qed.
Print Assumptions C61_axis.

(* With complete results and shares that increase somewhere it succeeds. *)
Theorem C61_succeeds (res_non_he res_he : results) (shares : seq Q) (mpf : Q) (to_plot : string -> bool)
    (digits : nat) (t : seq (seq rdict)) (l0 : seq rdict) (t' : seq (seq rdict)) :
  res_non_he "fe"%string = Some t -> t = l0 :: t' -> non_increasing shares = Base.Ok false ->
  (forall e k, k < size estimators -> nth e estimators k = e -> to_plot (e_name e) ->
     complete res_non_he (size t) (size l0) e /\ complete res_he (size t) (size l0) e) ->
  exists out, combine_res res_non_he res_he shares mpf to_plot false digits = Base.Ok out.
Proof. by move=> h1 h2 h3 h4; apply: combine_total h1 h2 erefl h3 h4. Qed.
Print Assumptions C61_succeeds.

(* Finding: after decreasing attrition it never does. *)
Theorem C61_decreasing_refuted (res_non_he res_he : results) (shares : seq Q) (mpf : Q)
    (to_plot : string -> bool) (with_line : bool) (digits : nat) (out : combined) :
  init_decreasing shares = Base.Ok shares ->
  combine_res res_non_he res_he shares mpf to_plot with_line digits <> Base.Ok out.
Proof. exact: combine_decreasing. Qed.
Print Assumptions C61_decreasing_refuted.

Example C61_case :
  combine_res res_ex res_ex shares_inc 2 plot_fe true 1 = Base.Ok (get_out out_ex)
  /\ nth fe_est estimators 0 = fe_est /\ plot_fe (e_name fe_est)
  /\ init_decreasing (rev shares_inc) = Base.Ok (rev shares_inc)
  /\ combine_res res_ex res_ex (rev shares_inc) 2 plot_fe true 1 = Base.Err Base.ValueError.
Proof. by split; [exact: out_ex_ok | split; [|split; [|split; [|exact: dec_ex_err]]]]. Qed.

(* C62.  The line is drawn where the movers per firm reach the target: at the last
   share if they never do, at the first if they always do, and otherwise on the
   segment between the two neighbouring shares. *)
Theorem C62_partial (target : Q) (x m : seq Q) :
  size x = size m -> 0 < size m -> sortedQ m -> sortedQ x ->
  let M k := nth (inject_Z 0) m k in let X k := nth (inject_Z 0) x k in
  exists v, line target x m = Base.Ok v /\
  ( (Qle (M (size m).-1) target /\ Qeq v (X (size m).-1))
    \/ (Qlt target (M (size m).-1) /\ Qle target (M 0) /\ Qeq v (X 0))
    \/ exists k, [/\ k.+1 < size m, Qle (M k) target, Qlt target (M k.+1),
          on_segment (X k) (M k) (X k.+1) (M k.+1) v target & Qle (X k) v /\ Qle v (X k.+1)] ).
Proof. exact: line_ok. Qed.
Print Assumptions C62_partial.

(* What the target is compared with: the movers per firm of the samples, averaged
   over simulations and raised by five percent. *)
Theorem C62_lines (res_non_he res_he : results) (shares : seq Q) (mpf : Q) (to_plot : string -> bool)
    (digits : nat) (out : combined) :
  combine_res res_non_he res_he shares mpf to_plot true digits = Base.Ok out ->
  exists t l0 t' m1 m2 v1 v2, res_non_he "fe"%string = Some t /\ t = l0 :: t'
  /\ five_percent_above res_non_he (size t) (size l0) m1
  /\ five_percent_above res_he (size t) (size l0) m2
  /\ line mpf (c_x out) m1 = Base.Ok v1 /\ line mpf (c_x out) m2 = Base.Ok v2
  /\ c_lines out = Some (v1, v2).
Proof. exact: p_lines. Qed.
Print Assumptions C62_lines.

(* Finding: when movers per firm go down along the shares, no position is found, or
   one that lies beyond the two neighbouring shares. *)
Theorem C62_refuted :
  (exists target x m, size x = size m /\ sortedQ x
     /\ line target x m = Base.Err Base.UnboundLocalError)
  /\ (exists target x m v, size x = size m /\ sortedQ x /\ line target x m = Base.Ok v
     /\ Qlt target (nth (inject_Z 0) m 1) /\ Qlt (nth (inject_Z 0) x 1) v).
Proof.
split.
  exists 2%Q, [:: 10; 20; 30]%Q, [:: 3; 1; 1]%Q; split=> //; split; last exact: line_unbound.
  by move=> [|[|[|a]]] [|[|[|b]]].
exists 2%Q, [:: 10; 20; 30]%Q, [:: 3; 5 # 2; 1]%Q.
have [v [h1 [h2 _]]] := line_outside; exists v; split=> //.
by split; [move=> [|[|[|a]]] [|[|[|b]]] | split; [exact: h1 | split; [|rewrite h2]]].
Qed.
Print Assumptions C62_refuted.

Example C62_case :
  sortedQ [:: 1; 2; 4]%Q /\ sortedQ [:: 10; 20; 30]%Q
  /\ exists v, line 3 [:: 10; 20; 30]%Q [:: 1; 2; 4]%Q = Base.Ok v /\ Qeq v 25.
Proof.
split; first by move=> [|[|[|a]]] [|[|[|b]]].
split; first by move=> [|[|[|a]]] [|[|[|b]]].
by eexists; split; vm_compute.
Qed.
