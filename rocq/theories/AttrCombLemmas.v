(* Lemmas about the combined attrition results. *)
Set Warnings "-notation-overridden,-ambiguous-paths".
From Coq Require Import ZArith QArith Qminmax String Lqa.
From mathcomp Require Import all_ssreflect.
From Verif Require Base.
From Verif Require Import AttrModel AttrSpec AttrLemmas AttrIncLemmas AttrDecLemmas AttrCombModel AttrCombSpec.

Set Implicit Arguments.
Unset Strict Implicit.
Unset Printing Implicit Defensive.
Local Open Scope nat_scope.

(* Job order. *)
Section Simulations.
Variables (State Seed Res : Type).
Variable gen : bool -> State -> Base.res (seq subset * State).
Variable interior : bool -> subset -> Seed -> Res.
Variable spawn : nat -> Seed.
Variable fin : nat -> nat -> seq nat.
Hypothesis fin_ok : forall r n, perm_eq (fin r n) (iota 0 n).

Definition plain_jobs (he : bool) (c : nat) (st : State) : Base.res (seq Res * (nat * State)) :=
  match gen he st with
  | Base.Ok (subs, st') =>
      Base.Ok ([seq interior he (sub_at subs k) (spawn (c + k)) | k <- iota 0 (size subs)],
               (c + size subs, st'))
  | Base.Err e => Base.Err e
  end.

Lemma jobs_plain ncore he r c st : jobs_of gen interior spawn ncore fin he r c st = plain_jobs he c st.
Proof.
rewrite /jobs_of /plain_jobs; case: (gen he st) => [[subs st']|e] //=.
by rewrite run_jobs_ok.
Qed.

Lemma attrition_cores ncore1 ncore2 r N c st :
  attrition gen interior spawn ncore1 fin r N c st = attrition gen interior spawn ncore2 fin r N c st.
Proof.
elim: N r c st => //= N IH r c st.
by rewrite /attrition_single !jobs_plain; case: plain_jobs => //= a; rewrite !jobs_plain;
   case: plain_jobs => //= b; rewrite IH.
Qed.
End Simulations.

Lemma attrition_orders (State Seed Res : Type) gen (interior : bool -> subset -> Seed -> Res) spawn
    (fin1 fin2 : nat -> nat -> seq nat) ncore1 ncore2 r N c (st : State) :
  (forall r n, perm_eq (fin1 r n) (iota 0 n)) -> (forall r n, perm_eq (fin2 r n) (iota 0 n)) ->
  attrition gen interior spawn ncore1 fin1 r N c st = attrition gen interior spawn ncore2 fin2 r N c st.
Proof.
move=> h1 h2; elim: N r c st => //= N IH r c st.
rewrite /attrition_single !jobs_plain //; case: plain_jobs => //= a; rewrite !jobs_plain //.
by case: plain_jobs => //= b; rewrite IH.
Qed.

(* Tables. *)
Lemma traverse_ok (A B : Type) (f : A -> Base.res B) (l : seq A) ys :
  Base.traverse f l = Base.Ok ys ->
  size ys = size l /\ forall a b k, k < size l -> f (nth a l k) = Base.Ok (nth b ys k).
Proof.
elim: l ys => [|x l IH] ys /=; first by move=> [<-].
case fx: (f x) => [y|] //=; case e: (Base.traverse f l) => [zs|] //= [<-].
have [es h] := IH _ e; split; first by rewrite /= es.
move=> a b [|k] //= lk; exact: h.
Qed.

Lemma traverse_total (A B : Type) (f : A -> Base.res B) (l : seq A) (a0 : A) :
  (forall k, k < size l -> exists y, f (nth a0 l k) = Base.Ok y) -> exists ys, Base.traverse f l = Base.Ok ys.
Proof.
elim: l => [|x l IH] h /=; first by exists [::].
have [y ->] := h 0 isT; have [k lk|ys ->] := IH; first exact: (h k.+1).
by exists (y :: ys).
Qed.

Lemma nth_opt (A : Type) (l : seq A) i x : nth None (map Some l) i = Some x -> i < size l /\ nth x l i = x.
Proof.
case: (ltnP i (size l)) => h; last by rewrite nth_default // size_map.
by rewrite (nth_map x) // => [[e]].
Qed.

Lemma nth_opt2 (A : Type) (l : seq A) i x : i < size l -> nth x l i = x -> nth None (map Some l) i = Some x.
Proof. by move=> h e; rewrite (nth_map x) // e. Qed.

Lemma get_res_ok res m i j d : get_res res m i j = Base.Ok d <-> has_result res m i j d.
Proof.
rewrite /get_res /has_result; split.
  case em: (res m) => [t|] //; case el: (nth None _ i) => [l|] //; case ed: (nth None _ j) => [d'|] // [<-].
  have [h1 h2] := nth_opt el; have [h3 h4] := nth_opt ed.
  by exists t, l; rewrite (set_nth_default l) // h2.
move=> [t [l [-> [lt [el [lj ed]]]]]]; rewrite (nth_opt2 (x := l)) //; last by rewrite (set_nth_default [::]).
by rewrite (nth_opt2 (x := d)).
Qed.

Lemma Ok_inj (A : Type) (a b : A) : Base.Ok a = Base.Ok b -> a = b.
Proof. by case. Qed.

Lemma cell_ok num den d c : cell num den d = Base.Ok c -> percent_of d num den c.
Proof.
rewrite /cell /getk /pydiv /percent_of; case: (d num) => [x|] //=; case: (d den) => [y|] //=.
case e: (Qeq_bool y (inject_Z 0)) => //; cbn [Base.bind] => h.
have ec := Ok_inj h; rewrite -ec {h ec}.
have ne : ~ Qeq y (inject_Z 0) by move/Qeq_bool_iff; rewrite e.
exists x, y; split=> //; split=> //; split=> //.
field; exact: ne.
Qed.

Lemma cell_total num den d x y : d num = Some x -> d den = Some y -> ~ Qeq y (inject_Z 0) ->
  exists c, cell num den d = Base.Ok c.
Proof.
rewrite /cell /getk /pydiv => -> -> ne /=.
case e: (Qeq_bool y _) => /=; last by eexists.
by case: ne; apply/Qeq_bool_iff.
Qed.

Lemma fill_ok res num N M e r : fill res num N M e = Base.Ok r ->
  exists t, r = (e_name e, t) /\ size t = N /\
    forall i, i < N -> size (nth [::] t i) = M
       /\ forall j, j < M -> exists r, has_result res (e_model e) i j r
            /\ percent_of r (num e) (e_vary e) (nth (inject_Z 0) (nth [::] t i) j).
Proof.
rewrite /fill; case et: (Base.traverse _ _) => [t|] //= [<-].
exists t; split=> //.
have [st ht] := traverse_ok et; split; first by rewrite st size_iota.
move=> i iN; have := ht 0 [::] i; rewrite size_iota nth_iota // add0n => /(_ iN) er.
have [sr hr] := traverse_ok er; split; first by rewrite sr size_iota.
move=> j jM; have := hr 0 (inject_Z 0) j; rewrite size_iota nth_iota // add0n => /(_ jM).
case eg: (get_res _ _ _ _) => [d|] //= ec.
by exists d; split; [exact/get_res_ok | exact: cell_ok].
Qed.

Lemma fill_total res num N M e : complete res N M e -> (num = e_var \/ num = e_cov) ->
  exists r, fill res num N M e = Base.Ok r.
Proof.
move=> h hn; rewrite /fill.
have [k|t ->] := @traverse_total _ _ (fun i => Base.traverse (fun j =>
       Base.bind (get_res res (e_model e) i j) (cell (num e) (e_vary e))) (iota 0 M)) (iota 0 N) 0; last by eexists.
rewrite size_iota => kN; rewrite nth_iota // add0n; apply: (@traverse_total _ _ _ _ 0) => j.
rewrite size_iota => jM; rewrite nth_iota // add0n.
have [r [x [y [z [/get_res_ok -> [vy [vx [vz ny]]]]]]]] := h k j kN jM.
by case: hn => -> /=; [apply: cell_total vx vy ny | apply: cell_total vz vy ny].
Qed.

Lemma tables_ok res num N M es d e k : Base.traverse (fill res num N M) es = Base.Ok d ->
  k < size es -> nth e es k = e -> table_ok res num N M (Dict d) e.
Proof.
move=> /traverse_ok [sd hd] lk ek.
have := hd e (e_name e, [::]) k lk; rewrite ek => /fill_ok [t [er [st h]]].
exists d, k, t; split=> //; split; first by rewrite sd.
split; last by [].
by rewrite -er; apply: set_nth_default; rewrite sd.
Qed.

Lemma in_nth (es : seq est) (p : pred est) e k : k < size es -> nth e es k = e -> p e ->
  exists k', k' < size (filter p es) /\ nth e (filter p es) k' = e.
Proof.
elim: es k => //= x es IH [|k] /=.
  by move=> _ -> pe; exists 0; rewrite pe.
move=> lk ek pe; have [k' [lk' ek']] := IH k lk ek pe.
by case: (p x) => /=; [exists k'.+1 | exists k'].
Qed.

Section Combine.
Variables (rn rh : results) (shares : seq Q) (mpf : Q) (to_plot : string -> bool) (with_line : bool) (digits : nat).
Local Notation comb := (combine_res rn rh shares mpf to_plot with_line digits).

Lemma bind_ok (A B : Type) (x : Base.res A) (f : A -> Base.res B) b :
  Base.bind x f = Base.Ok b -> exists a, x = Base.Ok a /\ f a = Base.Ok b.
Proof. by case: x => //= a h; exists a. Qed.

Lemma combine_inv out : comb = Base.Ok out ->
  exists t l0 t', [/\ rn "fe"%string = Some t, t = l0 :: t',
  non_increasing shares = Base.Ok false
  & let N := size t in let M := size l0 in
    let plotted := [seq e <- estimators | to_plot (e_name e)] in
    let pn := [seq e <- plotted | negb (String.eqb (e_name e) "he"%string)] in
    exists vn cn vh ch,
    [/\ Base.traverse (fill rn e_var N M) pn = Base.Ok vn,
        Base.traverse (fill rn e_cov N M) pn = Base.Ok cn,
        Base.traverse (fill rh e_var N M) plotted = Base.Ok vh
      & Base.traverse (fill rh e_cov N M) plotted = Base.Ok ch]
    /\ [/\ c_var_non_he out = Dict vn, c_cov_non_he out = Dict cn,
           c_var_he out = Dict vh & c_cov_he out = Dict ch]
    /\ c_x out = [seq np_round_to digits (Qmult (inject_Z 100) s) | s <- shares]].
Proof.
rewrite /combine_res; case et: (rn _) => [[|l0 t']|] //.
move=> h; have [vn [e1 h1]] := bind_ok h; have [cn [e2 h2]] := bind_ok h1.
have [vh [e3 h3]] := bind_ok h2; have [ch [e4 h4]] := bind_ok h3.
have [fl [e5 h5]] := bind_ok h4; move: h h1 h2 h3 h4 => _ _ _ _ _.
move: e5 h5; case: fl => // e5; cbn [Base.bind] => h.
exists (l0 :: t'), l0, t'; split=> //; exists vn, cn, vh, ch.
split; first by split.
move: h; case: with_line; last by move=> [<-].
move=> h; have [m1 [_ h1]] := bind_ok h; have [m2 [_ h2]] := bind_ok h1.
have [l1 [_ h3]] := bind_ok h2; have [l2 [_ h4]] := bind_ok h3.
by move: h4 => [<-].
Qed.

Lemma combine_tables out e k : comb = Base.Ok out -> k < size estimators -> nth e estimators k = e ->
  to_plot (e_name e) ->
  exists t l0 t', rn "fe"%string = Some t /\ t = l0 :: t' /\
  let N := size t in let M := size l0 in
  table_ok rh e_var N M (c_var_he out) e /\ table_ok rh e_cov N M (c_cov_he out) e
  /\ (e_name e <> "he"%string ->
      table_ok rn e_var N M (c_var_non_he out) e /\ table_ok rn e_cov N M (c_cov_non_he out) e).
Proof.
move=> /combine_inv [t [l0 [t' [et et' _ [vn [cn [vh [ch [[e1 e2 e3 e4] [[-> -> -> ->] _]]]]]]]]]] lk ek tp.
exists t, l0, t'; split=> //; split=> //=.
have [k1 [l1 n1]] := in_nth (p := fun e => to_plot (e_name e)) lk ek tp.
split; first exact: tables_ok e3 l1 n1.
split; first exact: tables_ok e4 l1 n1.
move=> ne.
have [|k2 [l2 n2]] := in_nth (p := fun e => negb (String.eqb (e_name e) "he"%string)) l1 n1.
  by apply/negP => /String.eqb_spec.
by split; [exact: tables_ok e1 l2 n2 | exact: tables_ok e2 l2 n2].
Qed.

Lemma combine_x out : comb = Base.Ok out ->
  c_x out = [seq np_round_to digits (Qmult (inject_Z 100) s) | s <- shares].
Proof. by move=> /combine_inv [t [l0 [t' [_ _ _ [vn [cn [vh [ch [_ [_ ->]]]]]]]]]]. Qed.

Lemma combine_decreasing out : init_decreasing shares = Base.Ok shares -> comb <> Base.Ok out.
Proof.
move=> h /combine_inv [t [l0 [t' [_ _]]]]; move: h; rewrite /init_decreasing /non_increasing.
by case: (diffs shares) => // x l; case: ifP.
Qed.

Lemma combine_total t l0 t' : rn "fe"%string = Some t -> t = l0 :: t' -> with_line = false ->
  non_increasing shares = Base.Ok false ->
  (forall e k, k < size estimators -> nth e estimators k = e -> to_plot (e_name e) ->
     complete rn (size t) (size l0) e /\ complete rh (size t) (size l0) e) ->
  exists out, comb = Base.Ok out.
Proof.
move=> et et' wl ni h; rewrite /combine_res et et' wl.
have hp : forall res num (p : pred est), (num = e_var \/ num = e_cov) -> (res = rn \/ res = rh) ->
  exists r, Base.traverse (fill res num (size (l0 :: t')) (size l0))
    (filter p [seq e <- estimators | to_plot (e_name e)]) = Base.Ok r.
  move=> res num p hn hr; rewrite -filter_predI -et'.
  have : forall es, (forall e k, k < size es -> nth e es k = e -> to_plot (e_name e) ->
     complete rn (size t) (size l0) e /\ complete rh (size t) (size l0) e) ->
     exists r, Base.traverse (fill res num (size t) (size l0))
       [seq x <- es | predI p (fun e => to_plot (e_name e)) x] = Base.Ok r.
    elim=> [|x es IH] hx /=; first by eexists.
    have [e k lk ek|r er] := IH; first exact: (hx e k.+1).
    case: ifP => [/andP [_ tpx]|_] /=; last by exists r.
    have [cn ch] := hx x 0 isT erefl tpx.
    have [|y ->] := @fill_total res num (size t) (size l0) x _ hn; first by case: hr => ->.
    by rewrite /= er; eexists.
  by apply.
have id es : filter (fun=> true) es = es :> seq est by apply: filter_predT.
have [|vn ->] := hp rn e_var (fun e => negb (String.eqb (e_name e) "he"%string)) _ (or_introl erefl); first by left.
have [|cn ->] := hp rn e_cov (fun e => negb (String.eqb (e_name e) "he"%string)) _ (or_introl erefl); first by right.
have [|vh] := hp rh e_var (fun=> true) _ (or_intror erefl); first by left.
have [|ch] := hp rh e_cov (fun=> true) _ (or_intror erefl); first by right.
by rewrite !id /= => -> -> /=; rewrite ni /=; eexists.
Qed.
End Combine.

(* The line. *)
Lemma foldl_max l (b : Q) : let r := foldl Qmax b l in Qle b r
  /\ (forall k, k < size l -> Qle (nth (inject_Z 0) l k) r)
  /\ (r = b \/ exists k, k < size l /\ r = nth (inject_Z 0) l k).
Proof.
elim: l b => [|x l IH] b /=; first by split; [lra | split=> //; left].
have [h1 [h2 h3]] := IH (Qmax b x); split; first by have := Q.le_max_l b x; lra.
split; first by move=> [|k] lk /=; [have := Q.le_max_r b x; lra | exact: h2].
have hm : Qmax b x = b \/ Qmax b x = x.
  by rewrite /Qmax /GenericMinMax.gmax; case: (Qcompare b x); auto.
case: h3 => [->|[k [lk ->]]]; last by right; exists k.+1.
by case: hm => ->; [left | right; exists 0].
Qed.

Lemma foldl_min l (b : Q) : let r := foldl Qmin b l in Qle r b
  /\ (forall k, k < size l -> Qle r (nth (inject_Z 0) l k))
  /\ (r = b \/ exists k, k < size l /\ r = nth (inject_Z 0) l k).
Proof.
elim: l b => [|x l IH] b /=; first by split; [lra | split=> //; left].
have [h1 [h2 h3]] := IH (Qmin b x); split; first by have := Q.le_min_l b x; lra.
split; first by move=> [|k] lk /=; [have := Q.le_min_r b x; lra | exact: h2].
have hm : Qmin b x = b \/ Qmin b x = x.
  by rewrite /Qmin /GenericMinMax.gmin; case: (Qcompare b x); auto.
case: h3 => [->|[k [lk ->]]]; last by right; exists k.+1.
by case: hm => ->; [left | right; exists 0].
Qed.

Lemma qmax_sorted l : 0 < size l -> sortedQ l -> Qeq (qmax l) (nth (inject_Z 0) l (size l).-1).
Proof.
move=> l0 so; rewrite /qmax; have [h1 [h2 h3]] := foldl_max l (head (inject_Z 0) l).
have e k : k < size l -> Qle (nth (inject_Z 0) l k) (nth (inject_Z 0) l (size l).-1).
  by move=> lk; apply: so; rewrite ?ltn_predL // -ltnS prednK.
have := h2 (size l).-1; rewrite ltn_predL => /(_ l0) h.
case: h3 => [->|[k [lk ->]]] in h *.
  have := e 0 l0; rewrite nth0; lra.
by have := e k lk; lra.
Qed.

Lemma qmin_sorted l : 0 < size l -> sortedQ l -> Qeq (qmin l) (nth (inject_Z 0) l 0).
Proof.
move=> l0 so; rewrite /qmin; have [h1 [h2 h3]] := foldl_min l (head (inject_Z 0) l).
have := h2 0 l0; rewrite -nth0 in h1 h3 *; case: h3 => [->|[k [lk ->]]]; first lra.
by have := so 0 k isT lk; lra.
Qed.

Lemma Qltb_iff x y : Qltb x y = true <-> Qlt x y.
Proof.
rewrite /Qltb; split.
  by move/negP => h; apply: Qnot_le_lt => h'; apply: h; apply/Qle_bool_iff.
by move=> h; apply/negP => /Qle_bool_iff; lra.
Qed.

Lemma loop_ok target x m : size x = size m -> 0 < size m -> sortedQ m ->
  Qle (nth (inject_Z 0) m 0) target -> Qlt target (nth (inject_Z 0) m (size m).-1) ->
  exists v k, [/\ line_loop target x m = Base.Ok v, k.+1 < size m,
    Qle (nth (inject_Z 0) m k) target, Qlt target (nth (inject_Z 0) m k.+1)
    & on_segment (nth (inject_Z 0) x k) (nth (inject_Z 0) m k)
                 (nth (inject_Z 0) x k.+1) (nth (inject_Z 0) m k.+1) v target].
Proof.
elim: m x => [|m0 [|m1 m] IH] [|x0 [|x1 x]] //=; try by move=> *; lra.
move=> [sz] _ so h0 hl; case e: (Qltb target m1).
  move/Qltb_iff: e => e; eexists; exists 0; split; [by [] | by [] | exact: h0 | exact: e |].
  by rewrite /on_segment /nth; field; lra.
have ge : Qle m1 target by apply: Qnot_lt_le => /Qltb_iff; rewrite e.
have [||v [k [h1 h2 h3 h4 h5]]] := IH (x1 :: x) _ isT _ ge hl; first by rewrite /= sz.
- by move=> a b ab lb; apply: (so a.+1 b.+1).
by exists v, k.+1.
Qed.

Lemma line_ok target x m : size x = size m -> 0 < size m -> sortedQ m -> sortedQ x ->
  let M k := nth (inject_Z 0) m k in let X k := nth (inject_Z 0) x k in
  exists v, line target x m = Base.Ok v /\
  ( (Qle (M (size m).-1) target /\ Qeq v (X (size m).-1))
    \/ (Qlt target (M (size m).-1) /\ Qle target (M 0) /\ Qeq v (X 0))
    \/ exists k, [/\ k.+1 < size m, Qle (M k) target, Qlt target (M k.+1),
          on_segment (X k) (M k) (X k.+1) (M k.+1) v target & Qle (X k) v /\ Qle v (X k.+1)] ).
Proof.
move=> sz l0 sm sx M X; rewrite /line.
have emx := qmax_sorted l0 sm; have emn := qmin_sorted l0 sm.
have l0' : 0 < size x by rewrite sz.
have exx := qmax_sorted l0' sx; have exn := qmin_sorted l0' sx; rewrite sz in exx.
case e1: (Qle_bool (qmax m) target).
  move/Qle_bool_iff: e1 => e1; eexists; split=> //; left; split; [rewrite /M; lra | exact: exx].
have lt1 : Qlt target (M (size m).-1).
  by apply: Qnot_le_lt => h; move/negP: e1; apply; apply/Qle_bool_iff; rewrite /M in h; lra.
case e2: (Qle_bool target (qmin m)).
  move/Qle_bool_iff: e2 => e2; eexists; split=> //; right; left; split=> //.
  split; [rewrite /M; lra | exact: exn].
have ge0 : Qle (M 0) target.
  apply: Qlt_le_weak; apply: Qnot_le_lt => h; move/negP: e2; apply; apply/Qle_bool_iff.
  by rewrite /M in h; lra.
have [v [k [h1 h2 h3 h4 h5]]] := loop_ok sz l0 sm ge0 lt1.
exists v; split=> //; right; right; exists k; split=> //.
have lx : Qle (X k) (X k.+1) by apply: sx; rewrite ?sz.
rewrite /on_segment -/(M k) -/(M k.+1) -/(X k) -/(X k.+1) in h3 h4 h5.
have p1 : Qlt 0 (M k.+1 - M k) by lra.
have p2 : Qle 0 (target - M k) by lra.
have p3 : Qle (target - M k) (M k.+1 - M k) by lra.
split.
  by apply: Qnot_lt_le => hv; nra.
by apply: Qnot_lt_le => hv; nra.
Qed.
