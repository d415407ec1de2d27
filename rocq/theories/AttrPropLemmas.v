(* Glue and example data for the attrition properties. *)
Set Warnings "-notation-overridden,-ambiguous-paths".
From Coq Require Import ZArith QArith Qround Qabs String Lqa.
From mathcomp Require Import all_ssreflect.
From Verif Require Base.
From Verif Require Import AttrModel AttrSpec AttrLemmas AttrIncLemmas AttrDecLemmas.
From Verif Require Import AttrCombModel AttrCombSpec AttrCombLemmas.

Set Implicit Arguments.
Unset Strict Implicit.
Unset Printing Implicit Defensive.
Local Open Scope nat_scope.

(* Decreasing attrition. *)
Section Dec.
Variable draw : nat -> seq nat -> nat -> seq nat.
Hypothesis dv : forall t, valid_draw (draw t).
Variables (shares : seq Q) (rows : seq obs).

Lemma dec_total : exists l, gen_decreasing draw shares rows = Base.Ok l.
Proof. by have [Ws [_ ->]] := gen_dec dv rows shares; eexists. Qed.

Lemma dec_size l : gen_decreasing draw shares rows = Base.Ok l -> size l = size shares.
Proof.
have [Ws [c ->]] := gen_dec dv rows shares => - [<-].
by rewrite size_map (dchain_size c) size_relative.
Qed.

Lemma dec_nested l a b : gen_decreasing draw shares rows = Base.Ok l -> a <= b -> b < size l ->
  sub_obs (kept (sub_at l b) rows) (kept (sub_at l a) rows).
Proof.
have [Ws [c ->]] := gen_dec dv rows shares => - [<-] ab; rewrite size_map => lb.
rewrite /sub_at !(nth_map [::]) ?(leq_ltn_trans ab lb) // !kept_dec; apply: sub_drop.
by move=> i; apply: (dchain_sub c ab lb).
Qed.

Lemma dec_count l k : gen_decreasing draw shares rows = Base.Ok l ->
  shares01 shares -> decreasing shares -> k < size l ->
  Qle (Qabs (Qminus (natQ (n_movers (kept (sub_at l k) rows)))
                    (Qmult (nth (inject_Z 0) shares k) (natQ (n_movers rows)))))
      (Qmult (natQ k.+1) (Qmake 1 2)).
Proof.
move=> g s01 de lk; have sz := dec_size g; move: g lk.
have [Ws [c ->]] := gen_dec dv rows shares => - [<-]; rewrite size_map => lk.
rewrite /sub_at (nth_map [::]) // /n_movers movers_kept.
have lk' : k < size shares by rewrite -(size_relative (inject_Z 1)) -(dchain_size c).
have h := @dec_bound draw dv rows shares [::] (inject_Z 1) Ws (natQ (size (movers rows))) 0 k c.
have e0 : Qeq (Qminus (natQ (size (left rows [::]))) (Qmult (inject_Z 1) (natQ (size (movers rows))))) 0.
  by rewrite left_nil -[inject_Z 1]/1%Q; ring.
have -> : Qeq (Qmult (natQ k.+1) (1 # 2)) (Qplus 0 (Qmult (natQ k.+1) (1 # 2))) by ring.
apply: h => //.
- by move=> x lx; have [] := s01 x lx.
- move=> [|a] [|b] // ab lb.
  + by have [] := s01 b lb.
  + exact: de.
- by rewrite e0.
- by rewrite e0.
Qed.

Lemma dchain_step W p sh Ws k : dchain rows W (relative_drops p sh) Ws ->
  (forall x, x < size sh -> Qle 0 (nth (inject_Z 0) sh x)) ->
  (forall a b, a <= b -> b < size sh -> Qle (nth (inject_Z 0) sh b) (nth (inject_Z 0) sh a)) ->
  k.+1 < size sh ->
  let c j := natQ (size (left rows (nth [::] Ws j))) in
  Qle (Qabs (Qminus (Qmult (nth (inject_Z 0) sh k) (c k.+1)) (Qmult (nth (inject_Z 0) sh k.+1) (c k))))
      (Qmult (nth (inject_Z 0) sh k) (1 # 2)).
Proof.
elim: sh W p Ws k => [|y sh IH] W p Ws k; first by [].
case: Ws => [|W1 Ws]; first by case.
rewrite -/relative_drops => - [_ _ c] pos dec; case: k => [|k] lk.
  case: sh IH c pos dec lk => [|x sh] // _; case: Ws => [|W2 Ws]; first by move=> [].
  move=> [_ cnt _] pos dec _ cc.
  have x0 : Qle 0 x by exact: (pos 1).
  have y0 : Qle 0 y by exact: (pos 0).
  have xy : Qle x y by exact: (dec 0 1).
  rewrite -[nth _ (y :: _) 0]/y -[nth _ (y :: _) 1]/x -[cc 0]/(natQ (size (left rows W1))).
  rewrite -[cc 1]/(natQ (size (left rows W2))).
  move: cnt; set n := size (left rows W1); set m := size (left rows W2) => cnt.
  apply (proj2 (Qabs_Qle_condition _ _)).
  have [yz|yp] : Qeq y 0 \/ Qlt 0 y by case: (Qlt_le_dec 0 y); [right | left; lra].
    have xz : Qeq x 0 by lra.
    by rewrite yz xz; split; lra.
  have e : Qeq (Qminus (natQ n) (Qmult y (Qdiv (natQ n) y))) 0 by field; lra.
  have [] := @count_step draw dv y x n m (Qdiv (natQ n) y) 0 x0 xy cnt; [by rewrite e; lra | by rewrite e; lra |].
  move=> lo hi.
  have e2 : Qeq (Qmult x (natQ n)) (Qmult y (Qmult x (Qdiv (natQ n) y))) by field; lra.
  rewrite e2; move: lo hi; set u := Qmult x _; split; nra.
apply: (IH W1 y Ws k c) => //.
- by move=> x lx; apply: (pos x.+1).
- by move=> a b ab lb; apply: (dec a.+1 b.+1).
Qed.

Lemma dec_step l k : gen_decreasing draw shares rows = Base.Ok l ->
  shares01 shares -> decreasing shares -> k.+1 < size l ->
  let M j := natQ (n_movers (kept (sub_at l j) rows)) in
  let s j := nth (inject_Z 0) shares j in
  Qle (Qabs (Qminus (Qmult (s k) (M k.+1)) (Qmult (s k.+1) (M k)))) (Qmult (s k) (1 # 2)).
Proof.
move=> g s01 de lk; have sz := dec_size g; move: g lk.
have [Ws [c ->]] := gen_dec dv rows shares => - [<-]; rewrite size_map => lk M s.
rewrite /M /sub_at !(nth_map [::]) ?(ltnW lk) // /n_movers !movers_kept.
apply: (dchain_step c) => //.
- by move=> x lx; have [] := s01 x lx.
by rewrite -(size_relative (inject_Z 1)) -(dchain_size c).
Qed.
End Dec.

(* Taking the largest connected set only leaves out firms. *)
Lemma connected_prunes : prunes clean_connected.
Proof.
move=> rows s h; have {h} -> : s = keep_j (largest rows) rows.
  by move: h; rewrite /clean_connected; case: {1}rows => // _ _ [].
exists (largest rows), (wids rows); split.
  rewrite /keep_j; apply: eq_filter_all; apply: sub_all (all_i rows) => r /= ->.
  by rewrite andbT.
move=> i iw; apply/negP; rewrite /is_mover.
have -> : of_worker i [seq r <- rows | ob_j r \in fids (keep_j (largest rows) rows)] = [::]; last by [].
apply: size0nil; apply/eqP; rewrite -leqn0 leqNgt /of_worker -filter_predI size_filter -has_count.
apply/negP => h; case/negP: iw; rewrite mem_undup.
move: (fids _) h => vf; elim: rows => //= r l IH /orP [/andP [/eqP -> _]|/IH h]; first by rewrite inE eqxx.
by rewrite inE h orbT.
Qed.

(* A generator that draws a given element first, then in the order of the pool. *)
Definition first_of (x : nat) (pool : seq nat) (k : nat) : seq nat :=
  take k (if x \in pool then x :: rem x pool else pool).
Lemma first_of_valid x : valid_draw (first_of x).
Proof.
move=> pool k up kp; rewrite /first_of.
set p := if _ then _ else _.
have pe : perm_eq p pool by rewrite /p; case: ifP => // /perm_to_rem; rewrite perm_sym.
split.
- by rewrite take_uniq // (perm_uniq pe).
- by rewrite size_takel // (perm_size pe).
- by move=> i /mem_take; rewrite (perm_mem pe).
Qed.

(* Firms 0-4 in a row, firms 5-8 in a row, and worker 7 linking the two. *)
Definition pairs (l : seq (nat * nat * nat)) : seq obs :=
  flatten [seq [:: Obs p.1.1 p.1.2 (inject_Z 1); Obs p.1.1 p.2 (inject_Z 1)] | p <- l].
Definition rows_dec : seq obs :=
  pairs [:: (0,0,1); (1,1,2); (2,2,3); (3,3,4); (4,5,6); (5,6,7); (6,7,8); (7,4,5)].
Definition shares_dec : seq Q := [:: 7 # 8; 6 # 8]%Q.
Definition draw_dec (t : nat) := first_of (nth 0 [:: 7; 1] t).
Definition subs_dec : seq subset := [:: (None, Some [:: 7]); (None, Some [:: 7; 1])].

Lemma sub_obs_firms a b : sub_obs a b -> {subset map ob_j a <= map ob_j b}.
Proof. by move=> [m ->] j; rewrite map_mask; apply: mem_mask. Qed.

Lemma subs_dec_ok : gen_decreasing draw_dec shares_dec rows_dec = Base.Ok subs_dec.
Proof. by vm_compute. Qed.

Lemma dec_used_switch :
  exists u0 u1, used_decreasing (sub_at subs_dec 0) rows_dec = Base.Ok u0
    /\ used_decreasing (sub_at subs_dec 1) rows_dec = Base.Ok u1 /\ ~ sub_obs u1 u0.
Proof.
eexists; eexists; split; first by vm_compute; reflexivity.
split; first by vm_compute; reflexivity.
by move/sub_obs_firms => /(_ 5); vm_compute => /(_ erefl).
Qed.

Lemma shares_dec01 : shares01 shares_dec.
Proof. by move=> [|[|k]]. Qed.
Lemma shares_dec_ok : decreasing shares_dec.
Proof. by move=> [|[|a]] [|[|b]]. Qed.

(* Increasing: workers 0-5 move among five firms, worker 7 stays twice at firm 1,
   worker 6 once at firm 0. *)
Definition rows_inc : seq obs :=
  pairs [:: (0,0,1); (1,0,1); (2,1,2); (3,2,0); (4,3,4); (5,2,3); (7,1,1)]
  ++ [:: Obs 6 0 (inject_Z 1)].
Definition shares_inc : seq Q := [:: 1 # 2; 3 # 4; inject_Z 1]%Q.
Definition draw_inc (t : nat) := first_of (nth 0 [:: 4; 1] t).
Definition subs_inc : seq subset :=
  [:: (Some [:: 4], Some [:: 4; 0; 1; 6]); (Some [:: 4], Some [:: 0; 4; 6]); (Some [:: 4], Some [:: 4; 6])].
Lemma subs_inc_ok :
  gen_increasing false true 2 5 clean_connected draw_inc draw_inc shares_inc rows_inc = Base.Ok subs_inc.
Proof. by vm_compute. Qed.
Lemma shares_inc01 : shares01 shares_inc.
Proof. by move=> [|[|[|k]]]. Qed.
Lemma shares_inc_ok : increasing shares_inc.
Proof. by move=> [|[|[|a]]] [|[|[|b]]]. Qed.
Lemma draw_inc_valid t : valid_draw (draw_inc t).
Proof. exact: first_of_valid. Qed.
Lemma draw_dec_valid t : valid_draw (draw_dec t).
Proof. exact: first_of_valid. Qed.

(* The caller's dictionary. *)
Section Flag.
Variables (weighted flag : bool) (min_firms n_draws : nat) (clean : bool -> seq obs -> Base.res (seq obs)).
Variables (draw1 draw2 : nat -> seq nat -> nat -> seq nat) (shares : seq Q) (rows : seq obs).
Local Notation gen := (gen_increasing_state weighted flag min_firms n_draws clean draw1 draw2 shares rows).

Lemma flag_restored l : gen.1 = Base.Ok l -> gen.2 = flag.
Proof.
by rewrite /gen_increasing_state; case: ifP => // _; case: gen_increasing => //=; case: flag.
Qed.
End Flag.

(* Cleaning that never finds a connected set. *)
Definition clean_fails (f : bool) (rows : seq obs) : Base.res (seq obs) := Base.Err Base.ValueError.
Lemma flag_lost :
  let g := gen_increasing_state false true 2 5 clean_fails draw_inc draw_inc shares_inc rows_inc in
  g.1 = Base.Err Base.ValueError /\ g.2 = false.
Proof. by vm_compute. Qed.

(* Results for the combined tables: 2 simulations, 3 shares. *)
Local Open Scope string_scope.
Definition rd (a b c m f : Q) : rdict := fun k =>
  if k =? "var(y)" then Some a else if k =? "var(psi)_fe" then Some b
  else if k =? "cov(psi, alpha)_fe" then Some c
  else if k =? "n_movers" then Some m else if k =? "n_firms" then Some f else None.
Definition res_ex : results := fun m =>
  if m =? "fe" then Some
    [:: [:: rd 2 (1 # 2) (1 # 4) 10 10; rd 3 (1 # 2) (1 # 4) 20 10; rd 4 (1 # 2) (1 # 8) 30 10];
        [:: rd 5 (1 # 2) (1 # 4) 10 10; rd 6 (1 # 2) (1 # 4) 20 10; rd 7 (1 # 3) (1 # 8) 30 10]]
  else None.
Definition plot_fe (s : string) : bool := s =? "fe".
Local Close Scope string_scope.
Definition fe_est : est := nth (Est ""%string ""%string ""%string ""%string ""%string) estimators 0.
Definition out_ex : Base.res combined := combine_res res_ex res_ex shares_inc 2 plot_fe true 1.
Definition get_out (r : Base.res combined) : combined :=
  if r is Base.Ok c then c else Combined (Dict [::]) (Dict [::]) (Dict [::]) (Dict [::]) None [::].
Lemma out_ex_ok : out_ex = Base.Ok (get_out out_ex).
Proof. by vm_compute. Qed.
Lemma dec_ex_err : combine_res res_ex res_ex (rev shares_inc) 2 plot_fe true 1 = Base.Err Base.ValueError.
Proof. by vm_compute. Qed.

Lemma line_unbound : line 2 [:: 10; 20; 30]%Q [:: 3; 1; 1]%Q = Base.Err Base.UnboundLocalError.
Proof. by vm_compute. Qed.
Lemma line_outside : exists v, line 2 [:: 10; 20; 30]%Q [:: 3; 5 # 2; 1]%Q = Base.Ok v
  /\ Qeq v 30 /\ line 2 [:: 10; 20]%Q [:: 3; 5 # 2]%Q = Base.Ok 10%Q.
Proof. eexists; split; first by vm_compute; reflexivity. by split; vm_compute. Qed.

(* The documented keys, and the line of movers per firm. *)
Lemma p_documented e k : k < size estimators -> nth e estimators k = e -> documented e.
Proof.
case: k => [|[|[|[|[|[|//]]]]]] _ /= <-; rewrite /documented /=.
- by left; repeat split; left.
- by left; repeat split; right; left.
- by left; repeat split; right; right.
- by right; left.
- by right; right; repeat split; left.
- by right; right; repeat split; right.
Qed.

Lemma p_movers_sum res j l acc v :
  Base.for_each l (fun i acc =>
    Base.bind (get_res res "fe"%string i j) (fun d =>
    Base.bind (getk d "n_movers"%string) (fun a => Base.bind (getk d "n_firms"%string) (fun b =>
    Base.bind (pydiv a b) (fun z => Base.Ok (Qplus acc z)))))) acc = Base.Ok v ->
  exists q : nat -> Q,
    (forall i, i \in l -> exists r a b, has_result res "fe"%string i j r
       /\ r "n_movers"%string = Some a /\ r "n_firms"%string = Some b /\ Qeq (Qmult (q i) b) a
       /\ ~ Qeq b (inject_Z 0))
    /\ Qeq v (Qplus acc (foldr Qplus (inject_Z 0) (map q l))).
Proof.
pose ratio i := match get_res res "fe"%string i j with
  | Base.Ok d => match d "n_movers"%string, d "n_firms"%string with
                 | Some a, Some b => Qdiv a b | _, _ => inject_Z 0 end
  | _ => inject_Z 0 end.
move=> h; exists ratio; elim: l acc h => [|i l IH] acc.
  move=> h; have <- := Ok_inj h; split=> //=.
  by rewrite Qplus_0_r.
cbn [Base.for_each]; case eg: (get_res res _ i j) => [d|] //; cbn [Base.bind].
rewrite /getk; case ea: (d _) => [a|] //; cbn [Base.bind]; case eb: (d _) => [b|] //; cbn [Base.bind].
rewrite /pydiv; case e0: (Qeq_bool b _) => //; cbn [Base.bind] => /IH [h1 h2].
have nb : ~ Qeq b (inject_Z 0) by move/Qeq_bool_iff; rewrite e0.
have er : ratio i = Qdiv a b by rewrite /ratio eg ea eb.
split; last by rewrite h2 /= er Qplus_assoc.
move=> i'; rewrite in_cons => /orP[/eqP ->|]; last exact: h1.
exists d, a, b; split; first exact/get_res_ok.
by do 2!split=> //; split=> //; rewrite er; field.
Qed.

Lemma p_movers res N M m : movers_per_firm res N M = Base.Ok m -> five_percent_above res N M m.
Proof.
move=> /traverse_ok [sm hm]; split; first by rewrite sm size_iota.
move=> j jM; have := hm 0 (inject_Z 0) j; rewrite size_iota nth_iota // add0n => /(_ jM).
rewrite /movers_sum; case ev: (Base.for_each _ _ _) => [v|] //= h.
have <- := Ok_inj h.
have [q [h1 h2]] := p_movers_sum ev; exists q; split.
  by move=> i iN; apply: h1; rewrite mem_iota.
rewrite h2 Qplus_0_l; move: (foldr _ _ _) => x; rewrite /Qdiv; move: (Qinv _) => y.
by field.
Qed.

Lemma p_lines rn rh shares mpf to_plot digits out :
  combine_res rn rh shares mpf to_plot true digits = Base.Ok out ->
  exists t l0 t' m1 m2 v1 v2, rn "fe"%string = Some t /\ t = l0 :: t'
  /\ five_percent_above rn (size t) (size l0) m1 /\ five_percent_above rh (size t) (size l0) m2
  /\ line mpf (c_x out) m1 = Base.Ok v1 /\ line mpf (c_x out) m2 = Base.Ok v2
  /\ c_lines out = Some (v1, v2).
Proof.
rewrite /combine_res; case et: (rn _) => [[|l0 t']|] //.
move=> h; have [vn [e1 h1]] := bind_ok h; have [cn [e2 h2]] := bind_ok h1.
have [vh [e3 h3]] := bind_ok h2; have [ch [e4 h4]] := bind_ok h3.
have [fl [e5 h5]] := bind_ok h4; move: h h1 h2 h3 h4 => _ _ _ _ _.
move: e5 h5; case: fl => // e5; cbn [Base.bind] => h.
have [m1 [f1 h1]] := bind_ok h; have [m2 [f2 h2]] := bind_ok h1.
have [l1 [f3 h3]] := bind_ok h2; have [l2 [f4 h4]] := bind_ok h3.
exists (l0 :: t'), l0, t', m1, m2, l1, l2; do 2!split=> //.
split; first exact: p_movers.
split; first exact: p_movers.
by move: h4 => [<-].
Qed.

Lemma p_six (name : string) : List.In name [:: "fe"; "ho"; "he"; "cre"; "bs1"; "bs2"]%string ->
  exists e k, [/\ k < size estimators, nth e estimators k = e & e_name e = name].
Proof.
pose e0 := fe_est.
by case=> [<-|[<-|[<-|[<-|[<-|[<-|[]]]]]]]; [exists (nth e0 estimators 0), 0
  | exists (nth e0 estimators 1), 1 | exists (nth e0 estimators 2), 2 | exists (nth e0 estimators 3), 3
  | exists (nth e0 estimators 4), 4 | exists (nth e0 estimators 5), 5].
Qed.
