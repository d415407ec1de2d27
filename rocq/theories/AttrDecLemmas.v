(* Proofs about AttritionDecreasing and the handling of jobs. *)
Set Warnings "-notation-overridden,-ambiguous-paths".
From Coq Require Import ZArith QArith Qround Qabs Lia Lqa.
From mathcomp Require Import all_ssreflect.
From Verif Require Base.
From Verif Require UtilModel UtilProps.
From Verif Require Import AttrModel AttrSpec AttrLemmas AttrIncLemmas.

Set Implicit Arguments.
Unset Strict Implicit.
Unset Printing Implicit Defensive.
Local Open Scope nat_scope.

Section Decreasing.
Variable draw : nat -> seq nat -> nat -> seq nat.
Hypothesis dv : forall t, valid_draw (draw t).
Variable rows : seq obs.
Local Notation M := (movers rows).

Definition left (W : seq nat) : seq nat := [seq i <- M | i \notin W].

(* How many movers are left after dropping the fraction x of n. *)
Definition next_count (x : option Q) (n : nat) : Z :=
  match x with
  | None => Z.of_nat n
  | Some x => if Qle_bool x (inject_Z 0) then Z.of_nat n
              else (Z.of_nat n - Z.max 0 (Z.min (np_round (Qmult x (natQ n))) (Z.of_nat n)))%Z
  end.

Fixpoint dchain (W : seq nat) (fracs : seq (option Q)) (Ws : seq (seq nat)) : Prop :=
  match fracs, Ws with
  | [::], [::] => True
  | x :: fracs', W' :: Ws' =>
      [/\ {subset W <= W'}, Z.of_nat (size (left W')) = next_count x (size (left W))
        & dchain W' fracs' Ws']
  | _, _ => False
  end.

Lemma uniq_left W : uniq (left W).
Proof. exact/filter_uniq/uniq_movers. Qed.

Lemma steps_ok fracs t W :
  exists Ws, dchain W fracs Ws
    /\ decreasing_steps draw t (left W) W fracs = Base.Ok [seq (None, opt V) | V <- Ws].
Proof.
elim: fracs t W => [|x fracs IH] t W /=; first by exists [::].
set next := match x with None => _ | Some _ => _ end.
have [W' [sub cnt ->]] : exists W',
   [/\ {subset W <= W'}, Z.of_nat (size (left W')) = next_count x (size (left W))
     & next = Base.Ok (left W', W')].
  rewrite /next /next_count; case: x {next} => [x|]; last by exists W; split.
  case: ifP => _; first by exists W; split.
  set n := Z.min _ _.
  case: (Z.ltb_spec 0 n) => [np|np]; last first.
    by exists W; split=> //; rewrite /natQ -/n; lia.
  have nl : (n <= Z.of_nat (size (left W)))%Z by rewrite /n; lia.
  pose s := draw t (left W) (Z.to_nat n).
  have [|us ss sub] := @dv t (left W) (Z.to_nat n) (uniq_left W); first by apply/leP; lia.
  have e : left (undup (W ++ s)) = [seq i <- left W | i \notin s].
    rewrite /left -filter_predI; apply: eq_filter => i /=.
    by rewrite mem_undup mem_cat negb_or andbC.
  exists (undup (W ++ s)); split.
  - by move=> i iW; rewrite mem_undup mem_cat iW.
  - rewrite e (size_minus (uniq_left W) us sub) ss /natQ -/n.
    by rewrite -minusE; lia.
  - rewrite /rng_choice; case: (Z.ltb_spec n 0) => [|_] /=; first by lia.
    case: (Z.ltb_spec (Z.of_nat (size (left W))) n) => [|_] /=; first by lia.
    by rewrite -/s e.
have [Ws [c ->]] := IH t.+1 W'.
by exists (W' :: Ws).
Qed.

Lemma left_nil : left [::] = M.
Proof. by rewrite /left; apply/all_filterP/allP. Qed.

Lemma gen_dec shares : exists Ws, dchain [::] (relative_drops (inject_Z 1) shares) Ws
  /\ gen_decreasing draw shares rows = Base.Ok [seq (None, opt V) | V <- Ws].
Proof. by rewrite /gen_decreasing -left_nil; apply: steps_ok. Qed.

Lemma dchain_size W fracs Ws : dchain W fracs Ws -> size Ws = size fracs.
Proof. by elim: fracs W Ws => [|x fr IH] W [|W' Ws] //= [_ _ /IH ->]. Qed.
Lemma size_relative p shares : size (relative_drops p shares) = size shares.
Proof. by elim: shares p => //= x l IH p; rewrite IH. Qed.

Lemma dchain_sub0 W fracs Ws a b : dchain W fracs Ws -> a <= b -> b <= size Ws ->
  {subset nth [::] (W :: Ws) a <= nth [::] (W :: Ws) b}.
Proof.
elim: fracs W Ws a b => [|x fr IH] W [|W' Ws] a b //=.
  by move=> _ ab; rewrite leqn0 => /eqP b0; move: ab; rewrite b0 leqn0 => /eqP ->.
move=> [sub _ c]; case: b => [|b]; first by rewrite leqn0 => /eqP -> _ i.
case: a => [|a] ab lb; last exact: (IH W' Ws a b c ab lb).
move=> i /= /sub h; exact: (IH W' Ws 0 b c isT lb i h).
Qed.
Lemma dchain_sub W fracs Ws a b : dchain W fracs Ws -> a <= b -> b < size Ws ->
  {subset nth [::] Ws a <= nth [::] Ws b}.
Proof. by move=> c ab lb; apply: (dchain_sub0 (a := a.+1) (b := b.+1) c). Qed.

Lemma kept_dec W : kept (None, opt W) rows = drop_i W rows.
Proof. by rewrite /kept /= opt_drop_i. Qed.
Lemma movers_kept W : movers (kept (None, opt W) rows) = left W.
Proof. by rewrite kept_dec movers_drop. Qed.

Lemma natQ_inj_Z z n : Z.of_nat n = z -> natQ n = inject_Z z.
Proof. by rewrite /natQ => ->. Qed.

Lemma scale_le t u e : Qle 0 t -> Qle t 1 -> Qle (- e) u -> Qle u e ->
  Qle (- e) (Qmult t u) /\ Qle (Qmult t u) e.
Proof. move=> t0 t1 l u'; split; nra. Qed.

(* One step: the count follows the share up to 1/2 more. *)
Lemma count_step p x n m (T e : Q) :
  Qle 0 x -> Qle x p ->
  Z.of_nat m = next_count (if Qeq_bool p (inject_Z 0) then None
                           else Some (Qminus (inject_Z 1) (Qdiv x p))) n ->
  Qle (- e) (Qminus (natQ n) (Qmult p T)) -> Qle (Qminus (natQ n) (Qmult p T)) e ->
  Qle (- (Qplus e (Qmake 1 2))) (Qminus (natQ m) (Qmult x T))
  /\ Qle (Qminus (natQ m) (Qmult x T)) (Qplus e (Qmake 1 2)).
Proof.
move=> x0 xp; case: (Qeq_bool p (inject_Z 0)) (Qeq_bool_iff p (inject_Z 0)) => [[pe _]|[_ pn]] /=.
  move/natQ_inj_Z => ->; rewrite -/(natQ n).
  have p0 := pe erefl.
  have xe : Qeq x 0 by move: p0; rewrite /inject_Z => p0; lra.
  have eq1 : Qeq (Qmult p T) 0 by rewrite p0; rewrite /inject_Z; ring.
  have eq2 : Qeq (Qmult x T) 0 by rewrite xe; ring.
  move=> l u; split; lra.
have p0 : Qlt 0 p.
  case: (Qlt_le_dec 0 p) => // h; have := pn _; suff : Qeq p (inject_Z 0) by move=> h2 /(_ h2).
  by rewrite /inject_Z; lra.
set t := Qdiv x p.
have xt : Qeq x (Qmult t p) by rewrite /t; field; lra.
have t0 : Qle 0 t by apply: Qle_shift_div_l => //; lra.
have t1 : Qle t 1 by apply: Qle_shift_div_r => //; lra.
clearbody t.
have xT : Qeq (Qmult x T) (Qmult t (Qmult p T)) by rewrite xt; ring.
move=> cm l u.
have [sl su] := scale_le t0 t1 l u.
have eqn : Qeq (Qmult t (Qminus (natQ n) (Qmult p T))) (Qminus (Qmult t (natQ n)) (Qmult t (Qmult p T))) by ring.
suff : Qle (- (Qmake 1 2)) (Qminus (natQ m) (Qmult t (natQ n)))
       /\ Qle (Qminus (natQ m) (Qmult t (natQ n))) (Qmake 1 2) by move=> [a b]; split; lra.
have n0 := @natQ_ge0 n.
move: cm; case: ifP => [/Qle_bool_iff|].
  rewrite {1}/inject_Z => tl; have te : Qeq t 1 by move: tl; rewrite /inject_Z; lra.
  by move/natQ_inj_Z => ->; rewrite -/(natQ n) te; split; lra.
move=> _; set r := np_round _.
have [rl ru] := np_round_bounds (Qmult (Qminus (inject_Z 1) t) (natQ n)).
rewrite -/r in rl ru.
have r0 : (0 <= r)%Z.
  apply: np_round_ge0; apply: Qmult_le_0_compat => //.
  by rewrite /inject_Z; lra.
have rn : (r <= Z.of_nat n)%Z.
  rewrite -(np_round_int (Z.of_nat n)); apply: np_round_le; rewrite -/(natQ n).
  by rewrite /inject_Z; nra.
have -> : (Z.max 0 (Z.min r (Z.of_nat n)) = r)%Z by lia.
move/natQ_inj_Z => ->; rewrite /Z.sub inject_Z_plus inject_Z_opp -/(natQ n).
have eq3 : Qeq (Qmult (Qminus (inject_Z 1) t) (natQ n)) (Qminus (natQ n) (Qmult t (natQ n))).
  by rewrite -[inject_Z 1]/1%Q; ring.
rewrite eq3 in rl ru; split; lra.
Qed.

Lemma dec_bound shares : forall W p Ws (T e : Q) k,
  dchain W (relative_drops p shares) Ws ->
  Qle 0 p -> (forall x, x < size shares -> Qle 0 (nth (inject_Z 0) shares x)) ->
  (forall a b, a <= b -> b < (size shares).+1 ->
     Qle (nth (inject_Z 0) (p :: shares) b) (nth (inject_Z 0) (p :: shares) a)) ->
  Qle (- e) (Qminus (natQ (size (left W))) (Qmult p T)) ->
  Qle (Qminus (natQ (size (left W))) (Qmult p T)) e ->
  k < size shares ->
  Qle (Qabs (Qminus (natQ (size (left (nth [::] Ws k)))) (Qmult (nth (inject_Z 0) shares k) T)))
      (Qplus e (Qmult (natQ k.+1) (Qmake 1 2))).
Proof.
elim: shares => [|x l IH] W p Ws T e k; first by [].
case: Ws => [|W' Ws]; first by case.
move=> [sub cnt c] p0 pos dec lo hi.
have x0 : Qle 0 x by exact: (pos 0).
have xp : Qle x p by exact: (dec 0 1).
have [lo' hi'] := count_step x0 xp cnt lo hi.
case: k => [_|k lk]; rewrite -?[nth _ (x :: l) 0]/x -?[nth _ (W' :: Ws) 0]/W'.
  apply (proj2 (Qabs_Qle_condition _ _)); rewrite -[natQ 1]/1%Q; split; lra.
rewrite -?[nth _ (x :: l) k.+1]/(nth _ l k) -?[nth _ (W' :: Ws) k.+1]/(nth _ Ws k).
have pos' y : y < size l -> Qle 0 (nth (inject_Z 0) l y) by move=> ly; exact: (pos y.+1).
have dec' a b : a <= b -> b < (size l).+1 ->
     Qle (nth (inject_Z 0) (x :: l) b) (nth (inject_Z 0) (x :: l) a).
  by move=> ab lb; exact: (dec a.+1 b.+1).
have h := IH W' x Ws T _ k c x0 pos' dec' lo' hi' lk.
apply: (Qle_trans _ _ _ h).
have -> : natQ k.+2 = inject_Z (Z.of_nat k.+1 + 1) by rewrite /natQ; congr inject_Z; lia.
by have := injD1 (Z.of_nat k.+1); rewrite -/(natQ k.+1); lra.
Qed.
End Decreasing.

(* Jobs. *)
Section Jobs.
Variables (Seed Res : Type).
Variable interior : subset -> Seed -> Res.
Variable spawn : nat -> Seed.

Lemma foldl_rcons_map (A B : Type) (f : A -> B) (V : seq B) l :
  foldl (fun V job => rcons V (f job)) V l = V ++ map f l.
Proof. by elim: l V => [|x l IH] V /=; rewrite ?cats0 // IH cat_rcons. Qed.

Lemma starmap_slots (J : Type) (f : J -> Res) (jobs : seq J) finish slots :
  size slots = size jobs -> all (fun k => k < size jobs) finish ->
  let out := foldl (fun slots k => set_nth None slots k (omap f (nth None (map Some jobs) k))) slots finish in
  size out = size jobs /\
  forall k, k < size jobs -> nth None out k
    = if k \in finish then omap f (nth None (map Some jobs) k) else nth None slots k.
Proof.
elim: finish slots => [|x l IH] slots sz //= /andP [lx al].
have sz' : size (set_nth None slots x (omap f (nth None (map Some jobs) x))) = size jobs.
  by rewrite size_set_nth sz; apply/maxn_idPr.
have [s h] := IH _ sz' al; split=> // k lk; rewrite h // in_cons nth_set_nth /=.
by case: (k \in l); rewrite ?orbT ?orbF //; case: eqP => [->|].
Qed.

Lemma starmap_all (J : Type) (f : J -> Res) (jobs : seq J) finish :
  perm_eq finish (iota 0 (size jobs)) -> starmap f finish jobs = map (fun j => Some (f j)) jobs.
Proof.
move=> pe; have mem k : (k \in finish) = (k < size jobs).
  by rewrite (perm_mem pe) mem_iota.
have [||s h] := @starmap_slots J f jobs finish (nseq (size jobs) None).
- by rewrite size_nseq.
- by apply/allP => k; rewrite mem.
apply: (@eq_from_nth _ None); rewrite /starmap s ?size_map // => k lk.
rewrite h // mem lk; case: jobs lk {pe mem s h} => // j0 l lk.
by rewrite !(nth_map j0).
Qed.

Lemma collect_some (l : seq Res) : collect (map Some l) = Base.Ok l.
Proof.
rewrite /collect; have -> : has (fun x : option Res => ~~ isSome x) (map Some l) = false.
  by elim: l.
by congr Base.Ok; elim: l => //= x l ->.
Qed.

Lemma run_jobs_ok ncore finish c subsets :
  perm_eq finish (iota 0 (size subsets)) ->
  run_jobs interior spawn ncore finish c subsets
  = Base.Ok [seq interior (nth (None, None) subsets k) (spawn (c + k)) | k <- iota 0 (size subsets)].
Proof.
move=> pe; rewrite /run_jobs; set jobs := job_list _ _ _; set f := fun job : subset * Seed => _.
have e : map f jobs = [seq interior (nth (None, None) subsets k) (spawn (c + k)) | k <- iota 0 (size subsets)].
  rewrite /jobs /job_list {pe jobs}; elim: subsets c => //= s l IH c.
  rewrite /f /= addn0; congr (_ :: _).
  rewrite (IH c.+1) -[1]addn0 iotaDl -map_comp; apply: eq_map => k /=.
  by rewrite addnS.
have sz : size jobs = size subsets.
  by rewrite /jobs /job_list size_zip size_map size_iota minnn.
case: ifP => _; last by rewrite foldl_rcons_map /= e.
have [sj [es [_ [ls us]]]] := UtilProps.C01_unscramble_scramble jobs.
rewrite es starmap_all; last first.
  by rewrite (_ : size sj = size subsets) // -sz; exact: ls.
rewrite (map_comp Some f) collect_some /= -e.
congr Base.Ok; exact: (@UtilProps.C01_results_paired _ _ f jobs sj es).
Qed.
End Jobs.
