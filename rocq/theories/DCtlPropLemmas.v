(* Lemmas for property C96. *)
From Verif Require Import Base BaseLemmas DCtlModel DCtlSpec DCtlLemmas.
From Coq Require Import String Lia.
Local Open Scope string_scope.
Local Open Scope nat_scope.
Local Open Scope list_scope.
Local Open Scope res_scope.

Lemma nodup_l {X} (a b : list X) : NoDup (a ++ b) -> NoDup a.
Proof.
  induction a as [|x a IH]; intros H; [constructor|]. cbn in H. inversion H as [|? ? H1 H2]; subst.
  constructor; auto. intros I. apply H1. apply in_or_app. now left.
Qed.
Lemma nodup_r {X} (a b : list X) : NoDup (a ++ b) -> NoDup b.
Proof. induction a as [|x a IH]; intros H; [exact H|]. cbn in H. inversion H; auto. Qed.

Section Ctl.
Variables (nl nk : nat) (endo state : bool) (cat cts : list ccol).
Variable codes : string -> string -> list nat.
Notation periods := (periods_of endo state).
Notation fit := (fit_ctl nl nk endo state cat cts codes).
Notation movers := (movers_ctl nl nk endo state cat cts codes).

Lemma range_S n : range (S n) = 0 :: seq 1 n. Proof. reflexivity. Qed.

Lemma first_fit_fails n up_rho o k k' : cat ++ cts <> [] -> 0 < nl -> names_ok cat cts ->
  init nl endo state cat cts = Ok k -> fit (S n) up_rho false true o k <> Ok k'.
Proof.
  intros Hc Hn (Nd & Np) Hi. unfold fit_ctl.
  destruct (o_data o) as [[]|e]; cbn [bind]; [|discriminate].
  destruct (sort_ctl cat cts (o_before o) k) as [[]|e]; cbn [bind]; [|discriminate].
  destruct (o_cons o 0) as [[]|e]; cbn [bind]; [|discriminate].
  match goal with |- bind (for_each _ ?B _) _ <> _ => set (body := B) end.
  destruct cts as [|c r] eqn:Ec.
  - rewrite app_nil_r in *. destruct (init_ok _ _ _ _ _ _ Hi Hc) as (He & Hs & Hk).
    destruct (existsb c_wi cat) eqn:W.
    + apply existsb_exists in W as (c & I & W). rewrite range_S. cbn [for_each].
      destruct (body 0 (k, false)) as [[k1 b1]|e] eqn:E; cbn [bind]; [|discriminate]. exfalso. unfold body in E.
      destruct (e_step _ _ _ _ _ _ _ _) as [[]|e]; cbn [bind] in E; [|discriminate].
      change (0 <? 0) with false in E. cbn [andb] in E.
      destruct ((0 <? List.length cat) && o_cycle o 0); [discriminate|].
      destruct (o_pk1 o 0) as [[]|e]; cbn [bind] in E; [|discriminate].
      change (0 mod 2 =? 1) with false in E. rewrite Bool.andb_false_r in E. cbn [orb andb bind] in E.
      destruct (m_step _ _ _ _ _ _ _ _ _ _ _) as [k2|e] eqn:E2; cbn [bind] in E; [|discriminate].
      revert E2. eapply m_step_wi; eauto. subst k. reflexivity.
    + assert (W0 : forall c, In c cat -> c_wi c = false).
      { intros c I. destruct (c_wi c) eqn:Wc; auto.
        assert (existsb c_wi cat = true) by (apply existsb_exists; eauto). congruence. }
      assert (N12 : forall c, In c cat -> c_name c <> "12").
      { intros c I E. apply (Np c I). rewrite E. cbn. tauto. }
      assert (K0 : no12 k).
      { subst k. unfold no12. cbn [k_Acat]. apply draw_missing. intros I. apply in_map_iff in I as (c & E & I).
        now apply (N12 c I). }
      destruct (for_each (range (S n)) body (k, false)) as [[k1 b1]|e] eqn:E; cbn [bind]; [|discriminate].
      assert (K1 : no12 k1).
      { apply (loop_no12 body (range (S n)) (k, false) k1 b1); [|reflexivity|exact K0|exact E].
        clear - N12. intros iter k k' b H E. cbv beta iota in E. unfold body in E.
        destruct (e_step _ _ _ _ _ _ _ _) as [[]|e]; cbn [bind] in E; [|discriminate].
        destruct ((0 <? iter) && o_conv o iter); [now injection E as <- _|].
        destruct ((0 <? List.length cat) && o_cycle o iter); [discriminate|].
        destruct (o_pk1 o iter) as [[]|e]; cbn [bind] in E; [|discriminate].
        destruct (up_rho && (iter mod 2 =? 1)).
        { destruct (each (range nl) _) as [[]|e]; cbn [bind] in E; [|discriminate]. now injection E as <- _. }
        cbn [orb andb bind] in E.
        destruct (m_step _ _ _ _ _ _ _ _ _ _ _) as [k2|e] eqn:E2; cbn [bind] in E; [|discriminate].
        injection E as <- _. eapply m_step_no12; eauto. }
      unfold normalize at 1. rewrite find_none by auto. rewrite K1.
      destruct cat; [congruence|]. discriminate.
  - rewrite range_S. cbn [for_each].
    assert (E : e_step nl endo state cat (c :: r) codes 0 k <> Ok tt) by (apply e_step_cts; [discriminate|auto]).
    unfold body at 1. destruct (e_step _ _ _ _ _ _ _ _) as [[]|e]; cbn [bind]; congruence.
Qed.

Lemma never_completes n up_rho o k : cat ++ cts <> [] -> 0 < nl -> 0 < n -> names_ok cat cts ->
  movers n up_rho o <> Ok k.
Proof.
  intros Hc Hn Hi Nm. destruct n as [|n]; [lia|]. unfold movers_ctl.
  destruct (init nl endo state cat cts) as [k0|e] eqn:E; cbn [bind]; [|discriminate].
  destruct (fit (S n) up_rho false true (o 0) k0) as [k1|e] eqn:E1; cbn [bind]; [|discriminate].
  exfalso. revert E1. now apply first_fit_fails.
Qed.

(* ---- which exception ---- *)
Lemma flags_error n up_rho o : names_ok cat cts -> cat <> [] -> endo && state = false ->
  movers n up_rho o = Err KeyError.
Proof.
  intros (_ & Np) Hc F. unfold movers_ctl.
  assert (Z : forall p k0, In p all_periods -> k_Acat k0 = draw (cat_shape nl) cat -> zero cat cts p k0 = Err KeyError).
  { intros p k0 P E. unfold zero, zero_cat. rewrite E.
    assert (M : lookup p (draw (cat_shape nl) cat) = Err KeyError).
    { apply draw_missing. intros I. apply in_map_iff in I as (c & Ec & I). apply (Np c); [apply in_or_app; now left|].
      now rewrite Ec. }
    destruct cat as [|c r]; [congruence|]. cbn [for_each]. now rewrite M. }
  unfold init. destruct endo; cbn [bind].
  - destruct state; [discriminate|]. rewrite Z; [reflexivity|cbn; tauto|reflexivity].
  - rewrite Z; [reflexivity|cbn; tauto|reflexivity].
Qed.

(* shapes as drawn *)
Definition shapes (k : ctl) : Prop := forall c p, In c cat -> In p all_periods ->
  at_period (k_Acat k) (c_name c) p = Ok (cat_shape nl c p) /\
  at_period (k_Scat k) (c_name c) p = Ok (cat_shape nl c p).

Lemma index1_ok n l : (forall i, In i l -> i < n) -> index1 [n] l = Ok tt.
Proof.
  intros H. unfold index1. replace (forallb _ l) with true; auto. symmetry. apply forallb_forall.
  intros i I. apply Nat.ltb_lt. auto.
Qed.

Hypothesis Co : codes_ok cat codes.

Lemma sum1_cat cA k : shapes k ->
  each cat (fun c => each periods (fun p =>
         a <- at_period (k_Acat k) (c_name c) p ;;
         s <- at_period (k_Scat k) (c_name c) p ;;
         if negb (c_wi c) || is_b p
         then _ <- (if (cA : bool) then index1 a (codes p (c_name c)) else Ok tt) ;;
              index1 s (codes p (c_name c))
         else Ok tt)) = Ok tt.
Proof.
  intros H. apply each_ok. intros c I. apply each_ok. intros p P. apply periods_all in P.
  destruct (H c p I P) as [-> ->]. cbn [bind]. unfold cat_shape.
  destruct (c_wi c), (is_b p); cbn [negb orb andb]; auto.
  all: destruct cA; cbn [bind]; rewrite ?index1_ok by (intros i Ii; now apply (Co c p i)); reflexivity.
Qed.
Lemma sum2_cat l cS k : shapes k -> l < nl ->
  each cat (fun c => each periods (fun p =>
         a <- at_period (k_Acat k) (c_name c) p ;;
         s <- at_period (k_Scat k) (c_name c) p ;;
         if c_wi c && negb (is_b p)
         then _ <- index2 a l (codes p (c_name c)) ;;
              if (cS : bool) then index2 s l (codes p (c_name c)) else Ok tt
         else Ok tt)) = Ok tt.
Proof.
  intros H Hl. apply each_ok. intros c I. apply each_ok. intros p P. apply periods_all in P.
  destruct (H c p I P) as [-> ->]. cbn [bind]. unfold cat_shape.
  destruct (c_wi c && negb (is_b p)); auto.
  assert (X : index2 [nl; c_n c] l (codes p (c_name c)) = Ok tt).
  { unfold index2, row. apply Nat.ltb_lt in Hl. rewrite Hl. cbn [bind].
    apply index1_ok. intros i Ii. now apply (Co c p i). }
  rewrite X. cbn [bind]. now destruct cS.
Qed.

Lemma sum_nl_cat l cS k : shapes k -> l < nl ->
  sum_nl_l endo state cat cts codes l cS k =
  each cts (fun c => each periods (fun p =>
         a <- at_period (k_Acts k) (c_name c) p ;;
         s <- at_period (k_Scts k) (c_name c) p ;;
         if c_wi c && negb (is_b p)
         then _ <- by_name a (c_name c) ;;
              if (cS : bool) then by_name s (c_name c) else Ok tt
         else Ok tt)).
Proof. intros H Hl. unfold sum_nl_l. rewrite sum2_cat by auto. reflexivity. Qed.

Lemma drawn_shapes k : NoDup (map c_name cat) -> k_Acat k = draw (cat_shape nl) cat -> k_Scat k = draw (cat_shape nl) cat ->
  shapes k.
Proof. intros N E1 E2 c p I P. rewrite E1, E2. now rewrite !draw_at. Qed.

Lemma sort_drawn (two : bool) (sh : ccol -> string -> shape) cols :
  NoDup (map c_name (cat ++ cts)) -> (forall c, In c cols -> In c (cat ++ cts)) ->
  (forall c p, In c cols -> c_wi c && negb (is_b p) = true ->
     sh c p = if two then [nl; c_n c] else [nl]) -> sort_table cat cts two (draw sh cols) = Ok tt.
Proof.
  intros N Sub Hs. unfold sort_table. apply each_ok. intros kv I. unfold draw in I.
  apply in_map_iff in I as (c & <- & I). cbn [fst snd]. apply each_ok. intros ps J.
  apply in_map_iff in J as (p & <- & J). cbn [fst snd]. unfold find_wi.
  rewrite (lookup_map c_name c_wi (cat ++ cts) c N (Sub c I)). cbn [bind].
  destruct (c_wi c && negb (is_b p)) eqn:E; auto. rewrite (Hs c p I E). destruct two; reflexivity.
Qed.

Lemma e_step_ok iter k : cts = [] -> shapes k -> e_step nl endo state cat cts codes iter k = Ok tt.
Proof.
  intros Hc H. unfold e_step. destruct (0 <? List.length (cat ++ cts)); auto.
  unfold sum_non_nl. rewrite sum1_cat by auto. cbn [bind].
  rewrite Hc at 1. cbn [each for_each bind]. fold (@each nat).
  apply each_ok. intros l Hl. apply in_seq in Hl. rewrite sum_nl_cat by (auto; lia). now rewrite Hc.
Qed.

(* continuous columns *)
Lemma e_step_index k : cts <> [] -> 0 < nl -> shapes k ->
  (forall c p, In c cts -> In p periods -> exists a s,
     at_period (k_Acts k) (c_name c) p = Ok a /\ at_period (k_Scts k) (c_name c) p = Ok s) ->
  e_step nl endo state cat cts codes 0 k = Err IndexError.
Proof.
  intros Hc Hn Sh Hk. unfold e_step.
  replace (0 <? List.length (cat ++ cts)) with true
    by (symmetry; apply Nat.ltb_lt; rewrite app_length; destruct cts; [congruence|cbn [List.length]; lia]).
  unfold sum_non_nl. rewrite sum1_cat by auto. cbn [bind Nat.eqb].
  set (f1 := fun (c : ccol) => each periods (fun p =>
         a <- at_period (k_Acts k) (c_name c) p ;;
         s <- at_period (k_Scts k) (c_name c) p ;;
         if negb (c_wi c) || is_b p then (_ <- by_name a (c_name c) ;; by_name s (c_name c)) else Ok tt)).
  assert (F1 : forall c, In c cts -> (f1 c = Ok tt /\ c_wi c = true) \/ f1 c = Err IndexError).
  { intros c I. unfold f1.
    assert (G : forall p, In p periods ->
      (a <- at_period (k_Acts k) (c_name c) p ;; s <- at_period (k_Scts k) (c_name c) p ;;
       if negb (c_wi c) || is_b p then (_ <- by_name a (c_name c) ;; by_name s (c_name c)) else Ok tt)
      = if negb (c_wi c) || is_b p then Err IndexError else Ok tt).
    { intros p P. destruct (Hk c p I P) as (a & s & -> & ->). cbn [bind].
      destruct (negb (c_wi c) || is_b p); reflexivity. }
    destruct (existsb (fun p => negb (c_wi c) || is_b p) periods) eqn:X.
    - right. apply existsb_exists in X as (p & P & X).
      apply each_err with (x := p); auto.
      + intros q Q. rewrite (G q Q). destruct (negb (c_wi c) || is_b q); auto.
      + rewrite (G p P), X. reflexivity.
    - left. assert (X0 : forall p, In p periods -> negb (c_wi c) || is_b p = false).
      { intros p P. destruct (negb (c_wi c) || is_b p) eqn:Y; auto.
        assert (existsb (fun p => negb (c_wi c) || is_b p) periods = true) by (apply existsb_exists; eauto). congruence. }
      split.
      + apply each_ok. intros p P. rewrite (G p P), X0 by auto. reflexivity.
      + specialize (X0 "12" (p12 _ _)). change (is_b "12") with false in X0.
        rewrite Bool.orb_false_r in X0. now destruct (c_wi c). }
  change (each cts _) with (each cts f1).
  destruct (existsb (fun c => match f1 c with Err _ => true | Ok _ => false end) cts) eqn:X.
  - apply existsb_exists in X as (c & I & X). rewrite (each_err cts f1 IndexError c); auto.
    + intros x Ix. destruct (F1 x Ix) as [[]|]; auto.
    + destruct (F1 c I) as [[E _]|E]; [rewrite E in X; discriminate|exact E].
  - assert (X0 : forall c, In c cts -> f1 c = Ok tt /\ c_wi c = true).
    { intros c I. destruct (F1 c I) as [|E]; auto. exfalso.
      assert (existsb (fun c => match f1 c with Err _ => true | Ok _ => false end) cts = true)
        by (apply existsb_exists; exists c; split; [exact I|now rewrite E]). congruence. }
    rewrite each_ok by (intros c I; now apply X0). cbn [bind].
    apply each_err with (x := 0); [| apply in_seq; lia|].
    + intros l Hl. right. apply in_seq in Hl. rewrite sum_nl_cat by (auto; lia).
      destruct cts as [|c r] eqn:Ec; [congruence|]. apply each_err with (x := c); [| now left|].
      * intros x Ix. destruct (X0 x Ix) as [_ W]. right. apply each_err with (x := "12"); [|apply p12|].
        -- intros p P. destruct (Hk x p Ix P) as (a & s & -> & ->). cbn [bind]. rewrite W.
           destruct (is_b p); cbn; auto.
        -- destruct (Hk x "12" Ix (p12 _ _)) as (a & s & -> & ->). cbn [bind]. now rewrite W.
      * destruct (X0 c (or_introl eq_refl)) as [_ W]. apply each_err with (x := "12"); [|apply p12|].
        -- intros p P. destruct (Hk c p (or_introl eq_refl) P) as (a & s & -> & ->). cbn [bind]. rewrite W.
           destruct (is_b p); cbn; auto.
        -- destruct (Hk c "12" (or_introl eq_refl) (p12 _ _)) as (a & s & -> & ->). cbn [bind]. now rewrite W.
    + rewrite sum_nl_cat by auto.
      destruct cts as [|c r] eqn:Ec; [congruence|]. apply each_err with (x := c); [| now left|].
      * intros x Ix. destruct (X0 x Ix) as [_ W]. right. apply each_err with (x := "12"); [|apply p12|].
        -- intros p P. destruct (Hk x p Ix P) as (a & s & -> & ->). cbn [bind]. rewrite W.
           destruct (is_b p); cbn; auto.
        -- destruct (Hk x "12" Ix (p12 _ _)) as (a & s & -> & ->). cbn [bind]. now rewrite W.
      * destruct (X0 c (or_introl eq_refl)) as [_ W]. apply each_err with (x := "12"); [|apply p12|].
        -- intros p P. destruct (Hk c p (or_introl eq_refl) P) as (a & s & -> & ->). cbn [bind]. rewrite W.
           destruct (is_b p); cbn; auto.
        -- destruct (Hk c "12" (or_introl eq_refl) (p12 _ _)) as (a & s & -> & ->). cbn [bind]. now rewrite W.
Qed.

(* the loop stops in the first iteration *)
Lemma fit_first_error n up_rho up_a o k e : no_trouble o -> sort_ctl cat cts (o_before o) k = Ok tt ->
  e_step nl endo state cat cts codes 0 k = Err e -> fit (S n) up_rho up_a true o k = Err e.
Proof.
  intros (D1 & D2 & D3) So E. unfold fit_ctl. rewrite D1, So, D2. cbn [bind]. rewrite range_S. cbn [for_each].
  now rewrite E.
Qed.

Lemma cts_error_flags n up_rho o : names_ok cat cts -> cts <> [] -> endo = true -> state = true -> 0 < nl ->
  no_trouble (o 0) -> movers (S n) up_rho o = Err IndexError.
Proof.
  intros (Nd & Np) Hc He Hs Hn Ho.
  assert (Nc : NoDup (map c_name cat)) by (rewrite map_app in Nd; now apply nodup_l in Nd).
  assert (Nt : NoDup (map c_name cts)) by (rewrite map_app in Nd; now apply nodup_r in Nd).
  assert (In0 : init nl endo state cat cts = Ok (mkctl (draw (cat_shape nl) cat) (draw (cat_shape nl) cat)
                                                     (draw (cts_shape nl) cts) (draw (cts_shape nl) cts))).
  { rewrite He, Hs. reflexivity. }
  unfold movers_ctl. rewrite In0. cbn [bind].
  rewrite fit_first_error with (e := IndexError); [reflexivity|exact Ho| |].
  - unfold sort_ctl. destruct (o_before (o 0)); auto. cbn [k_Acat k_Scat k_Acts k_Scts].
    rewrite !(sort_drawn true (cat_shape nl) cat); auto; [|intros; apply in_or_app; now left|].
    2: { intros c p _ E. unfold cat_shape. now rewrite E. }
    cbn [bind].
    assert (T : sort_table cat cts false (draw (cts_shape nl) cts) = Ok tt).
    { apply sort_drawn; auto; [intros; apply in_or_app; now right|]. intros c p _ E. unfold cts_shape. now rewrite E. }
    rewrite T. reflexivity.
  - apply e_step_index; auto.
    + apply drawn_shapes; auto.
    + intros c p I P. apply periods_all in P. exists (cts_shape nl c p), (cts_shape nl c p). cbn [k_Acts k_Scts].
      now rewrite draw_at.
Qed.

(* categorical columns only *)
Lemma cat_init : cts = [] -> endo = true -> state = true ->
  init nl endo state cat cts = Ok (mkctl (draw (cat_shape nl) cat) (draw (cat_shape nl) cat) [] []).
Proof. intros -> -> ->. reflexivity. Qed.

Lemma first_iteration n up_rho o k e : no_trouble o -> o_cycle o 0 = false ->
  sort_ctl cat cts (o_before o) k = Ok tt -> e_step nl endo state cat cts codes 0 k = Ok tt ->
  m_step nl nk endo state cat cts codes false true (o_solved o 0) k = Err e -> fit (S n) up_rho false true o k = Err e.
Proof.
  intros (D1 & D2 & D3) Cy So E M. unfold fit_ctl. rewrite D1, So, D2. cbn [bind]. rewrite range_S. cbn [for_each].
  rewrite E. cbn [bind]. change (0 <? 0) with false. cbn [andb]. rewrite Cy, Bool.andb_false_r, D3. cbn [bind].
  change (0 mod 2 =? 1) with false. rewrite Bool.andb_false_r. cbn [orb andb bind]. now rewrite M.
Qed.

Lemma cat_sort b : cts = [] -> NoDup (map c_name cat) ->
  sort_ctl cat cts b (mkctl (draw (cat_shape nl) cat) (draw (cat_shape nl) cat) [] []) = Ok tt.
Proof.
  intros -> N. unfold sort_ctl. destruct b; auto. cbn [k_Acat k_Scat k_Acts k_Scts].
  assert (X : sort_table cat [] true (draw (cat_shape nl) cat) = Ok tt).
  { unfold sort_table. apply each_ok. intros kv I. unfold draw in I.
    apply in_map_iff in I as (c & <- & I). cbn [fst snd]. apply each_ok. intros ps J.
    apply in_map_iff in J as (p & <- & J). cbn [fst snd]. unfold find_wi. rewrite app_nil_r.
    rewrite (lookup_map c_name c_wi cat c N I). cbn [bind].
    destruct (c_wi c && negb (is_b p)) eqn:E; auto. unfold cat_shape. rewrite E. reflexivity. }
  rewrite X. reflexivity.
Qed.

Lemma size_error n up_rho o c : names_ok cat cts -> cts = [] -> endo = true -> state = true -> 0 < nl -> 0 < nk ->
  no_trouble (o 0) -> o_cycle (o 0) 0 = false -> (forall c, In c cat -> 0 < c_n c) ->
  In c cat -> c_n c <> nk -> movers (S n) up_rho o = Err ValueError.
Proof.
  intros (Nd & Np) Hc He Hs Hn Hk Ho Cy Pos I Ne.
  assert (N : NoDup (map c_name cat)) by (rewrite Hc, app_nil_r in Nd; exact Nd).
  unfold movers_ctl. rewrite cat_init by auto. cbn [bind].
  rewrite first_iteration with (e := ValueError); auto.
  - now apply cat_sort.
  - apply e_step_ok; auto. apply drawn_shapes; auto.
  - unfold m_step.
    rewrite (each_err cat _ ValueError c); [reflexivity| |exact I|].
    + intros x Ix. rewrite He, Hs. change (List.length (periods_of true true)) with 6.
      unfold broadcast at 2. replace (nl * (6 * c_n x) =? nl * 6 * c_n x) with true by (symmetry; apply Nat.eqb_eq; lia).
      cbn [orb]. unfold broadcast. destruct (_ || _); cbn [bind]; auto.
    + rewrite He, Hs. change (List.length (periods_of true true)) with 6. unfold broadcast at 1.
      specialize (Pos c I).
      replace (nl * (6 * c_n c) =? nl * (nk * 6)) with false by (symmetry; apply Nat.eqb_neq; nia).
      replace (nl * (6 * c_n c) =? 1) with false by (symmetry; apply Nat.eqb_neq; nia).
      replace (nl * (nk * 6) =? 1) with false by (symmetry; apply Nat.eqb_neq; nia). reflexivity.
Qed.

Lemma m_sizes : (forall c, In c cat -> c_n c = nk) -> each cat (fun c =>
         _ <- broadcast (nl * (List.length periods * c_n c)) (nl * (nk * List.length periods)) ;;
         broadcast (nl * (List.length periods * c_n c)) (nl * List.length periods * c_n c)) = Ok tt.
Proof.
  intros H. apply each_ok. intros c I. cbv zeta. rewrite (H c I). unfold broadcast.
  replace (nl * (List.length periods * nk) =? nl * (nk * List.length periods)) with true
    by (symmetry; apply Nat.eqb_eq; lia).
  replace (nl * (List.length periods * nk) =? nl * List.length periods * nk) with true
    by (symmetry; apply Nat.eqb_eq; lia). reflexivity.
Qed.

(* one column in the M-step of the first phase *)
Lemma col_body k c : shapes k -> endo = true -> state = true -> In c cat -> c_wi c = false ->
  (_ <- (if c_wi c then Ok tt
         else each periods (fun p => a <- at_period (k_Acat k) (c_name c) p ;; index1 a (codes p (c_name c)))) ;;
   _ <- each (range nl) (fun l =>
          _ <- each periods (fun p =>
                 s <- at_period (k_Scat k) (c_name c) p ;;
                 if c_wi c then index2 s l (codes p (c_name c)) else index1 s (codes p (c_name c))) ;;
          _ <- (if endo then Ok tt else Err KeyError) ;;
          _ <- (if state then Ok tt else Err KeyError) ;; Ok tt) ;;
   _ <- (if c_wi c then Ok tt
         else each periods (fun p => a <- at_period (k_Acat k) (c_name c) p ;; index1 a (codes p (c_name c)))) ;;
   Ok k) = Ok k.
Proof.
  intros Sh He Hs I W.
  assert (X : each periods (fun p => a <- at_period (k_Acat k) (c_name c) p ;; index1 a (codes p (c_name c))) = Ok tt).
  { apply each_ok. intros p P. apply periods_all in P. destruct (Sh c p I P) as [-> _]. cbn [bind].
    unfold cat_shape. rewrite W. cbn [andb]. apply index1_ok. intros i Ii. now apply (Co c p i). }
  rewrite W. rewrite X. cbn [bind]. rewrite each_ok; [reflexivity|]. intros l _. rewrite He, Hs. cbn [bind].
  rewrite each_ok; [reflexivity|]. intros p P. apply periods_all in P. destruct (Sh c p I P) as [_ ->]. cbn [bind].
  unfold cat_shape. rewrite W. cbn [andb]. apply index1_ok. intros i Ii. now apply (Co c p i).
Qed.

Lemma interaction_error n up_rho o c : names_ok cat cts -> cts = [] -> endo = true -> state = true -> 0 < nl ->
  no_trouble (o 0) -> o_cycle (o 0) 0 = false -> (forall c, In c cat -> c_n c = nk) ->
  In c cat -> c_wi c = true -> movers (S n) up_rho o = Err IndexError.
Proof.
  intros (Nd & Np) Hc He Hs Hn Ho Cy Sz I W.
  assert (N : NoDup (map c_name cat)) by (rewrite Hc, app_nil_r in Nd; exact Nd).
  unfold movers_ctl. rewrite cat_init by auto. cbn [bind].
  set (k := mkctl (draw (cat_shape nl) cat) (draw (cat_shape nl) cat) [] []).
  assert (Sh : shapes k) by (apply drawn_shapes; auto).
  rewrite first_iteration with (e := IndexError); auto.
  - now apply cat_sort.
  - now apply e_step_ok.
  - unfold m_step. rewrite m_sizes by auto. cbn [bind].
    match goal with |- bind (for_each _ ?B _) _ = _ => set (body := B) end.
    assert (B : forall x, In x cat -> body x k = Ok k \/ body x k = Err IndexError).
    { intros x Ix. destruct (c_wi x) eqn:Wx.
      - right. unfold body. rewrite Wx. cbn [bind]. rewrite (each_err (range nl) _ IndexError 0); [reflexivity| | |].
        + intros l Hl. right.
          rewrite (each_err periods _ IndexError "2mb"); [reflexivity| | |].
          * intros p P. pose proof (periods_all _ _ _ P) as P'. destruct (Sh x p Ix P') as [_ ->]. cbn [bind].
            unfold cat_shape. rewrite Wx. destruct (is_b p); cbn [negb andb]; [now right|left].
            apply in_seq in Hl. unfold index2, row. replace (l <? nl) with true by (symmetry; apply Nat.ltb_lt; lia).
            cbn [bind]. apply index1_ok. intros i Ii. now apply (Co x p i).
          * rewrite He, Hs. cbn. tauto.
          * destruct (Sh x "2mb" Ix) as [_ ->]; [cbn; tauto|]. cbn [bind]. unfold cat_shape. rewrite Wx. reflexivity.
        + apply in_seq. lia.
        + rewrite (each_err periods _ IndexError "2mb"); [reflexivity| | |].
          * intros p P. pose proof (periods_all _ _ _ P) as P'. destruct (Sh x p Ix P') as [_ ->]. cbn [bind].
            unfold cat_shape. rewrite Wx. destruct (is_b p); cbn [negb andb]; [now right|left].
            unfold index2, row. replace (0 <? nl) with true by (symmetry; apply Nat.ltb_lt; lia).
            cbn [bind]. apply index1_ok. intros i Ii. now apply (Co x p i).
          * rewrite He, Hs. cbn. tauto.
          * destruct (Sh x "2mb" Ix) as [_ ->]; [cbn; tauto|]. cbn [bind]. unfold cat_shape. rewrite Wx. reflexivity.
      - left. unfold body. cbn iota. now apply col_body. }
    assert (Bc : body c k = Err IndexError).
    { destruct (B c I) as [E|E]; auto. exfalso.
      pose proof (m_step_wi nl nk endo state cat cts codes true (o_solved (o 0) 0) k k c Hs He N I W Hn eq_refl) as F.
      clear F. unfold body in E. rewrite W in E. cbn [bind] in E.
      match type of E with bind ?X _ = _ => destruct X as [[]|e] eqn:E3; cbn [bind] in E; [|discriminate] end.
      apply each_inv with (x := 0) in E3; [|apply in_seq; lia].
      match type of E3 with bind ?X _ = _ => destruct X as [[]|e] eqn:E4; cbn [bind] in E3; [|discriminate] end.
      apply each_inv with (x := "2mb") in E4; [|rewrite He, Hs; cbn; tauto].
      destruct (Sh c "2mb" I) as [_ Z]; [cbn; tauto|]. rewrite Z in E4. cbn [bind] in E4. unfold cat_shape in E4.
      rewrite W in E4. cbn in E4. discriminate. }
    assert (L : forall l, (forall x, In x l -> In x cat) -> In c l -> for_each l body k = Err IndexError).
    { induction l as [|x l IH]; intros Sub J; [destruct J|]. cbn [for_each].
      destruct (B x (Sub x (or_introl eq_refl))) as [E|E]; rewrite E; cbn [bind]; [|reflexivity].
      destruct J as [->|J]; [congruence|]. apply IH; auto. intros y Y. apply Sub. now right. }
    rewrite (L cat); auto.
Qed.

(* no interacting column, as many categories as firm types: all iterations pass *)
Lemma put_shapes (c c' : ccol) p (t : table) sol : NoDup (map c_name cat) -> In c cat -> In c' cat -> In p all_periods ->
  at_period t (c_name c') p = Ok (cat_shape nl c' p) ->
  at_period (new_cat nl endo state sol c t) (c_name c') p = Ok (cat_shape nl c' p).
Proof.
  intros N I I' P H. unfold new_cat. destruct sol; auto.
  destruct (lookup (c_name c) t) as [[|d]|e] eqn:E; auto.
  unfold at_period. rewrite lookup_put. destruct (String.eqb_spec (c_name c') (c_name c)) as [En|_]; [|exact H].
  cbn [bind]. unfold at_period in H. rewrite En, E in H. cbn [bind] in H.
  assert (c' = c).
  { clear - N I I' En. induction cat as [|x l IH]; [destruct I|]. cbn [map] in N. inversion N as [|? ? N1 N2]; subst.
    destruct I as [->|I], I' as [->|I']; auto.
    - exfalso. apply N1. rewrite <- En. now apply in_map.
    - exfalso. apply N1. rewrite En. now apply in_map. }
  subst c'. clear - H.
  assert (G : forall l d, lookup p d = Ok (cat_shape nl c p) ->
    lookup p (fold_left (fun d q => put q (cat_shape nl c q) d) l d) = Ok (cat_shape nl c p)).
  { induction l as [|q l IH]; intros d0 H0; cbn [fold_left]; auto. apply IH. rewrite lookup_put.
    destruct (String.eqb_spec p q) as [->|_]; auto. }
  now apply G.
Qed.

Lemma normalize_error n up_rho o : names_ok cat cts -> cts = [] -> cat <> [] -> endo = true -> state = true -> 0 < nl ->
  no_trouble (o 0) -> (forall i, o_cycle (o 0) i = false) -> (forall c, In c cat -> c_n c = nk) ->
  (forall c, In c cat -> c_wi c = false) -> movers n up_rho o = Err KeyError.
Proof.
  intros (Nd & Np) Hc Hcat He Hs Hn (D1 & D2 & D3) Cy Sz W.
  assert (N : NoDup (map c_name cat)) by (rewrite Hc, app_nil_r in Nd; exact Nd).
  assert (N12 : forall c, In c cat -> c_name c <> "12").
  { intros c I E. apply (Np c); [apply in_or_app; now left|]. rewrite E. cbn. tauto. }
  unfold movers_ctl. rewrite cat_init by auto. cbn [bind].
  set (k := mkctl (draw (cat_shape nl) cat) (draw (cat_shape nl) cat) [] []).
  assert (Sh : shapes k) by (apply drawn_shapes; auto).
  assert (K0 : no12 k).
  { unfold no12. cbn [k k_Acat]. apply draw_missing. intros I. apply in_map_iff in I as (c & E & I). now apply (N12 c I). }
  unfold fit_ctl at 1. rewrite D1, cat_sort by auto. cbn [bind]. rewrite D2. cbn [bind].
  match goal with |- bind (bind (for_each _ ?B _) _) _ = _ => set (body := B) end.
  assert (Nl : forall k2, shapes k2 -> each (range nl) (fun l => sum_nl_l endo state cat cts codes l false k2) = Ok tt
            /\ each (range nl) (fun l => sum_nl_l endo state cat cts codes l true k2) = Ok tt).
  { intros k2 S2. split; apply each_ok; intros l Hl; apply in_seq in Hl; 
      rewrite sum_nl_cat by (auto; lia); rewrite Hc; reflexivity. }
  assert (St : forall i k1 b, shapes k1 -> no12 k1 -> exists k2 b', body i (k1, b) = Ok (k2, b') /\ shapes k2 /\ no12 k2).
  { intros i k1 b S1 Z1. unfold body. destruct b; [eauto|]. rewrite e_step_ok by auto. cbn [bind].
    destruct ((0 <? i) && o_conv (o 0) i); [eauto 6|]. rewrite Cy, Bool.andb_false_r, D3. cbn [bind].
    destruct (up_rho && (i mod 2 =? 1)).
    { destruct (Nl k1 S1) as [_ E]. rewrite E. cbn [bind]. eauto 6. }
    cbn [orb andb bind].
    unfold m_step. rewrite m_sizes by auto. cbn [bind].
    assert (L : forall l, (forall x, In x l -> In x cat) -> for_each l (fun (c : ccol) (k : ctl) =>
      _ <- (if c_wi c then Ok tt
         else each periods (fun p => a <- at_period (k_Acat k) (c_name c) p ;; index1 a (codes p (c_name c)))) ;;
      _ <- each (range nl) (fun l =>
          _ <- each periods (fun p =>
                 s <- at_period (k_Scat k) (c_name c) p ;;
                 if c_wi c then index2 s l (codes p (c_name c)) else index1 s (codes p (c_name c))) ;;
          _ <- (if endo then Ok tt else Err KeyError) ;;
          _ <- (if state then Ok tt else Err KeyError) ;; Ok tt) ;;
      _ <- (if c_wi c then Ok tt
         else each periods (fun p => a <- at_period (k_Acat k) (c_name c) p ;; index1 a (codes p (c_name c)))) ;;
      Ok k) k1 = Ok k1).
    { induction l as [|x l IH]; intros Sub; cbn [for_each]; auto.
      rewrite col_body; auto; [|apply Sub; now left|apply W, Sub; now left]. cbn [bind]. apply IH. intros y Y. apply Sub. now right. }
    cbv zeta. rewrite L by auto. cbn [bind]. destruct (Nl k1 S1) as [E _]. rewrite E. cbn [bind].
    eexists _, false. split; [reflexivity|].
    assert (F : forall l k1, (forall x, In x l -> In x cat) -> shapes k1 -> no12 k1 ->
      let k2 := fold_left (fun k c => mkctl (k_Acat k) (new_cat nl endo state (o_solved (o 0) i (c_name c)) c (k_Scat k))
                                         (k_Acts k) (k_Scts k)) l k1 in shapes k2 /\ no12 k2).
    { clear k1 S1 Z1 L E. induction l as [|x l IH]; intros k1 Sub S1 Z1; cbv zeta; cbn [fold_left]; [now split|].
      apply IH; [intros y Y; apply Sub; now right| |exact Z1].
      intros c p I P. destruct (S1 c p I P) as [A1 A2]. split; [exact A1|]. cbn [k_Scat].
      apply put_shapes; auto. apply Sub. now left. }
    apply F; auto. }
  assert (Lp : forall l k1 b, shapes k1 -> no12 k1 -> exists k2 b', for_each l body (k1, b) = Ok (k2, b') /\ no12 k2).
  { induction l as [|i l IH]; intros k1 b S1 Z1; cbn [for_each]; [eauto|].
    destruct (St i k1 b S1 Z1) as (k2 & b' & -> & S2 & Z2). cbn [bind]. now apply IH. }
  destruct (Lp (range n) k false Sh K0) as (k2 & b' & -> & Z2). cbn [bind].
  unfold normalize at 1. rewrite find_none by auto. rewrite Z2. destruct cat; [congruence|]. reflexivity.
Qed.

Lemma no_controls n up_rho o : cat = [] -> cts = [] -> (forall j, no_trouble (o j)) ->
  exists k, movers n up_rho o = Ok k.
Proof.
  intros E1 E2 Ho. unfold movers_ctl.
  assert (I : init nl endo state cat cts = Ok (mkctl [] [] [] [])).
  { rewrite E1, E2. unfold init, zero, zero_cat, zero_cts. cbn. destruct endo, state; reflexivity. }
  rewrite I. cbn [bind].
  assert (F : forall j up_a, fit n up_rho up_a true (o j) (mkctl [] [] [] []) = Ok (mkctl [] [] [] [])).
  { intros j up_a. destruct (no_controls_complete_fit nl nk endo state cat cts codes n up_rho up_a true (o j) _ E1 E2 (Ho j) eq_refl)
      as (k & E & ->). exact E. }
  rewrite !F. cbn [bind]. destruct (1 <? nl); cbn [bind]; rewrite !F; cbn [bind]; rewrite ?F; eauto.
Qed.
End Ctl.

Lemma controls_fail nl nk endo state cat cts codes n_iters up_rho o :
  cat ++ cts <> [] -> names_ok cat cts -> 0 < nl -> 0 < n_iters ->
  exists e, movers_ctl nl nk endo state cat cts codes n_iters up_rho o = Err e.
Proof.
  intros H1 H2 H3 H4. destruct (movers_ctl nl nk endo state cat cts codes n_iters up_rho o) as [k|e] eqn:E; eauto.
  exfalso. revert E. now apply never_completes.
Qed.

Lemma controls_errors nl nk endo state cat cts codes n_iters up_rho o :
  names_ok cat cts -> codes_ok cat codes -> 0 < nl -> 0 < nk -> 0 < n_iters ->
  (forall c, In c cat -> 0 < c_n c) -> no_trouble (o 0) -> (forall i, o_cycle (o 0) i = false) ->
  let result := movers_ctl nl nk endo state cat cts codes n_iters up_rho o in
  (cat <> [] -> endo && state = false -> result = Err KeyError) /\
  (cts <> [] -> endo && state = true -> result = Err IndexError) /\
  (cat <> [] -> cts = [] -> endo && state = true ->
    ((exists c, In c cat /\ c_n c <> nk) -> result = Err ValueError) /\
    ((forall c, In c cat -> c_n c = nk) -> (exists c, In c cat /\ c_wi c = true) -> result = Err IndexError) /\
    ((forall c, In c cat -> c_n c = nk) -> (forall c, In c cat -> c_wi c = false) -> result = Err KeyError)).
Proof.
  intros Nm Co Hl Hk Hi Pos Ho Cy result. unfold result. destruct n_iters as [|n]; [lia|]. split; [|split].
  - intros H F. now apply flags_error.
  - intros H F. apply andb_prop in F as [F1 F2]. now apply cts_error_flags.
  - intros H Hc F. apply andb_prop in F as [F1 F2]. split; [|split].
    + intros (c & I & Ne). now apply size_error with (c := c).
    + intros Sz (c & I & W). now apply interaction_error with (c := c).
    + intros Sz W. now apply normalize_error.
Qed.

Lemma without_controls nl nk endo state codes n_iters up_rho o :
  (forall j, no_trouble (o j)) -> exists k, movers_ctl nl nk endo state [] [] codes n_iters up_rho o = Ok k.
Proof. intros H. now apply no_controls. Qed.
