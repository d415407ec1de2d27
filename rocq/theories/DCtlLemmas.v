(* Lemmas on control variables in the dynamic BLM model. *)
From Verif Require Import Base BaseLemmas DCtlModel DCtlSpec.
From Coq Require Import String Lia.
Local Open Scope string_scope.
Local Open Scope nat_scope.
Local Open Scope list_scope.
Local Open Scope res_scope.

Lemma each_inv {X} (l : list X) f x : each l f = Ok tt -> In x l -> f x = Ok tt.
Proof.
  unfold each. induction l as [|y l IH]; cbn [for_each]; [intros _ []|].
  destruct (f y) as [[]|e] eqn:E; cbn [bind]; [|discriminate]. intros H [<-|I]; auto.
Qed.
Lemma each_ok {X} (l : list X) f : (forall x, In x l -> f x = Ok tt) -> each l f = Ok tt.
Proof.
  unfold each. induction l as [|y l IH]; intros H; [reflexivity|]. cbn [for_each].
  rewrite H by now left. cbn [bind]. apply IH. intros x I. apply H. now right.
Qed.
Lemma each_err {X} (l : list X) f e x : (forall x, In x l -> f x = Ok tt \/ f x = Err e) -> In x l -> f x = Err e ->
  each l f = Err e.
Proof.
  unfold each. induction l as [|y l IH]; intros H I E; [destruct I|]. cbn [for_each].
  destruct (H y (or_introl eq_refl)) as [E1|E1]; rewrite E1; cbn [bind]; [|reflexivity].
  destruct I as [->|I]; [congruence|]. apply IH; auto. intros z Iz. apply H. now right.
Qed.
Lemma unit_res (r : res unit) : r = Ok tt \/ exists e, r = Err e.
Proof. destruct r as [[]|e]; eauto. Qed.

Lemma lookup_put {V} k k' (v : V) d : lookup k' (put k v d) = if String.eqb k' k then Ok v else lookup k' d.
Proof.
  induction d as [|[k0 v0] d IH]; cbn [put lookup].
  - destruct (String.eqb k' k); reflexivity.
  - destruct (String.eqb_spec k k0) as [->|N]; cbn [lookup].
    + destruct (String.eqb k' k0); reflexivity.
    + rewrite IH. destruct (String.eqb_spec k' k0) as [->|N0]; [|reflexivity].
      destruct (String.eqb_spec k0 k) as [E|_]; [congruence|reflexivity].
Qed.
Lemma lookup_map {A V} (nm : A -> string) (g : A -> V) l x :
  NoDup (map nm l) -> In x l -> lookup (nm x) (map (fun c => (nm c, g c)) l) = Ok (g x).
Proof.
  induction l as [|y l IH]; intros N I; [destruct I|]. cbn [map] in *. inversion N as [|? ? N1 N2]; subst.
  cbn [lookup]. destruct I as [->|I]; [now rewrite String.eqb_refl|].
  destruct (String.eqb_spec (nm x) (nm y)) as [E|_]; [|auto].
  exfalso. apply N1. rewrite <- E. now apply in_map.
Qed.
Lemma lookup_missing {A V} (nm : A -> string) (g : A -> V) l k :
  ~ In k (map nm l) -> lookup k (map (fun c => (nm c, g c)) l) = Err KeyError.
Proof.
  induction l as [|y l IH]; intros N; [reflexivity|]. cbn [map lookup] in *.
  destruct (String.eqb_spec k (nm y)) as [->|_]; [exfalso; apply N; now left|]. apply IH. intros I. apply N. now right.
Qed.

Lemma periods_all endo state p : In p (periods_of endo state) -> In p all_periods.
Proof. unfold periods_of, all_periods. destruct endo, state; cbn; tauto. Qed.
Lemma all_nodup : NoDup all_periods.
Proof. repeat (constructor; [cbn; intuition discriminate|]). constructor. Qed.

Section Ctl.
Variables (nl nk : nat) (endo state : bool) (cat cts : list ccol).
Variable codes : string -> string -> list nat.
Notation periods := (periods_of endo state).

Lemma p12 : In "12" periods.
Proof. left. reflexivity. Qed.

Lemma draw_at sh cols c p : NoDup (map c_name cols) -> In c cols -> In p all_periods ->
  at_period (draw sh cols) (c_name c) p = Ok (sh c p).
Proof.
  intros N I P. unfold at_period, draw.
  rewrite (lookup_map c_name (fun c => EDict (map (fun p => (p, sh c p)) all_periods)) cols c N I). cbn [bind].
  change (map (fun p => (p, sh c p)) all_periods) with (map (fun p => ((fun q => q) p, sh c p)) all_periods).
  rewrite (lookup_map (fun q : string => q) (sh c)); auto. rewrite map_id. apply all_nodup.
Qed.
Lemma draw_missing sh cols k : ~ In k (map c_name cols) -> lookup k (draw sh cols) = Err KeyError.
Proof. apply (lookup_missing c_name (fun c => EDict (map (fun p => (p, sh c p)) all_periods))). Qed.

(* ---- continuous columns ---- *)
Lemma e_step_cts iter k : cts <> [] -> 0 < nl -> e_step nl endo state cat cts codes iter k <> Ok tt.
Proof.
  intros Hc Hn. unfold e_step. destruct cts as [|c r] eqn:Ec; [congruence|].
  replace (0 <? List.length (cat ++ c :: r)) with true
    by (symmetry; apply Nat.ltb_lt; rewrite app_length; cbn [List.length]; lia).
  destruct (sum_non_nl endo state cat (c :: r) codes (iter =? 0) k) as [[]|e] eqn:E1; cbn [bind]; [|discriminate].
  intros E2. apply each_inv with (x := 0) in E2; [|apply in_seq; lia].
  unfold sum_non_nl in E1. unfold sum_nl_l in E2.
  destruct (each cat _) as [[]|e] in E1; cbn [bind] in E1; [|discriminate].
  destruct (each cat _) as [[]|e] in E2; cbn [bind] in E2; [|discriminate].
  apply each_inv with (x := c) in E1; [|now left]. apply each_inv with (x := c) in E2; [|now left].
  apply each_inv with (x := "12") in E1; [|apply p12]. apply each_inv with (x := "12") in E2; [|apply p12].
  destruct (at_period (k_Acts k) (c_name c) "12") as [a|e]; cbn [bind] in *; [|discriminate].
  destruct (at_period (k_Scts k) (c_name c) "12") as [s|e]; cbn [bind] in *; [|discriminate].
  change (is_b "12") with false in *. destruct (c_wi c); cbn in E1, E2; [discriminate|].
  destruct (iter =? 0); discriminate.
Qed.

(* ---- construction ---- *)
Lemma init_ok k : init nl endo state cat cts = Ok k -> cat <> [] ->
  endo = true /\ state = true /\
  k = mkctl (draw (cat_shape nl) cat) (draw (cat_shape nl) cat) (draw (cts_shape nl) cts) (draw (cts_shape nl) cts).
Proof.
  unfold init. intros H Hc.
  assert (Z : forall p k0 k1, zero cat cts p k0 <> Ok k1).
  { intros p k0 k1. unfold zero, zero_cat. destruct cat as [|c r]; [congruence|]. cbn [for_each].
    destruct (lookup p (k_Acat k0)) as [[|d]|e]; cbn [bind]; discriminate. }
  destruct endo; cbn [bind] in H.
  - destruct state; [|exfalso; eapply Z; eauto]. injection H as <-. auto.
  - exfalso. destruct (zero cat cts "2mb" _) as [k1|e] eqn:E; [eapply Z; eauto|discriminate].
Qed.

(* ---- the key '12' is never added to A_cat ---- *)
Definition no12 (k : ctl) : Prop := lookup "12" (k_Acat k) = Err KeyError.

Lemma new_cat_missing solved c t : c_name c <> "12" -> lookup "12" t = Err KeyError ->
  lookup "12" (new_cat nl endo state solved c t) = Err KeyError.
Proof.
  intros N H. unfold new_cat. destruct solved; auto. destruct (lookup (c_name c) t) as [[|d]|e]; auto.
  rewrite lookup_put. destruct (String.eqb_spec "12" (c_name c)); [congruence|auto].
Qed.

Lemma m_step_no12 up_a up_s solved k k' : (forall c, In c cat -> c_name c <> "12") -> no12 k ->
  m_step nl nk endo state cat cts codes up_a up_s solved k = Ok k' -> no12 k'.
Proof.
  intros N H. unfold m_step.
  destruct (each cat _) as [[]|e] in |- *; cbn [bind]; [|discriminate].
  destruct (if up_a then _ else _) as [[]|e] in |- *; cbn [bind]; [|discriminate].
  match goal with |- bind (for_each cat ?B k) _ = _ -> _ => set (body := B) end.
  assert (Keep : forall l k k1, (forall c, In c l -> c_name c <> "12") -> no12 k -> for_each l body k = Ok k1 -> no12 k1).
  { clear k H. induction l as [|c l IH]; intros k k1 Hn H E; cbn [for_each] in E.
    { injection E as <-. exact H. }
    destruct (body c k) as [k2|e] eqn:E2; cbn [bind] in E; [|discriminate].
    apply (IH k2 k1); auto; [intros x I; apply Hn; now right|]. unfold body in E2.
    repeat match type of E2 with bind ?X _ = _ => destruct X as [[]|e]; cbn [bind] in E2; [|discriminate] end.
    injection E2 as <-. destruct up_a; auto. unfold no12. cbn [k_Acat].
    apply new_cat_missing; auto. apply Hn. now left. }
  destruct (for_each cat body k) as [k1|e] eqn:E; cbn [bind]; [|discriminate].
  assert (H1 : no12 k1) by (eapply Keep; eauto).
  destruct up_s; [|now intros [= <-]].
  destruct (each (range nl) _) as [[]|e] in |- *; cbn [bind]; [|discriminate]. intros [= <-].
  assert (F : forall l k1, no12 k1 -> no12 (fold_left (fun k c =>
    mkctl (k_Acat k) (new_cat nl endo state (solved (c_name c)) c (k_Scat k)) (k_Acts k) (k_Scts k)) l k1)).
  { induction l as [|c l IH]; intros k2 H2; cbn [fold_left]; auto. }
  auto.
Qed.

Lemma loop_no12 (body : nat -> ctl * bool -> res (ctl * bool)) l st k stop :
  (forall iter k k' b, no12 k -> body iter (k, false) = Ok (k', b) -> no12 k') ->
  (forall iter k, body iter (k, true) = Ok (k, true)) ->
  no12 (fst st) -> for_each l body st = Ok (k, stop) -> no12 k.
Proof.
  intros Hb Ht. revert st. induction l as [|i l IH]; intros [k0 b0] H E; cbn [for_each] in E.
  - injection E as -> _. exact H.
  - destruct (body i (k0, b0)) as [[k1 b1]|e] eqn:E1; cbn [bind] in E; [|discriminate].
    apply (IH (k1, b1)); auto. cbn [fst] in *. destruct b0.
    + rewrite Ht in E1. now injection E1 as <- _.
    + eapply Hb; eauto.
Qed.

Lemma find_none l : (forall c, In c l -> c_wi c = false) -> find_flags l = None.
Proof.
  induction l as [|c l IH]; intros H; cbn [find_flags]; auto.
  rewrite (H c (or_introl eq_refl)). cbn [andb]. apply IH. intros x I. apply H. now right.
Qed.

(* ---- interacting columns ---- *)
Lemma m_step_wi up_s solved k k' c : state = true -> endo = true ->
  NoDup (map c_name cat) -> In c cat -> c_wi c = true -> 0 < nl ->
  k_Scat k = draw (cat_shape nl) cat ->
  m_step nl nk endo state cat cts codes false up_s solved k <> Ok k'.
Proof.
  intros Hs He N I W Hn Hk. unfold m_step.
  destruct (each cat _) as [[]|e] in |- *; cbn [bind]; [|discriminate].
  match goal with |- bind ?X _ <> _ => destruct X as [k1|e] eqn:E end; cbn [bind]; [|discriminate]. exfalso.
  apply in_split in I as (l1 & l2 & El).
  revert E. rewrite El at 1. rewrite for_each_app.
  set (body := fun (c : ccol) (k : ctl) => _).
  assert (Keep : forall x k k2, body x k = Ok k2 -> k2 = k).
  { intros x q k2 E. unfold body in E.
    repeat match type of E with bind ?X _ = _ => destruct X as [[]|e]; cbn [bind] in E; [|discriminate] end.
    now injection E as <-. }
  assert (Keeps : forall l k k2, for_each l body k = Ok k2 -> k2 = k).
  { induction l as [|x l IH]; intros q k2 E; cbn [for_each] in E; [now injection E as <-|].
    destruct (body x q) as [q2|e] eqn:E2; cbn [bind] in E; [|discriminate].
    apply Keep in E2. subst. auto. }
  destruct (for_each l1 body k) as [k2|e] eqn:E1; cbn [bind]; [|discriminate].
  apply Keeps in E1. subst k2. cbn [for_each].
  destruct (body c k) as [k2|e] eqn:E2; cbn [bind]; [|discriminate]. exfalso. unfold body in E2. rewrite W in E2. cbn [bind] in E2.
  match type of E2 with bind ?X _ = _ => destruct X as [[]|e] eqn:E3; cbn [bind] in E2; [|discriminate] end.
  apply each_inv with (x := 0) in E3; [|apply in_seq; lia].
  match type of E3 with bind ?X _ = _ => destruct X as [[]|e] eqn:E4; cbn [bind] in E3; [|discriminate] end.
  apply each_inv with (x := "2mb") in E4; [|rewrite He, Hs; cbn; tauto].
  rewrite Hk, draw_at in E4; auto; [|rewrite El; apply in_or_app; right; now left|cbn; tauto].
  cbn [bind] in E4. unfold cat_shape in E4. rewrite W in E4. cbn in E4. discriminate.
Qed.

Lemma no_controls_complete_fit n up_rho up_a up_s o k : cat = [] -> cts = [] -> no_trouble o ->
  k = mkctl [] [] [] [] -> exists k', fit_ctl nl nk endo state cat cts codes n up_rho up_a up_s o k = Ok k' /\ k' = k.
Proof.
  intros -> -> (H1 & H2 & H3) ->. unfold fit_ctl. rewrite H1. cbn [bind].
  assert (So : forall b, sort_ctl [] [] b (mkctl [] [] [] []) = Ok tt) by (intros []; reflexivity).
  rewrite So, H2. cbn [bind].
  assert (Su : forall l b k, sum_nl_l endo state [] [] codes l b k = Ok tt) by reflexivity.
  assert (Ea : forall f : nat -> res unit, (forall l, f l = Ok tt) -> each (range nl) f = Ok tt).
  { intros f Hf. apply each_ok. auto. }
  match goal with |- exists k', bind (for_each _ ?B _) _ = _ /\ _ => set (body := B) end.
  set (k0 := mkctl [] [] [] []) in *.
  assert (St : forall i b, exists b', body i (k0, b) = Ok (k0, b')).
  { intros i b. unfold body. destruct b; [eauto|].
    change (e_step nl endo state [] [] codes i _) with (@Ok unit tt). cbn [bind].
    destruct ((0 <? i) && o_conv o i); [eauto|]. change (0 <? List.length (@nil ccol)) with false. cbn [andb].
    rewrite H3. cbn [bind].
    destruct (up_rho && (i mod 2 =? 1)); [rewrite Ea by auto; cbn [bind]; eauto|].
    destruct (up_a || up_s); [|eauto].
    replace (if up_a && (0 <? i) then o_cons o i else Ok tt) with (@Ok unit tt)
      by (destruct (up_a && (0 <? i)); [now rewrite H2|reflexivity]). cbn [bind].
    unfold m_step. change (each [] _) with (@Ok unit tt) at 1. cbn [bind for_each].
    replace (if up_a then each (range nl) (fun l0 : nat => sum_nl_l endo state [] [] codes l0 false k0) else Ok tt)
      with (@Ok unit tt) by (destruct up_a; [symmetry; now apply Ea|reflexivity]). cbn [bind].
    destruct up_s; [rewrite Ea by auto|]; cbn [bind fold_left]; exists false; reflexivity. }
  assert (Lp : forall l b, exists b', for_each l body (k0, b) = Ok (k0, b')).
  { induction l as [|i l IH]; intros b; cbn [for_each]; [eauto|].
    destruct (St i b) as (b1 & ->). cbn [bind]. apply IH. }
  destruct (Lp (range n) false) as (b & E). rewrite E. cbn [bind normalize].
  rewrite So. cbn [bind]. eexists. split; reflexivity.
Qed.
End Ctl.
