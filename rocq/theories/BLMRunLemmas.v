(* Lemmas for the choice among starting values and the estimation phases. *)
From Verif Require Import Base BaseLemmas ConsModel BLMModel BLMRunModel BLMRunSpec BLMSortLemmas.
From Coq Require Import Permutation Sorted.
Local Open Scope res_scope.
Local Open Scope R_scope.

Section Sort.
Context {A : Type} (key : A -> R).
Definition desc (a b : A) : Prop := key b <= key a.

Lemma insert_perm x l : Permutation (insert_desc key x l) (x :: l).
Proof.
  induction l as [|y r IH]; simpl; auto.
  destruct (Rle_dec (key y) (key x)); auto.
  rewrite IH. apply perm_swap.
Qed.
Lemma sorted_perm l : Permutation (sorted_desc key l) l.
Proof. induction l; simpl; auto. rewrite insert_perm. auto. Qed.

Lemma insert_sorted x l : StronglySorted desc l -> StronglySorted desc (insert_desc key x l).
Proof.
  induction 1 as [|y r Hr IH Hy]; simpl; [repeat constructor|].
  destruct (Rle_dec (key y) (key x)) as [H|H].
  - constructor; [constructor; auto|]. constructor; [exact H|].
    eapply Forall_impl; [|exact Hy]. unfold desc. intros; lra.
  - constructor; [exact IH|].
    apply Forall_forall. intros z Hz.
    apply (Permutation_in _ (insert_perm x r)) in Hz as [<-|Hz].
    + unfold desc. lra.
    + rewrite Forall_forall in Hy. auto.
Qed.
Lemma sorted_sorted l : StronglySorted desc (sorted_desc key l).
Proof. induction l; simpl; [constructor|]. apply insert_sorted; auto. Qed.

Lemma sorted_split l n a b : In a (firstn n (sorted_desc key l)) ->
  In b (skipn n (sorted_desc key l)) -> key b <= key a.
Proof.
  pose proof (sorted_sorted l) as H. revert n.
  induction H as [|y r Hr IH Hy]; intros [|n]; simpl; try tauto.
  intros [<-|Ha] Hb; [|eauto].
  rewrite Forall_forall in Hy. apply Hy.
  rewrite <- (firstn_skipn n r). apply in_or_app; auto.
Qed.
Lemma sorted_head l x r : sorted_desc key l = x :: r -> In x l /\ forall y, In y l -> key y <= key x.
Proof.
  intros E. pose proof (sorted_sorted l) as H. pose proof (sorted_perm l) as P. rewrite E in H, P.
  inversion H as [|? ? _ Hx]; subst. rewrite Forall_forall in Hx. split.
  - apply (Permutation_in _ P). left; auto.
  - intros y Hy. apply (Permutation_in _ (Permutation_sym P)) in Hy as [<-|Hy]; [lra|].
    apply Hx; auto.
Qed.
End Sort.

Lemma full_repeat n v : full n v = repeat v n.
Proof.
  unfold full, range. generalize 0%nat. induction n; intros k; simpl; [auto|]. now rewrite IHn.
Qed.
Lemma lset_next pre v r i n : length pre = i -> (0 < n)%nat ->
  lset i v (pre ++ repeat r n) = Ok ((pre ++ [v]) ++ repeat r (n - 1)).
Proof.
  intros <- Hn. unfold lset. rewrite app_length, repeat_length.
  destruct (Nat.ltb_spec (length pre) (length pre + n)); [|lia].
  destruct n as [|n]; [lia|]. simpl repeat.
  rewrite firstn_app, firstn_all, Nat.sub_diag, firstn_O, app_nil_r.
  rewrite skipn_app, skipn_all2 by lia.
  replace (S (length pre) - length pre)%nat with 1%nat by lia.
  rewrite Nat.sub_0_r, <- app_assoc. reflexivity.
Qed.

Lemma combine_seq_snoc {A} k (l : list A) m :
  combine (seq k (length l) ++ seq (k + length l) 1) (l ++ [m])
  = combine (seq k (length l)) l ++ [((k + length l)%nat, m)].
Proof.
  revert k. induction l as [|x l IH]; intros k; simpl; [reflexivity|].
  f_equal. specialize (IH (S k)). simpl in IH.
  replace (k + S (length l))%nat with (S (k + length l)) by lia. exact IH.
Qed.

Section Select.
Context {M : Type} (lik1 : M -> R) (liks1 : M -> list R) (conn : M -> option R).
Notation cval := (conn_val conn).
Notation has := (has_conn conn).

Definition rec_state (nb nlow : nat) (l : list M) : list R * list R * list R * list R :=
  (map lik1 (firstn nb l) ++ repeat 0 (nb - length l),
   map cval (firstn nb l) ++ repeat 0 (nb - length l),
   map lik1 (skipn nb l) ++ repeat 0 (nlow - (length l - nb)),
   map cval (skipn nb l) ++ repeat 0 (nlow - (length l - nb))).

Lemma record_loop nb nlow l :
  (length l <= nb + nlow)%nat ->
  for_each (enumerate l) (fun im st =>
      let '(i, m) := im in
      let '(lh, ch, ll, cl) := st in
      if (i <? nb)%nat
      then lh <- lset i (lik1 m) lh ;; ch <- lset i (cval m) ch ;; Ok (lh, ch, ll, cl)
      else ll <- lset (i - nb) (lik1 m) ll ;;
           cl <- lset (i - nb) (cval m) cl ;; Ok (lh, ch, ll, cl))
    (full nb 0, full nb 0, full nlow 0, full nlow 0) = Ok (rec_state nb nlow l).
Proof.
  rewrite !full_repeat.
  induction l as [|m l IH] using rev_ind; intros Hl.
  - unfold rec_state. simpl. rewrite firstn_nil, skipn_nil, !Nat.sub_0_r. reflexivity.
  - rewrite app_length in Hl. simpl in Hl.
    assert (E : enumerate (l ++ [m]) = enumerate l ++ [(length l, m)]).
    { unfold enumerate. rewrite app_length, seq_app. apply (combine_seq_snoc 0). }
    rewrite E, for_each_app, IH by lia. cbn [bind for_each]. clear IH E.
    unfold rec_state. rewrite app_length. simpl length.
    destruct (Nat.ltb_spec (length l) nb) as [H|H].
    + rewrite !lset_next by (rewrite ?map_length, ?firstn_length; lia). cbn [bind].
      rewrite !(firstn_all2 l), !(firstn_all2 (l ++ [m])) by (rewrite ?app_length; simpl; lia).
      rewrite !(skipn_all2 l), !(skipn_all2 (l ++ [m])) by (rewrite ?app_length; simpl; lia).
      rewrite !map_app. cbn [map].
      replace (length l + 1 - nb)%nat with (length l - nb)%nat by lia.
      replace (nb - length l - 1)%nat with (nb - (length l + 1))%nat by lia. reflexivity.
    + rewrite !lset_next by (rewrite ?map_length, ?skipn_length; lia). cbn [bind].
      rewrite !firstn_app, !skipn_app.
      replace (nb - length l)%nat with 0%nat by lia.
      replace (nb - (length l + 1))%nat with 0%nat by lia.
      cbn [firstn skipn]. rewrite !map_app, !app_nil_r. cbn [map].
      replace (nlow - (length l - nb) - 1)%nat with (nlow - (length l + 1 - nb))%nat by lia.
      reflexivity.
Qed.

Lemma filter_le (l : list M) : (length (filter has l) <= length l)%nat.
Proof. induction l; simpl; [lia|]. destruct (has a); simpl; lia. Qed.

Lemma select_spec models nb :
  let cands := filter has models in
  ((length models < nb)%nat -> select lik1 liks1 conn models nb = Err ValueError) /\
  ((nb <= length models)%nat -> nb = 0%nat \/ cands = [] ->
     select lik1 liks1 conn models nb = Err IndexError) /\
  ((0 < nb <= length models)%nat -> cands <> [] ->
   exists f best low, select lik1 liks1 conn models nb = Ok f /\
     Permutation (best ++ low) cands /\ length best = Nat.min nb (length cands) /\
     (forall a b, In a best -> In b low -> lik1 b <= lik1 a) /\
     In (f_model f) best /\ (forall a, In a best -> cval a <= cval (f_model f)) /\
     f_liks_high f = map lik1 best ++ repeat 0 (nb - length best) /\
     f_connectedness_high f = map cval best ++ repeat 0 (nb - length best) /\
     f_liks_low f = map lik1 low ++ repeat 0 (length models - nb - length low) /\
     f_connectedness_low f = map cval low ++ repeat 0 (length models - nb - length low) /\
     f_liks_all f = map liks1 (best ++ low)).
Proof.
  intros cands. unfold select.
  pose proof (sorted_perm lik1 cands) as P.
  pose proof (Permutation_length P) as L.
  pose proof (filter_le models) as Lc. fold cands in Lc.
  change (sorted_lik_models lik1 conn models) with (sorted_desc lik1 cands).
  set (s := sorted_desc lik1 cands) in *.
  destruct (Nat.ltb_spec (length models) nb) as [H|H].
  { split; [auto|]. split; intros; lia. }
  split; [lia|].
  rewrite record_loop by lia. cbn [bind]. unfold rec_state.
  split.
  - intros _ [->|E]; [reflexivity|].
    assert (s = []) as -> by (apply length_zero_iff_nil; rewrite L, E; auto).
    rewrite firstn_nil. reflexivity.
  - intros Hn Hc.
    destruct (sorted_desc cval (firstn nb s)) as [|b r] eqn:Eb.
    { exfalso. apply Hc. apply length_zero_iff_nil. rewrite <- L.
      pose proof (Permutation_length (sorted_perm cval (firstn nb s))) as Lb.
      rewrite Eb, firstn_length in Lb. simpl in Lb. lia. }
    eexists _, (firstn nb s), (skipn nb s). split; [reflexivity|].
    rewrite firstn_skipn. split; [exact P|]. split; [rewrite firstn_length; lia|].
    split; [intros x y; apply sorted_split|].
    pose proof (sorted_head _ _ _ _ Eb) as [Hb Hmax]. cbn [f_model].
    split; [exact Hb|]. split; [exact Hmax|].
    cbn [f_liks_high f_connectedness_high f_liks_low f_connectedness_low f_liks_all].
    rewrite firstn_length, skipn_length.
    replace (nb - Nat.min nb (length s))%nat with (nb - length s)%nat by lia.
    auto.
Qed.

Lemma force_loop (m : nat -> M) fit n :
  (forall k, (k < n)%nat -> fit k = Ok (m k)) -> (0 < n)%nat ->
  exists k0, (k0 < n)%nat /\
    for_each (range n) (fun k best =>
      x <- fit k ;;
      match best with
      | None => Ok (Some x)
      | Some b => if Rlt_dec (lik1 b) (lik1 x) then Ok (Some x) else Ok (Some b)
      end) None = Ok (Some (m k0)) /\
    (forall k, (k < n)%nat -> lik1 (m k) <= lik1 (m k0)) /\
    (forall k, (k < k0)%nat -> lik1 (m k) < lik1 (m k0)).
Proof.
  induction n as [|n IH]; intros Hf Hn; [lia|].
  unfold range. rewrite seq_S, for_each_app. simpl plus.
  destruct n as [|n].
  - exists 0%nat. cbn [seq for_each bind]. rewrite Hf by lia. cbn [bind].
    repeat split; auto; try lia. intros k Hk. replace k with 0%nat by lia. lra.
  - destruct IH as [k0 [H0 [E [Hmax Hmin]]]]; [intros; apply Hf; lia|lia|].
    unfold range in E. rewrite E. cbn [bind for_each]. rewrite Hf by lia. cbn [bind].
    destruct (Rlt_dec (lik1 (m k0)) (lik1 (m (S n)))) as [Hl|Hl]; cbn [bind].
    + exists (S n). split; [lia|]. split; [reflexivity|]. split; intros k Hk.
      * destruct (Nat.eq_dec k (S n)) as [->|]; [lra|].
        specialize (Hmax k ltac:(lia)). lra.
      * specialize (Hmax k ltac:(lia)). lra.
    + exists k0. split; [lia|]. split; [reflexivity|]. split; intros k Hk; auto.
      destruct (Nat.eq_dec k (S n)) as [->|]; [lra|]. apply Hmax. lia.
Qed.

Lemma force_min_best (m : nat -> M) fit nk :
  (forall k, (k < nk)%nat -> fit k = Ok (m k)) -> (0 < nk)%nat ->
  exists k0, (k0 < nk)%nat /\ force_min lik1 fit nk = Ok (m k0) /\
    (forall k, (k < nk)%nat -> lik1 (m k) <= lik1 (m k0)) /\
    (forall k, (k < k0)%nat -> lik1 (m k) < lik1 (m k0)).
Proof.
  intros Hf Hn. destruct (force_loop m fit nk Hf Hn) as [k0 [H0 [E H]]].
  exists k0. split; auto. split; auto. unfold force_min. rewrite E. reflexivity.
Qed.

(* An exception of the first failing lowest firm type ends the search. *)
Lemma force_min_err fit nk k e :
  (k < nk)%nat -> (forall j, (j < k)%nat -> exists x, fit j = Ok x) -> fit k = Err e ->
  force_min lik1 fit nk = Err e.
Proof.
  intros Hk Hj He. unfold force_min.
  replace nk with (k + S (nk - k - 1))%nat by lia.
  unfold range. rewrite seq_app, for_each_app. simpl plus. cbn [seq].
  assert (G : forall (n : nat), (n <= k)%nat -> exists b, for_each (seq 0 n) (fun k best =>
      x <- fit k ;;
      match best with
      | None => Ok (Some x)
      | Some b => if Rlt_dec (lik1 b) (lik1 x) then Ok (Some x) else Ok (Some b)
      end) None = Ok b).
  { induction n as [|n IH]; intros Hn; [exists None; reflexivity|].
    destruct IH as [b Eb]; [lia|]. rewrite seq_S, for_each_app, Eb. cbn [bind for_each plus].
    destruct (Hj n ltac:(lia)) as [x ->]. cbn [bind].
    destruct b as [b|]; [destruct (Rlt_dec _ _)|]; eexists; reflexivity. }
  destruct (G k (le_n _)) as [b ->]. cbn [bind for_each]. rewrite He. reflexivity.
Qed.
End Select.

Section Phases.
Context {X M : Type}.
Notation obj := (obj X M).

(* Whatever the inner methods do: after a normal end the parameters are back. *)
Lemma cstr_restores nl fm cm nan b (s : obj) :
  snd (fit_movers_cstr_uncstr nl fm cm nan b s) = None ->
  params (fst (fit_movers_cstr_uncstr nl fm cm nan b s)) = params s.
Proof.
  unfold fit_movers_cstr_uncstr, andthen.
  destruct (1 <? nl)%nat;
  repeat match goal with
  | |- context [match snd ?x with _ => _ end] =>
      let E := fresh in destruct (snd x) eqn:E; cbn [fst snd]
  end; try discriminate; reflexivity.
Qed.

Lemma part_restores fm a s_ k b (s : obj) :
  snd (fit_part fm a s_ k b s) = None -> params (fst (fit_part fm a s_ k b s)) = params s.
Proof.
  unfold fit_part, andthen. cbn zeta.
  destruct (snd (fm b _)); [discriminate|reflexivity].
Qed.

Lemma part_runs fit a s_ k b (s : obj) :
  fit_part (as_method fit) a s_ k b s =
  (mkobj (match snd (fit b (mkcfg a s_ k (cons_a_all (params s)) (other (params s))) (rest s)) with
          | None => params s
          | Some _ => mkcfg a s_ k (cons_a_all (params s)) (other (params s))
          end)
         (fst (fit b (mkcfg a s_ k (cons_a_all (params s)) (other (params s))) (rest s))),
   snd (fit b (mkcfg a s_ k (cons_a_all (params s)) (other (params s))) (rest s))).
Proof.
  unfold fit_part, andthen, as_method, set_updates. cbn.
  destruct (fit b _ (rest s)) as [m [e|]]; reflexivity.
Qed.

Lemma plus_cons_spec (u : option (list cobj)) c :
  plus_cons u c = Some (match u with Some l => l | None => [] end ++ [c]).
Proof. destruct u; reflexivity. Qed.

Lemma cstr_runs nl fit conn nan b (s : obj) m :
  run_calls fit (documented_calls nl b (params s)) (rest s) = (m, None) ->
  let s' := mkobj (mkcfg true true true (cons_a_all (params s)) (other (params s))) m in
  nan s' = true \/ snd (conn s') = None ->
  fit_movers_cstr_uncstr nl (as_method fit) conn nan b s
  = (mkobj (params s) (if nan s' then m else rest (fst (conn s'))), None).
Proof.
  intros H s' Hc. unfold documented_calls in H. unfold fit_movers_cstr_uncstr, andthen, as_method.
  cbn [params rest with_params fst snd].
  cbn [app run_calls fst snd] in H.
  unfold set_updates, set_update_a, set_cons. cbn [cons_a_all other do_a do_s do_pk1].
  destruct (fit false _ (rest s)) as [m1 [e1|]]; [discriminate|]. cbn [fst snd].
  assert (Last : forall m3, run_calls fit [(b, mkcfg true true true (cons_a_all (params s)) (other (params s)))] m3 = (m, None) ->
    fit b (mkcfg true true true (cons_a_all (params s)) (other (params s))) m3 = (m, None)).
  { intros m3. cbn [run_calls fst snd].
    destruct (fit b _ m3) as [m4 [e4|]]; [discriminate|]. intros E. inversion E. reflexivity. }
  destruct (1 <? nl)%nat.
  - rewrite !plus_cons_spec. cbn [app run_calls fst snd] in H.
    unfold with_params, set_cons, lin_add, stat_var in *. cbn [params rest cons_a_all other do_a do_s do_pk1] in *.
    destruct (fit false _ m1) as [m2 [e2|]]; [discriminate|]. cbn [fst snd rest params cons_a_all other do_a do_s do_pk1].
    destruct (fit false _ m2) as [m3 [e3|]]; [discriminate|]. cbn [fst snd rest params cons_a_all other do_a do_s do_pk1].
    rewrite (Last m3 H). cbn [fst snd rest params]. fold s'.
    destruct (nan s') eqn:En; cbn [fst snd]; [reflexivity|].
    destruct Hc as [Hc|Hc]; [congruence|]. rewrite Hc. reflexivity.
  - unfold with_params, set_cons in *. cbn [params rest cons_a_all other do_a do_s do_pk1 app] in *.
    rewrite (Last m1 H). cbn [fst snd rest params]. fold s'.
    destruct (nan s') eqn:En; cbn [fst snd]; [reflexivity|].
    destruct Hc as [Hc|Hc]; [congruence|]. rewrite Hc. reflexivity.
Qed.

(* An exception inside leaves the parameters of the failed call. *)
Lemma cstr_fails nl fit conn nan b (s : obj) m e done c rest_calls :
  documented_calls nl b (params s) = done ++ c :: rest_calls ->
  (exists m0, run_calls fit done (rest s) = (m0, None) /\ fit (fst c) (snd c) m0 = (m, Some e)) ->
  fit_movers_cstr_uncstr nl (as_method fit) conn nan b s = (mkobj (snd c) m, Some e).
Proof.
  intros D [m0 [Hd He]]. unfold documented_calls in D.
  unfold fit_movers_cstr_uncstr, andthen, as_method.
  cbn [params rest with_params fst snd].
  unfold set_updates, set_update_a, set_cons. cbn [cons_a_all other do_a do_s do_pk1].
  destruct done as [|c1 done]; cbn [app] in D.
  { inversion D; subst c. cbn [run_calls] in Hd. inversion Hd; subst m0. cbn [fst snd] in He.
    rewrite He. reflexivity. }
  injection D as D1 D. subst c1. cbn [run_calls fst snd] in Hd.
  destruct (fit false _ (rest s)) as [m1 [e1|]]; [discriminate|]. cbn [fst snd].
  destruct (1 <? nl)%nat.
  - rewrite !plus_cons_spec. cbn [app] in D.
    unfold with_params, set_cons, lin_add, stat_var in *. cbn [params rest cons_a_all other do_a do_s do_pk1] in *.
    destruct done as [|c2 done]; cbn [app] in D.
    { inversion D; subst c. cbn [run_calls] in Hd. inversion Hd; subst m0. cbn [fst snd] in He.
      rewrite He. reflexivity. }
    injection D as D2 D. subst c2. cbn [run_calls fst snd] in Hd.
    destruct (fit false _ m1) as [m2 [e2|]]; [discriminate|]. cbn [fst snd rest params cons_a_all other do_a do_s do_pk1].
    destruct done as [|c3 done]; cbn [app] in D.
    { inversion D; subst c. cbn [run_calls] in Hd. inversion Hd; subst m0. cbn [fst snd] in He.
      rewrite He. reflexivity. }
    injection D as D3 D. subst c3. cbn [run_calls fst snd] in Hd.
    destruct (fit false _ m2) as [m3 [e3|]]; [discriminate|]. cbn [fst snd rest params cons_a_all other do_a do_s do_pk1].
    destruct done as [|c4 done]; cbn [app] in D; [|injection D as _ D; destruct done; discriminate].
    inversion D; subst c. cbn [run_calls] in Hd. inversion Hd; subst m0. cbn [fst snd] in He.
    rewrite He. reflexivity.
  - cbn [app] in D. unfold with_params, set_cons in *. cbn [params rest cons_a_all other do_a do_s do_pk1] in *.
    destruct done as [|c4 done]; cbn [app] in D; [|injection D as _ D; destruct done; discriminate].
    inversion D; subst c. cbn [run_calls] in Hd. inversion Hd; subst m0. cbn [fst snd] in He.
    rewrite He. reflexivity.
Qed.
End Phases.
