(* The counts stored by the fits of the dynamic model. *)
From Verif Require Import Base UtilModel ConsModel BLMModel BLMEMModel BLMFitModel DBLMModel.
Local Open Scope R_scope.

Definition pair_dec (x y : nat * nat) : {x = y} + {x <> y}.
Proof. decide equality; apply Nat.eq_dec. Defined.

Lemma moves_count data a b :
  dmover_counts data a b = INR (count_occ pair_dec (map (fun o => (dg1 o, dg4 o)) data) (a, b)).
Proof.
  unfold dmover_counts. f_equal. induction data as [|o l IH]; [reflexivity|]. cbn [filter map count_occ].
  destruct (pair_dec (dg1 o, dg4 o) (a, b)) as [E|E].
  - injection E as -> ->. rewrite !Nat.eqb_refl. cbn [andb length]. now rewrite IH.
  - rewrite <- IH. destruct (Nat.eqb_spec (dg1 o) a), (Nat.eqb_spec (dg4 o) b); cbn [andb]; try reflexivity.
    exfalso. apply E. congruence.
Qed.
Lemma stays_count data a : dstayer_counts data a = INR (count_occ Nat.eq_dec (map dg1 data) a).
Proof.
  unfold dstayer_counts. f_equal. induction data as [|o l IH]; [reflexivity|]. cbn [filter map count_occ].
  destruct (Nat.eq_dec (dg1 o) a) as [E|E].
  - rewrite E, Nat.eqb_refl. cbn [length]. now rewrite IH.
  - rewrite <- IH. destruct (Nat.eqb_spec (dg1 o) a); [contradiction|reflexivity].
Qed.
Lemma fit_movers_counts argsort solver pp nl nk c data p p' lik ls :
  dfit_movers argsort solver pp nl nk c true data p = Ok (p', lik, ls) ->
  forall a b, dNNm p' a b = INR (count_occ pair_dec (map (fun o => (dg1 o, dg4 o)) data) (a, b)).
Proof.
  unfold dfit_movers. intros E a b. destruct (dgen_constraints _ _ _ _) as [cons|]; [|discriminate]. cbn [bind] in E.
  destruct (dmovers_loop _ _ _ _ _ _ _ _ _ _ _ _ _ _) as [[[p2 l2] ls2]|]; [|discriminate]. cbn [bind] in E.
  injection E as <- _ _. apply moves_count.
Qed.
Lemma fit_stayers_counts argsort solver nl nk c data p p' lik ls :
  dfit_stayers argsort solver nl nk c true data p = Ok (p', lik, ls) ->
  forall a, dNNs p' a = INR (count_occ Nat.eq_dec (map dg1 data) a).
Proof.
  unfold dfit_stayers. intros E a. destruct (dlp_stable _ _ _ _) as [st|]; [|discriminate]. cbn [bind] in E.
  destruct (dgen_constraints _ _ _ _) as [cons|]; [|discriminate]. cbn [bind] in E.
  destruct (dstayers_loop _ _ _ _ _ _ _ _ _ _ _ _ _) as [[[p2 l2] ls2]|]; [|discriminate]. cbn [bind] in E.
  injection E as <- _ _. apply stays_count.
Qed.
