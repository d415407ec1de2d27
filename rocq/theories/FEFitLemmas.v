From Coq Require Import String Lia Lra Permutation.
From Verif Require Import Base BaseLemmas MCModel MCSpec MCLemmas FEFitModel FEFitSpec.
Local Open Scope string_scope.
Local Open Scope list_scope.

Lemma lookup_set k k' v d : lookup k (set k' v d) = if String.eqb k k' then Ok v else lookup k d.
Proof.
  induction d as [|[a x] d IH]; cbn.
  - destruct (String.eqb k k'); reflexivity.
  - destruct (String.eqb_spec k' a) as [->|N]; cbn.
    + destruct (String.eqb_spec k a); reflexivity.
    + rewrite IH. destruct (String.eqb_spec k a) as [->|]; [|reflexivity].
      destruct (String.eqb_spec a k'); [congruence|reflexivity].
Qed.

Definition upd (ws : list (string * R)) (r : rdict) : rdict :=
  fold_left (fun d kv => set (fst kv) (snd kv) d) ws r.

Lemma upd_app a b r : upd (a ++ b) r = upd b (upd a r).
Proof. apply fold_left_app. Qed.

Lemma lookup_upd_out ws : forall k r, ~ In k (map fst ws) -> lookup k (upd ws r) = lookup k r.
Proof.
  induction ws as [|[a x] ws IH]; intros k r H; [reflexivity|]. cbn [upd fold_left fst snd].
  fold (upd ws (set a x r)). rewrite IH by (intros K; apply H; now right).
  rewrite lookup_set. destruct (String.eqb_spec k a) as [->|]; [|reflexivity]. destruct H. now left.
Qed.

Lemma lookup_upd ws : forall k v r, In (k, v) ws -> (forall v', In (k, v') ws -> v' = v) -> lookup k (upd ws r) = Ok v.
Proof.
  induction ws as [|[a x] ws IH]; intros k v r H U; [destruct H|]. cbn [upd fold_left fst snd].
  fold (upd ws (set a x r)).
  destruct (in_dec String.string_dec k (map fst ws)) as [K|K].
  - apply in_map_iff in K. destruct K as ([k' v'] & E & K). cbn in E. subst k'.
    assert (v' = v) by (apply U; now right). subst v'. apply IH; [assumption|]. intros v' H'. apply U. now right.
  - rewrite lookup_upd_out by assumption. rewrite lookup_set. destruct H as [[= -> ->]|H].
    + now rewrite String.eqb_refl.
    + destruct K. apply in_map_iff. now exists (k, v).
Qed.

Definition dval {V} (z : V) (e : string) (r : list (string * V)) : V :=
  match lookup e r with Ok v => v | Err _ => z end.

Definition w_plug (names : list string) (fe : rdict) := map (fun n => ((n ++ "_fe")%string, dval 0%R n fe)) names.
Definition w_traces (m : string) (names : list string) (tr : list (string * list R)) :=
  flat_map (fun n => [(("tr_" ++ n ++ m)%string, mean (dval [] n tr)); (("tr_" ++ n ++ m ++ "_sd")%string, np_std (dval [] n tr))]) names.
Definition w_correct (m : string) (s : R) (names : list string) (fe : rdict) (tr : list (string * list R)) :=
  map (fun n => ((n ++ m)%string, (dval 0 n fe - s * mean (dval [] n tr))%R)) names.

Lemma plug_run fe names : (forall n, In n names -> exists v, lookup n fe = Ok v) ->
  forall r, plug names fe r = Ok (upd (w_plug names fe) r).
Proof.
  unfold plug. induction names as [|n names IH]; intros H r; [reflexivity|]. cbn [for_each].
  destruct (H n (or_introl eq_refl)) as (v & E). rewrite E. cbn [bind].
  rewrite IH by (intros a Ha; apply H; now right). cbn. unfold dval. now rewrite E.
Qed.

Lemma traces_run m tr names : (forall n, In n names -> exists v, lookup n tr = Ok v) ->
  forall r, traces m names tr r = Ok (upd (w_traces m names tr) r).
Proof.
  unfold traces. induction names as [|n names IH]; intros H r; [reflexivity|]. cbn [for_each].
  destruct (H n (or_introl eq_refl)) as (v & E). rewrite E. cbn [bind].
  rewrite IH by (intros a Ha; apply H; now right). unfold w_traces. cbn [flat_map app]. unfold dval at 3 4. rewrite E. reflexivity.
Qed.

Definition proper (n : string) : Prop := begins "var(" n \/ begins "cov(" n.
Lemma proper_tr n x : proper n -> forall y, (n ++ x)%string = ("tr_" ++ y)%string -> False.
Proof. intros [(t & ->)|(t & ->)] y; cbn; discriminate. Qed.

Lemma correct_run m s fe tr names : (forall n, In n names -> exists v, lookup n fe = Ok v) ->
  (forall n, In n names -> proper n) -> forall r,
  (forall n, In n names -> lookup ("tr_" ++ n ++ m) r = Ok (mean (dval [] n tr))) ->
  correct m s names fe r = Ok (upd (w_correct m s names fe tr) r).
Proof.
  unfold correct. induction names as [|n names IH]; intros H P r T; [reflexivity|]. cbn [for_each].
  destruct (H n (or_introl eq_refl)) as (v & E). rewrite E. cbn [bind].
  rewrite (T n (or_introl eq_refl)). cbn [bind].
  rewrite IH.
  - unfold w_correct. cbn [map upd fold_left fst snd]. replace (dval 0%R n fe) with v by (unfold dval; now rewrite E). reflexivity.
  - intros a Ha. apply H. now right.
  - intros a Ha. apply P. now right.
  - intros a Ha. rewrite lookup_set.
    destruct (String.eqb_spec ("tr_" ++ a ++ m) (n ++ m)) as [Q|_]; [|apply T; now right].
    symmetry in Q. destruct (proper_tr n m (P n (or_introl eq_refl)) _ Q).
Qed.

(* ---- keys ---- *)
Lemma str_app_assoc a b c : ((a ++ b) ++ c)%string = (a ++ (b ++ c))%string.
Proof. induction a as [|x a IH]; cbn; [reflexivity|]. now rewrite IH. Qed.
Lemma str_app_len a b : String.length (a ++ b) = (String.length a + String.length b)%nat.
Proof. induction a as [|x a IH]; cbn; [reflexivity|]. now rewrite IH. Qed.
Lemma app_inj_len a : forall b s t, (a ++ s)%string = (b ++ t)%string -> String.length s = String.length t -> a = b /\ s = t.
Proof.
  induction a as [|x a IH]; intros [|y b] s t; cbn [append].
  - now intros -> _.
  - intros -> L. cbn in L. rewrite str_app_len in L. lia.
  - intros <- L. cbn in L. rewrite str_app_len in L. lia.
  - intros [= -> E] L. destruct (IH _ _ _ E L) as (-> & ->). now split.
Qed.

Section P.
Variables (ho he : bool) (p : parts).
Hypothesis WN : well_named p.
Hypothesis NE : ~ In "var(eps)" (map fst (var_fe p)).

Lemma estimate_name n v : estimate p n v -> In n (map fst (var_fe p) ++ map fst (cov_fe p)).
Proof.
  intros [(a & b & E & _)|(a & b & E & _)]; rewrite in_app_iff; [left|right];
    rewrite E, map_app, in_app_iff; right; now left.
Qed.
Lemma draws_ho_name n v : draws_ho p n v -> In n (map fst (var_fe p) ++ map fst (cov_fe p)).
Proof. rewrite in_app_iff. unfold draws_ho. tauto. Qed.
Lemma draws_he_name n v : draws_he p n v -> In n (map fst (var_fe p) ++ map fst (cov_fe p)).
Proof. rewrite in_app_iff. unfold draws_he. tauto. Qed.
Lemma name_proper n : In n (map fst (var_fe p) ++ map fst (cov_fe p)) -> proper n.
Proof.
  destruct WN as (_ & _ & V & K). rewrite in_app_iff. rewrite Forall_forall in V, K. intros [H|H]; [left|right]; auto.
Qed.
Lemma name_one n : In n (map fst (var_fe p)) -> In n (map fst (cov_fe p)) -> False.
Proof.
  destruct WN as (_ & _ & V & K). rewrite Forall_forall in V, K. intros A B.
  destruct (V n A) as (t & ->). destruct (K _ B) as (u & E). discriminate.
Qed.
Lemma name_not_eps n : In n (map fst (var_fe p) ++ map fst (cov_fe p)) -> n <> "var(eps)".
Proof.
  rewrite in_app_iff. intros [H|H] ->; [tauto|]. destruct WN as (_ & _ & _ & K). rewrite Forall_forall in K.
  destruct (K _ H) as (u & E). discriminate.
Qed.

Lemma has_fun {V} (d : list (string * V)) k v w : has d k v -> has d k w -> v = w.
Proof. rewrite <- !lookup_has. congruence. Qed.
Lemma has_name {V} (d : list (string * V)) k v : has d k v -> In k (map fst d).
Proof. intros (a & b & -> & _). rewrite map_app, in_app_iff. right. now left. Qed.

Lemma estimate_fun n v w : estimate p n v -> estimate p n w -> v = w.
Proof.
  intros [A|A] [B|B]; try exact (has_fun _ _ _ _ A B); destruct (name_one n); eauto using has_name.
Qed.
Lemma draws_ho_fun n v w : draws_ho p n v -> draws_ho p n w -> v = w.
Proof.
  intros [(I & A)|(I & A)] [(J & B)|(J & B)]; try exact (has_fun _ _ _ _ A B); destruct (name_one n); assumption.
Qed.
Lemma draws_he_fun n v w : draws_he p n v -> draws_he p n w -> v = w.
Proof.
  intros [(I & A)|(I & A)] [(J & B)|(J & B)]; try exact (has_fun _ _ _ _ A B); destruct (name_one n); assumption.
Qed.

(* Every key is a base and an ending of three characters. *)
Inductive rep3 : string -> string -> R -> Prop :=
  | r3_eps_fe : rep3 "var(eps)" "_fe" (sigma_2_fe p)
  | r3_fe n v : estimate p n v -> rep3 n "_fe" v
  | r3_eps_ho : ho = true -> rep3 "var(eps)" "_ho" (sigma_2_ho p)
  | r3_tr_ho n x : ho = true -> draws_ho p n x -> rep3 ("tr_" ++ n) "_ho" (avg x)
  | r3_tr_ho_sd n x : ho = true -> draws_ho p n x -> rep3 ("tr_" ++ n ++ "_ho") "_sd" (sdev x)
  | r3_ho n v x : ho = true -> estimate p n v -> draws_ho p n x -> rep3 n "_ho" (v - sigma_2_ho p * avg x)%R
  | r3_tr_he n x : he = true -> draws_he p n x -> rep3 ("tr_" ++ n) "_he" (avg x)
  | r3_tr_he_sd n x : he = true -> draws_he p n x -> rep3 ("tr_" ++ n ++ "_he") "_sd" (sdev x)
  | r3_he n v x : he = true -> estimate p n v -> draws_he p n x -> rep3 n "_he" (v - avg x)%R.

Lemma reported_3 k v : reported ho he p k v -> exists b m, k = (b ++ m)%string /\ String.length m = 3 /\ rep3 b m v.
Proof.
  intros []; do 2 eexists;
    (split; [|split; [|econstructor; eassumption]]); try reflexivity; cbn; now rewrite ?str_app_assoc.
Qed.

Lemma rep3_fun b m v w : rep3 b m v -> rep3 b m w -> v = w.
Proof.
  intros A B.
  inversion A; subst; inversion B; subst; try reflexivity;
    repeat match goal with
    | H : estimate p ?n ?v, H' : estimate p ?n ?w |- _ => rewrite (estimate_fun _ _ _ H H') in *; clear H'
    | H : draws_ho p ?n ?v, H' : draws_ho p ?n ?w |- _ => rewrite (draws_ho_fun _ _ _ H H') in *; clear H'
    | H : draws_he p ?n ?v, H' : draws_he p ?n ?w |- _ => rewrite (draws_he_fun _ _ _ H H') in *; clear H'
    end; try reflexivity;
    try (match goal with
    | H : estimate p "var(eps)" _ |- _ => destruct (name_not_eps _ (estimate_name _ _ H) eq_refl)
    | H : estimate p ("tr_" ++ _) _ |- _ =>
        destruct (name_proper _ (estimate_name _ _ H)) as [(? & Q)|(? & Q)]; cbn in Q; discriminate
    end).
  all: try (match goal with
    | H : (?a ++ ?s)%string = (?b ++ ?t)%string |- _ => destruct (app_inj_len _ _ _ _ H eq_refl) as (-> & Q); try discriminate Q
    end).
  all: repeat match goal with
    | H : draws_ho p ?n ?v, H' : draws_ho p ?n ?w |- _ => rewrite (draws_ho_fun _ _ _ H H') in *; clear H'
    | H : draws_he p ?n ?v, H' : draws_he p ?n ?w |- _ => rewrite (draws_he_fun _ _ _ H H') in *; clear H'
    end; try reflexivity.
Qed.

Lemma reported_fun k v w : reported ho he p k v -> reported ho he p k w -> v = w.
Proof.
  intros A B. apply reported_3 in A, B. destruct A as (b & m & -> & L & A). destruct B as (b' & m' & E & L' & B).
  destruct (app_inj_len _ _ _ _ E) as (-> & ->); [congruence|]. eapply rep3_fun; eassumption.
Qed.

(* Keys reserved for earlier steps are not reported here. *)
Definition reserved (k : string) : Prop := k = "var(y)" \/ k = "var(eps)_he" \/ k = "min_lev" \/ k = "max_lev".
Lemma reserved_free k v : reserved k -> reported ho he p k v -> False.
Proof.
  intros K A. apply reported_3 in A. destruct A as (b & m & E & L & A).
  assert (Q : (b = "var" /\ m = "(y)") \/ (b = "var(eps)" /\ m = "_he") \/ (b = "min_" /\ m = "lev") \/ (b = "max_" /\ m = "lev")).
  { destruct K as [->|[->|[->| ->]]].
    - left. apply (app_inj_len b "var" m "(y)"); [now rewrite <- E|assumption].
    - right; left. apply (app_inj_len b "var(eps)" m "_he"); [now rewrite <- E|assumption].
    - right; right; left. apply (app_inj_len b "min_" m "lev"); [now rewrite <- E|assumption].
    - right; right; right. apply (app_inj_len b "max_" m "lev"); [now rewrite <- E|assumption]. }
  destruct Q as [(-> & ->)|[(-> & ->)|[(-> & ->)|(-> & ->)]]]; inversion A; subst.
  match goal with H : estimate p _ _ |- _ => exact (name_not_eps _ (estimate_name _ _ H) eq_refl) end.
Qed.
End P.
