(* With control variables no sample of the dynamic model can be simulated. *)
From Coq Require Import String Lia.
From Verif Require Import Base BaseLemmas BLMModel BLMRealModel BootModel DBLMModel DBootModel DBootSpec DBootPropLemmas
  DCtlModel DBootCtlModel DBootCtlSpec.
Local Open Scope string_scope.
Local Open Scope nat_scope.
Local Open Scope list_scope.
Local Open Scope res_scope.

Lemma loc_pos f n : named f -> loc f (Pos n) = Err KeyError.
Proof.
  intros H. unfold loc. replace (existsb _ _) with false; [reflexivity|]. symmetry.
  unfold named in H. induction H as [|x l (s & ->) H IH]; [reflexivity|]. cbn. exact IH.
Qed.

Lemma column_raises jd fr A Sg c p ps : named fr -> exists e, add_column jd fr A Sg (p :: ps) c = Err e.
Proof.
  intros H. unfold add_column. destruct (subcolumns jd (c_name c)) as [x|e]; [|now exists e]. cbn [bind].
  unfold each. cbn [for_each]. destruct (at_period A (c_name c) p) as [s|e]; [|now exists e]. cbn [bind].
  rewrite loc_pos by exact H. now exists KeyError.
Qed.
Lemma column_key jd fr A Sg c p ps : named fr -> has_column jd (c_name c) -> has_periods A (c_name c) -> In p all_periods ->
  add_column jd fr A Sg (p :: ps) c = Err KeyError.
Proof.
  intros H C (d & Hd & Hp) Ip. unfold add_column, subcolumns.
  assert (X : exists l, (match lookup (c_name c) (b_refs jd) with
    | Ok [a] => Ok [a; a] | Ok [a; _; _; d] => Ok [a; d] | Ok _ => Err NotImplementedError | Err e => Err e end) = Ok l).
  { destruct C as [[-> _]|(x & y & z & w & -> & _)]; eexists; reflexivity. }
  destruct C as [[-> _]|(x & y & z & w & -> & _)]; cbn [bind]; unfold each; cbn [for_each]; unfold at_period at 1;
    rewrite Hd; cbn [bind]; destruct (Hp p Ip) as (s & ->); cbn [bind]; rewrite loc_pos by exact H; reflexivity.
Qed.

Section Sim.
Variables nl nk : nat.
Variables (cat cts : list ccol) (t : ctl).
Variable effects : list (quad R) * list (quad R) * list nat * list nat -> list (quad R) * list (quad R) * list nat * list nat.
Variables (p : dpar) (realloc : option (bool * rperiod)) (g : drng) (jd sd : bframe) (gj : list (nat * nat)) (gs : list nat).
Let sim := dsimulate_ctl nl nk cat cts t effects p realloc g jd sd gj gs.

Lemma ctl_raises : cat ++ cts <> [] -> named jd -> exists e, sim = Err e.
Proof.
  intros N H. unfold sim, dsimulate_ctl. destruct (dsimulate _ _ _ _ _ _ _) as [x|e]; [|now exists e]. cbn [bind].
  unfold add_columns. destruct cat as [|c cs]; cbn [each for_each].
  - destruct cts as [|c cs]; [now destruct N|]. cbn [bind each for_each].
    destruct (column_raises jd jd (k_Acts t) (k_Scts t) c "12" ["43"; "2ma"; "3ma"; "2mb"; "3mb"] H) as (e & E).
    exists e. unfold each; cbn [for_each]. unfold periods_movers. now rewrite E.
  - destruct (column_raises jd jd (k_Acat t) (k_Scat t) c "12" ["43"; "2ma"; "3ma"; "2mb"; "3mb"] H) as (e & E).
    exists e. unfold each; cbn [for_each]. unfold periods_movers at 1. now rewrite E.
Qed.

Lemma ctl_key x : cat ++ cts <> [] -> named jd -> Forall (fun c => has_column jd (c_name c)) (cat ++ cts) ->
  estimated t cat cts -> dsimulate nl nk p realloc g gj gs = Ok x -> sim = Err KeyError.
Proof.
  intros N H C (E1 & E2) S. unfold sim, dsimulate_ctl. rewrite S. cbn [bind]. unfold add_columns.
  destruct cat as [|c cs]; unfold each; cbn [for_each bind].
  - destruct cts as [|c cs]; [now destruct N|]. cbn [for_each bind]. inversion C; subst. inversion E2; subst.
    unfold periods_movers. rewrite column_key; [reflexivity|exact H|assumption|tauto|cbn; auto].
  - inversion C; subst. inversion E1; subst.
    unfold periods_movers at 1. rewrite column_key; [reflexivity|exact H|assumption|tauto|cbn; auto].
Qed.
End Sim.

Lemma ctl_none nl nk t effects p realloc g jd sd gj gs :
  dsimulate_ctl nl nk [] [] t effects p realloc g jd sd gj gs = dsimulate nl nk p realloc g gj gs.
Proof. unfold dsimulate_ctl. destruct (dsimulate _ _ _ _ _ _ _); reflexivity. Qed.

(* One categorical control variable with two categories, the same in all periods. *)
Definition k_col : ccol := mkccol "cat" 2 true false.
Definition k_frame : bframe := mkbframe [Name "i"; Name "j1"; Name "y1"; Name "cat"] [("cat", ["cat"])].
Definition k_tab : table := [("cat", EDict (map (fun p => (p, [2; 2])) all_periods))].
Definition k_ctl : ctl := mkctl k_tab k_tab [] [].

Lemma k_case : named k_frame /\ has_column k_frame (c_name k_col) /\ estimated k_ctl [k_col] [] /\
  exists x, dsimulate 2 2 e_par None e_rng (map g14 e_jd) (map g1_of e_sd) = Ok x.
Proof.
  split; [|split; [|split]].
  - repeat constructor; eexists; reflexivity.
  - left. split; [reflexivity|]. cbn. auto.
  - split; [|constructor]. repeat constructor; (eexists; split; [reflexivity|]); intros p Hp; cbn in Hp;
      repeat (destruct Hp as [<-|Hp]; [eexists; reflexivity|]); destruct Hp.
  - eexists. cbn -[INR]. reflexivity.
Qed.
