(* C117: the standard bootstrap of the static and the dynamic BLM model. *)
From Verif Require Import Base SBootModel SBootSpec SBootLemmas.
Local Open Scope nat_scope.
Local Open Scope list_scope.

(* C117.  For every way of drawing, clustering and estimating that keeps the firms' numbers: the
   bootstrap gives n models, each estimated from rows drawn from the movers and the stayers
   (unchanged but for the classes), in which every class is the one that the clustering of this
   very sample gives to the firm of that period; the weights of the static model are w1 + w2;
   the generator is passed on from step to step and sample to sample. *)
Theorem C117_samples X M G sample cluster (fit : list (srow X) -> list (srow X) -> G -> res (M * G))
    weight n dynamic use_wj use_ws fj fs jd sd g ms :
  keeps_firms cluster -> Forall stayer sd -> (dynamic = true -> Forall dmover jd) ->
  standard sample cluster fit weight n dynamic use_wj use_ws fj fs jd sd g = Ok ms ->
  length ms = n /\
  chain (sampled sample cluster fit fj fs
    (if use_wj && negb dynamic then Some (map weight jd) else None)
    (if use_ws && negb dynamic then Some (map weight sd) else None) jd sd) g ms.
Proof. exact (standard_lemma sample cluster fit weight n dynamic use_wj use_ws fj fs jd sd g ms). Qed.
Print Assumptions C117_samples.

(* If drawing, clustering and estimation return, so does the bootstrap. *)
Theorem C117_returns X M G sample cluster (fit : list (srow X) -> list (srow X) -> G -> res (M * G))
    weight n dynamic use_wj use_ws fj fs jd sd :
  (forall f w k g, exists pos g', sample f w k g = Ok (pos, g') /\ Forall (fun i => i < k) pos) ->
  (forall d g, exists o, cluster d g = Ok o) -> (forall j s g, exists o, fit j s g = Ok o) ->
  (dynamic = true -> Forall dmover jd) ->
  forall g, exists ms, standard sample cluster fit weight n dynamic use_wj use_ws fj fs jd sd g = Ok ms.
Proof. exact (standard_returns sample cluster fit weight n dynamic use_wj use_ws fj fs jd sd). Qed.
Print Assumptions C117_returns.

(* If the cleaning before the clustering numbers the firms of the sample anew, C117 fails for
   every sample that lacks a firm: the classes are looked up under the old numbers, and the
   movers at a firm numbered beyond the count of firms have no class. *)
Theorem C117_renumbered_refuted X M G sample cluster (fit : list (srow X) -> list (srow X) -> G -> res (M * G))
    weight use_wj use_ws fj fs jd sd g m g' :
  renumbers cluster -> one_sample sample cluster fit weight false use_wj use_ws fj fs jd sd g = Ok (m, g') ->
  exists ji si g3, fit ji si g3 = Ok (m, g') /\
    forall r t f, In r ji -> nth_error (s_j r) t = Some f -> length (firms_of (ji ++ si)) <= f ->
      nth_error (s_g r) t = Some None.
Proof. exact (renumbered sample cluster fit weight use_wj use_ws fj fs jd sd g m g'). Qed.
Print Assumptions C117_renumbered_refuted.

(* Two movers between firms 0 and 2; every row twice; each firm its own class.  With the firms'
   own numbers, and with new ones. *)
Definition case_sample (_ : R) (_ : option (list R)) (k : nat) (g : unit) : res (list nat * unit) :=
  Ok (seq 0 k ++ seq 0 k, g).
Definition case_own (d : list (srow unit)) (g : unit) : res (list (nat * nat) * unit) :=
  Ok (map (fun f => (f, f)) (firms_of d), g).
Definition case_new (d : list (srow unit)) (g : unit) : res (list (nat * nat) * unit) :=
  Ok (map (fun f => (f, f)) (seq 0 (length (firms_of d))), g).
Definition case_fit (j s : list (srow unit)) (g : unit) : res (list (list (option nat)) * unit) := Ok (map s_g j, g).
Definition case_movers : list (srow unit) := [mksrow [0; 2] [None; None] tt; mksrow [2; 0] [None; None] tt].
Definition case_stayers : list (srow unit) := [mksrow [2; 2] [None; None] tt].
Example C117_case : keeps_firms case_own /\ renumbers case_new /\ Forall stayer case_stayers /\
  standard case_sample case_own case_fit (fun _ => 1%R) 1 false true true 1 1 case_movers case_stayers tt
    = Ok [[[Some 0; Some 2]; [Some 2; Some 0]; [Some 0; Some 2]; [Some 2; Some 0]]] /\
  standard case_sample case_new case_fit (fun _ => 1%R) 1 false true true 1 1 case_movers case_stayers tt
    = Ok [[[Some 0; None]; [None; Some 0]; [Some 0; None]; [None; Some 0]]].
Proof.
  split; [|split; [|split; [|split]]]; try reflexivity.
  - intros d g out g' [= <- <-] r f Hr Hf. exists f. apply in_map_iff. exists f. split; [reflexivity|].
    apply nodup_In, in_flat_map. now exists r.
  - intros d g out g' [= <- <-] f c H. apply in_map_iff in H. destruct H as (x & [= <- <-] & H). apply in_seq in H. apply H.
  - constructor; [|constructor]. exists 2. now repeat constructor.
Qed.
