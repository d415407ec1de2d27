(* Vocabulary for the standard bootstrap. *)
From Verif Require Import Base SBootModel.
Local Open Scope list_scope.

(* d' are the rows of d at the positions drawn, but for the classes. *)
Definition drawn {X} (d : list (srow X)) (pos : list nat) (d' : list (srow X)) : Prop :=
  Forall2 (fun i r' => exists r, nth_error d i = Some r /\ s_j r' = s_j r /\ s_x r' = s_x r) pos d'.
(* Every class of the row is the one given to the firm of the same period. *)
Definition classed {X} (out : list (nat * nat)) (r : srow X) : Prop :=
  Forall2 (fun f c => exists v, c = Some v /\ In (f, v) out) (s_j r) (s_g r).
(* The clustering gives a class to every firm of the rows, under its own number. *)
Definition keeps_firms {X G} (cluster : list (srow X) -> G -> res (list (nat * nat) * G)) : Prop :=
  forall d g out g', cluster d g = Ok (out, g') -> forall r f, In r d -> In f (s_j r) -> exists c, In (f, c) out.
(* The clustering numbers the firms of the rows anew, without gaps. *)
Definition firms_of {X} (d : list (srow X)) : list nat := nodup Nat.eq_dec (flat_map s_j d).
Definition renumbers {X G} (cluster : list (srow X) -> G -> res (list (nat * nat) * G)) : Prop :=
  forall d g out g', cluster d g = Ok (out, g') -> forall f c, In (f, c) out -> f < length (firms_of d).

(* Stayers have one firm; movers of the dynamic model one in the first two periods and one in
   the last two. *)
Definition stayer {X} (r : srow X) : Prop := exists f, Forall (eq f) (s_j r).
Definition dmover {X} (r : srow X) : Prop := exists a b, s_j r = [a; a; b; b].

(* One sample: rows are drawn from movers and stayers, the clustering sees the rows drawn, every
   row gets the class of its firm, and the model is estimated from these rows; the generator is
   passed on. *)
Definition sampled {X M G} sample cluster (fit : list (srow X) -> list (srow X) -> G -> res (M * G))
    (fj fs : R) (wj ws : option (list R)) (jd sd : list (srow X)) (g : G) (m : M) (g' : G) : Prop :=
  exists pj g1 ps g2 ji0 si0 out g3 ji si,
    sample fj wj (length jd) g = Ok (pj, g1) /\ drawn jd pj ji0 /\ incl ji0 jd /\
    sample fs ws (length sd) g1 = Ok (ps, g2) /\ drawn sd ps si0 /\ incl si0 sd /\
    cluster (ji0 ++ si0) g2 = Ok (out, g3) /\
    drawn jd pj ji /\ drawn sd ps si /\ Forall (classed out) ji /\ Forall (classed out) si /\
    fit ji si g3 = Ok (m, g').
(* One after the other. *)
Inductive chain {M G} (step : G -> M -> G -> Prop) : G -> list M -> Prop :=
  | chain_nil g : chain step g []
  | chain_cons g m g' ms : step g m g' -> chain step g' ms -> chain step g (m :: ms).
