(* What the properties about running the BLM estimation speak about. *)
From Verif Require Import Base ConsModel BLMModel BLMRunModel.
Local Open Scope R_scope.

(* ---- phases ---- *)
Section Phases.
Context {X M : Type}.

(* A call of fit_movers(compute_NNm) under given parameters, as a function of the
   estimates. *)
Definition call : Type := (bool * cfg X)%type.

(* The calls of fit_movers_cstr_uncstr: A fixed; everything updated with A
   linear and additive; with the variation over firm types stationary (both only
   with several worker types); with the user's constraints. *)
Definition documented_calls (nl : nat) (compute_NNm : bool) (user : cfg X) : list call :=
  let user_cons := match cons_a_all user with Some l => l | None => [] end in
  [(false, mkcfg false true true (cons_a_all user) (other user))] ++
  (if (1 <? nl)%nat
   then [(false, mkcfg true true true
                   (Some (user_cons ++ [CLinearAdditive None 2])) (other user));
         (false, mkcfg true true true
                   (Some (user_cons ++ [CStationaryFirmTypeVariation None 2])) (other user))]
   else []) ++
  [(compute_NNm, mkcfg true true true (cons_a_all user) (other user))].

(* Calls one after the other until one raises. *)
Fixpoint run_calls (fit : bool -> cfg X -> M -> M * option exc) (cs : list call) (m : M)
  : M * option exc :=
  match cs with
  | [] => (m, None)
  | c :: cs' => match fit (fst c) (snd c) m with
                | (m', None) => run_calls fit cs' m'
                | (m', Some e) => (m', Some e)
                end
  end.

(* fit_movers as a method that leaves the parameters of the object alone. *)
Definition as_method (fit : bool -> cfg X -> M -> M * option exc) (b : bool) (s : obj X M)
  : obj X M * option exc :=
  (mkobj (params s) (fst (fit b (params s) (rest s))), snd (fit b (params s) (rest s))).
End Phases.

(* ---- counts and proportions ---- *)
(* NN k1 k2 movers go from firm type k1 to k2; the proportions of worker types
   among them are row k1 + nk * k2 of pk1 (see C39_pk1_rows). *)
Definition prop_of (nk : nat) (pk1 : mat) (k1 k2 l : nat) : R := pk1 (k1 + nk * k2)%nat l.

(* Movers of worker type l: from k1 to k2, leaving k1, arriving at k2, all. *)
Definition type_moves (nk : nat) (NN pk1 : mat) (k1 k2 l : nat) : R :=
  NN k1 k2 * prop_of nk pk1 k1 k2 l.
Definition type_leaving (nk : nat) (NN pk1 : mat) (k1 l : nat) : R :=
  sumn nk (fun k2 => type_moves nk NN pk1 k1 k2 l).
Definition type_arriving (nk : nat) (NN pk1 : mat) (k2 l : nat) : R :=
  sumn nk (fun k1 => type_moves nk NN pk1 k1 k2 l).

Definition prob_vec (nl : nat) (r : nat -> R) : Prop :=
  (forall l, (l < nl)%nat -> 0 <= r l) /\ sumn nl r = 1.

(* Counts: not negative, and every firm type has movers in both directions. *)
Definition counts_ok (nk : nat) (NN : mat) (Ns : nat -> R) : Prop :=
  (forall a b, (a < nk)%nat -> (b < nk)%nat -> 0 <= NN a b) /\
  (forall a, (a < nk)%nat -> 0 < sumn nk (fun b => NN a b)) /\
  (forall b, (b < nk)%nat -> 0 < sumn nk (fun a => NN a b)) /\
  (forall k, (k < nk)%nat -> 0 <= Ns k) /\ 0 < sumn nk Ns.
Definition props_ok (nl nk : nat) (pk1 pk0 : mat) : Prop :=
  (forall k1 k2, (k1 < nk)%nat -> (k2 < nk)%nat -> prob_vec nl (prop_of nk pk1 k1 k2)) /\
  (forall k, (k < nk)%nat -> prob_vec nl (pk0 k)).

(* As many movers from a to b as from b to a. *)
Definition symmetric (nk : nat) (NN : mat) : Prop :=
  forall a b, (a < nk)%nat -> (b < nk)%nat -> NN a b = NN b a.
