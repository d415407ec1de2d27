(* Vocabulary for Monte Carlo results. *)
From Coq Require Import String.
From Verif Require Import Base MCModel.
Local Open Scope string_scope.
Local Open Scope list_scope.
Local Open Scope R_scope.

(* Population variance and covariance of a sample. *)
Definition pop_mean (l : list R) : R := rsum l / INR (List.length l).
Definition pop_cov (x y : list R) : R :=
  rsum (map2 (fun a b => (a - pop_mean x) * (b - pop_mean y)) x y) / INR (List.length x).

(* The dictionary d has the value v under the key k. *)
Definition has {V} (d : list (string * V)) (k : string) (v : V) : Prop :=
  exists a b, d = a ++ (k, v) :: b /\ ~ In k (map fst a).
(* Entry i of the results for estimator e. *)
Definition result (res : list (string * list R)) (e : string) (i : nat) (v : R) : Prop :=
  exists x, has res e x /\ nth_error x i = Some v.

Section Spec.
Variables G C : Type.
Variable sim : G -> list simrow * G.
Variable move_to_worker : bool.
Variable moves : list brow -> list brow.
Variable clean : list brow -> res C.
Variable fe : C -> G -> res (list (string * R) * G).
Variable cluster : C -> G -> res (C * G).
Variable cre : C -> G -> res ((R * R) * G).
Variable estimate_bs : bool.
Variable bs_clean : C -> res C.
Variable bs : bool -> C -> res (R * R).

(* All results number i are about one simulated data set d, drawn from the generator in
   state g: the true values are the population moments of d, the others what the estimators
   return for d, cleaned.  The generator ends in state g'. *)
Definition all_about (res : list (string * list R)) (i : nat) (g g' : G) : Prop :=
  exists d g1 c r g2 c' g3 tv tc,
    sim g = (d, g1) /\
    clean (if move_to_worker then moves (map m_obs d) else map m_obs d) = Ok c /\
    fe c g1 = Ok (r, g2) /\ cluster c g2 = Ok (c', g3) /\ cre c' g3 = Ok ((tv, tc), g') /\
    result res "var(psi)_true" i (pop_cov (map m_psi d) (map m_psi d)) /\
    result res "cov(psi, alpha)_true" i (pop_cov (map m_psi d) (map m_alpha d)) /\
    (forall e, In e ["var(psi)_fe"; "var(psi)_ho"; "var(psi)_he";
                     "cov(psi, alpha)_fe"; "cov(psi, alpha)_ho"; "cov(psi, alpha)_he"] ->
       exists v, has r e v /\ result res e i v) /\
    result res "var(psi)_cre" i tv /\ result res "cov(psi, alpha)_cre" i tc /\
    (estimate_bs = true -> exists c'' v1 k1 v2 k2, bs_clean c' = Ok c'' /\
       bs false c'' = Ok (v1, k1) /\ bs true c'' = Ok (v2, k2) /\
       result res "var(psi)_bs1" i v1 /\ result res "cov(psi, alpha)_bs1" i k1 /\
       result res "var(psi)_bs2" i v2 /\ result res "cov(psi, alpha)_bs2" i k2).
End Spec.

(* The results of a run with more simulations begin with those of a run with fewer. *)
Definition extends (a b : list (string * list R)) : Prop :=
  Forall2 (fun x y => fst x = fst y /\ exists z, snd y = snd x ++ z) a b.

(* The shared range of a histogram shows every value plotted. *)
Definition shows (range : R * R) (series : list (list R)) : Prop :=
  forall x v, In x series -> In v x -> fst range <= v <= snd range.
