(* What the plot of the proportions of worker types should show. *)
From Verif Require Import Base BLMModel BLMSpec BLMRunSpec PlotSpec.
Local Open Scope R_scope.

(* Shares of worker type l among the movers leaving, and among those arriving at, firm type k,
   and among its stayers. *)
Definition leaving_share (nk : nat) (m : par) (k l : nat) : R :=
  type_leaving nk (NNm m) (pk1 m) k l / sumn nk (fun b => NNm m k b).
Definition arriving_share (nk : nat) (m : par) (k l : nat) : R :=
  type_arriving nk (NNm m) (pk1 m) k l / sumn nk (fun a => NNm m a k).
Definition stayer_share (m : par) (k l : nat) : R := pk0 m k l.

(* Share among all workers of a firm type, in the first and in the second period. *)
Definition first_share (nk : nat) (m : par) (k l : nat) : R :=
  (type_leaving nk (NNm m) (pk1 m) k l + NNs m k * pk0 m k l) / (sumn nk (fun b => NNm m k b) + NNs m k).
Definition second_share (nk : nat) (m : par) (k l : nat) : R :=
  (type_arriving nk (NNm m) (pk1 m) k l + NNs m k * pk0 m k l) / (sumn nk (fun a => NNm m a k) + NNs m k).

(* The rectangle of each worker type and firm type is as high as the mean over the models of
   the share of the types with these ranks. *)
Definition shows_shares (pp : period) (nl nk : nat) (share : par -> nat -> nat -> R) (models : list par)
    (rows : list (list (R * R))) : Prop :=
  exists rs : list ((nat -> nat) * (nat -> nat)),
    Forall2 (fun m r => ranks pp nl nk (effs m) (fst r) (snd r)) models rs /\
    length rows = nl /\ Forall (fun row => length row = nk) rows /\
    forall l k row bottom height, nth_error rows l = Some row -> nth_error row k = Some (bottom, height) ->
      height * INR (length models) = rsum (map2 (fun m r => share m (snd r k) (fst r l)) models rs).

(* The rectangles of each firm type are stacked from 0 to 1. *)
Definition stacked_to_one (nl nk : nat) (rows : list (list (R * R))) : Prop :=
  exists bottom height : nat -> nat -> R,
    rows = map (fun l => map (fun k => (bottom k l, height k l)) (range nk)) (range nl) /\
    forall k, (k < nk)%nat ->
      bottom k 0%nat = 0 /\ sumn nl (height k) = 1 /\
      forall l, (l < nl)%nat -> 0 <= height k l /\ bottom k (S l) = bottom k l + height k l.

(* The same model under other names of the types. *)
Definition same_model (nl nk : nat) (m m' : par) : Prop :=
  exists s t, relabelling nl s /\ relabelling nk t /\ relabelled nl nk s t m m'.
