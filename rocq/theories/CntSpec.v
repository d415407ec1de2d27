(* Counts of workers by firm type. *)
From Verif Require Import Base.
Local Open Scope nat_scope.

(* Every column value is a firm type and every firm type occurs. *)
Definition all_types (nk : nat) (g : list nat) : Prop := forall k, In k g <-> k < nk.
Definition pair_dec (x y : nat * nat) : {x = y} + {x <> y}.
Proof. decide equality; apply Nat.eq_dec. Defined.
Definition stayers_at (g1 : list nat) (k : nat) : nat := count_occ Nat.eq_dec g1 k.
Definition moves (movers : list (nat * nat)) (a b : nat) : nat := count_occ pair_dec movers (a, b).
