(* What simulated Borovickova-Shimer data should be. *)
From Verif Require Import Base.
From Coq Require Import Permutation.
Local Open Scope R_scope.

(* How many elements of l have the property. *)
Definition count {A} (f : A -> bool) (l : list A) : nat := length (filter f l).

(* rows: the worker and the firm of every observation.  Worker i has ws_i observations.
   Firm j of the data is firm (firm j) of the draws, it has fs_(firm j) observations, and
   the firms are numbered in the order of their effects mu.  An observation with a larger
   score (of the row and its worker) is at a firm with a number at least as large. *)
Record matched (ws fs : list nat) (firm : nat -> nat) (mu : nat -> R) (score : nat -> nat -> R)
    (rows : list (nat * nat)) : Prop := {
  ma_in : Forall (fun r => fst r < length ws /\ snd r < length fs)%nat rows;
  ma_total : length rows = fold_right Nat.add 0%nat ws /\ length rows = fold_right Nat.add 0%nat fs;
  ma_worker : forall i, (i < length ws)%nat -> count (fun r => i =? fst r)%nat rows = nth i ws 0%nat;
  ma_firm : forall j, (j < length fs)%nat -> count (fun r => j =? snd r)%nat rows = nth (firm j) fs 0%nat;
  ma_bij : Permutation (map firm (range (length fs))) (range (length fs));
  ma_order : forall j j', (j <= j' < length fs)%nat -> mu (firm j) <= mu (firm j');
  ma_assort : forall r r' x x', nth_error rows r = Some x -> nth_error rows r' = Some x' ->
    score r (fst x) < score r' (fst x') -> (snd x <= snd x')%nat
}.

(* A finite sample space with probabilities pr, and expected values. *)
Definition expect {A} (omega : list A) (pr : A -> R) (f : A -> R) : R := rsum (map (fun a => pr a * f a) omega).
(* Worker effects, firm effects and errors with means 0, standard deviations sl, sm and
   se, correlation r of the effects, and errors uncorrelated with the effects. *)
Record moments {A} (omega : list A) (pr : A -> R) (l m e : A -> R) (sl sm r se : R) : Prop := {
  mo_l : expect omega pr l = 0; mo_m : expect omega pr m = 0; mo_e : expect omega pr e = 0;
  mo_ll : expect omega pr (fun a => l a ^ 2) = sl ^ 2;
  mo_mm : expect omega pr (fun a => m a ^ 2) = sm ^ 2;
  mo_ee : expect omega pr (fun a => e a ^ 2) = se ^ 2;
  mo_lm : expect omega pr (fun a => l a * m a) = r * sl * sm;
  mo_le : expect omega pr (fun a => l a * e a) = 0;
  mo_me : expect omega pr (fun a => m a * e a) = 0
}.
