(* Vocabulary for event study plots. *)
From Verif Require Import Base EvModel.
Local Open Scope list_scope.

(* Row r moves from class i in period pre to class j in the next one. *)
Definition moves (pre i j : nat) (r : erow) : Prop :=
  exists a b, e_g r = a ++ i :: j :: b /\ length a + 1 = pre.
(* d' are the rows of d that satisfy P, in order. *)
Inductive those {A} (P : A -> Prop) : list A -> list A -> Prop :=
  | those_nil : those P [] []
  | those_in x l l' : P x -> those P l l' -> those P (x :: l) (x :: l')
  | those_out x l l' : ~ P x -> those P l l' -> those P (x :: l) l'.
(* Rows with pre + post periods and classes below k. *)
Definition shaped (k pre post : nat) (r : erow) : Prop :=
  length (e_y r) = pre + post /\ length (e_g r) = pre + post /\ Forall (fun c => c < k) (e_g r).

(* The earnings in period t. *)
Definition pay (t : nat) (d : list erow) (x : list R) : Prop :=
  Forall2 (fun r v => nth_error (e_y r) t = Some v) d x.
(* Mean of at least one number; standard error of the mean of at least two. *)
Definition is_mean (x : list R) (m : R) : Prop := x <> [] /\ (m * INR (length x) = rsum x)%R.
Definition is_serr (x : list R) (s : R) : Prop := 1 < length x /\ (0 <= s)%R /\
  exists m, is_mean x m /\
    (s * s * (INR (length x) * (INR (length x) - 1)) = rsum (map (fun a => (a - m) * (a - m)) x))%R.

(* A panel shows the earnings of the rows d, periods numbered from the move. *)
Definition shows_rows (pre post : nat) (d : list erow) (q : panel) : Prop :=
  p_n q = length d /\
  p_x q = map (fun t => if t <? pre then (Z.of_nat t - Z.of_nat pre)%Z else (Z.of_nat t - Z.of_nat pre + 1)%Z) (seq 0 (pre + post)) /\
  length (p_y q) = pre + post /\ length (p_err q) = pre + post /\
  forall t, t < pre + post -> exists x, pay t d x /\
    (forall m, nth_error (p_y q) t = Some (Some m) -> is_mean x m) /\
    (x <> [] -> exists m, nth_error (p_y q) t = Some (Some m)) /\
    (forall s, nth_error (p_err q) t = Some (Some s) -> is_serr x s) /\
    (1 < length x -> exists s, nth_error (p_err q) t = Some (Some s)).
