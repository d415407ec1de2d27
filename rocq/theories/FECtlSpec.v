(* Vocabulary for the properties of the estimator with controls: the covariates
   as a list of blocks, their place in the coefficient vector and the effect each
   one has in a row. *)
Set Warnings "-notation-overridden,-ambiguous-paths".
From mathcomp Require Import all_ssreflect all_algebra.
From Verif Require Import FECtlModel.

Set Implicit Arguments.
Unset Strict Implicit.
Unset Printing Implicit Defensive.

Import GRing.Theory Num.Theory.
Local Open Scope ring_scope.

Section Spec.
Variable F : realFieldType.
Variable N : eqType.
Variables npsi nalpha : N.

(* A categorical covariate whose category 0 is normalised to 0, one with an
   effect for every category, or a continuous one; with the row's category or
   value. *)
Inductive block :=
| Normalised of nat & nat -> nat
| Free of nat & nat -> nat
| Slope of nat -> F.

(* Number of coefficients. *)
Definition width (b : block) : nat :=
  match b with Normalised n _ => n.-1 | Free n _ => n | Slope _ => 1 end.

(* The effect of a block in row r, when its coefficients are c. *)
Definition effect (b : block) (c : seq F) (r : nat) : F :=
  match b with
  | Normalised _ id => if id r is k.+1 then nth 0 c k else 0
  | Free _ id => nth 0 c (id r)
  | Slope x => nth 0 c 0 * x r
  end.

(* The category of a row, for a categorical block. *)
Definition category (b : block) (r : nat) : option nat :=
  match b with Normalised _ id => Some (id r) | Free _ id => Some (id r) | Slope _ => None end.

Variable d : cdata F N.

(* Firms, workers, categorical controls, continuous controls. *)
Definition blocks : seq (N * block) :=
  [:: (npsi, Normalised (c_nf d) (c_j d)); (nalpha, Free (c_nw d) (c_i d))]
  ++ [seq (cat_name c, Normalised (cat_n c) (cat_id c)) | c <- c_cats d]
  ++ [seq (cts_name s, Slope (cts_val s)) | s <- flatten (c_cts d)].

(* The coefficient vector cut into one piece per block. *)
Fixpoint pieces (bs : seq (N * block)) (gh : seq F) : seq (seq F) :=
  match bs with
  | [::] => [::]
  | b :: bs' => take (width b.2) gh :: pieces bs' (drop (width b.2) gh)
  end.

(* Every block's effect in row r, in order, with its name. *)
Definition effects (gh : seq F) (r : nat) : seq (N * F) :=
  [seq (x.1.1, effect x.1.2 x.2 r) | x <- zip blocks (pieces blocks gh)].

(* Ids are within range, and no two covariates share a name. *)
Definition in_range (b : block) (r : nat) : bool :=
  match b with Normalised n id => (id r < n)%N | Free n id => (id r < n)%N | Slope _ => true end.
Definition ids_ok : Prop := forall r, (r < c_nn d)%N -> all (fun b => in_range b.2 r) blocks.
Definition names_ok : Prop := uniq [seq b.1 | b <- blocks].

(* The total effect of the named covariates in row r. *)
Definition named_effect (names : seq N) (gh : seq F) (r : nat) : F :=
  \sum_(e <- effects gh r | e.1 \in names) e.2.

(* A non-empty list of names of existing covariates, without repetition. *)
Definition good_names (names : seq N) : bool :=
  [&& names != [::], uniq names & all (fun k => k \in [seq b.1 | b <- blocks]) names].

(* The first column of a block: the widths of the blocks before it. *)
Definition first_col (before : seq (N * block)) : nat := sumn [seq width b.2 | b <- before].

(* The entry of a block's column c in row r: an indicator or the covariate. *)
Definition column_entry (b : block) (c r : nat) : F :=
  match b with
  | Normalised _ id => (id r == c.+1)%:R
  | Free _ id => (id r == c)%:R
  | Slope x => x r
  end.

(* The weight of a row. *)
Definition cwgt (r : 'I_(c_nn d)) : F := match c_w d with Some w => w r | None => 1 end.

(* Two rows have the same value of a named categorical covariate, other than the
   category normalised to 0. *)
Definition normalised_away (b : block) (r : nat) : bool :=
  match b with Normalised _ id => id r == 0%N | _ => false end.
Definition share (names : seq N) (r s : nat) : bool :=
  has (fun b => (b.1 \in names) && (category b.2 r == category b.2 s)) blocks.
Definition share_counted (names : seq N) (r s : nat) : bool :=
  has (fun b => [&& b.1 \in names, category b.2 r == category b.2 s
                 & ~~ normalised_away b.2 r]) blocks.
Definition categorical (names : seq N) : Prop :=
  all (fun b => (b.1 \in names) ==> (if b.2 is Slope _ then false else true)) blocks.

End Spec.
