(* Rational constants: arithmetic on binary numbers carried over to rat, so that
   closed computations on example data stay cheap. *)
Set Warnings "-notation-overridden,-ambiguous-paths".
From Coq Require Import ZArith QArith.
From mathcomp Require Import all_ssreflect all_algebra.

Set Implicit Arguments.
Unset Strict Implicit.
Unset Printing Implicit Defensive.

Import GRing.Theory Num.Theory Order.POrderTheory.
Local Open Scope ring_scope.

Definition pr (p : positive) : rat := (Pos.to_nat p)%:R.
Definition zr (z : Z) : rat :=
  match z with Z0 => 0 | Zpos p => pr p | Zneg p => - pr p end.
Definition qr (x : Q) : rat := zr (Qnum x) / pr (Qden x).

Lemma prD a b : pr (a + b) = pr a + pr b.
Proof. by rewrite /pr Pos2Nat.inj_add natrD. Qed.
Lemma prM a b : pr (a * b) = pr a * pr b.
Proof. by rewrite /pr Pos2Nat.inj_mul natrM. Qed.
Lemma pr_gt0 a : 0 < pr a.
Proof. by rewrite /pr ltr0n; apply/ltP; exact: Pos2Nat.is_pos. Qed.
Lemma pr_neq0 a : pr a != 0.
Proof. by rewrite gt_eqF ?pr_gt0. Qed.

Lemma zr_pos_sub a b : zr (Z.pos_sub a b) = pr a - pr b.
Proof.
have := Z.pos_sub_spec a b; case: (Pos.compare_spec a b) => h ->.
- by rewrite /= h subrr.
- have e : (a + (b - a))%positive = b by rewrite Pos.add_comm Pos.sub_add.
  by rewrite /= -{2}e prD opprD addrA subrr add0r.
- have e : (b + (a - b))%positive = a by rewrite Pos.add_comm Pos.sub_add.
  by rewrite /= -{2}e prD addrC addrA (addrC (- _)) subrr add0r.
Qed.

Lemma zrD a b : zr (a + b) = zr a + zr b.
Proof.
case: a b => [|a|a] [|b|b] /=; rewrite ?add0r ?addr0 ?prD ?opprD ?zr_pos_sub //.
by rewrite addrC.
Qed.

Lemma zrM a b : zr (a * b) = zr a * zr b.
Proof. by case: a b => [|a|a] [|b|b] /=; rewrite ?mul0r ?mulr0 ?prM ?mulrN ?mulNr ?opprK. Qed.

Lemma qrD x y : qr (Qplus x y) = qr x + qr y.
Proof.
case: x y => [a b] [c d]; rewrite /qr /= zrD !zrM prM /=.
by rewrite -addf_div ?pr_neq0 //.
Qed.

Lemma qrM x y : qr (Qmult x y) = qr x * qr y.
Proof. by case: x y => [a b] [c d]; rewrite /qr /= zrM prM mulf_div. Qed.

Lemma qrN x : qr (Qopp x) = - qr x.
Proof. by case: x => [[|a|a] b]; rewrite /qr /= ?mul0r ?oppr0 ?mulNr ?opprK. Qed.

Lemma qrV x : qr (Qinv x) = (qr x)^-1.
Proof.
case: x => [[|a|a] b]; rewrite /qr /= /Qinv /= ?mul0r ?invr0 //.
- by rewrite invf_div.
- by rewrite !mulNr invrN invf_div.
Qed.

Lemma qr_eq x y : Qeq_bool x y = true -> qr x = qr y.
Proof.
move/Qeq_bool_iff; case: x y => [a b] [c d]; rewrite /Qeq /qr /= => e.
have {}e : zr a * pr d = zr c * pr b by rewrite -!(zrM _ (Zpos _)) e.
by apply/eqP; rewrite eqr_div ?pr_neq0 // e.
Qed.

Lemma qr0 : qr (Qmake 0 1) = 0. Proof. by rewrite /qr /= mul0r. Qed.
Lemma qr1 : qr (Qmake 1 1) = 1. Proof. by rewrite /qr /= /pr /= divr1. Qed.
Lemma qrn n : qr (Qmake (Z.of_nat n) 1) = n%:R.
Proof.
rewrite /qr; case: n => [|n]; first by rewrite mul0r.
by rewrite (_ : pr 1 = 1) // divr1; rewrite /zr /Z.of_nat /Qnum /pr SuccNat2Pos.id_succ.
Qed.

Arguments qr : simpl never.
(* Closed identity between rational constants: both sides are read as binary
   rationals and compared there. *)
Ltac q_of t :=
  lazymatch t with
  | @GRing.add _ ?a ?b => let x := q_of a in let y := q_of b in constr:(Qplus x y)
  | @GRing.mul _ ?a ?b => let x := q_of a in let y := q_of b in constr:(Qmult x y)
  | @GRing.opp _ ?a => let x := q_of a in constr:(Qopp x)
  | @GRing.inv _ ?a => let x := q_of a in constr:(Qinv x)
  | @GRing.natmul _ (@GRing.one _) ?n => constr:(Qmake (Z.of_nat n) 1)
  | @GRing.zero _ => constr:(Qmake Z0 1)
  | @GRing.one _ => constr:(Qmake (Zpos xH) 1)
  | qr ?x => x
  end.
Ltac q_side a :=
  let x := q_of a in
  transitivity (qr x); [rewrite ?(qrD, qrM, qrN, qrV, qr0, qr1, qrn); reflexivity|].
Ltac qrat :=
  lazymatch goal with |- @eq _ ?a ?b =>
    q_side a; symmetry; q_side b end;
  apply: qr_eq; vm_compute; reflexivity.
