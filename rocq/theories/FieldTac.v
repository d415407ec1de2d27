(* [fring] and [ffield]: Coq's ring and field tactics on a mathcomp real field.
   The goal's operations are first replaced by plain constants, because the
   canonical structures hide them from the tactics.  A section that uses them
   runs [Add Field name : (field_th F)] first. *)
Set Warnings "-notation-overridden,-ambiguous-paths".
From mathcomp Require Import all_ssreflect all_algebra.
From Coq Require Export Ring Field.

Import GRing.Theory Num.Theory.
Local Open Scope ring_scope.

Section Th.
Variable F : realFieldType.
Definition fzero : F := 0.
Definition fone : F := 1.
Definition fadd (a b : F) : F := a + b.
Definition fmul (a b : F) : F := a * b.
Definition fopp (a : F) : F := - a.
Definition fsub (a b : F) : F := a - b.
Definition finv (a : F) : F := a^-1.
Definition fdiv (a b : F) : F := a / b.
Definition fent m n (A : 'M[F]_(m, n)) i j : F := A i j.

Lemma ring_th : ring_theory fzero fone fadd fmul fsub fopp eq.
Proof.
constructor; [exact: add0r|exact: addrC|exact: addrA|exact: mul1r|exact: mulrC
  |exact: mulrA|exact: mulrDl|by []|exact: subrr].
Qed.

Lemma field_th : field_theory fzero fone fadd fmul fsub fopp fdiv finv eq.
Proof.
constructor; [exact: ring_th|by apply/eqP; exact: oner_neq0|by []
  |by move=> p /eqP h; rewrite /fmul /finv mulVf].
Qed.
End Th.

Ltac fnorm F :=
  rewrite ?expr2 ?exprS ?expr0 ?mulr2n ?mulrSr ?mulr0n;
  repeat match goal with
  | |- context [@GRing.add ?Z ?a ?b] => change (@GRing.add Z a b) with (@fadd F a b)
  | |- context [@GRing.mul ?Z ?a ?b] => change (@GRing.mul Z a b) with (@fmul F a b)
  | |- context [@GRing.opp ?Z ?a] => change (@GRing.opp Z a) with (@fopp F a)
  | |- context [@GRing.inv ?Z ?a] => change (@GRing.inv Z a) with (@finv F a)
  | |- context [@fun_of_matrix ?T ?m ?n ?A ?i ?j] =>
      change (@fun_of_matrix T m n A i j) with (@fent F m n A i j)
  | |- context [@GRing.one ?Z] => change (@GRing.one Z) with (@fone F)
  | |- context [@GRing.zero ?Z] => change (@GRing.zero Z) with (@fzero F)
  end;
  match goal with |- @eq _ ?a ?b => change (@eq (Num.RealField.sort F) a b) end.

Ltac fring F := fnorm F; ring.
Ltac ffield F := fnorm F; field.
