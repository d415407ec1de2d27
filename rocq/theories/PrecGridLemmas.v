(* The weights of the coarse grid. *)
Set Warnings "-notation-overridden,-ambiguous-paths".
From mathcomp Require Import all_ssreflect all_algebra.
From Verif Require Base.
From Verif Require Import FieldTac PrecModel PrecSpec.

Set Implicit Arguments.
Unset Strict Implicit.
Unset Printing Implicit Defensive.

Import GRing.Theory Num.Theory Order.POrderTheory Order.TotalTheory.
Local Open Scope ring_scope.

Section Grid.
Variable F : realFieldType.
Add Field Fg : (field_th F).

(* The three positions along one dimension exclude each other. *)
Lemma tent_cases (a x : nat) :
  [/\ (a.+1 == 2 * x + 0)%N = false, (a.+1 == 2 * x + 1)%N, (a.+1 == 2 * x + 2)%N = false & tent F a x = 1 / 2%:R] \/
  [/\ (a.+1 == 2 * x + 0)%N, (a.+1 == 2 * x + 1)%N = false, (a.+1 == 2 * x + 2)%N = false & tent F a x = 1 / 4%:R] \/
  [/\ (a.+1 == 2 * x + 0)%N = false, (a.+1 == 2 * x + 1)%N = false, (a.+1 == 2 * x + 2)%N & tent F a x = 1 / 4%:R] \/
  [/\ (a.+1 == 2 * x + 0)%N = false, (a.+1 == 2 * x + 1)%N = false, (a.+1 == 2 * x + 2)%N = false & tent F a x = 0].
Proof.
rewrite /tent mul2n addn0 addn1 addn2 !eqSS.
case: (eqVneq a x.*2) => [->|ne1].
  by left; split=> //; elim: (x.*2).
case: (eqVneq a.+1 x.*2) => [e|ne2] /=.
  right; left; split=> //.
  by rewrite -e; elim: {e ne1} a.
by case: (eqVneq a x.*2.+1) => [_|ne3]; do 2 right; [left|right].
Qed.

Lemma downsampleE h w n i j :
  downsample F h w n i j = tent F (j %% w) (i %% (w %/ 2)) * tent F (j %/ w) (i %/ (w %/ 2)).
Proof.
rewrite mxE !big_ord_recl big_ord0 /weight9 /=.
move: (j %% w)%N (j %/ w)%N (i %% (w %/ 2))%N (i %/ (w %/ 2))%N => a b x y.
have nz k : k.+1%:R != 0 :> F by rewrite pnatr_eq0.
have e1 : 1 / 16%:R = 1 / 4%:R * (1 / 4%:R) :> F by rewrite !div1r -invfM -natrM.
have e2 : 2%:R / 16%:R = 1 / 2%:R * (1 / 4%:R) :> F.
  by rewrite !div1r -invfM -natrM -[16%N]/(2 * 8)%N natrM invfM mulrA divff // mul1r.
have e4 : 4%:R / 16%:R = 1 / 2%:R * (1 / 2%:R) :> F.
  by rewrite !div1r -invfM -natrM -[16%N]/(4 * 4)%N natrM invfM mulrA divff // mul1r.
case: (tent_cases a x) => [[-> -> -> ->]|[[-> -> -> ->]|[[-> -> -> ->]|[-> -> -> ->]]]];
case: (tent_cases b y) => [[-> -> -> ->]|[[-> -> -> ->]|[[-> -> -> ->]|[-> -> -> ->]]]] /=;
by rewrite ?(addr0, add0r, mulr0, mul0r) ?e1 ?e2 ?e4 // mulrC.
Qed.
End Grid.
