(* Statements behind InterProps.v and the data of its example. *)
Set Warnings "-notation-overridden,-ambiguous-paths".
From mathcomp Require Import all_ssreflect all_algebra.
From Verif Require Import FEModel FESpec FERegSpec InterModel InterSpec InterLemmas.

Set Implicit Arguments.
Unset Strict Implicit.
Unset Printing Implicit Defensive.

Import GRing.Theory Num.Theory Order.POrderTheory.
Local Open Scope ring_scope.

(* A solver that meets the contract for every matrix. *)
Definition psolve (F : realFieldType) k (M : 'M[F]_k) (b : 'cV[F]_k) : 'cV[F]_k :=
  (b^T *m pinvmx M^T)^T.

Lemma psolve_ok (F : realFieldType) k (M : 'M[F]_k) : consistent (@psolve F k) M.
Proof.
move=> b [x e]; apply: trmx_inj; rewrite trmx_mul trmxK mulmxKpV //.
by rewrite -e trmx_mul submxMl.
Qed.

(* Two workers, both seen at both firms. *)
Section Case.
Variable F : realFieldType.
Definition d53 : frame F 4 1 2 :=
  {| fj := fun r => if (r < 2)%N then ord0 else ord_max;
     fi := fun r => if odd r then ord_max else ord0;
     fw := Some (fun r : 'I_4 => (r.+1)%:R); fm := fun _ => true |}.
Definition B53 : 'cV[F]_2 := \col_j (j.+1)%:R.

Lemma d53_pos : positive_weights d53.
Proof. by move=> r; rewrite /wgt /= ltr0Sn. Qed.

Lemma two (T : Type) (f : 'I_2 -> T) j : f j = if j == ord0 then f ord0 else f ord_max.
Proof. by case: j => [[|[|]]] //= p; congr f; apply: val_inj. Qed.

Lemma d53_norms : worker_norms d53 (fun j => B53 j 0).
Proof.
move=> i; have nz j : B53 j 0 != 0 by rewrite mxE pnatr_eq0.
by case: i => [[|[|]]] // p; [exists (inord 0)|exists (inord 1)]; rewrite ?nz //=; rewrite inordK //; apply: val_inj.
Qed.

Lemma d53_id : i_identified d53 (fun j => B53 j 0).
Proof.
move=> A al A' al' a0 a0' e.
have f2 (i : 'I_2) : al i = al' i.
  have := e (inord (i + 2)).
  have il : (i + 2 < 4)%N by case: i => [[|[|]]].
  rewrite /i_fit /= inordK // ltnNge leq_addl /= a0 a0' !add0r.
  have -> : (if odd (i + 2) then ord_max else ord0) = i.
    by case: i {il} => [[|[|]]] //= p; apply: val_inj.
  by rewrite mxE => /(mulfI _); apply; rewrite pnatr_eq0.
split=> // j.
have -> : j = if j == ord0 then ord0 else ord_max by case: j => [[|[|]]] //= p; apply: val_inj.
case: (j == ord0); last by rewrite a0 a0'.
have := e (inord 0); rewrite /i_fit /= inordK //= f2.
exact: addIr.
Qed.
End Case.
