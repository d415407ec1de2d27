(* C70: glue and example data. *)
Set Warnings "-notation-overridden,-ambiguous-paths".
From mathcomp Require Import all_ssreflect all_algebra.
From Verif Require Base.
From Verif Require Import FieldTac FEModel FESpec FEMxLemmas FEExpLemmas FETraceLemmas FECases
  CrePostModel CrePostSpec CrePostLemmas.

Set Implicit Arguments.
Unset Strict Implicit.
Unset Printing Implicit Defensive.

Import GRing.Theory Num.Theory Order.POrderTheory.
Local Open Scope ring_scope.

Section Glue.
Variable F : realFieldType.
Add Field Ff2 : (field_th F).
Variables nf mn nnq : nat.

Lemma post_reported (d : post_data F nf mn nnq) vp ve solve (Om : finType) (p : Om -> F) psi (mu0 : 'cV[F]_nf) mu k :
  0 < vp -> 0 < ve -> exact_solver solve (M d vp ve) ->
  posterior d p psi vp ve (fun j => mu0 j 0) mu -> (2 <= nnq)%N -> (0 < k)%N ->
  uniform (fun zs : {ffun 'I_k -> {ffun 'I_nf -> bool}} =>
    posterior_var solve d vp ve mu0 (fun t => signs F (zs t)))
  = cs_var d mu + nnq%:R / (nnq%:R - 1) * (Ex p (fun o => cs_var d (psi o)) - cs_var d mu).
Proof.
move=> vp0 ve0 ok po n2 k0.
have [mE eE] := post_expect vp0 ve0 ok po.
rewrite (post_uniform vp0 ve0 ok) // eE.
have -> : cs_var d (fun j => post_psi solve d vp ve mu0 j 0) = cs_var d mu.
  rewrite /cs_var /cs_mean; congr (_ / _); apply: eq_bigr => r _; rewrite mE; congr ((_ - _ / _) ^+ 2).
  by apply: eq_bigr => s _; rewrite mE.
have n0 : nnq%:R != 0 :> F by rewrite pnatr_eq0 -lt0n (ltn_trans _ n2).
have n1 : nnq%:R - 1 != 0 :> F by rewrite subr_eq0 -[1]/(1%:R) eqr_nat eq_sym; case: nnq n2 => [|[|]].
congr (_ + _); move: (cs_var d mu) (\tr _) n0 n1 => a b; move: (nnq%:R : F) => n n0 n1.
by ffield F; split; apply/eqP.
Qed.
End Glue.

(* One mover from firm 0 to firm 1 whose wage rises by 2; the cross section has
   one row in each firm. *)
Local Notation Q0 := rat_realFieldType.
Add Field Fq : (field_th rat_realFieldType).

Definition post_ex : post_data Q0 2 1 2 :=
  PostData (fun _ => ord0) (fun _ => ord_max) (fun _ => 0) (fun _ => 2%:R) (fun q => q).
Definition ex_vp : rat := 2%:R.
Definition ex_ve : rat := 4%:R / 3%:R.
Definition ex_mu0 : 'cV[rat]_2 := \col_j (if j == ord0 then 1 else 0).
Definition ex_mu (j : 'I_2) : rat := post_psi (@direct 2) post_ex ex_vp ex_ve ex_mu0 j 0.
Definition sg (b : bool) : rat := if b then 1 else -1.
Definition ex_p (_ : bool * bool) : rat := 4%:R^-1.
Definition ex_psi (o : bool * bool) (j : 'I_2) : rat :=
  ex_mu j + (sg o.1 + (if j == ord0 then 1 else -1) * sg o.2 / 2%:R).
Definition ex_V : 'M[rat]_2 := \matrix_(i, j) (if i == j then 5%:R / 4%:R else 3%:R / 4%:R).

Lemma ex_vp0 : 0 < ex_vp. Proof. by []. Qed.
Lemma ex_ve0 : 0 < ex_ve. Proof. by []. Qed.
Lemma ex_ok : exact_solver (@direct 2) (M post_ex ex_vp ex_ve).
Proof. exact: direct_exact (M_unit _ ex_vp0 ex_ve0). Qed.

Lemma sum_bb (f : bool * bool -> rat) : \sum_o f o = f (true, true) + f (true, false) + (f (false, true) + f (false, false)).
Proof.
have -> : \sum_o f o = \sum_i \sum_j f (i, j) by rewrite pair_bigA; apply: eq_bigr => -[].
by rewrite !big_bool.
Qed.

Lemma ex_posterior : posterior post_ex ex_p ex_psi ex_vp ex_ve (fun j => ex_mu0 j 0) ex_mu.
Proof.
split; [split=> [o|]|split; [|split]].
- by [].
- by rewrite sum_bb /ex_p.
- move=> j; rewrite /Ex sum_bb /ex_p /ex_psi /=; case: eqP => _; move: (ex_mu j) => a; rewrite /sg;
    ffield rat_realFieldType; by [].
- by move=> x; exact: (post_minimises ex_vp0 ex_ve0 ex_ok).
- exists (M post_ex ex_vp ex_ve), ex_V; split; [exact: M_sym|split; [|split]].
  + by move=> x; rewrite (M_curv _ ex_vp0 ex_ve0).
  + apply/matrixP => i j; case: (I2 i) => ->; case: (I2 j) => ->;
      rewrite [LHS]mxE !big_ord_recl big_ord0 !mxE !big_ord_recl !big_ord0 !mxE /= ?big_ord0 /ex_vp /ex_ve; by [|ffield rat_realFieldType; repeat split=> /eqP].
  + move=> j k; rewrite /Ex sum_bb /ex_p /ex_psi mxE /=.
    move: (ex_mu j) (ex_mu k) => a b; case: (I2 j) => ->; case: (I2 k) => -> /=; rewrite /sg;
      ffield rat_realFieldType; by [].
Qed.

Lemma ex_gap : Ex ex_p (fun o => cs_var post_ex (ex_psi o)) - cs_var post_ex ex_mu = 4%:R^-1.
Proof.
rewrite /Ex sum_bb /cs_var /cs_mean /ex_p !big_ord_recl !big_ord0 /ex_psi /= /sg.
move: (ex_mu _) (ex_mu _) => a b; ffield rat_realFieldType; by [].
Qed.

Lemma post_refuted : exists (nf mn nnq : nat) (d : post_data Q0 nf mn nnq) vp ve solve (Om : finType) (p : Om -> rat) psi (mu0 : 'cV[rat]_nf) mu,
  0 < vp /\ 0 < ve /\ exact_solver solve (M d vp ve) /\
  posterior d p psi vp ve (fun j => mu0 j 0) mu /\
  forall k, (0 < k)%N ->
  uniform (fun zs : {ffun 'I_k -> {ffun 'I_nf -> bool}} =>
    posterior_var solve d vp ve mu0 (fun t => signs Q0 (zs t)))
  = Ex p (fun o => cs_var d (psi o)) + 4%:R^-1.
Proof.
exists 2%N, 1%N, 2%N, post_ex, ex_vp, ex_ve, (@direct 2), _, ex_p, ex_psi, ex_mu0, ex_mu.
split; [exact: ex_vp0|split; [exact: ex_ve0|split; [exact: ex_ok|split; [exact: ex_posterior|]]]] => k k0.
rewrite (post_reported ex_vp0 ex_ve0 ex_ok ex_posterior) // ex_gap.
rewrite -[Ex _ _](subrK (cs_var post_ex ex_mu)) ex_gap; move: (cs_var _ _) => a.
ffield rat_realFieldType; by [].
Qed.
