(* C101, C102, C103: the preconditioners of the estimators. *)
Set Warnings "-notation-overridden,-ambiguous-paths".
From mathcomp Require Import all_ssreflect all_algebra.
From Verif Require Base.
From Verif Require Import FEModel FESpec FECases FECtlModel FERegModel PrecModel PrecSpec PrecLemmas PrecPropLemmas PrecGridLemmas.

Set Implicit Arguments.
Unset Strict Implicit.
Unset Printing Implicit Defensive.

Import GRing.Theory Num.Theory.
Local Open Scope ring_scope.

(* ---- C101 ---- *)
(* The V-cycle as the estimators call it, with the shape (n, 1), makes no correction on
   a coarser grid: it is the sweeps of damped Jacobi before and after, whatever the
   solver of the coarse systems and the matrix, if the solver accepts a system without
   unknowns; otherwise it always raises. *)
Theorem C101_no_coarse_refuted (F : realFieldType) spsolve npre npost (om : F) fuel n (A : 'M[F]_n) r :
  (1 < fuel)%N ->
  (solves_empty spsolve -> (0 < n)%N ->
     fe_vcycle spsolve npre npost om fuel A r = Base.Ok (damped om A r (npre + npost))) /\
  (forall e, (forall k (B : 'M[F]_k) b, k = 0%N -> spsolve k B b = Base.Err e) ->
     fe_vcycle spsolve npre npost om fuel A r = Base.Err e).
Proof. exact (fun fu => conj (fun se n0 => fe_vcycle_E npre npost om A r se fu n0)
  (fun e se => empty_err npre npost om A se fu r)). Qed.

(* With a two-dimensional shape there is one.  With as many sweeps before as after, a
   symmetric matrix and a solver that is symmetric or raises, the V-cycle on any shape is
   a symmetric linear map or always raises the same error. *)
Theorem C101_symmetric (F : realFieldType) (spsolve : forall n, 'M[F]_n -> 'cV[F]_n -> Base.res 'cV[F]_n)
    (om : F) sweeps direct fuel h w n (A : 'M[F]_n) :
  solves_symmetric spsolve -> symmetric A ->
  (exists B, symmetric B /\
     forall b, vcycle_step spsolve sweeps sweeps om direct fuel h w A b = Base.Ok (B *m b)) \/
  (exists e, forall b, vcycle_step spsolve sweeps sweeps om direct fuel h w A b = Base.Err e).
Proof. exact (fun ss sA => cycle_sym om (erefl sweeps) ss direct fuel h w sA). Qed.

(* After an exact solution on the coarse grid nothing of the residual is left there. *)
Theorem C101_coarse (F : realFieldType) (spsolve : forall n, 'M[F]_n -> 'cV[F]_n -> Base.res 'cV[F]_n)
    npre (om : F) direct fuel h w n (A : 'M[F]_n) b x :
  (direct < h * w)%N -> (h %/ 2 * (w %/ 2) <= direct)%N ->
  (forall k (M : 'M[F]_k) c y, spsolve k M c = Base.Ok y -> M *m y = c) ->
  vcycle_step spsolve npre 0 om direct fuel h w A b = Base.Ok x ->
  downsample F h w n *m (b - A *m x) = 0.
Proof. exact (@galerkin F spsolve npre om direct fuel h w n A b x). Qed.

(* The coarse grid halves both dimensions; cell (x, y) of it averages the three by three
   cells around (2 x, 2 y), with weights a half and twice a quarter in each dimension
   (cells are numbered row by row). *)
Theorem C101_weights (F : realFieldType) h w n i j :
  downsample F h w n i j = tent F (j %% w) (i %% (w %/ 2)) * tent F (j %/ w) (i %/ (w %/ 2)).
Proof. exact (@downsampleE F h w n i j). Qed.

(* ---- C102 ---- *)
(* FEEstimator: on the matrix of the regression both preconditioners are symmetric and
   positive definite, as conjugate gradients need. *)
Theorem C102_fe (F : realFieldType) sq nn nf1 nw (d : frame F nn nf1 nw) :
  positive_weights d -> workers_observed d -> connected d ->
  (forall atol, spd_operator (fun r => Base.Ok (jacobi atol (Minv sq d) r))) /\
  (forall spsolve npre npost om fuel, solves_empty spsolve -> (1 < fuel)%N -> (0 < nf1)%N ->
     0 < om -> om < 1 -> (0 < npre + npost)%N ->
     spd_operator (fe_vcycle spsolve npre npost om fuel (Minv sq d))).
Proof. exact (@fe_prec F sq nn nf1 nw d). Qed.

(* ---- C103 ---- *)
(* FEControlEstimator: no column of zeros.  Jacobi is symmetric positive definite. *)
Theorem C103_jacobi (F : realFieldType) sq (N : eqType) (npsi nalpha : N) (d : cdata F N) atol :
  (forall c, 0 < \sum_r rDp r * A_mx npsi nalpha d r c ^+ 2) ->
  spd_operator (fun r => Base.Ok (jacobi atol (AtDpA sq npsi nalpha d) r)).
Proof. exact (fun ne => ctl_jacobi sq ne atol). Qed.

(* So is the V-cycle if omega is below 2 / (2 + number of control columns). *)
Theorem C103_small_omega (F : realFieldType) sq (N : eqType) (npsi nalpha : N) (d : cdata F N)
    spsolve npre npost om fuel :
  (forall c, 0 < \sum_r rDp r * A_mx npsi nalpha d r c ^+ 2) ->
  solves_empty spsolve -> (1 < fuel)%N -> (0 < n_cov npsi nalpha d)%N -> (0 < npre + npost)%N ->
  (forall r : 'I_(c_nn d), 0 <= @rDp F N d r) ->
  0 < om -> om * (2 + size (c_cats d) + size (flatten (c_cts d)))%:R < 2%:R ->
  spd_operator (fe_vcycle spsolve npre npost om fuel (AtDpA sq npsi nalpha d)).
Proof. exact (fun ne se fu k0 m0 w0 o0 o2 => ctl_few sq ne se fu k0 m0 w0 o0 o2). Qed.

(* With the default numbers of sweeps, exactly if omega times the sum of squares fitted by
   any coefficients is below twice the sum of the squares fitted by them one at a time. *)
Theorem C103_when (F : realFieldType) sq (N : eqType) (npsi nalpha : N) (d : cdata F N)
    spsolve npre npost om fuel :
  (forall c, 0 < \sum_r rDp r * A_mx npsi nalpha d r c ^+ 2) ->
  solves_empty spsolve -> (1 < fuel)%N -> (0 < n_cov npsi nalpha d)%N -> (npre + npost = 2)%N -> 0 < om ->
  spd_operator (fe_vcycle spsolve npre npost om fuel (AtDpA sq npsi nalpha d)) <->
  (forall y : 'cV[F]_(n_cov npsi nalpha d), y != 0 ->
     om * (\sum_r rDp r * (\sum_c A_mx npsi nalpha d r c * y c 0) ^+ 2)
     < 2%:R * \sum_c (\sum_r rDp r * A_mx npsi nalpha d r c ^+ 2) * y c 0 ^+ 2).
Proof. exact (fun ne se fu k0 m2 o0 => ctl_when sq ne se fu k0 m2 o0). Qed.

(* But with the default options the V-cycle need not be positive definite, though the
   matrix of the regression is: here with one categorical control. *)
Theorem C103_default_refuted (F : realFieldType) (sq : F -> F) spsolve fuel :
  solves_empty spsolve -> (1 < fuel)%N ->
  exists d : cdata F nat_eqType,
    c_w d = None /\ size (c_cats d) = 1%N /\ c_cts d = [::] /\
    pos_def (AtDpA sq 0%N 1%N d) /\
    exists r x, fe_vcycle spsolve 1 1 (4%:R / 5%:R) fuel (AtDpA sq 0%N 1%N d) r = Base.Ok x /\ dot r x < 0.
Proof. exact (@ctl_bad F sq spsolve fuel). Qed.

Print Assumptions C101_no_coarse_refuted.
Print Assumptions C101_symmetric.
Print Assumptions C101_coarse.
Print Assumptions C101_weights.
Print Assumptions C102_fe.
Print Assumptions C103_jacobi.
Print Assumptions C103_small_omega.
Print Assumptions C103_when.
Print Assumptions C103_default_refuted.

(* ---- cases ---- *)
Section Cases.
Variable F : realFieldType.
(* A 2 x 2 grid is averaged into one cell with the weights 4, 2, 2, 1 of 16. *)
Example C101_case : downsample F 2 2 4 0 (@Ordinal 4 0 isT) = 4%:R / 16%:R /\
  downsample F 2 2 4 0 (@Ordinal 4 3 isT) = 1 / 16%:R /\
  (1 < 2 * 2)%N /\ (2 %/ 2 * (2 %/ 2) <= 1)%N /\ symmetric (1%:M : 'M[F]_4) /\
  solves_symmetric (@inv_solve F) /\ solves_empty (@inv_solve F).
Proof.
rewrite !mxE !big_ord_recl !big_ord0 /= ?add0r ?addr0; do 4 (split; first by []).
split; first by move=> i j; rewrite !mxE eq_sym.
by split; [exact: inv_sym|exact: inv_empty].
Qed.
Example C102_case :
  spd_operator (fe_vcycle (@inv_solve rat_realFieldType) 1 1 (4%:R / 5%:R) 2 (Minv sq4 d4)).
Proof.
by apply: (proj2 (C102_fe sq4 d4_pos d4_obs d4_con)) => //; exact: inv_empty.
Qed.
(* The bad data of C103 again, with omega 1 / 2. *)
Example C103_case (sq : F -> F) :
  spd_operator (fe_vcycle (@inv_solve F) 1 1 (2%:R^-1) 2 (AtDpA sq 0%N 1%N (bad_data F))).
Proof.
apply: C103_small_omega => //.
- by move=> c; rewrite -(ata_diag sq); apply: PrecFeLemmas.pd_diag; exact: bad_pd.
- exact: inv_empty.
- by move=> r; exact: ler01.
- by rewrite invr_gt0 ltr0n.
by rewrite mulrC ltr_pdivr_mulr ?ltr0n // -natrM ltr_nat.
Qed.
End Cases.
