(* C32-C34: the estimator with controls, its column layout, its clustered standard
   errors and the components of named covariates. *)
Set Warnings "-notation-overridden,-ambiguous-paths".
From mathcomp Require Import all_ssreflect all_algebra.
From Verif Require Base.
From Verif Require Import FEModel FESpec FECtlModel FECtlSpec FECtlLemmas FECtlNameLemmas
  FECtlPropLemmas.

Set Implicit Arguments.
Unset Strict Implicit.
Unset Printing Implicit Defensive.

Import GRing.Theory Num.Theory.
Local Open Scope ring_scope.

Section C32.
Variable F : realFieldType.
Variable N : eqType.
Variables npsi nalpha : N.
Variable d : cdata F N.
Local Notation bs := (blocks npsi nalpha d).

(* Every covariate owns the columns after those of the covariates before it. *)
Theorem C32_layout before b after :
  names_ok npsi nalpha d -> bs = before ++ b :: after ->
  dget (cov_indices npsi nalpha d) b.1
  = Base.Ok (first_col before, (first_col before + width b.2)%N).
Proof. by move=> nok; exact: c_layout. Qed.

(* The columns of the design matrix in that place are the covariate's own, and
   there are as many columns in all as coefficients. *)
Theorem C32_columns before b after c r :
  names_ok npsi nalpha d -> bs = before ++ b :: after -> (c < width b.2)%N ->
  nth 0 (A_row npsi nalpha d r) (first_col before + c) = column_entry b.2 c r.
Proof. by move=> nok; exact: c_columns. Qed.

Theorem C32_width r :
  names_ok npsi nalpha d ->
  size (A_row npsi nalpha d r) = first_col bs /\ n_cov npsi nalpha d = first_col bs.
Proof. by move=> nok; rewrite size_A_row // n_covE. Qed.

(* The attached columns are the effects of the covariates, one each, in order;
   their sum in a row is the design row times the coefficients. *)
Theorem C32_attached gh r :
  names_ok npsi nalpha d ->
  [seq (c.1, c.2 r) | c <- attach_all npsi nalpha d gh] = effects npsi nalpha d gh r.
Proof. by move=> nok; exact: attach_effects. Qed.

Theorem C32_fitted gh r :
  names_ok npsi nalpha d -> ids_ok npsi nalpha d -> (r < c_nn d)%N ->
  size gh = n_cov npsi nalpha d ->
  \sum_(c <- attach_all npsi nalpha d gh) c.2 r = A_mul npsi nalpha d gh r.
Proof. by move=> nok iok; exact: attach_sum. Qed.

(* A categorical control of more than one subcolumn is refused, and no other data
   is. *)
Theorem C32_refused :
  (prep_vars npsi nalpha d = Base.Ok (n_cov npsi nalpha d)
    /\ forall c, c \in [seq cat_sub c | c <- c_cats d] -> (c <= 1)%N)
  \/ (prep_vars npsi nalpha d = Base.Err Base.NotImplementedError
    /\ exists c, c \in [seq cat_sub c | c <- c_cats d] /\ (1 < c)%N).
Proof. exact: p_prep. Qed.
End C32.

Print Assumptions C32_layout.
Print Assumptions C32_columns.
Print Assumptions C32_width.
Print Assumptions C32_attached.
Print Assumptions C32_fitted.
Print Assumptions C32_refused.

(* Row 2 of the example: firm 2, worker 1, category 1, covariate 5. *)
Example C32_case :
  names_ok (0%N : nat_eqType) 1%N cd /\ ids_ok (0%N : nat_eqType) 1%N cd
  /\ size cd_gh = n_cov (0%N : nat_eqType) 1%N cd
  /\ A_mul (0%N : nat_eqType) 1%N cd cd_gh 2 = 2%:R + 4%:R + 5%:R + 6%:R * 5%:R
  /\ dget (cov_indices (0%N : nat_eqType) 1%N cd) 2%N = Base.Ok (4%N, 5%N).
Proof. by split; [exact: cd_names | split; first exact: cd_ids]. Qed.

Section C33.
Variable F : realFieldType.
Variable N : eqType.
Variables npsi nalpha : N.
Variable d : cdata F N.
Local Notation bs := (blocks npsi nalpha d).
Local Notation known k := (k \in [seq b.1 | b <- bs]).

(* The full statement, that the clustered variance sums over the pairs of rows
   that share a value of a clustering column, is false in general (below).  The
   code's sum counts a shared value only when it is not the normalised category
   0 of its column. *)
Theorem C33_partial names E u :
  names_ok npsi nalpha d -> ids_ok npsi nalpha d ->
  names != [::] -> all (fun k => known k) names -> categorical npsi nalpha d names ->
  clustered_var npsi nalpha d names E u
  = Base.Ok (\sum_(0 <= r < c_nn d) \sum_(0 <= s < c_nn d | share_counted npsi nalpha d names r s)
       (E r * u r) * (E s * u s)).
Proof. by move=> nok iok; exact: clustered_varE. Qed.

(* The cluster names 'i' and 'j' stand for workers and firms, and both are the
   default.  Firm 0 is the normalised one. *)
Theorem C33_names_partial ni nj E u :
  names_ok npsi nalpha d -> ids_ok npsi nalpha d -> ni != nj ->
  let S same := Base.Ok (\sum_(0 <= r < c_nn d) \sum_(0 <= s < c_nn d | same r s)
                           (E r * u r) * (E s * u s)) in
  let cv c := clustered_var npsi nalpha d (se_clusters npsi nalpha ni nj c) E u in
  [/\ cv (Some [:: ni]) = S (fun r s => c_i d r == c_i d s),
      cv (Some [:: nj]) = S (fun r s => (c_j d r == c_j d s) && (c_j d r != 0%N)),
      cv (Some [:: ni; nj]) = cv None
    & cv None = S (fun r s => (c_i d r == c_i d s) || (c_j d r == c_j d s) && (c_j d r != 0%N))].
Proof. exact: (fun nok iok => @p_clusters _ _ _ _ _ nok iok ni nj E u). Qed.

(* The full statement holds when no row is in a normalised category, for example
   when clustering by worker. *)
Theorem C33_full_partial names E u :
  names_ok npsi nalpha d -> ids_ok npsi nalpha d ->
  names != [::] -> all (fun k => known k) names -> categorical npsi nalpha d names ->
  (forall r, (r < c_nn d)%N ->
     all (fun b : N * block F => (b.1 \in names) ==> ~~ normalised_away b.2 r) bs) ->
  clustered_var npsi nalpha d names E u
  = Base.Ok (\sum_(0 <= r < c_nn d) \sum_(0 <= s < c_nn d | share npsi nalpha d names r s)
       (E r * u r) * (E s * u s)).
Proof. by move=> nok iok; exact: c_cluster_full. Qed.

(* When every row is in the normalised category of every clustering column, all
   rows are in one cluster and the code's variance is 0 whatever the residuals. *)
Theorem C33_zero_refuted names E u :
  names_ok npsi nalpha d -> ids_ok npsi nalpha d ->
  names != [::] -> all (fun k => known k) names -> categorical npsi nalpha d names ->
  (forall r, (r < c_nn d)%N ->
     all (fun b : N * block F => (b.1 \in names) ==> normalised_away b.2 r) bs) ->
  clustered_var npsi nalpha d names E u = Base.Ok 0.
Proof. by move=> nok iok; exact: c_cluster_zero. Qed.

End C33.

Theorem C33_refuted :
  exists (d : cdata rat_realFieldType nat_eqType) (names : seq nat) (E u : nat -> rat),
    [/\ names_ok (0%N : nat_eqType) 1%N d, ids_ok (0%N : nat_eqType) 1%N d, names = [:: 0%N]
      & clustered_var (0%N : nat_eqType) 1%N d names E u
        <> Base.Ok (\sum_(0 <= r < c_nn d) \sum_(0 <= s < c_nn d
              | share (0%N : nat_eqType) 1%N d names r s) (E r * u r) * (E s * u s))].
Proof.
exists ce, [:: 0%N], (fun _ => 1), (fun _ => 1).
by split; [exact: ce_names|exact: ce_ids| |exact: c_cluster_refuted].
Qed.

Print Assumptions C33_partial.
Print Assumptions C33_names_partial.
Print Assumptions C33_full_partial.
Print Assumptions C33_zero_refuted.
Print Assumptions C33_refuted.

(* Rows 0 and 1 share a worker; rows 0 and 3 share firm 0, which is not counted;
   clustering by worker satisfies the condition of C33_full_partial. *)
Example C33_case :
  share_counted (0%N : nat_eqType) 1%N cd [:: 0%N; 1%N] 0 1
  /\ share (0%N : nat_eqType) 1%N cd [:: 0%N; 1%N] 0 3
  /\ ~~ share_counted (0%N : nat_eqType) 1%N cd [:: 0%N; 1%N] 0 3
  /\ categorical (0%N : nat_eqType) 1%N cd [:: 0%N; 1%N]
  /\ forall r, all (fun b => (b.1 \in [:: 1%N]) ==> ~~ normalised_away b.2 r)
        (blocks (0%N : nat_eqType) 1%N cd).
Proof. by []. Qed.

Section C34.
Variable F : realFieldType.
Variable N : eqType.
Variables npsi nalpha : N.
Variable d : cdata F N.
Variable sq : F -> F.
Local Notation bs := (blocks npsi nalpha d).

(* The value in a row is the total effect of the named covariates and of no
   others. *)
Theorem C34_effect names gh :
  names_ok npsi nalpha d -> ids_ok npsi nalpha d ->
  good_names npsi nalpha d names -> size gh = n_cov npsi nalpha d ->
  exists f, covariate_effect npsi nalpha d names gh = Base.Ok f
    /\ forall r, (r < c_nn d)%N -> f r = named_effect npsi nalpha d names gh r.
Proof. by move=> nok iok; exact: covariate_effectE. Qed.

Theorem C34_duplicates names gh :
  ~~ uniq names -> covariate_effect npsi nalpha d names gh = Base.Err Base.ValueError.
Proof. exact: covariate_dup. Qed.

Theorem C34_unknown names gh :
  names_ok npsi nalpha d -> uniq names -> has (fun k => k \notin [seq b.1 | b <- bs]) names ->
  covariate_effect npsi nalpha d names gh = Base.Err Base.KeyError.
Proof. by move=> nok; exact: covariate_unknown. Qed.

(* The variance and covariance are the weighted moments of those effects. *)
Theorem C34_var names gh :
  names_ok npsi nalpha d -> ids_ok npsi nalpha d ->
  good_names npsi nalpha d names -> size gh = n_cov npsi nalpha d ->
  ctl_var_fe npsi nalpha d names gh
  = Base.Ok (var_w (cwgt (d := d)) (fun r => named_effect npsi nalpha d names gh r)).
Proof. by move=> nok iok; exact: c_var. Qed.

Theorem C34_cov n1 n2 gh :
  names_ok npsi nalpha d -> ids_ok npsi nalpha d ->
  (forall w r, c_w d = Some w -> (r < c_nn d)%N -> sq (w r * w r) = w r) ->
  good_names npsi nalpha d n1 -> good_names npsi nalpha d n2 -> size gh = n_cov npsi nalpha d ->
  ctl_cov_fe npsi nalpha d sq n1 n2 gh
  = Base.Ok (cov_w (cwgt (d := d)) (fun r => named_effect npsi nalpha d n1 gh r)
                                   (fun r => named_effect npsi nalpha d n2 gh r)).
Proof. by move=> nok iok sqok; exact: c_cov. Qed.

Theorem C34_symmetric n1 n2 gh :
  names_ok npsi nalpha d -> ids_ok npsi nalpha d ->
  (forall w r, c_w d = Some w -> (r < c_nn d)%N -> sq (w r * w r) = w r) ->
  good_names npsi nalpha d n1 -> good_names npsi nalpha d n2 -> size gh = n_cov npsi nalpha d ->
  ctl_cov_fe npsi nalpha d sq n1 n2 gh = ctl_cov_fe npsi nalpha d sq n2 n1 gh.
Proof. by move=> nok iok sqok; exact: c_sym. Qed.

End C34.

Print Assumptions C34_effect.
Print Assumptions C34_duplicates.
Print Assumptions C34_unknown.
Print Assumptions C34_var.
Print Assumptions C34_cov.
Print Assumptions C34_symmetric.

(* The categorical and the continuous control together, in row 2. *)
Example C34_case :
  good_names (0%N : nat_eqType) 1%N cd [:: 3%N; 2%N]
  /\ named_effect (0%N : nat_eqType) 1%N cd [:: 3%N; 2%N] cd_gh 2 = 5%:R + 6%:R * 5%:R
  /\ good_names (0%N : nat_eqType) 1%N cd [:: 0%N]
  /\ ~~ good_names (0%N : nat_eqType) 1%N cd [:: 0%N; 0%N].
Proof. by rewrite /named_effect /effects /= !big_cons big_nil. Qed.
