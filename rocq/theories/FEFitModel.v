(* Model of FEEstimator.fit, _collect_res and _save_res in pytwoway/fe.py.  _collect_res and
   _save_res of pytwoway/fecontrol.py (1161-1292) are the same text. *)
From Coq Require Import String.
From Verif Require Import Base MCModel.
Local Open Scope string_scope.
Local Open Scope list_scope.
Local Open Scope res_scope.

(* A dictionary of numbers; d[k] = v keeps the place of an existing key. *)
Definition rdict : Type := list (string * R).
Fixpoint set (k : string) (v : R) (d : rdict) : rdict :=
  match d with
  | [] => [(k, v)]
  | (k', v') :: d => if String.eqb k k' then (k, v) :: d else (k', v') :: set k v d
  end.

(* np.std of the draws of a trace; np.mean is MCModel.mean.  An exact trace is one number, a
   list of length one here. *)
Definition np_std (x : list R) : R := sqrt (mean (map (fun a => (a - mean x) * (a - mean x))%R x)).

Section Collect.
(* sorted() *)
Variable sorted : list string -> list string.

(* fe.py:1149-1156 *)
Definition plug (names : list string) (fe : rdict) (r : rdict) : res rdict :=
  for_each names (fun n r => v <- lookup n fe ;; Ok (set (n ++ "_fe") v r)) r.
(* fe.py:1164-1173 and 1195-1204; m is the text _ho or _he *)
Definition traces (m : string) (names : list string) (tr : list (string * list R)) (r : rdict) : res rdict :=
  for_each names (fun n r => x <- lookup n tr ;;
    Ok (set ("tr_" ++ n ++ m ++ "_sd") (np_std x) (set ("tr_" ++ n ++ m) (mean x) r))) r.
(* fe.py:1176-1183 and 1207-1214; s is sigma_2_ho, or 1 in the heteroskedastic case, where the
   code has no factor *)
Definition correct (m : string) (s : R) (names : list string) (fe : rdict) (r : rdict) : res rdict :=
  for_each names (fun n r => v <- lookup n fe ;; t <- lookup ("tr_" ++ n ++ m) r ;;
    Ok (set (n ++ m) (v - s * t)%R r)) r.
(* self.res[k] = self.res[k] *)
Definition again (k : string) (r : rdict) : res rdict := v <- lookup k r ;; Ok (set k v r).
(* self.summary[k] = self.res[k] *)
Definition copy (r : rdict) (k : string) (s : rdict) : res rdict := v <- lookup k r ;; Ok (set k v s).

(* What the earlier steps have left on the object. *)
Record parts : Type := mkparts {
  sigma_2_fe : R; sigma_2_ho : R; var_fe : rdict; cov_fe : rdict;
  tr_var_ho : list (string * list R); tr_cov_ho : list (string * list R);
  tr_var_he : list (string * list R); tr_cov_he : list (string * list R) }.

(* fe.py:1226-1247 *)
Definition summarise (ho he : bool) (names : list string) (r s : rdict) : res rdict :=
  for_each names (fun n s =>
    s <- copy r (n ++ "_fe") s ;;
    s <- (if ho then copy r (n ++ "_ho") s else Ok s) ;;
    if he then copy r (n ++ "_he") s else Ok s) s.

(* fe.py:1133-1247: (self.res, self.summary) *)
Definition collect_res (ho he : bool) (p : parts) (r : rdict) (s : rdict) : res (rdict * rdict) :=
  r <- again "var(y)" r ;;
  let var_names := sorted (map fst (var_fe p)) in
  let cov_names := sorted (map fst (cov_fe p)) in
  let r := set "var(eps)_fe" (sigma_2_fe p) r in
  r <- plug var_names (var_fe p) r ;;
  r <- plug cov_names (cov_fe p) r ;;
  r <- (if ho then
          let r := set "var(eps)_ho" (sigma_2_ho p) r in
          r <- traces "_ho" var_names (tr_var_ho p) r ;;
          r <- traces "_ho" cov_names (tr_cov_ho p) r ;;
          r <- correct "_ho" (sigma_2_ho p) var_names (var_fe p) r ;;
          correct "_ho" (sigma_2_ho p) cov_names (cov_fe p) r
        else Ok r) ;;
  r <- (if he then
          r <- again "var(eps)_he" r ;;
          r <- again "min_lev" r ;;
          r <- again "max_lev" r ;;
          r <- traces "_he" var_names (tr_var_he p) r ;;
          r <- traces "_he" cov_names (tr_cov_he p) r ;;
          r <- correct "_he" 1 var_names (var_fe p) r ;;
          correct "_he" 1 cov_names (cov_fe p) r
        else Ok r) ;;
  s <- copy r "var(y)" s ;;
  s <- copy r "var(eps)_fe" s ;;
  s <- (if ho then copy r "var(eps)_ho" s else Ok s) ;;
  s <- (if he then copy r "var(eps)_he" s else Ok s) ;;
  s <- summarise ho he var_names r s ;;
  s <- summarise ho he cov_names r s ;;
  Ok (r, s).
End Collect.

(* fe.py:1249-1264: what is left in self.res; values are numbers or text. *)
Inductive value : Type := Num (x : R) | Text (s : string).
Definition save_res (str : value -> string) (outputfile : option string) (r : list (string * value))
  : list (string * value) :=
  match outputfile with
  | Some _ => map (fun kv => (fst kv, Text (str (snd kv)))) r
  | None => r
  end.

(* ---- fe.py:280-404: which attributes each step of fit reads, stores and deletes ---- *)
Record fopts : Type := mkfopts {
  o_weighted : bool; o_ho : bool; o_he : bool; o_statsonly : bool; o_feonly : bool; o_attach : bool;
  o_exact_sigma : bool; o_exact_ho : bool; o_exact_lev : bool; o_exact_he : bool;
  o_levfile : bool;   (* levfile is not empty *)
  o_amg : bool;       (* solver == 'amg' *)
  o_gamma : bool;     (* Q_var includes VarPsiPlusAlpha *)
  o_empty : bool      (* the list given as Q_var or as Q_cov is empty *) }.

(* Attributes; those always stored and deleted together are one. *)
Inductive attr : Type :=
  | Amover   (* worker_m *)
  | Amats    (* Y, J, DpJ, W, DpW, Dp, Dwinv, DwinvWtDpJ, Minv *)
  | Asqrt    (* sqrt_DpJ, sqrt_DpW *)
  | Asolver  (* Minv_solver *)
  | Apcd     (* preconditioner *)
  | Aols     (* psi_hat, alpha_hat *)
  | Aresid   (* E, sigma_2_fe *)
  | AQ       (* Q_var, Q_cov *)
  | Aplug    (* var_fe, cov_fe *)
  | Ainv     (* AA_inv_A, AA_inv_B, AA_inv_C, AA_inv_D *)
  | Atrsig   (* tr_sigma_ho_all *)
  | Asigho   (* sigma_2_ho *)
  | Atrho    (* tr_var_ho_all, tr_cov_ho_all *)
  | Alev     (* res['min_lev'], res['max_lev'] *)
  | Aepshe   (* res['var(eps)_he'] *)
  | Atrhe.   (* tr_var_he_all, tr_cov_he_all *)
Definition attr_eqb (a b : attr) : bool :=
  match a, b with
  | Amover, Amover | Amats, Amats | Asqrt, Asqrt | Asolver, Asolver | Apcd, Apcd | Aols, Aols
  | Aresid, Aresid | AQ, AQ | Aplug, Aplug | Ainv, Ainv | Atrsig, Atrsig | Asigho, Asigho
  | Atrho, Atrho | Alev, Alev | Aepshe, Aepshe | Atrhe, Atrhe => true
  | _, _ => false
  end.
Definition store : Type := attr -> bool.
Definition put (a : attr) (s : store) : store := fun b => if attr_eqb a b then true else s b.
Definition need (a : attr) (s : store) : res store := if s a then Ok s else Err AttributeError.
Definition del (a : attr) (s : store) : res store :=
  if s a then Ok (fun b => if attr_eqb a b then false else s b) else Err AttributeError.

Section Fit.
Variable o : fopts.

(* _mult_AAinv (1340-1371) *)
Definition mult_AAinv (s : store) : res store :=
  s <- need Amats s ;; if o_amg o then need Asolver s else need Apcd s.
(* _prep_vars, _prep_matrices (406-548) *)
Definition prep (s : store) : store :=
  let s := put Amats (put Amover s) in
  let s := if o_he o && negb (o_levfile o) then put Asqrt s else s in
  if o_statsonly o then s else if o_amg o then put Asolver s else put Apcd s.
(* _construct_AAinv_components_full (1266-1280) if not done before *)
Definition construct (done : bool) (s : store) : res store :=
  if done then Ok s else s <- need Amats s ;; Ok (put Ainv s).
(* 327-351: the store and aainv *)
Definition ho_step (s : store) : res (store * bool) :=
  ' (s, done) <- (if o_weighted o then
                    if o_exact_sigma o then
                      s <- construct false s ;; s <- need Ainv s ;; s <- need Amats s ;; Ok (put Atrsig s, true)
                    else s <- mult_AAinv s ;; Ok (put Atrsig s, false)
                  else Ok (s, false)) ;;
  s <- need Aresid s ;;
  s <- (if o_weighted o then s <- need Atrsig s ;; need Amats s else Ok s) ;;
  let s := put Asigho s in
  if o_exact_ho o then
    s <- construct done s ;; s <- need Ainv s ;;
    if o_gamma o then Err NotImplementedError else Ok (put Atrho s, true)
  else s <- mult_AAinv s ;; s <- need AQ s ;;
    (* 921, 934: del L_var, del L_cov after a loop that has not run *)
    if o_empty o then Err UnboundLocalError else Ok (put Atrho s, done).
(* 353-380 *)
Definition he_step (done : bool) (s : store) : res (store * bool) :=
  let exact := o_exact_lev o || o_exact_he o in
  s <- (if exact then construct done s else Ok s) ;;
  s <- (if o_levfile o then s <- need Amover s ;; Ok (put Alev s)
        else if o_exact_lev o then
          s <- need Asqrt s ;; s <- need Amover s ;; s <- need Ainv s ;; Ok (put Alev s)
        else s <- need Asqrt s ;; s <- mult_AAinv s ;; s <- need Amover s ;; Ok (put Alev s)) ;;
  s <- need Amover s ;; s <- need Amats s ;; s <- need Aresid s ;;
  let s := put Aepshe s in
  s <- (if o_exact_he o then
          s <- need Amats s ;; s <- need Asqrt s ;; s <- need Ainv s ;;
          if o_gamma o then Err NotImplementedError else Ok (put Atrhe s)
        else s <- mult_AAinv s ;; s <- need AQ s ;;
          (* 1113, 1126 *)
          if o_empty o then Err UnboundLocalError else Ok (put Atrhe s)) ;;
  s <- (if o_levfile o then Ok s else del Asqrt s) ;;
  Ok (s, done || exact).
(* 317-387; the reads of _collect_res at the end *)
Definition full (s : store) : res store :=
  s <- need Amats s ;; s <- need Aols s ;; let s := put Aresid s in
  let s := put AQ s in
  s <- need Aols s ;; s <- need AQ s ;; let s := put Aplug s in
  ' (s, done) <- (if o_ho o then ho_step s else Ok (s, false)) ;;
  ' (s, done) <- (if o_he o then he_step done s else Ok (s, done)) ;;
  s <- del AQ s ;;
  s <- (if done : bool then del Ainv s else Ok s) ;;
  s <- need Aplug s ;; s <- need Aresid s ;;
  s <- (if o_ho o then s <- need Asigho s ;; need Atrho s else Ok s) ;;
  if o_he o then s <- need Alev s ;; s <- need Aepshe s ;; need Atrhe s else Ok s.
(* 280-404; the numerical work of each step is taken to succeed *)
Definition fit_flow (s : store) : res store :=
  let s := prep s in
  s <- need Amover s ;; s <- need Amats s ;;
  s <- (if o_statsonly o then Ok s else
          s <- mult_AAinv s ;; let s := put Aols s in
          s <- (if o_attach o then need Aols s else Ok s) ;;
          if o_feonly o then Ok s else full s) ;;
  s <- del Amover s ;; s <- del Amats s ;;
  if o_statsonly o then Ok s else if o_amg o then del Asolver s else del Apcd s.
End Fit.
