(* Model of how pytwoway/blm.py runs the estimation: the loop over lowest firm
   types in fit_movers, the phases of fit_movers_cstr_uncstr, fit_A, fit_S and
   fit_pk, and the choice among starting values in BLMEstimator.fit. *)
From Verif Require Import Base ConsModel.
Local Open Scope res_scope.
Local Open Scope R_scope.

(* ------------------------------------------------------------------ *)
(* sorted(..., reverse=True, key=...): Python's sort is stable, also with
   reverse=True, so of two equal keys the earlier one stays first. *)
Section Sorted.
Context {A : Type} (key : A -> R).
Fixpoint insert_desc (x : A) (l : list A) : list A :=
  match l with
  | [] => [x]
  | y :: r => if Rle_dec (key y) (key x) then x :: l else y :: insert_desc x r
  end.
Definition sorted_desc (l : list A) : list A := fold_right insert_desc [] l.
End Sorted.

(* BLMEstimator.fit, blm.py:2413-2450, after the models have been estimated.  A
   model is any value with a likelihood lik1, a path of likelihoods liks1 and a
   connectedness measure (None until computed). *)
Section Select.
Context {M : Type} (lik1 : M -> R) (liks1 : M -> list R) (connectedness : M -> option R).

(* sorted_zipped_models and sorted_lik_models, blm.py:2414-2415 *)
Definition has_conn (m : M) : bool := match connectedness m with Some _ => true | None => false end.
Definition sorted_lik_models (models : list M) : list M :=
  sorted_desc lik1 (filter has_conn models).

(* model.connectedness where it is known not to be None *)
Definition conn_val (m : M) : R := match connectedness m with Some c => c | None => 0 end.

Record fitted : Type := mkfitted {
  f_model : M;
  f_liks_high : list R; f_connectedness_high : list R;
  f_liks_low : list R; f_connectedness_low : list R;
  f_liks_all : list (list R)
}.

(* arr[i] = v *)
Definition lset (i : nat) (v : R) (l : list R) : res (list R) :=
  if (i <? length l)%nat then Ok (firstn i l ++ v :: skipn (S i) l) else Err IndexError.

(* n_init is the number of models.  np.zeros of a negative size raises
   ValueError (2423); [0] of an empty list raises IndexError (2445). *)
Definition select (models : list M) (n_best : nat) : res fitted :=
  let n_init := length models in
  let sorted := sorted_lik_models models in
  if (n_init <? n_best)%nat then Err ValueError else
  ' (lh, ch, ll, cl) <- for_each (enumerate sorted) (fun im st =>
      let '(i, m) := im in
      let '(lh, ch, ll, cl) := st in
      if (i <? n_best)%nat
      then lh <- lset i (lik1 m) lh ;; ch <- lset i (conn_val m) ch ;; Ok (lh, ch, ll, cl)
      else ll <- lset (i - n_best) (lik1 m) ll ;;
           cl <- lset (i - n_best) (conn_val m) cl ;; Ok (lh, ch, ll, cl))
    (full n_best 0, full n_best 0, full (n_init - n_best) 0, full (n_init - n_best) 0) ;;
  match sorted_desc conn_val (firstn n_best sorted) with
  | [] => Err IndexError
  | best :: _ => Ok (mkfitted best lh ch ll cl (map liks1 sorted))
  end.

(* fit_movers with force_min_firm_type, blm.py:1238-1271: fit k is the copy of
   the model estimated with lowest firm type k (it starts from copies of the
   same initial values for each k).  Without firm types best_model is None and
   best_model.A1 raises AttributeError. *)
Definition force_min (fit : nat -> res M) (nk : nat) : res M :=
  best <- for_each (range nk) (fun k best =>
      m <- fit k ;;
      match best with
      | None => Ok (Some m)
      | Some b => if Rlt_dec (lik1 b) (lik1 m) then Ok (Some m) else Ok (Some b)
      end) None ;;
  match best with None => Err AttributeError | Some b => Ok b end.
End Select.

(* ------------------------------------------------------------------ *)
(* The parameter dictionary: the keys the phases write (update_a, update_s,
   update_pk1 and cons_a_all), and the others. *)
Record cfg (X : Type) : Type := mkcfg {
  do_a : bool; do_s : bool; do_pk1 : bool;
  cons_a_all : option (list cobj);
  other : X
}.
Arguments mkcfg {X}. Arguments do_a {X}. Arguments do_s {X}.
Arguments do_pk1 {X}. Arguments cons_a_all {X}. Arguments other {X}.

Definition set_updates {X} (a s k : bool) (c : cfg X) : cfg X :=
  mkcfg a s k (cons_a_all c) (other c).
Definition set_update_a {X} (a : bool) (c : cfg X) : cfg X :=
  mkcfg a (do_s c) (do_pk1 c) (cons_a_all c) (other c).
Definition set_cons {X} (cs : option (list cobj)) (c : cfg X) : cfg X :=
  mkcfg (do_a c) (do_s c) (do_pk1 c) cs (other c).

(* A model object: its parameters and the rest of its state.  A method ends
   normally or with an exception, and has changed the object in both cases. *)
Section Phases.
Context {X M : Type}.
Record obj : Type := mkobj { params : cfg X; rest : M }.
Definition with_params (c : cfg X) (s : obj) : obj := mkobj c (rest s).

(* fit_movers(jdata, compute_NNm) as a transformer of the whole object, the
   parameters included, and compute_connectedness_measure; [nan] says whether
   pk1 has nan entries.  All four are parameters of the model. *)
Variable nl : nat.
Variable fit_movers : bool -> obj -> obj * option exc.
Variable connectedness_measure : obj -> obj * option exc.
Variable nan : obj -> bool.

(* first; then *)
Definition andthen (r : obj * option exc) (k : obj -> obj * option exc) : obj * option exc :=
  match snd r with Some e => (fst r, Some e) | None => k (fst r) end.

(* StationaryFirmTypeVariation() and LinearAdditive() with their defaults *)
Definition lin_add : cobj := CLinearAdditive None 2.
Definition stat_var : cobj := CStationaryFirmTypeVariation None 2.
(* user constraints with one more appended, blm.py:2120-2123 and 2131-2134 *)
Definition plus_cons (user : option (list cobj)) (c : cobj) : option (list cobj) :=
  match user with None => Some [c] | Some l => Some (l ++ [c]) end.

(* fit_movers_cstr_uncstr, blm.py:2092-2148 *)
Definition fit_movers_cstr_uncstr (compute_NNm : bool) (s : obj) : obj * option exc :=
  let user_params := params s in
  let s := with_params (set_updates false true true (params s)) s in
  andthen (fit_movers false s) (fun s =>
  let s := with_params (set_update_a true (params s)) s in
  let loop (c : cobj) (s : obj) (k : obj -> obj * option exc) :=
    if (1 <? nl)%nat
    then andthen (fit_movers false
                (with_params (set_cons (plus_cons (cons_a_all user_params) c) (params s)) s)) k
    else k s in
  loop lin_add s (fun s =>
  loop stat_var s (fun s =>
  let s := with_params (set_cons (cons_a_all user_params) (params s)) s in
  andthen (fit_movers compute_NNm s) (fun s =>
  andthen (if nan s then (s, None) else connectedness_measure s) (fun s =>
  (with_params user_params s, None)))))).

(* fit_A, fit_S, fit_pk, blm.py:2150-2211 *)
Definition fit_part (a s_ k : bool) (compute_NNm : bool) (s : obj) : obj * option exc :=
  let user_params := params s in
  let s := with_params (set_updates a s_ k (params s)) s in
  andthen (fit_movers compute_NNm s) (fun s => (with_params user_params s, None)).
Definition fit_A := fit_part true false false.
Definition fit_S := fit_part false true false.
Definition fit_pk := fit_part false false true.
End Phases.
Arguments obj : clear implicits.
