(* Model of the loops of pytwoway/attrition.py over simulations and of
   Attrition._combine_res.  Numbers are exact rationals (Python: floats). *)
Set Warnings "-notation-overridden,-ambiguous-paths".
From Coq Require Import ZArith QArith Qround String.
From mathcomp Require Import all_ssreflect.
From Verif Require Base.
From Verif Require Import AttrModel.

Set Implicit Arguments.
Unset Strict Implicit.
Unset Printing Implicit Defensive.
Local Open Scope nat_scope.

(* attrition.py:197-281 and 322-337: N simulations; in each one the subsets for the
   settings without and with heteroskedasticity (he = false, true) are drawn from
   the one generator, and their jobs run on [ncore] cores.  [gen] is _gen_subsets
   with the state of the generator made explicit, [fin r n] the order in which the
   n jobs of the r-th pool finish.  The result lists of the models 'fe', 'cre' and
   'bs' are the components of the job results and are kept together here. *)
Section Simulations.
Variables (State Seed Res : Type).
Variable gen : bool -> State -> Base.res (seq subset * State).
Variable interior : bool -> subset -> Seed -> Res.
Variable spawn : nat -> Seed.
Variables (ncore : nat) (fin : nat -> nat -> seq nat).

Definition jobs_of (he : bool) (r c : nat) (st : State) : Base.res (seq Res * (nat * State)) :=
  Base.bind (gen he st) (fun g =>
  Base.bind (run_jobs (interior he) spawn ncore (fin r (size g.1)) c g.1) (fun V =>
  Base.Ok (V, (c + size g.1, g.2)))).

Definition attrition_single (r c : nat) (st : State) : Base.res ((seq Res * seq Res) * (nat * State)) :=
  Base.bind (jobs_of false r.*2 c st) (fun a =>
  Base.bind (jobs_of true r.*2.+1 a.2.1 a.2.2) (fun b =>
  Base.Ok ((a.1, b.1), b.2))).

Fixpoint attrition (r N c : nat) (st : State) : Base.res (seq (seq Res * seq Res)) :=
  match N with
  | 0 => Base.Ok [::]
  | N'.+1 =>
      Base.bind (attrition_single r c st) (fun a =>
      Base.bind (attrition r.+1 N' a.2.1 a.2.2) (fun l => Base.Ok (a.1 :: l)))
  end.
End Simulations.

(* A result dictionary of one estimation. *)
Definition rdict := string -> option Q.
Definition getk (d : rdict) (k : string) : Base.res Q :=
  if d k is Some x then Base.Ok x else Base.Err Base.KeyError.
(* Division of Python floats. *)
Definition pydiv (x y : Q) : Base.res Q :=
  if Qeq_bool y (inject_Z 0) then Base.Err Base.ZeroDivisionError else Base.Ok (Qdiv x y).

(* 361-391  estimator, model, and the keys of the variance of y, of the firm
   effects and of the covariance. *)
Record est := Est { e_name : string; e_model : string; e_vary : string; e_var : string; e_cov : string }.
Local Open Scope string_scope.
Definition estimators : seq est :=
  [:: Est "fe" "fe" "var(y)" "var(psi)_fe" "cov(psi, alpha)_fe";
      Est "ho" "fe" "var(y)" "var(psi)_ho" "cov(psi, alpha)_ho";
      Est "he" "fe" "var(y)" "var(psi)_he" "cov(psi, alpha)_he";
      Est "cre" "cre" "var_y" "tot_var" "tot_cov";
      Est "bs1" "bs" "var(y)" "var(mu)_bs1" "cov(lambda, mu)_bs1";
      Est "bs2" "bs" "var(y)" "var(mu)_bs2" "cov(lambda, mu)_bs2"].
Local Close Scope string_scope.

(* self.res['non_he'] or self.res['he']: results[model][i][j]. *)
Definition results := string -> option (seq (seq rdict)).
Definition get_res (res : results) (m : string) (i j : nat) : Base.res rdict :=
  match res m with
  | None => Base.Err Base.KeyError
  | Some t => match nth None (map Some t) i with
              | None => Base.Err Base.IndexError
              | Some l => match nth None (map Some l) j with
                          | None => Base.Err Base.IndexError
                          | Some d => Base.Ok d
                          end
              end
  end.

(* 403-420  one cell: 100 * (numerator / var(y)). *)
Definition cell (num den : string) (d : rdict) : Base.res Q :=
  Base.bind (getk d num) (fun x => Base.bind (getk d den) (fun y =>
  Base.bind (pydiv x y) (fun z => Base.Ok (Qmult (inject_Z 100) z)))).
Definition table := seq (seq Q).
Definition fill (res : results) (num : est -> string) (N M : nat) (e : est) : Base.res (string * table) :=
  Base.rmap (fun t => (e_name e, t))
    (Base.traverse (fun i => Base.traverse (fun j =>
       Base.bind (get_res res (e_model e) i j) (cell (num e) (e_vary e))) (iota 0 M)) (iota 0 N)).

(* A value handed to np.flip: an array, or the dictionary of tables. *)
Inductive pyval := Dict (d : seq (string * table)) | Arr2 (t : table).
(* np.flip(v, axis=1).  A dictionary becomes a 0-dimensional array and axis 1 is
   out of bounds (AxisError, a ValueError). *)
Definition flip1 (v : pyval) : Base.res pyval :=
  match v with
  | Dict _ => Base.Err Base.ValueError
  | Arr2 t => Base.Ok (Arr2 (map rev t))
  end.

(* np.round(x, digits); int conversion of whole numbers (423-426) keeps the values. *)
Definition np_round_to (digits : nat) (x : Q) : Q :=
  let s := inject_Z (Z.pow 10 (Z.of_nat digits)) in
  Qdiv (inject_Z (np_round (Qmult x s))) s.

(* np.max(np.diff(fractions)) <= 0. *)
Definition non_increasing (shares : seq Q) : Base.res bool :=
  if diffs shares is [::] then Base.Err Base.ValueError
  else Base.Ok (all (fun x => Qle_bool x (inject_Z 0)) (diffs shares)).

Definition qmax (l : seq Q) : Q := foldl Qminmax.Qmax (head (inject_Z 0) l) l.
Definition qmin (l : seq Q) : Q := foldl Qminmax.Qmin (head (inject_Z 0) l) l.
Definition Qltb (x y : Q) : bool := ~~ Qle_bool y x.

(* 461-471 (and 473-482)  the x position where the movers per firm of a subset reach
   those of the full sample.  [m] is the list of averages times 1.05. *)
Fixpoint line_loop (target : Q) (x m : seq Q) : Base.res Q :=
  match x, m with
  | x0 :: ((x1 :: _) as x'), m0 :: ((m1 :: _) as m') =>
      if Qltb target m1 then
        let frac := Qdiv (Qminus target m0) (Qminus m1 m0) in
        Base.Ok (Qplus x0 (Qmult frac (Qminus x1 x0)))
      else line_loop target x' m'
  | _, _ => Base.Err Base.UnboundLocalError
  end.
Definition line (target : Q) (x m : seq Q) : Base.res Q :=
  if Qle_bool (qmax m) target then Base.Ok (qmax x)
  else if Qle_bool target (qmin m) then Base.Ok (qmin x)
  else line_loop target x m.

(* 437-452  average over simulations of movers per firm, increased by 5 percent. *)
Local Open Scope string_scope.
Definition movers_sum (res : results) (N j : nat) : Base.res Q :=
  Base.for_each (iota 0 N) (fun i acc =>
    Base.bind (get_res res "fe" i j) (fun d =>
    Base.bind (getk d "n_movers") (fun a => Base.bind (getk d "n_firms") (fun b =>
    Base.bind (pydiv a b) (fun z => Base.Ok (Qplus acc z)))))) (inject_Z 0).
Definition movers_per_firm (res : results) (N M : nat) : Base.res (seq Q) :=
  Base.traverse (fun j =>
    Base.rmap (fun s => Qmult (Qdiv s (inject_Z (Z.of_nat N))) (Qmake 21 20)) (movers_sum res N j))
    (iota 0 M).

(* 339-484 _combine_res.  When several values are missing, the exception of the
   first table is raised instead of that of the first cell. *)
Record combined := Combined {
  c_var_non_he : pyval; c_var_he : pyval; c_cov_non_he : pyval; c_cov_he : pyval;
  c_lines : option (Q * Q); c_x : seq Q }.

Definition combine_res (res_non_he res_he : results) (shares : seq Q) (mpf : Q)
    (to_plot : string -> bool) (with_line : bool) (digits : nat) : Base.res combined :=
  match res_non_he "fe" with
  | None => Base.Err Base.KeyError
  | Some [::] => Base.Err Base.IndexError
  | Some ((l0 :: _) as t) =>
      let N := size t in
      let M := size l0 in
      let plotted := [seq e <- estimators | to_plot (e_name e)] in
      let plotted_non_he := [seq e <- plotted | negb (String.eqb (e_name e) "he")] in
      Base.bind (Base.traverse (fill res_non_he e_var N M) plotted_non_he) (fun vn =>
      Base.bind (Base.traverse (fill res_non_he e_cov N M) plotted_non_he) (fun cn =>
      Base.bind (Base.traverse (fill res_he e_var N M) plotted) (fun vh =>
      Base.bind (Base.traverse (fill res_he e_cov N M) plotted) (fun ch =>
      let x := [seq np_round_to digits (Qmult (inject_Z 100) s) | s <- shares] in
      Base.bind (non_increasing shares) (fun flipped =>
      let fl := fun v => if flipped then flip1 v else Base.Ok v in
      let x' := if flipped then rev x else x in
      Base.bind (fl (Dict vn)) (fun vn' => Base.bind (fl (Dict cn)) (fun cn' =>
      Base.bind (fl (Dict vh)) (fun vh' => Base.bind (fl (Dict ch)) (fun ch' =>
      if with_line then
        Base.bind (movers_per_firm res_non_he N M) (fun m1 =>
        Base.bind (movers_per_firm res_he N M) (fun m2 =>
        let m1' := if flipped then rev m1 else m1 in
        let m2' := if flipped then rev m2 else m2 in
        Base.bind (line mpf x' m1') (fun l1 =>
        Base.bind (line mpf x' m2') (fun l2 =>
        Base.Ok (Combined vn' vh' cn' ch' (Some (l1, l2)) x')))))
      else Base.Ok (Combined vn' vh' cn' ch' None x'))))))))))
  end.
