(* Model of control variables in DynamicBLMModel, pytwoway/blm_dynamic.py: which
   dictionary entries are read and written and with which array shapes.  Numbers are left
   out; what depends on numbers (order of worker types, convergence, cycles, inconsistent
   constraints, solver results) is a parameter. *)
From Verif Require Import Base.
From Coq Require Import String.
Local Open Scope string_scope.
Local Open Scope nat_scope.
Local Open Scope list_scope.
Local Open Scope res_scope.

Definition shape := list nat.
(* A control variable: name, number of categories, worker_type_interaction, and whether
   cons_a contains a Stationary constraint. *)
Record ccol : Type := mkccol { c_name : string; c_n : nat; c_wi : bool; c_stat : bool }.
(* What A_cat etc. link a key to: a dictionary from periods to arrays, or the number 0
   (1267, 1268, 1276, 1277). *)
Inductive entry : Type := EInt | EDict (d : list (string * shape)).
Definition table := list (string * entry).
Record ctl : Type := mkctl { k_Acat : table; k_Scat : table; k_Acts : table; k_Scts : table }.

Definition all_periods : list string := ["12"; "43"; "2ma"; "3ma"; "2mb"; "3mb"; "2s"; "3s"].
(* period[-1] == 'b' *)
Definition is_b (p : string) : bool := String.eqb p "2mb" || String.eqb p "3mb".
(* periods_movers, 1128-1135 *)
Definition periods_of (endo state : bool) : list string :=
  ["12"; "43"; "2ma"; "3ma"] ++ (if endo then ["2mb"] else []) ++ (if state then ["3mb"] else []).

(* d[k] *)
Fixpoint lookup {V} (k : string) (d : list (string * V)) : res V :=
  match d with
  | [] => Err KeyError
  | (k', v) :: d => if String.eqb k k' then Ok v else lookup k d
  end.
(* d[k] = v *)
Fixpoint put {V} (k : string) (v : V) (d : list (string * V)) : list (string * V) :=
  match d with
  | [] => [(k, v)]
  | (k', v') :: d => if String.eqb k k' then (k', v) :: d else (k', v') :: put k v d
  end.
(* table[col][period]; a number cannot be subscripted *)
Definition at_period (t : table) (col p : string) : res shape :=
  e <- lookup col t ;;
  match e with EInt => Err TypeError | EDict d => lookup p d end.
(* a[C] for an integer array C *)
Definition index1 (s : shape) (codes : list nat) : res unit :=
  match s with
  | [n] => if forallb (fun i => i <? n) codes then Ok tt else Err IndexError
  | _ => Err ValueError
  end.
(* a[l, :] *)
Definition row (s : shape) (l : nat) : res shape :=
  match s with
  | [n; m] => if l <? n then Ok [m] else Err IndexError
  | _ => Err IndexError
  end.
(* a[l, C] *)
Definition index2 (s : shape) (l : nat) (codes : list nat) : res unit :=
  r <- row s l ;; index1 r codes.
(* a[col] for a string col *)
Definition by_name (s : shape) (col : string) : res unit := Err IndexError.
(* a + b for arrays of n and m elements *)
Definition broadcast (n m : nat) : res unit :=
  if (n =? m) || (n =? 1) || (m =? 1) then Ok tt else Err ValueError.

Definition each {X} (l : list X) (f : X -> res unit) : res unit := for_each l (fun x _ => f x) tt.

Section Controls.
Variables (nl nk : nat) (endo state : bool) (cat cts : list ccol).
(* C_dict[period][col] for categorical columns, 1963-1966 *)
Variable codes : string -> string -> list nat.
Let periods := periods_of endo state.

Definition cat_shape (c : ccol) (p : string) : shape :=
  if c_wi c && negb (is_b p) then [nl; c_n c] else [c_n c].
Definition cts_shape (c : ccol) (p : string) : shape :=
  if c_wi c && negb (is_b p) then [nl] else [1].
Definition draw (sh : ccol -> string -> shape) (cols : list ccol) : table :=
  map (fun c => (c_name c, EDict (map (fun p => (p, sh c p)) all_periods))) cols.

(* self.A_cat['2mb'][:] = 0 for each column, 1264-1266 and 1273-1275: a missing key raises
   KeyError; a dictionary has no slices *)
Definition zero_cat (p : string) (t : table) : res table :=
  for_each cat (fun _ t =>
    e <- lookup p t ;;
    match e with EInt | EDict _ => Err TypeError end) t.
(* self.A_cts['2mb'] = 0 for each column, 1267-1269 and 1276-1278 *)
Definition zero_cts (p : string) (t : table) : table :=
  fold_left (fun t _ => put p EInt t) cts t.
Definition zero (p : string) (k : ctl) : res ctl :=
  a <- zero_cat p (k_Acat k) ;;
  s <- zero_cat p (k_Scat k) ;;
  Ok (mkctl a s (zero_cts p (k_Acts k)) (zero_cts p (k_Scts k))).

(* __init__, 1216-1278 (in the code A and S alternate in the loops, the first access fails
   in both orders) *)
Definition init : res ctl :=
  let k := mkctl (draw cat_shape cat) (draw cat_shape cat) (draw cts_shape cts) (draw cts_shape cts) in
  k <- (if endo then Ok k else zero "2mb" k) ;;
  if state then Ok k else zero "3mb" k.

(* controls_dict[col]['worker_type_interaction'], by name *)
Definition find_wi (col : string) : res bool :=
  lookup col (map (fun c => (c_name c, c_wi c)) (cat ++ cts)).

(* _sort_parameters, 1509-1521, if the worker types are out of order: v[order, :] for
   categorical, v[order] for continuous columns; shapes stay *)
Definition sort_table (two : bool) (t : table) : res unit :=
  each t (fun kv =>
    match snd kv with
    | EInt => Err AttributeError
    | EDict d => each d (fun ps =>
        wi <- find_wi (fst kv) ;;
        if wi && negb (is_b (fst ps))
        then match snd ps, two with
             | [n; m], true => Ok tt
             | [n], false => Ok tt
             | _, _ => Err IndexError
             end
        else Ok tt)
    end).
Definition sort_ctl (out_of_order : bool) (k : ctl) : res unit :=
  if out_of_order
  then _ <- sort_table true (k_Acat k) ;; _ <- sort_table true (k_Scat k) ;;
       _ <- sort_table false (k_Acts k) ;; sort_table false (k_Scts k)
  else Ok tt.

(* _sum_by_non_nl, 1742-1771 *)
Definition sum_non_nl (compute_A : bool) (k : ctl) : res unit :=
  _ <- each cat (fun c => each periods (fun p =>
         a <- at_period (k_Acat k) (c_name c) p ;;
         s <- at_period (k_Scat k) (c_name c) p ;;
         if negb (c_wi c) || is_b p
         then _ <- (if compute_A then index1 a (codes p (c_name c)) else Ok tt) ;;
              index1 s (codes p (c_name c))
         else Ok tt)) ;;
  each cts (fun c => each periods (fun p =>
         a <- at_period (k_Acts k) (c_name c) p ;;
         s <- at_period (k_Scts k) (c_name c) p ;;
         if negb (c_wi c) || is_b p
         then _ <- (if compute_A then by_name a (c_name c) else Ok tt) ;;
              by_name s (c_name c)
         else Ok tt)).

(* _sum_by_nl_l, 1820-1849 *)
Definition sum_nl_l (l : nat) (compute_S : bool) (k : ctl) : res unit :=
  _ <- each cat (fun c => each periods (fun p =>
         a <- at_period (k_Acat k) (c_name c) p ;;
         s <- at_period (k_Scat k) (c_name c) p ;;
         if c_wi c && negb (is_b p)
         then _ <- index2 a l (codes p (c_name c)) ;;
              if compute_S then index2 s l (codes p (c_name c)) else Ok tt
         else Ok tt)) ;;
  each cts (fun c => each periods (fun p =>
         a <- at_period (k_Acts k) (c_name c) p ;;
         s <- at_period (k_Scts k) (c_name c) p ;;
         if c_wi c && negb (is_b p)
         then _ <- by_name a (c_name c) ;;
              if compute_S then by_name s (c_name c) else Ok tt
         else Ok tt)).

(* E-step, 2012-2076.  The densities add arrays with one element per mover. *)
Definition e_step (iter : nat) (k : ctl) : res unit :=
  if (0 <? List.length (cat ++ cts))
  then _ <- sum_non_nl (iter =? 0) k ;;
       each (range nl) (fun l => sum_nl_l l true k)
  else Ok tt.

(* M-step for A and S, 2294-2867, but for continuous columns (with these the E-step has
   failed).  solve gives the outcome of quadratic programs: new estimates or, also after a
   ValueError, the old ones; both have the shapes of cat_shape. *)
Definition new_cat (solved : bool) (c : ccol) (t : table) : table :=
  if solved
  then match lookup (c_name c) t with
       | Ok (EDict d) =>
           put (c_name c) (EDict (fold_left (fun d p => put p (cat_shape c p) d) periods d)) t
       | _ => t
       end
  else t.
Definition m_step (up_a up_s : bool) (solved : string -> bool) (k : ctl) : res ctl :=
  (* 2334-2338: the order of the columns of X_cat *)
  _ <- each cat (fun c =>
         let np := List.length periods in
         _ <- broadcast (nl * (np * c_n c)) (nl * (nk * np)) ;;
         broadcast (nl * (np * c_n c)) (nl * np * c_n c)) ;;
  (* 2383-2404, the residuals for A *)
  _ <- (if up_a then each (range nl) (fun l => sum_nl_l l false k) else Ok tt) ;;
  (* 2484-2602 *)
  k <- for_each cat (fun c k =>
         let nm := c_name c in
         _ <- (if c_wi c then Ok tt
               else each periods (fun p => a <- at_period (k_Acat k) nm p ;; index1 a (codes p nm))) ;;
         _ <- each (range nl) (fun l =>
                _ <- each periods (fun p =>
                       s <- at_period (k_Scat k) nm p ;;
                       if c_wi c then index2 s l (codes p nm) else index1 s (codes p nm)) ;;
                (* S_l_dict['2mb'], S_l_dict['3mb'] *)
                _ <- (if endo then Ok tt else Err KeyError) ;;
                _ <- (if state then Ok tt else Err KeyError) ;;
                if up_a
                then _ <- sum_nl_l l false k ;;
                     if c_wi c
                     then each periods (fun p => a <- at_period (k_Acat k) nm p ;; index2 a l (codes p nm))
                     else Ok tt
                else Ok tt) ;;
         let k := if up_a then mkctl (new_cat (solved nm) c (k_Acat k)) (k_Scat k) (k_Acts k) (k_Scts k) else k in
         _ <- (if c_wi c then Ok tt
               else each periods (fun p => a <- at_period (k_Acat k) nm p ;; index1 a (codes p nm))) ;;
         Ok k) k ;;
  (* 2723-2834 *)
  if up_s
  then _ <- each (range nl) (fun l => sum_nl_l l false k) ;;
       Ok (fold_left (fun k c =>
             mkctl (k_Acat k) (new_cat (solved (c_name c)) c (k_Scat k)) (k_Acts k) (k_Scts k)) cat k)
  else Ok k.

(* _normalize, 1577-1612 and 1619-1643: the flags, and what is read of A_cat *)
Fixpoint find_flags (cols : list ccol) : option ccol :=
  match cols with
  | [] => None
  | c :: cols => if c_wi c && negb (c_stat c) then Some c else find_flags cols
  end.
Definition normalize (k : ctl) : res unit :=
  match cat with
  | [] => Ok tt
  | _ =>
      match find_flags cat with
      | Some c => each all_periods (fun p => _ <- at_period (k_Acat k) (c_name c) p ;; Ok tt)
      | None => _ <- lookup "12" (k_Acat k) ;; _ <- lookup "43" (k_Acat k) ;; Ok tt
      end
  end.

(* What depends on numbers and data: the order of worker types before and after; reading
   the columns of the data (1937-1970); _gen_constraints; convergence (not in the first iteration: prev_lik is infinite); cycles of lowest firm
   types; nan in pk1; the solver. *)
Record numbers : Type := mknumbers {
  o_before : bool; o_after : bool; o_data : res unit; o_cons : nat -> res unit; o_conv : nat -> bool;
  o_cycle : nat -> bool; o_pk1 : nat -> res unit; o_solved : nat -> string -> bool
}.

(* _fit_movers, 1911-2904, for force_min_firm_type=False, return_qi=False *)
Definition fit_ctl (n_iters : nat) (up_rho up_a up_s : bool) (o : numbers) (k : ctl) : res ctl :=
  _ <- o_data o ;;
  _ <- sort_ctl (o_before o) k ;;
  _ <- o_cons o 0 ;;
  ' (k, _) <- for_each (range n_iters) (fun iter st =>
      let '(k, stop) := st in
      if (stop : bool) then Ok (k, true) else
      _ <- e_step iter k ;;
      if (0 <? iter) && o_conv o iter then Ok (k, true) else
      (* 2125-2139: fit_movers with force_min_firm_type (1880) lacks an argument *)
      if (0 <? List.length cat) && o_cycle o iter then Err TypeError else
      _ <- o_pk1 o iter ;;
      if up_rho && (iter mod 2 =? 1)
      then _ <- each (range nl) (fun l => sum_nl_l l true k) ;; Ok (k, false)
      else if up_a || up_s
      then _ <- (if up_a && (0 <? iter) then o_cons o iter else Ok tt) ;;
           k <- m_step up_a up_s (o_solved o iter) k ;; Ok (k, false)
      else Ok (k, false)) (k, false) ;;
  _ <- normalize k ;;
  _ <- sort_ctl (o_after o) k ;;
  _ <- normalize k ;;
  Ok k.

(* fit_movers_cstr_uncstr, 3690-3777, of a new model: the phases.  (Everything without
   control variables is in DRunModel.) *)
Definition movers_ctl (n_iters : nat) (up_rho : bool) (o : nat -> numbers) : res ctl :=
  k <- init ;;
  k <- fit_ctl n_iters up_rho false true (o 0) k ;;
  k <- (if 1 <? nl then fit_ctl n_iters up_rho true true (o 1) k else Ok k) ;;
  k <- (if 1 <? nl then fit_ctl n_iters up_rho true true (o 2) k else Ok k) ;;
  fit_ctl n_iters up_rho true true (o 3) k.
End Controls.
