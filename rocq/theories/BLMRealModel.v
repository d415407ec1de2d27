(* Model of the parts of pytwoway/blm.py that combine mover and stayer counts
   with the type proportions: _simulate_types_wages (reallocation and the rows
   the worker types are drawn from), compute_connectedness_measure (weights of
   the graph) and plot_type_proportions. *)
From Verif Require Import Base BLMModel.
Local Open Scope res_scope.
Local Open Scope R_scope.

(* np.reshape(pk1, (nk, nk, nl)) of an array of shape (nk * nk, nl), C order *)
Definition reshape3 (nk : nat) (pk : mat) : nat -> nat -> nat -> R :=
  fun a b l => pk (a * nk + b)%nat l.

(* (NNm.T * reshaped_pk1.T).T, blm.py:2223, 354-355 and 2307-2308 *)
Definition pr (nk : nat) (NN : mat) (pk : mat) : nat -> nat -> nat -> R :=
  fun a b l => NN a b * reshape3 nk pk a b l.

(* NNm = jdata.groupby('g1')['g2'].value_counts().unstack(fill_value=0), blm.py:1948:
   rows are origin types, columns destination types.  (unstack drops types that
   do not occur; the model keeps all nk of them.) *)

(* NNm_1, NNm_2, nm, ns, blm.py:347-350 *)
Definition row_sums (nk : nat) (NN : mat) (a : nat) : R := sumn nk (fun b => NN a b).
Definition col_sums (nk : nat) (NN : mat) (b : nat) : R := sumn nk (fun a => NN a b).

(* pk1_period1 and pk1_period2, blm.py:353-355.  A zero count divides by 0; the
   theorems assume that all types occur. *)
Definition pk1_period1 (nk : nat) (NN pk : mat) : mat :=
  fun a l => sumn nk (fun b => pr nk NN pk a b l) / row_sums nk NN a.
Definition pk1_period2 (nk : nat) (NN pk : mat) : mat :=
  fun b l => sumn nk (fun a => pr nk NN pk a b l) / col_sums nk NN b.

(* ((NNm_t * pk1_period_t.T + NNs * pk0.T) / (NNm_t + NNs)).T, blm.py:358-359 *)
Definition joint (Nt : nat -> R) (Ns : nat -> R) (pkt pk0 : mat) : mat :=
  fun k l => (Nt k * pkt k l + Ns k * pk0 k l) / (Nt k + Ns k).

Inductive rperiod : Type := RFirst | RSecond | RAll | ROther.

(* The reallocation, blm.py:342-399: the pk1 (nk * nk rows) and pk0 (nk rows)
   used afterwards.  With reallocate_jointly=False the name pk0_period2 is never
   assigned (363-364 assign pk0_period1 twice). *)
Definition reallocate (nl nk : nat) (jointly : bool) (per : rperiod)
    (NN : mat) (Ns : nat -> R) (pk1 pk0 : mat) : res (mat * mat) :=
  let N1 := row_sums nk NN in
  let N2 := col_sums nk NN in
  let nm := sumn nk N1 in
  let ns := sumn nk Ns in
  let p1 := pk1_period1 nk NN pk1 in
  let p2 := pk1_period2 nk NN pk1 in
  let '(p1, p2, q1, q2) :=
    if jointly
    then let p1 := joint N1 Ns p1 pk0 in
         let p2 := joint N2 Ns p2 pk0 in
         (p1, p2, Some p1, Some p2)
    else (p1, p2, Some pk0, None) in
  let get (o : option mat) : res mat :=
    match o with Some m => Ok m | None => Err UnboundLocalError end in
  ' (pm, p0) <-
    (match per with
     | RFirst => q <- get q1 ;; Ok (p1, q)
     | RSecond => q <- get q2 ;; Ok (p2, q)
     | RAll => q <- get q1 ;; q' <- get q2 ;;
               Ok ((fun k l => (p1 k l + p2 k l) / 2), (fun k l => (q k l + q' k l) / 2))
     | ROther => Err ValueError
     end) ;;
  let Nper := match per with
              | RFirst => N1
              | RSecond => N2
              | _ => fun k => (N1 k + N2 k) / 2
              end in
  let '(r1, r0) :=
    if jointly
    then let r := fun l => sumn nk (fun k => (Nper k + Ns k) * pm k l) / (nm + ns) in (r, r)
    else ((fun l => sumn nk (fun k => Nper k * pm k l) / nm),
          (fun l => sumn nk (fun k => Ns k * p0 k l) / ns)) in
  Ok ((fun _ l => r1 l), (fun _ l => r0 l)).

(* The proportions the type of each mover is drawn from, blm.py:402-412: for
   each pair (k1, k2), rng.choice(p=pk1[k1 + nk * k2]) for the rows of that
   pair. *)
Definition draw_row (nk : nat) (pk1 : mat) (k1 k2 : nat) : nat -> R :=
  pk1 (k1 + nk * k2)%nat.

(* compute_connectedness_measure, blm.py:2222-2229: the weights of the graph of
   worker type l, A / A.sum() and (A + A.T) / 2 *)
Definition graph_weights (nk : nat) (NN pk1 : mat) (l : nat) : mat :=
  let A := fun a b => pr nk NN pk1 a b l in
  let tot := sumn nk (fun a => sumn nk (fun b => A a b)) in
  let A := fun a b => A a b / tot in
  fun a b => (A a b + A b a) / 2.

(* plot_type_proportions, blm.py:2302-2333: pk_mean, after sorting.  NNm_t and
   pk_period_t by subset and period. *)
Inductive subset_kind : Type := SMovers | SStayers | SAll.
Definition type_proportions (nk : nat) (sub : subset_kind) (per : rperiod)
    (NN : mat) (Ns : nat -> R) (pk1 pk0 : mat) : res mat :=
  let '(p1, p2) :=
    match sub with
    | SMovers => (pk1_period1 nk NN pk1, pk1_period2 nk NN pk1)
    | SStayers => (pk0, pk0)
    | SAll => (joint (row_sums nk NN) Ns (pk1_period1 nk NN pk1) pk0,
               joint (col_sums nk NN) Ns (pk1_period2 nk NN pk1) pk0)
    end in
  match per with
  | RFirst => Ok p1
  | RSecond => Ok p2
  | RAll => Ok (fun k l => (p1 k l + p2 k l) / 2)
  | ROther => Err ValueError
  end.
