(* Model of preconditioners/ichol.py: the incomplete Cholesky decomposition and
   its application, array by array.  Arrays know their length; every access is
   checked (numba does not check, so what is an IndexError here is a read or
   write outside the array there).  Floats are reals, np.sqrt is [sqrt]. *)
From Verif Require Import Base.
Local Open Scope res_scope.

Record arr (T : Type) := Arr { alen : nat; aval : nat -> T }.
Arguments Arr {T} alen aval.
Arguments alen {T} a.
Arguments aval {T} a i.

Definition get {T} (a : arr T) (i : nat) : res T :=
  if i <? alen a then Ok (aval a i) else Err IndexError.
Definition set {T} (a : arr T) (i : nat) (v : T) : res (arr T) :=
  if i <? alen a then Ok (Arr (alen a) (fun k => if k =? i then v else aval a k))
  else Err IndexError.
(* np.zeros, np.full *)
Definition full {T} (n : nat) (v : T) : arr T := Arr n (fun _ => v).

(* Float division; numba raises ZeroDivisionError. *)
Definition fdiv (x y : R) : res R :=
  if Req_EM_T y 0 then Err ZeroDivisionError else Ok (x / y)%R.

(* np.sort of row indices *)
Fixpoint insert (x : nat) (l : list nat) : list nat :=
  match l with
  | [] => [x]
  | y :: l' => if x <=? y then x :: l else y :: insert x l'
  end.
Definition sort (l : list nat) : list nat := fold_right insert [] l.

(* A sparse matrix by columns: values, row indices, column pointers. *)
Record csc := Csc { cv : arr R; cr : arr nat; cp : arr nat }.

(* The sparse column under construction: a, b, c, c_n (35-40). *)
Record work := Work { wa : arr R; wb : arr bool; wc : arr nat; wn : nat }.

(* What _ichol returns: nnz with the arrays, or -1 or -2; the arrays are changed
   in place in either case. *)
Inductive outcome := Done (nnz : nat) | NotPositive | TooMany.

Section Ichol.
Variable n : nat.
Variable A : csc.
Variables discard_threshold relative_discard_threshold : R.
Variable max_nnz : nat.
Variable keep : bool.                                   (* diag_keep_discarded *)

(* 43-49  one stored entry of column j: diagonal, first index below it, column sum. *)
Definition scan_entry (j idx : nat) (x : arr R * arr nat * arr R) : res (arr R * arr nat * arr R) :=
  let '(d, t, r) := x in
  i <- get (cr A) idx ;;
  v <- get (cv A) idx ;;
  ' (d, t) <- (if i =? j
               then dj <- get d j ;; d' <- set d j (dj + v)%R ;;
                    t' <- set t j (idx + 1) ;; Ok (d', t')
               else Ok (d, t)) ;;
  r <- (if j <=? i then rj <- get r j ;; set r j (rj + Rabs v)%R else Ok r) ;;
  Ok (d, t, r).
(* 42-49 *)
Definition scan (shift : R) : res (arr R * arr nat * arr R) :=
  for_each (range n) (fun j x =>
    p <- get (cp A) j ;; q <- get (cp A) (j + 1) ;;
    for_each (range2 p q) (scan_entry j) x)
    (full n shift, full n 0, full n 0%R).

(* 56-59 and 76-79  remember that row i is non-zero. *)
Definition mark (i : nat) (w : work) : res work :=
  bi <- get (wb w) i ;;
  if bi then Ok w
  else b <- set (wb w) i true ;;
       c <- set (wc w) (wn w) i ;;
       Ok (Work (wa w) b c (wn w + 1)).

(* 52-59 *)
Definition load_entry (j idx : nat) (w : work) : res work :=
  i <- get (cr A) idx ;;
  v <- get (cv A) idx ;;
  if Req_EM_T v 0 then Ok w
  else if j <? i
       then ai <- get (wa w) i ;;
            a <- set (wa w) i (ai + v)%R ;;
            mark i (Work a (wb w) (wc w) (wn w))
       else Ok w.

(* 73-79 *)
Definition update_entry (Lv : arr R) (Lr : arr nat) (L_jk : R) (idx : nat) (w : work) : res work :=
  i <- get Lr idx ;;
  L_ik <- get Lv idx ;;
  ai <- get (wa w) i ;;
  a <- set (wa w) i (ai - L_ik * L_jk)%R ;;
  mark i (Work a (wb w) (wc w) (wn w)).

(* 61-80  the columns with a non-zero element in row j.  [None] is -1. *)
Fixpoint walk (fuel : nat) (Lv : arr R) (Lr Lp : arr nat) (k : option nat)
    (x : arr nat * arr (option nat) * work) : res (arr nat * arr (option nat) * work) :=
  match k, fuel with
  | None, _ => Ok x
  | Some _, 0 => Err OutOfFuel
  | Some k, S fuel' =>
      let '(s, l, w) := x in
      k0 <- get s k ;;
      k1 <- get Lp (k + 1) ;;
      k2 <- get l k ;;
      L_jk <- get Lv k0 ;;
      let k0 := k0 + 1 in
      x <- (if k0 <? k1
            then s <- set s k k0 ;;
                 i <- get Lr k0 ;;
                 li <- get l i ;;
                 l <- set l k li ;;
                 l <- set l i (Some k) ;;
                 w <- for_each (range2 k0 k1) (update_entry Lv Lr L_jk) w ;;
                 Ok (s, l, w)
            else Ok (s, l, w)) ;;
      walk fuel' Lv Lr Lp k2 x
  end.

(* What the emission of column j changes: a, b, d, Lv, Lr, nnz. *)
Record emit := Emit { ea : arr R; eb : arr bool; ed : arr R; ev : arr R; er : arr nat; en : nat }.

(* 90-107  one row of column j. *)
Definition emit_row (r : arr R) (j i : nat) (e : emit) : res emit :=
  ai <- get (ea e) i ;;
  dj <- get (ed e) j ;;
  L_ij <- fdiv ai dj ;;
  d <- (if keep then di <- get (ed e) i ;; set (ed e) i (di - L_ij * L_ij)%R else Ok (ed e)) ;;
  rj <- get r j ;;
  let rel := (relative_discard_threshold * rj)%R in
  ' (d, Lv, Lr, nnz) <-
    (if Rlt_dec discard_threshold (Rabs L_ij) then
       if Rlt_dec rel (Rabs ai) then
         d <- (if keep then Ok d else di <- get d i ;; set d i (di - L_ij * L_ij)%R) ;;
         Lv <- set (ev e) (en e) L_ij ;;
         Lr <- set (er e) (en e) i ;;
         Ok (d, Lv, Lr, en e + 1)
       else Ok (d, ev e, er e, en e)
     else Ok (d, ev e, er e, en e)) ;;
  a <- set (ea e) i 0%R ;;
  b <- set (eb e) i false ;;
  Ok (Emit a b d Lv Lr nnz).

(* The variables that live through the loop over columns.  c, whose contents are
   dead between columns, is kept too. *)
Record state := State {
  sn : nat; ss : arr nat; sl : arr (option nat); sa : arr R; sb : arr bool; sc : arr nat;
  sd : arr R; sv : arr R; sr : arr nat; sp : arr nat }.

(* c[:c_n] *)
Definition marked (w : work) : list nat := map (aval (wc w)) (range (wn w)).

(* 50-114  column j. *)
Definition column (t : arr nat) (r : arr R) (j : nat) (x : state) : res (outcome * state) :=
  t0 <- get t j ;;
  p1 <- get (cp A) (j + 1) ;;
  w <- for_each (range2 t0 p1) (load_entry j) (Work (sa x) (sb x) (sc x) 0) ;;
  k <- get (sl x) j ;;
  ' (s, l, w) <- walk (S n) (sv x) (sr x) (sp x) k (ss x, sl x, w) ;;
  dj <- get (sd x) j ;;
  if Rle_dec dj 0 then Ok (NotPositive, State (sn x) s l (wa w) (wb w) (wc w) (sd x) (sv x) (sr x) (sp x))
  else if max_nnz <? sn x + 1 + wn w
       then Ok (TooMany, State (sn x) s l (wa w) (wb w) (wc w) (sd x) (sv x) (sr x) (sp x))
  else
    d <- set (sd x) j (sqrt dj) ;;
    Lv <- set (sv x) (sn x) (sqrt dj) ;;
    Lr <- set (sr x) (sn x) j ;;
    let nnz := sn x + 1 in
    s <- set s j nnz ;;
    e <- for_each (sort (marked w)) (emit_row r j) (Emit (wa w) (wb w) d Lv Lr nnz) ;;
    Lp <- set (sp x) (j + 1) (en e) ;;
    p0 <- get Lp j ;;
    q0 <- get Lp (j + 1) ;;
    l <- (if p0 + 1 <? q0
          then i <- get (er e) (p0 + 1) ;;
               li <- get l i ;;
               l <- set l j li ;;
               set l i (Some j)
          else Ok l) ;;
    Ok (Done (en e), State (en e) s l (ea e) (eb e) (wc w) (ed e) (ev e) (er e) Lp).

(* The loop over columns stops at the first failure. *)
Fixpoint columns (t : arr nat) (r : arr R) (js : list nat) (x : state) : res (outcome * state) :=
  match js with
  | [] => Ok (Done (sn x), x)
  | j :: js' =>
      ' (o, x) <- column t r j x ;;
      match o with
      | Done _ => columns t r js' x
      | _ => Ok (o, x)
      end
  end.

(* 11-115 _ichol.  [c0] is the uninitialised np.empty of 40. *)
Definition ichol_core (c0 : arr nat) (shift : R) (L : csc) : res (outcome * csc) :=
  ' (d, t, r) <- scan shift ;;
  ' (o, x) <- columns t r (range n)
     (State 0 (full n 0) (full n None) (full n 0%R) (full n false) c0 d (cv L) (cr L) (cp L)) ;;
  Ok (o, Csc (sv x) (sr x) (sp x)).

(* 262-304  the shifts in turn, on the same arrays; the result is cut to nnz. *)
Fixpoint try_shifts (c0 : arr nat) (shifts : list R) (L : csc) : res csc :=
  match shifts with
  | [] => Err ValueError
  | shift :: shifts' =>
      ' (o, L) <- ichol_core c0 shift L ;;
      match o with
      | Done nnz => Ok (Csc (Arr nnz (aval (cv L))) (Arr nnz (aval (cr L))) (cp L))
      | NotPositive => try_shifts c0 shifts' L
      | TooMany => Err ValueError
      end
  end.
(* 186-304 ichol on a csc matrix in canonical format with n rows and columns.  [v0]
   and [r0] are the contents of the uninitialised arrays of 256-257.  With no
   shifts nnz is not bound at 296. *)
Definition ichol (c0 : arr nat) (v0 : nat -> R) (r0 : nat -> nat) (shifts : list R) : res csc :=
  match shifts with
  | [] => Err UnboundLocalError
  | _ => try_shifts c0 shifts (Csc (Arr max_nnz v0) (Arr max_nnz r0) (full (n + 1) 0))
  end.
End Ichol.

(* 119-131 _backsub_L_csc_inplace. *)
Definition backsub_L (L : csc) (n : nat) (x : arr R) : res (arr R) :=
  for_each (range n) (fun j x =>
    k <- get (cp L) j ;;
    L_jj <- get (cv L) k ;;
    xj <- get x j ;;
    temp <- fdiv xj L_jj ;;
    x <- set x j temp ;;
    p <- get (cp L) j ;;
    q <- get (cp L) (j + 1) ;;
    for_each (range2 (p + 1) q) (fun k x =>
      i <- get (cr L) k ;;
      L_ij <- get (cv L) k ;;
      xi <- get x i ;;
      set x i (xi - L_ij * temp)%R) x) x.

(* 135-147 _backsub_LT_csc_inplace. *)
Definition backsub_LT (L : csc) (n : nat) (x : arr R) : res (arr R) :=
  for_each (rev (range n)) (fun i x =>
    s <- get x i ;;
    p <- get (cp L) i ;;
    q <- get (cp L) (i + 1) ;;
    s <- for_each (range2 (p + 1) q) (fun k s =>
      j <- get (cr L) k ;;
      L_ji <- get (cv L) k ;;
      xj <- get x j ;;
      Ok (s - L_ji * xj)%R) s ;;
    k <- get (cp L) i ;;
    L_ii <- get (cv L) k ;;
    v <- fdiv s L_ii ;;
    set x i v) x.

(* 177-183 CholeskyDecomposition.__call__ *)
Definition apply (L : csc) (b : arr R) : res (arr R) :=
  x <- backsub_L L (alen b) b ;; backsub_LT L (alen b) x.
