(* Proofs about the column layout of the estimator with controls. *)
Set Warnings "-notation-overridden,-ambiguous-paths".
From mathcomp Require Import all_ssreflect all_algebra.
From Verif Require Base.
From Verif Require Import FEModel FESpec FECovLemmas FECtlModel FECtlSpec.

Set Implicit Arguments.
Unset Strict Implicit.
Unset Printing Implicit Defensive.

Import GRing.Theory Num.Theory Order.POrderTheory.
Local Open Scope ring_scope.

Lemma foldl_flatten (A B : Type) (f : A -> B -> A) a (l : seq (seq B)) :
  foldl (fun a col => foldl f a col) a l = foldl f a (flatten l).
Proof. by elim: l a => //= c l IH a; rewrite foldl_cat IH. Qed.

Section Dict.
Variables (N : eqType) (T : Type).
Implicit Types d : seq (N * T).

Lemma dset_fresh d k v : k \notin map fst d -> dset d k v = rcons d (k, v).
Proof.
elim: d => //= [[k' v'] d IH] /=; rewrite in_cons negb_or eq_sym => /andP [ne nk].
by rewrite (negbTE ne) IH.
Qed.

Lemma foldl_dset (U : Type) (key : U -> N) (vl : U -> T) l d :
  uniq (map fst d ++ map key l) ->
  foldl (fun a x => dset a (key x) (vl x)) d l = d ++ [seq (key x, vl x) | x <- l].
Proof.
elim: l d => [|x l IH] d /=; first by rewrite !cats0.
move=> u; have fr : key x \notin map fst d.
  by move: u; rewrite cat_uniq /= negb_or => /and3P [_ /andP []].
rewrite dset_fresh // IH -?cats1 -?catA //.
by rewrite map_cat -catA.
Qed.

Lemma dget_cat d1 d2 k : k \notin map fst d1 -> dget (d1 ++ d2) k = dget d2 k.
Proof.
elim: d1 => //= [[k' v'] d IH] /=; rewrite in_cons negb_or eq_sym => /andP [ne nk].
by rewrite (negbTE ne) IH.
Qed.

Lemma dget_at (l1 : seq (N * T)) x l2 : uniq (map fst (l1 ++ x :: l2)) -> dget (l1 ++ x :: l2) x.1 = Base.Ok x.2.
Proof.
rewrite map_cat cat_uniq /= negb_or => /and3P [_ /andP [nx _] _].
by rewrite dget_cat //; case: x {nx} => k v /=; rewrite eqxx.
Qed.

Lemma dget_none d k : k \notin map fst d -> dget d k = Base.Err Base.KeyError.
Proof.
elim: d => //= [[k' v'] d IH] /=; rewrite in_cons negb_or eq_sym => /andP [ne nk].
by rewrite (negbTE ne) IH.
Qed.
End Dict.

Section Seqs.
Variable F : realFieldType.
Implicit Types a b c : seq F.

Lemma dotp_cat a1 a2 b1 b2 : size a1 = size b1 ->
  dotp (a1 ++ a2) (b1 ++ b2) = dotp a1 b1 + dotp a2 b2.
Proof.
by elim: a1 b1 => [|x a1 IH] [|y b1] //=; rewrite ?add0r // => -[e]; rewrite IH // addrA.
Qed.

Lemma dotp_nth a b n : size a = n -> size b = n -> dotp a b = \sum_(k < n) nth 0 a k * nth 0 b k.
Proof.
elim: n a b => [|n IH] [|x a] [|y b] //=; first by rewrite big_ord0.
by move=> [ea] [eb]; rewrite big_ord_recl IH.
Qed.

Lemma size_onehot n k : size (onehot F n k) = n.
Proof. by rewrite size_map size_iota. Qed.
Lemma nth_onehot n k (c : nat) : (c < n)%N -> nth 0 (onehot F n k) c = (k == c)%:R.
Proof. by move=> lt; rewrite (nth_map 0%N) ?size_iota // nth_iota. Qed.

Lemma dotp_onehot n k c : (k < n)%N -> size c = n -> dotp (onehot F n k) c = nth 0 c k.
Proof.
move=> lt sc; rewrite (dotp_nth (n := n)) ?size_onehot //.
rewrite (bigD1 (Ordinal lt)) //= nth_onehot // eqxx mul1r big1 ?addr0 // => j ne.
rewrite nth_onehot // (_ : (k == j) = false) ?mul0r //.
by apply/eqP => e; case/eqP: ne; apply/val_inj.
Qed.

Lemma nth_behead_onehot n k (c : nat) : (c < n.-1)%N -> nth 0 (behead (onehot F n k)) c = (k == c.+1)%:R.
Proof. by move=> lt; rewrite nth_behead nth_onehot //; case: n lt. Qed.

Lemma dotp_onehot1 n k c : (k < n)%N -> size c = n.-1 ->
  dotp (behead (onehot F n k)) c = if k is k'.+1 then nth 0 c k' else 0.
Proof.
move=> lt sc; rewrite (dotp_nth (n := n.-1)) ?size_behead ?size_onehot //.
case: k lt => [|k] lt.
  by rewrite big1 // => j _; rewrite nth_behead_onehot // mul0r.
have lt' : (k < n.-1)%N by case: n lt {sc}.
rewrite (bigD1 (Ordinal lt')) //= nth_behead_onehot // eqxx mul1r big1 ?addr0 // => j ne.
rewrite nth_behead_onehot // eqSS (_ : (k == j) = false) ?mul0r //.
by apply/eqP => e; case/eqP: ne; apply/val_inj.
Qed.

Lemma sliceE (T : Type) n w (v : seq T) : slice n (n + w) v = take w (drop n v).
Proof. by rewrite /slice addKn. Qed.

Lemma map_nth_iota (v : seq F) (a w : nat) : (a + w <= size v)%N ->
  [seq nth 0 v k | k <- iota a w] = slice a (a + w) v.
Proof.
move=> le; apply: (@eq_from_nth _ 0).
  rewrite size_map size_iota sliceE size_takel // size_drop leq_subRL //.
  exact: (leq_trans (leq_addr _ _) le).
move=> k; rewrite size_map size_iota => lt.
by rewrite (nth_map 0%N) ?size_iota // nth_iota // sliceE nth_take // nth_drop.
Qed.
End Seqs.

Section Layout.
Variable F : realFieldType.
Variable N : eqType.
Variables npsi nalpha : N.
Variable d : cdata F N.
Local Notation bs := (blocks npsi nalpha d).
Local Notation nblock := (N * block F)%type.

(* One block's part of a row of A. *)
Definition brow (b : block F) (r : nat) : seq F :=
  match b with
  | Normalised n id => behead (onehot F n (id r))
  | Free n id => onehot F n (id r)
  | Slope x => [:: x r]
  end.
Lemma size_brow b r : size (brow b r) = width b.
Proof. by case: b => //= *; rewrite ?size_behead size_onehot. Qed.

Definition gv (b : block F) (c : seq F) : gval F :=
  match b with
  | Normalised _ _ => Arr (0 :: c)
  | Free _ _ => Arr c
  | Slope _ => Num (nth 0 c 0)
  end.

Hypothesis nok : names_ok npsi nalpha d.

Lemma bs_split :
  bs = [:: (npsi, Normalised _ (c_nf d) (c_j d)); (nalpha, Free _ (c_nw d) (c_i d))]
       ++ [seq (cat_name c, Normalised _ (cat_n c) (cat_id c)) | c <- c_cats d]
       ++ [seq (cts_name s, Slope (cts_val s)) | s <- flatten (c_cts d)].
Proof. by []. Qed.

Lemma n_dictE : n_dict npsi nalpha d = [seq (b.1, width b.2) | b <- bs].
Proof.
have u : uniq ([:: npsi; nalpha] ++ [seq cat_name c | c <- c_cats d]
               ++ [seq cts_name s | s <- flatten (c_cts d)]).
  by have := nok; rewrite /names_ok bs_split !map_cat -!map_comp.
have ne : (npsi == nalpha) = false.
  by move: u; rewrite /= inE negb_or => /andP [/andP [/negbTE ne _] _].
rewrite /n_dict [dset _ _ _]/= ne foldl_flatten.
rewrite (foldl_dset (key := @cat_name N)); last first.
  by move: u; rewrite catA cat_uniq => /and3P [].
rewrite (foldl_dset (key := @cts_name F N) (fun _ => 1%N)); last first.
  by move: u; rewrite !map_cat -!map_comp /= -?catA.
rewrite bs_split !map_cat -!map_comp /= subn1; congr [:: _, _ & _ ++ _].
by apply: eq_map => c /=; rewrite subn1.
Qed.

Lemma dval_at l1 b l2 : bs = l1 ++ b :: l2 -> dval (n_dict npsi nalpha d) b.1 = width b.2.
Proof.
move=> e; have := nok; rewrite /names_ok e => u; rewrite /dval n_dictE e map_cat /=.
rewrite (@dget_at _ _ _ (b.1, width b.2)) //.
by move: u; rewrite !map_cat /= -map_comp -(map_comp fst).
Qed.

Lemma split_cats c1 c c2 : c_cats d = c1 ++ c :: c2 ->
  exists l1 l2, bs = l1 ++ (cat_name c, Normalised _ (cat_n c) (cat_id c)) :: l2.
Proof.
move=> e; rewrite bs_split e map_cat /=.
eexists (_ :: _ :: _); eexists; rewrite /= -catA /=; reflexivity.
Qed.

Lemma dval_cat c1 c c2 : c_cats d = c1 ++ c :: c2 ->
  dval (n_dict npsi nalpha d) (cat_name c) = (cat_n c).-1.
Proof. by move/split_cats => [l1 [l2 e]]; rewrite (dval_at e). Qed.

(* A row of A is the blocks' rows side by side. *)
Lemma A_rowE r : A_row npsi nalpha d r = flatten [seq brow b.2 r | b <- bs].
Proof.
rewrite /A_row bs_split map_cat flatten_cat map_cat flatten_cat /= cats0 foldl_flatten.
set a0 := behead _ ++ _.
have cats c2 : forall c1 a, c_cats d = c1 ++ c2 ->
  foldl (fun a c => a ++ behead (onehot F (dval (n_dict npsi nalpha d) (cat_name c) + 1) (cat_id c r))) a c2
  = a ++ flatten [seq brow b.2 r | b <- [seq (cat_name c, Normalised _ (cat_n c) (cat_id c)) | c <- c2]].
  elim: c2 => [|c c2 IH] c1 a e /=; first by rewrite cats0.
  rewrite (IH (rcons c1 c)) ?cat_rcons // (dval_cat e) -catA; congr (_ ++ _); congr (_ ++ _).
  by case: (cat_n c) => //= n; rewrite addn1.
rewrite (cats _ [::]) //.
have cts l : forall a, foldl (fun a' s => a' ++ [:: cts_val s r]) a l
  = a ++ flatten [seq brow b.2 r | b <- [seq (cts_name s, Slope (cts_val s)) | s <- l]].
  by elim: l => [|x l IH] a /=; rewrite ?cats0 // IH -catA.
by rewrite cts -!catA.
Qed.

Lemma size_rows_flatten (l : seq nblock) r :
  size (flatten [seq brow b.2 r | b <- l]) = sumn [seq width b.2 | b <- l].
Proof. by elim: l => //= b l IH; rewrite size_cat size_brow IH. Qed.

Lemma n_covE : n_cov npsi nalpha d = sumn [seq width b.2 | b <- bs].
Proof. by rewrite /n_cov n_dictE -map_comp. Qed.

Lemma size_A_row r : size (A_row npsi nalpha d r) = n_cov npsi nalpha d.
Proof. by rewrite A_rowE size_rows_flatten n_covE. Qed.

(* The dictionaries. *)
Fixpoint layout (l : seq nblock) (n : nat) : seq (N * (nat * nat)) :=
  if l is b :: l' then (b.1, (n, (n + width b.2)%N)) :: layout l' (n + width b.2) else [::].
Fixpoint gvals (gh : seq F) (l : seq nblock) (n : nat) : seq (N * gval F) :=
  if l is b :: l' then (b.1, gv b.2 (slice n (n + width b.2) gh)) :: gvals gh l' (n + width b.2)
  else [::].

Definition unpack_block (gh : seq F) (st : unpack_state F N) (b : nblock) : unpack_state F N :=
  let '(g, ci, n) := st in
  (dset g b.1 (gv b.2 (slice n (n + width b.2) gh)), dset ci b.1 (n, (n + width b.2)%N),
   (n + width b.2)%N).

Lemma unpack_blocks gh : unpack_gamma_hat npsi nalpha d gh = foldl (unpack_block gh) ([::], [::], 0%N) bs.
Proof.
rewrite /unpack_gamma_hat bs_split !foldl_cat foldl_flatten /= subn1 !add0n.
set st0 := (_, _, _).
have cats c2 : forall c1 st, c_cats d = c1 ++ c2 ->
  foldl (unpack_cat npsi nalpha d gh) st c2
  = foldl (unpack_block gh) st [seq (cat_name c, Normalised _ (cat_n c) (cat_id c)) | c <- c2].
  elim: c2 => //= c c2 IH c1 st e; rewrite (IH (rcons c1 c)) ?cat_rcons //; congr foldl.
  by case: st => [[g ci] n]; rewrite /unpack_cat (dval_cat e).
rewrite (cats _ [::]) //.
have cts l : forall st, foldl (unpack_cts gh) st l
  = foldl (unpack_block gh) st [seq (cts_name s, Slope (cts_val s)) | s <- l].
  elim: l => //= x l IH st; rewrite IH; congr foldl.
  case: st => [[g ci] n]; rewrite /unpack_cts /unpack_block /= sliceE addn1.
  by congr (dset _ _ (Num _), _, _); rewrite nth_take // nth_drop addn0.
by rewrite cts.
Qed.

Lemma foldl_unpack gh l g ci n :
  uniq (map fst g ++ map fst l) -> uniq (map fst ci ++ map fst l) ->
  foldl (unpack_block gh) (g, ci, n) l
  = (g ++ gvals gh l n, ci ++ layout l n, (n + sumn [seq width b.2 | b <- l])%N).
Proof.
elim: l g ci n => [|b l IH] g ci n /=; first by rewrite !cats0 addn0.
move=> u1 u2; have f1 : b.1 \notin map fst g.
  by move: u1; rewrite cat_uniq /= negb_or => /and3P [_ /andP []].
have f2 : b.1 \notin map fst ci.
  by move: u2; rewrite cat_uniq /= negb_or => /and3P [_ /andP []].
by rewrite !dset_fresh // IH ?map_rcons ?cat_rcons // addnA.
Qed.

Lemma unpackE gh : unpack_gamma_hat npsi nalpha d gh
  = (gvals gh bs 0, layout bs 0, n_cov npsi nalpha d).
Proof. by rewrite unpack_blocks foldl_unpack ?n_covE //; exact: nok. Qed.

Lemma map_fst_layout l n : map fst (layout l n) = map fst l.
Proof. by elim: l n => //= b l IH n; rewrite IH. Qed.
Lemma map_fst_gvals gh l n : map fst (gvals gh l n) = map fst l.
Proof. by elim: l n => //= b l IH n; rewrite IH. Qed.

Lemma layout_cat l1 l2 n :
  layout (l1 ++ l2) n = layout l1 n ++ layout l2 (n + sumn [seq width b.2 | b <- l1]).
Proof. by elim: l1 n => //= [|b l1 IH] n; rewrite ?addn0 // IH addnA. Qed.
Lemma gvals_cat gh l1 l2 n :
  gvals gh (l1 ++ l2) n = gvals gh l1 n ++ gvals gh l2 (n + sumn [seq width b.2 | b <- l1]).
Proof. by elim: l1 n => //= [|b l1 IH] n; rewrite ?addn0 // IH addnA. Qed.

Local Notation off l1 := (sumn [seq width b.2 | b <- l1]).

Lemma dget_layout l1 b l2 : bs = l1 ++ b :: l2 ->
  dget (cov_indices npsi nalpha d) b.1 = Base.Ok (off l1, (off l1 + width b.2)%N).
Proof.
move=> e; have u := nok; rewrite /cov_indices unpackE e layout_cat /= add0n.
rewrite (@dget_at _ _ _ (b.1, (off l1, (off l1 + width b.2)%N))) //.
by rewrite map_cat /= !map_fst_layout; move: u; rewrite /names_ok e map_cat.
Qed.

Lemma dget_gvals gh l1 b l2 : bs = l1 ++ b :: l2 ->
  dget (gamma_dict npsi nalpha d gh) b.1
  = Base.Ok (gv b.2 (slice (off l1) (off l1 + width b.2) gh)).
Proof.
move=> e; have u := nok; rewrite /gamma_dict unpackE e gvals_cat /= add0n.
rewrite (@dget_at _ _ _ (b.1, gv b.2 (slice (off l1) (off l1 + width b.2) gh))) //.
by rewrite map_cat /= !map_fst_gvals; move: u; rewrite /names_ok e map_cat.
Qed.

(* Pieces of the coefficient vector. *)
Fixpoint slices (gh : seq F) (l : seq nblock) (n : nat) : seq (seq F) :=
  if l is b :: l' then slice n (n + width b.2) gh :: slices gh l' (n + width b.2) else [::].

Lemma pieces_slices gh l n : pieces l (drop n gh) = slices gh l n.
Proof. by elim: l n => //= b l IH n; rewrite sliceE drop_drop addnC IH. Qed.

Lemma slices_cat gh l1 l2 n :
  slices gh (l1 ++ l2) n = slices gh l1 n ++ slices gh l2 (n + off l1).
Proof. by elim: l1 n => //= [|b l1 IH] n; rewrite ?addn0 // IH addnA. Qed.
Lemma size_slices gh l n : size (slices gh l n) = size l.
Proof. by elim: l n => //= b l IH n; rewrite IH. Qed.

Definition eff_at gh (l : seq nblock) n r : seq (N * F) :=
  [seq (x.1.1, effect x.1.2 x.2 r) | x <- zip l (slices gh l n)].
Lemma effectsE gh r : effects npsi nalpha d gh r = eff_at gh bs 0 r.
Proof. by rewrite /effects /eff_at -pieces_slices drop0. Qed.
Lemma eff_at_cat gh l1 l2 n r :
  eff_at gh (l1 ++ l2) n r = eff_at gh l1 n r ++ eff_at gh l2 (n + off l1) r.
Proof. by rewrite /eff_at slices_cat zip_cat ?size_slices // map_cat. Qed.

(* The attached columns. *)
Definition att (gh : seq F) (b : nblock) : N * (nat -> F) :=
  (b.1, match b.2 with
        | Normalised _ id => fun r => g_index (dget (gamma_dict npsi nalpha d gh) b.1) (id r)
        | Free _ id => fun r => g_index (dget (gamma_dict npsi nalpha d gh) b.1) (id r)
        | Slope x => fun r => g_scale (dget (gamma_dict npsi nalpha d gh) b.1) (x r)
        end).
Lemma attach_att gh : attach_all npsi nalpha d gh = [seq att gh b | b <- bs].
Proof.
rewrite /attach_all bs_split !map_cat -!map_comp /=; congr [:: _, _ & _ ++ _].
by elim: (c_cts d) => //= col l IH; rewrite map_cat -IH.
Qed.

Lemma attach_effects gh r :
  [seq (c.1, c.2 r) | c <- attach_all npsi nalpha d gh] = effects npsi nalpha d gh r.
Proof.
rewrite attach_att effectsE -map_comp.
suff H l2 : forall l1, bs = l1 ++ l2 ->
    [seq ((fun c => (c.1, c.2 r)) \o att gh) b | b <- l2] = eff_at gh l2 (off l1) r.
  exact: (H _ [::]).
elim: l2 => //= b l2 IH l1 e; rewrite (IH (rcons l1 b)) ?cat_rcons //.
rewrite /eff_at /= -cats1 map_cat sumn_cat /= addn0; congr (_ :: _); congr (_, _).
rewrite /att; case: b e => k [n id|n id|x] e /=; rewrite (dget_gvals _ e) /=.
- by case: (id r).
- by [].
- by [].
Qed.

(* Design row times coefficients. *)
Lemma size_slice l1 b l2 (gh : seq F) : bs = l1 ++ b :: l2 -> size gh = n_cov npsi nalpha d ->
  size (slice (off l1) (off l1 + width b.2) gh) = width b.2.
Proof.
move=> e sg; rewrite sliceE size_takel // size_drop sg n_covE e map_cat sumn_cat /=.
by rewrite addKn leq_addr.
Qed.

Lemma dotp_brow (b : block F) r c : in_range b r -> size c = width b ->
  dotp (brow b r) c = effect b c r.
Proof.
case: b => [n id|n id|x] /= ir sc.
- by rewrite dotp_onehot1.
- by rewrite dotp_onehot.
- by case: c sc => [|y []] //= _; rewrite addr0 mulrC.
Qed.

Hypothesis iok : ids_ok npsi nalpha d.

Lemma in_range_at r l1 b l2 : (r < c_nn d)%N -> bs = l1 ++ b :: l2 -> in_range b.2 r.
Proof. by move=> lt e; have := iok lt; rewrite e all_cat /= => /and3P []. Qed.

Lemma A_mulE gh r : (r < c_nn d)%N -> size gh = n_cov npsi nalpha d ->
  A_mul npsi nalpha d gh r = \sum_(e <- effects npsi nalpha d gh r) e.2.
Proof.
move=> lt sg; rewrite /A_mul A_rowE effectsE.
suff H l2 : forall l1, bs = l1 ++ l2 ->
    dotp (flatten [seq brow b.2 r | b <- l2]) (drop (off l1) gh)
    = \sum_(e <- eff_at gh l2 (off l1) r) e.2.
  by rewrite -(H _ [::]) ?drop0.
elim: l2 => [|b l2 IH] l1 e /=; first by rewrite big_nil.
rewrite /eff_at /= big_cons /= -(dotp_brow (in_range_at lt e)); last exact: (size_slice e).
rewrite -{1}(cat_take_drop (width b.2) (drop (off l1) gh)) dotp_cat; last first.
  by rewrite size_brow -sliceE (size_slice e).
rewrite -sliceE; congr (_ + _).
rewrite drop_drop addnC; have := IH (rcons l1 b).
by rewrite cat_rcons -cats1 map_cat sumn_cat /= addn0 => ->.
Qed.

Lemma attach_sum gh r : (r < c_nn d)%N -> size gh = n_cov npsi nalpha d ->
  \sum_(c <- attach_all npsi nalpha d gh) c.2 r = A_mul npsi nalpha d gh r.
Proof. by move=> lt sg; rewrite A_mulE // -attach_effects big_map. Qed.

End Layout.
