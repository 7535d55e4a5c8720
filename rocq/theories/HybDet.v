(** The determinant of the hybridization matrix of a set of operators.

    This file models no code of its own: it is the specification used by GlobalUpdate.v (src/moves/moves.ipp:728-791)
    and DetPartitioned.v, and the linear algebra that relates the determinant in time order to the product of the
    determinants of the blocks.  Rows belong to annihilation operators, columns to creation operators
    (moves.ipp:759-763). *)
From Coq Require Import ZArith List Sorting.Permutation Sorting.Sorted.
From mathcomp Require Import all_ssreflect all_fingroup all_algebra.
From Verif Require Import OpContainer CombSort PermSign T_PermSign Dist Proposal.
Set Implicit Arguments.
Unset Strict Implicit.
Unset Printing Implicit Defensive.
Import GRing.Theory.
Local Close Scope Z_scope.
Local Open Scope nat_scope.
Local Open Scope ring_scope.

Lemma length_size A (s : seq A) : List.length s = size s. Proof. by elim: s => //= x s ->. Qed.
Lemma app_cat A (s t : seq A) : List.app s t = s ++ t. Proof. by elim: s => //= x s ->. Qed.

Section DetL.
Variables (K : comRingType) (X Y : Type) (x0 : X) (y0 : Y) (F : X -> Y -> K).

Definition matL (n : nat) (xs : seq X) (ys : seq Y) : 'M[K]_n := \matrix_(i < n, j < n) F (nth x0 xs i) (nth y0 ys j).
Definition detL (n : nat) (xs : seq X) (ys : seq Y) : K := \det (matL n xs ys).

Lemma detL0 xs ys : detL 0 xs ys = 1.
Proof. exact: det_mx00. Qed.

Lemma detL_adj k xs xs' ys n : adj k xs xs' -> n = size xs -> detL n xs' ys = (-1) ^+ k * detL n xs ys.
Proof.
elim=> [l _|{}k l a x y b h IH hn]; first by rewrite expr0 mul1r.
have sz : n = (size a + (size b).+2)%N.
  by rewrite hn; have := Permutation_length (adj_perm _ _ _ h); rewrite !length_size app_cat size_cat => ->.
rewrite app_cat in IH *; rewrite app_cat.
have l1 : (size a < n)%N by rewrite sz addnS ltnS leq_addr.
have l2 : ((size a).+1 < n)%N by rewrite sz !addnS !ltnS leq_addr.
have e : matL n (a ++ y :: x :: b) ys = xrow (Ordinal l1) (Ordinal l2) (matL n (a ++ x :: y :: b) ys).
  apply/matrixP=> i j; rewrite !mxE; congr (F _ _).
  rewrite permE /= -!(inj_eq val_inj) /=; case: (eqVneq (i : nat) (size a)) => [->|n1] /=.
    by rewrite !nth_cat ltnn subnn ltnNge leqnSn /= subSnn.
  case: (eqVneq (i : nat) (size a).+1) => [->|n2] /=.
    by rewrite !nth_cat ltnn subnn ltnNge leqnSn /= subSnn.
  rewrite !nth_cat; case: ltnP => // h2; rewrite -/(nth _ _ _).
  have h3 : (1 < i - size a)%N by rewrite ltn_subRL addn1 ltn_neqAle eq_sym n2 /= ltn_neqAle eq_sym n1.
  by case: (i - size a)%N h3 => [|[|m]].
rewrite /detL e xrowE det_mulmx det_perm odd_tperm -val_eqE /= neq_ltn ltnSn /= expr1 mulN1r -/(detL n (a ++ x :: y :: b) ys).
by rewrite IH // exprS -mulN1r mulrA.
Qed.
End DetL.

Lemma detL_tr (K : comRingType) (X Y : Type) x0 y0 (F : X -> Y -> K) n xs ys :
  detL x0 y0 F n xs ys = detL y0 x0 (fun y x => F x y) n ys xs.
Proof. by rewrite /detL -det_tr; congr (\det _); apply/matrixP => i j; rewrite !mxE. Qed.

Section Blocks.
Variables (K : fieldType) (X Y : Type) (x0 : X) (y0 : Y) (F : X -> Y -> K).
Notation detL := (detL x0 y0 F).
Notation matL := (matL x0 y0 F).

Lemma detL_adjr k xs ys ys' n : adj k ys ys' -> n = size ys -> detL n xs ys' = (-1) ^+ k * detL n xs ys.
Proof. by move=> h hn; rewrite detL_tr (detL_adj _ _ _ _ h hn) detL_tr. Qed.

(** Two blocks that do not interact. *)
Lemma detL_cat n1 n2 xs1 xs2 ys1 ys2 : size xs1 = n1 -> size ys1 = n1 -> size xs2 = n2 ->
  (forall i j, (i < n1)%N -> (n1 <= j < n1 + n2)%N -> F (nth x0 (xs1 ++ xs2) i) (nth y0 (ys1 ++ ys2) j) = 0) ->
  detL (n1 + n2) (xs1 ++ xs2) (ys1 ++ ys2) = detL n1 xs1 ys1 * detL n2 xs2 ys2.
Proof.
move=> h1 h2 h3 hz; rewrite /HybDet.detL.
have -> : matL (n1 + n2) (xs1 ++ xs2) (ys1 ++ ys2) =
  block_mx (matL n1 xs1 ys1) 0 (\matrix_(i < n2, j < n1) F (nth x0 xs2 i) (nth y0 ys1 j)) (matL n2 xs2 ys2).
  apply/matrixP=> i j; rewrite !mxE; case: (splitP i) => i' hi; rewrite !mxE; case: (splitP j) => j' hj; rewrite !mxE.
  - by rewrite !nth_cat hi hj h1 h2 !ltn_ord.
  - by apply: hz; rewrite ?hi ?hj ?ltn_ord // leq_addr /= ltn_add2l.
  - by rewrite !nth_cat hi hj h1 h2 !ltn_ord ltnNge leq_addr /= addKn.
  - by rewrite !nth_cat hi hj h1 h2 !ltnNge !leq_addr /= !addKn.
by rewrite det_lblock.
Qed.

(** More rows in a block than columns (or the other way round): the determinant vanishes. *)
Lemma det_unbalanced n (A : 'M[K]_n) (P Q : pred 'I_n) : (#|P| != #|Q|)%N ->
  (forall i j, P i != Q j -> A i j = 0) -> \det A = 0.
Proof.
move=> hne hz; rewrite /determinant big1 // => s _.
suff [i hi] : exists i, P i != Q (s i) by rewrite (bigD1 i) //= hz // mul0r mulr0.
apply/existsP; apply: contraT => /existsPn h; case/negP: hne; apply/eqP.
have e : Q =1 [pred j | P ((s^-1)%g j)] by move=> j; rewrite /= -[in Q j](permKV s j); apply/esym/eqP; rewrite -[_ == _]negbK h.
rewrite (eq_card e) -(card_image (@perm_inj _ s) P); apply: eq_card => j; rewrite !inE.
by apply/imageP/idP => [[i hi ->]|hj]; [rewrite /in_mem /= permK|exists ((s^-1)%g j); rewrite ?permKV].
Qed.
End Blocks.

(** ** Sorting by time *)
Lemma adj_map (A B : Type) (f : A -> B) k (xs : seq A) l : adj k (map f xs) l -> exists2 xs', adj k xs xs' & map f xs' = l.
Proof.
move e: (map f xs) => l0 h; elim: h xs e => [l1 xs <-|{}k l1 a x y b h IH xs e]; first by exists xs => //; constructor.
have [xs1 h1 e1] := IH _ e.
rewrite !app_cat in e1 *; have [a' [r [e2 ea er]]] : exists a' r, [/\ xs1 = a' ++ r, map f a' = a & map f r = x :: y :: b].
  exists (take (size a) xs1), (drop (size a) xs1); rewrite cat_take_drop map_take map_drop e1.
  by rewrite take_size_cat // drop_size_cat.
case: r er e2 => [|x' [|y' b']] //= [ex ey eb] e2.
exists (a' ++ y' :: x' :: b'); last by rewrite map_cat /= ea ex ey eb.
by rewrite -app_cat; apply: adj_step; rewrite app_cat -e2.
Qed.
Lemma map_adj (A B : Type) (f : A -> B) k (xs ys : seq A) : adj k xs ys -> adj k (map f xs) (map f ys).
Proof.
elim=> [l|{}k l a x y b h IH]; first by constructor.
by move: IH; rewrite -[List.app a (x :: _)]/(a ++ _) -[List.app a (y :: _)]/(a ++ _) !map_cat; exact: adj_step.
Qed.

(** A total order on operators; the time decides first. *)
Definition type_code (t : optype) : nat := if t is CREATION_OP then 0 else 1.
Definition psi_le (a b : psi) : bool :=
  ot_lt (p_time a) (p_time b) || ot_eqb (p_time a) (p_time b) &&
  ((type_code (p_type a) < type_code (p_type b)) || (type_code (p_type a) == type_code (p_type b)) && (p_flavor a <= p_flavor b))%N.
Lemma ot_ltT a b c : ot_lt a b -> ot_lt b c -> ot_lt a c.
Proof. exact: ot_lt_trans. Qed.
Lemma psi_le_total : total psi_le.
Proof.
move=> a b; rewrite /psi_le; case: (ot_lt_total (p_time a) (p_time b)) => [->|[e|->]] //; last by rewrite orbT.
rewrite e ot_lt_irrefl /= (_ : ot_eqb _ _ = true) /=; last by apply/ot_eqb_spec.
by case: ltngtP => //= _; exact: leq_total.
Qed.
Lemma psi_le_trans : transitive psi_le.
Proof.
move=> b a c; rewrite /psi_le => /orP[h1|/andP[/ot_eqb_spec -> h1]].
  move=> /orP[h2|/andP[/ot_eqb_spec <- _]]; last by rewrite h1.
  by rewrite (ot_ltT h1 h2).
move=> /orP[->//|/andP[-> h2]]; apply/orP; right => /=.
case/orP: h1 => [h1|/andP[/eqP-> h1]].
  by case/orP: h2 => [h2|/andP[/eqP<- _]]; rewrite ?h1 // (ltn_trans h1 h2).
by case/orP: h2 => [->//|/andP[-> h2]]; rewrite (leq_trans h1 h2) orbT.
Qed.
Lemma psi_le_anti : antisymmetric psi_le.
Proof.
move=> a b /andP[]; rewrite /psi_le.
case: (ot_lt_total (p_time a) (p_time b)) => [h|[e|h]].
- by rewrite h (ot_lt_asym _ _ h) /=; case: ot_eqb (ot_eqb_spec (p_time b) (p_time a)) => [[h2 _]|//]; rewrite h2 // ot_lt_irrefl in h.
- rewrite e ot_lt_irrefl /= (_ : ot_eqb _ _ = true) /=; last by apply/ot_eqb_spec.
  case: ltngtP => //= e2 h1 h2; case: a b e e2 h1 h2 => ta ya fa [tb yb fb] /= -> e2 h1 h2.
  have -> : fa = fb by apply/eqP; rewrite eqn_leq h1 h2.
  by case: ya yb e2 => [] [].
- by rewrite h (ot_lt_asym _ _ h) /=; case: ot_eqb (ot_eqb_spec (p_time a) (p_time b)) => [[h2 _]|//]; rewrite h2 // ot_lt_irrefl in h.
Qed.

Definition tsort (s : seq psi) : seq psi := sort psi_le s.
Lemma perm_tsort s : perm_eq s (tsort s). Proof. by rewrite perm_sym; apply/permPl/perm_sort. Qed.
Lemma tsort_ext s1 s2 : perm_eq s1 s2 -> tsort s1 = tsort s2.
Proof. by move=> h; apply/(perm_sortP psi_le_total psi_le_trans psi_le_anti). Qed.

(** Number of inversions of the times; 0 when sorted. *)
Lemma tsort_inv s : inv ot_lt (map p_time (tsort s)) = 0%N.
Proof.
apply: inv_sorted.
have := sort_sorted psi_le_total s; rewrite -/(tsort s); elim: (tsort s) => [|x l IH] /=; first by constructor.
move=> h; constructor; first by apply: IH; exact: path_sorted h.
have {}h := order_path_min psi_le_trans h.
apply/Forall_forall => t /in_map_iff [y [<- /In_mem hy]].
have := allP h _ hy; rewrite /psi_le => /orP[/ot_lt_asym //|/andP[/ot_eqb_spec -> _]]; exact: ot_lt_irrefl.
Qed.

Lemma ot_lt_flip x y : x <> y -> ot_lt x y = ~~ ot_lt y x.
Proof. by move=> h; have := ot_gt_total y x (fun e => h (esym e)). Qed.

(** The sign returned by comb_sort is the parity of any rearrangement into time order. *)
Lemma comb_sign k s l b : uniq (map p_time s) -> adj k s (tsort s) ->
  comb_sort ot_lt shrink13 (map p_time s) = Some (l, b) -> b = odd k.
Proof.
move=> us h e.
have nd : NoDup (map p_time s) by apply/NoDup_uniq.
have [l' [n [e2 [hs ho]]]] := comb_sort_ok ot_lt shrink13 ot_lt_irrefl ot_lt_asym (erefl _) shrink13_lt (map p_time s).
have {e} : b = Nat.odd n by move: e; rewrite e2 => -[_ ->].
have p1 := swaps_parity ot_lt ot_lt_flip _ _ _ nd hs.
have p2 := adj_parity ot_lt _ _ _ ot_lt_flip nd (map_adj p_time h).
have so : StronglySorted (fun x y => ot_lt y x = false) l' := ordered_pairs ot_lt ot_lt_negtrans l' ho.
rewrite (inv_sorted ot_lt l' so) in p1; rewrite tsort_inv in p2.
have oddE m : Nat.odd m = odd m by elim: m => // m IH; rewrite Nat.odd_succ -Nat.negb_odd IH.
rewrite -oddE => ->; move: p1 p2 => /=.
by case: (Nat.odd n); case: (Nat.odd k); case: (Nat.odd (inv _ _)).
Qed.

Lemma comb_total s : exists l b, comb_sort ot_lt shrink13 s = Some (l, b).
Proof.
have [l' [n [e2 [hs ho]]]] := comb_sort_ok ot_lt shrink13 ot_lt_irrefl ot_lt_asym (erefl _) shrink13_lt s.
by exists l', (Nat.odd n).
Qed.

Section HybDet.
Variables (K : fieldType) (F : psi -> psi -> K).

(** The determinant of the operators: rows c, columns c^+, both in time order. *)
Definition hyb_det (cd c : seq psi) : K :=
  if size c == size cd then detL psi0 psi0 F (size c) (tsort c) (tsort cd) else 0.

Lemma hyb_det_ext cd c cd' c' : perm_eq cd cd' -> perm_eq c c' -> hyb_det cd c = hyb_det cd' c'.
Proof. by move=> h1 h2; rewrite /hyb_det (perm_size h1) (perm_size h2) (tsort_ext h1) (tsort_ext h2). Qed.

Lemma hyb_det_adj k1 k2 xs ys : size xs = size ys -> adj k1 xs (tsort xs) -> adj k2 ys (tsort ys) ->
  hyb_det ys xs = (-1) ^+ k1 * (-1) ^+ k2 * detL psi0 psi0 F (size xs) xs ys.
Proof.
move=> hs h1 h2; rewrite /hyb_det hs eqxx -mulrA (detL_adj _ _ _ _ h1) ?(detL_adjr _ _ _ _ h2) //.
Qed.

(** Any storage order: the determinant in time order is the one in storage order times the two signs. *)
Theorem hyb_det_order xs ys l1 b1 l2 b2 : size xs = size ys -> uniq (map p_time xs) -> uniq (map p_time ys) ->
  comb_sort ot_lt shrink13 (map p_time xs) = Some (l1, b1) -> comb_sort ot_lt shrink13 (map p_time ys) = Some (l2, b2) ->
  hyb_det ys xs = (-1) ^+ b1 * (-1) ^+ b2 * detL psi0 psi0 F (size xs) xs ys.
Proof.
move=> hs u1 u2 e1 e2.
have [k1 h1] := perm_adj xs (tsort xs) (perm_eq_Permutation (perm_tsort xs)).
have [k2 h2] := perm_adj ys (tsort ys) (perm_eq_Permutation (perm_tsort ys)).
rewrite (hyb_det_adj hs h1 h2) (comb_sign u1 h1 e1) (comb_sign u2 h2 e2).
by rewrite !signr_odd.
Qed.

(** ** Blocks of flavors *)
Variable blk : nat -> nat.
Hypothesis Fblk : forall x y, blk (p_flavor x) != blk (p_flavor y) -> F x y = 0.
Definition inb (b : nat) (s : seq psi) : seq psi := [seq x <- s | blk (p_flavor x) == b].
Definition by_blocks (bs : seq nat) (s : seq psi) : seq psi := flatten [seq inb b s | b <- bs].

Lemma mem_by_blocks bs s x : x \in by_blocks bs s = (blk (p_flavor x) \in bs) && (x \in s).
Proof.
apply/flattenP/andP => [[l /mapP[b hb ->]]|[hb hx]]; first by rewrite mem_filter => /andP[/eqP -> ->].
by exists (inb (blk (p_flavor x)) s); [exact: map_f|rewrite mem_filter eqxx].
Qed.

Lemma perm_by_blocks bs s : uniq bs -> all (fun x => blk (p_flavor x) \in bs) s -> perm_eq (by_blocks bs s) s.
Proof.
move=> ub; elim: bs s ub => [|b bs IH] s /=; first by case: s.
move=> /andP[nb ub] hs; rewrite /by_blocks /=.
have -> : [seq inb b0 s | b0 <- bs] = [seq inb b0 [seq x <- s | blk (p_flavor x) != b] | b0 <- bs].
  apply/eq_in_map => b0 hb0; rewrite /inb -filter_predI; apply: eq_filter => x /=.
  by case: eqP => //= ->; apply/esym; apply: contraNneq nb => <-.
have h := IH [seq x <- s | blk (p_flavor x) != b] ub.
apply: (perm_trans (perm_cat (perm_refl _) (h _))); last by rewrite perm_filterC.
by apply/allP => x; rewrite mem_filter => /andP[ne hx]; have := allP hs _ hx; rewrite inE (negbTE ne).
Qed.

Lemma detL_blocks bs xs ys : uniq bs -> all (fun b => size (inb b xs) == size (inb b ys)) bs ->
  detL psi0 psi0 F (size (by_blocks bs xs)) (by_blocks bs xs) (by_blocks bs ys) =
  \prod_(b <- bs) detL psi0 psi0 F (size (inb b xs)) (inb b xs) (inb b ys).
Proof.
elim: bs => [|b bs IH] /=; first by rewrite big_nil detL0.
move=> /andP[nb ub] /andP[/eqP hb hbs]; rewrite big_cons -IH // /by_blocks /= size_cat.
apply: detL_cat => // i j hi /andP[hj1 hj2]; apply: Fblk.
rewrite !nth_cat hi -hb ltnNge hj1 /=.
have := mem_nth psi0 hi; rewrite mem_filter => /andP[/eqP -> _].
have sz : size (by_blocks bs xs) = size (by_blocks bs ys).
  rewrite !size_flatten /shape -!map_comp; congr sumn; apply/eq_in_map => b0 h0 /=; exact/eqP/(allP hbs).
have hj : (j - size (inb b xs) < size (by_blocks bs ys))%N by rewrite -sz ltn_subLR.
have := mem_nth psi0 hj; rewrite mem_by_blocks => /andP[h _].
by apply: contraNneq nb => ->.
Qed.

Lemma card_nth (p : pred psi) s n : size s = n -> #|[pred i : 'I_n | p (nth psi0 s i)]| = count p s.
Proof.
move=> <-; rewrite -sum1_card -sum1_count [RHS](big_nth psi0) big_mkord.
by apply: eq_bigl.
Qed.

(** Blocks with different numbers of rows and columns: the determinant is zero. *)
Theorem hyb_det_unbalanced b cd c : size (inb b cd) != size (inb b c) -> hyb_det cd c = 0.
Proof.
move=> hb; rewrite /hyb_det; case: eqP => // hs.
apply: (det_unbalanced (P := [pred i : 'I_(size c) | blk (p_flavor (nth psi0 (tsort c) i)) == b])
                       (Q := [pred i : 'I_(size c) | blk (p_flavor (nth psi0 (tsort cd) i)) == b])).
  rewrite !(@card_nth (fun x => blk (p_flavor x) == b)) ?size_sort // eq_sym.
  have cs s : count (fun x => blk (p_flavor x) == b) (tsort s) = size (inb b s).
    by rewrite size_filter; apply/esym/seq.permP/perm_tsort.
  by rewrite !cs.
move=> i j /= ne; rewrite mxE; apply: Fblk; apply: contra ne => /eqP ->; exact: eqxx.
Qed.

(** Blocks of equal size: the product of the block determinants, times the sign of bringing the block order
    into time order. *)
Theorem hyb_det_blocks bs cd c l1 b1 l2 b2 : uniq bs ->
  all (fun x => blk (p_flavor x) \in bs) cd -> all (fun x => blk (p_flavor x) \in bs) c ->
  uniq (map p_time cd) -> uniq (map p_time c) ->
  all (fun b => size (inb b c) == size (inb b cd)) bs ->
  comb_sort ot_lt shrink13 (map p_time (by_blocks bs c)) = Some (l1, b1) ->
  comb_sort ot_lt shrink13 (map p_time (by_blocks bs cd)) = Some (l2, b2) ->
  hyb_det cd c = (-1) ^+ b1 * (-1) ^+ b2 * \prod_(b <- bs) detL psi0 psi0 F (size (inb b c)) (inb b c) (inb b cd).
Proof.
move=> ub hcd hc ucd uc hs e1 e2.
have p1 := perm_by_blocks ub hcd; have p2 := perm_by_blocks ub hc.
rewrite (hyb_det_ext (cd' := by_blocks bs cd) (c' := by_blocks bs c)) 1?perm_sym //.
rewrite (hyb_det_order _ _ _ e1 e2) ?detL_blocks //.
- rewrite !size_flatten /shape -!map_comp; congr sumn; apply/eq_in_map => b0 h0 /=; exact/eqP/(allP hs).
- by rewrite (perm_uniq (perm_map _ p2)).
- by rewrite (perm_uniq (perm_map _ p1)).
Qed.
End HybDet.
