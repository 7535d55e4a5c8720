(** * C59: the weights of the worm measurement by removal *)
From Coq Require Import ZArith List Sorting.Permutation Sorting.Sorted.
From mathcomp Require Import all_ssreflect all_fingroup all_algebra zify.
From Verif Require Import OpContainer CombSort PermSign T_PermSign Dist Proposal HybDet EigenBasis T_EigenBasis FastUpdate T_FastUpdate DetMatrix T_DetMatrix T_DetUpdate T_DetHistory DetPartitioned T_DetPartitioned Legendre T_Legendre Measure T_Measure MeasureHyb KField.
Import Order.Theory GRing.Theory Num.Theory.
Set Implicit Arguments.
Unset Strict Implicit.
Unset Printing Implicit Defensive.
Local Close Scope Z_scope.
Local Open Scope nat_scope.
Local Open Scope ring_scope.
Delimit Scope Z_scope with coqZ.

(** ** Specification *)
Section Spec.
Variable K : numFieldType.
Variable F : psi -> psi -> K.
(** The weight of a configuration apart from the trace: the permutation sign (C08) times the determinant of the
    hybridization function of all its operators in time order.  The trace depends only on the set of all operators,
    hybridized or worm. *)
Definition conf_weight (cd c w : seq psi) : K :=
  (if compute_permutation_sign_impl cd c w == Some true then -1 else 1) * hyb_det F cd c.
End Spec.
(** The operators at the listed positions, and the others *)
Definition picked (ops : seq psi) (r : seq nat) : seq psi := [seq nth psi0 ops i | i <- r].
Definition others (ops : seq psi) (r : seq nat) : seq psi := picked ops [seq i <- iota 0 (size ops) | i \notin r].
(** c_0 c^+_0 c_1 c^+_1 ... *)
Fixpoint weave (c cd : seq psi) : seq psi :=
  match c, cd with x :: c', y :: cd' => x :: y :: weave c' cd' | _, _ => [::] end.
(** Distinct positions in a list of n *)
Definition choice (n k : nat) (r : seq nat) : bool := [&& uniq r, size r == k & all (fun i => i < n)%N r].

(** ** The permutation sign and the determinant in any order of the operators *)
Lemma map_weave c cd : map p_time (weave c cd) = interleave (map p_time c) (map p_time cd).
Proof. by elim: c cd => [|x c IH] [|y cd] //=; rewrite IH. Qed.
Lemma weave_cat c1 c2 d1 d2 : size c1 = size d1 -> weave (c1 ++ c2) (d1 ++ d2) = weave c1 d1 ++ weave c2 d2.
Proof. by elim: c1 d1 => [|x c1 IH] [|y d1] //= [/IH ->]. Qed.
Lemma adj_app (A : Type) k (l l' r : seq A) : adj k l l' -> adj k (l ++ r) (l' ++ r).
Proof.
elim=> [x|{}k x a u v b h IH]; first exact: adj_refl.
by move: IH; rewrite !app_cat -!catA !cat_cons -!app_cat; exact: adj_step.
Qed.
Lemma adj_pre (A : Type) k (l l' r : seq A) : adj k l l' -> adj k (r ++ l) (r ++ l').
Proof. by move=> h; elim: r => //= x r IH; exact: adj_cons. Qed.
Lemma adj_size (A : Type) k (l l' : seq A) : adj k l l' -> size l = size l'.
Proof. by move=> /adj_perm /Permutation_length; rewrite !length_size. Qed.
Lemma adj1 (A : Type) (a b : seq A) x y : adj 1 (a ++ x :: y :: b) (a ++ y :: x :: b).
Proof. by rewrite -!app_cat; apply: adj_step; exact: adj_refl. Qed.
Lemma inter_cat (c1 c2 d1 d2 : seq optime) : size c1 = size d1 -> interleave (c1 ++ c2) (d1 ++ d2) = interleave c1 d1 ++ interleave c2 d2.
Proof. by elim: c1 d1 => [|x c1 IH] [|y d1] //= [/IH ->]. Qed.
Lemma inter_adjl k cs cs' ds : adj k cs cs' -> size cs = size ds -> exists2 k', adj k' (interleave cs ds) (interleave cs' ds) & odd k' = odd k.
Proof.
move=> h; elim: h ds => [l ds|{}k l a x y b h IH ds] hs; first by exists 0%N => //; exact: adj_refl.
have [k' h' o'] := IH ds hs; exists (k' + 3)%N; last by rewrite oddD o' /=; case: (odd k).
apply: adj_trans h' _; rewrite !app_cat.
have sz : size ds = (size a + (size b).+2)%N by rewrite -hs (adj_size h) app_cat size_cat.
rewrite -(cat_take_drop (size a) ds) !inter_cat ?size_takel ?sz ?leq_addr //.
have : size (drop (size a) ds) = (size b).+2 by rewrite size_drop sz addKn.
case: (drop _ _) => [|u [|v e]] //= _; apply: adj_pre.
have h1 := adj1 [:: x] (v :: interleave b e) u y.
have h2 := adj1 [::] (u :: v :: interleave b e) x y.
have h3 := adj1 [:: y] (v :: interleave b e) x u.
exact: (adj_trans _ _ _ _ _ (adj_trans _ _ _ _ _ h1 h2) h3).
Qed.
Lemma inter_adjr k cs ds ds' : adj k ds ds' -> size cs = size ds -> exists2 k', adj k' (interleave cs ds) (interleave cs ds') & odd k' = odd k.
Proof.
move=> h; elim: h cs => [l cs|{}k l a x y b h IH cs] hs; first by exists 0%N => //; exact: adj_refl.
have [k' h' o'] := IH cs hs; exists (k' + 3)%N; last by rewrite oddD o' /=; case: (odd k).
apply: adj_trans h' _; rewrite !app_cat.
have sz : size cs = (size a + (size b).+2)%N by rewrite hs (adj_size h) app_cat size_cat.
rewrite -(cat_take_drop (size a) cs) !inter_cat ?size_takel ?sz ?leq_addr //.
have : size (drop (size a) cs) = (size b).+2 by rewrite size_drop sz addKn.
case: (drop _ _) => [|u [|v e]] //= _; apply: adj_pre.
have h1 := adj1 [:: u] (y :: interleave e b) x v.
have h2 := adj1 [:: u; v] (interleave e b) x y.
have h3 := adj1 [:: u] (x :: interleave e b) v y.
exact: (adj_trans _ _ _ _ _ (adj_trans _ _ _ _ _ h1 h2) h3).
Qed.
Lemma inv_both (l : seq optime) : uniq l -> (inv ot_gt l + inv ot_lt l)%N = 'C(size l, 2).
Proof.
elim: l => [|x l IH] //= /andP[hx /IH {}IH]; rewrite binS bin1 -IH.
have : (count_lt ot_gt x l + count_lt ot_lt x l)%N = size l; last by clear; lia.
elim: l hx {IH} => [|y l IH] //=; rewrite in_cons negb_or => /andP[ne /IH {}IH].
rewrite !count_lt_cons; have -> : ot_gt y x = ~~ ot_lt y x.
  by rewrite /ot_gt ot_lt_flip //; exact/eqP.
by case: (ot_lt y x) IH => /= <-; clear; lia.
Qed.
Lemma NoDup_uniq (T : eqType) (s : seq T) : uniq s -> NoDup s.
Proof.
elim: s => [|x s IH] /=; first by constructor.
by move=> /andP[hx /IH h]; constructor=> //; move=> h'; case/negP: hx; elim: s h' {IH h} => //= y s IH [->|/IH]; rewrite in_cons ?eqxx // => ->; rewrite orbT.
Qed.

Lemma conf_weightE (K : numFieldType) (F : psi -> psi -> K) cd c w : size c = size cd -> uniq (map p_time (cd ++ c ++ w)) ->
  exists2 s, compute_permutation_sign_impl cd c w = Some s &
    (-1) ^+ s * hyb_det F cd c = (-1) ^+ (inv ot_gt (map p_time (weave c cd ++ w))) * detL psi0 psi0 F (size c) c cd.
Proof.
move=> sz u; have nd : NoDup (T_PermSign.all_times cd c w).
  by rewrite /T_PermSign.all_times !app_cat; apply: NoDup_uniq; move: u; rewrite !map_cat.
have hl : List.length c = List.length cd by rewrite !length_size.
have [s [es [[cs [ds [d1 [p1 [d2 [p2 hs]]]]]] _]]] := C08_permutation_sign_is_reordering_sign _ _ _ hl nd.
exists s => //.
have [u1 u2] : uniq (map p_time cd) /\ uniq (map p_time c).
  by move: u; rewrite !map_cat !cat_uniq => /and3P[-> _ /and3P[-> _ _]].
have [a ha] := perm_adj _ _ (Permutation_sym p1); have [b hb] := perm_adj _ _ (Permutation_sym p2).
have [a' ha' oa] := inter_adjl (ds := map p_time cd) ha (etrans (size_map _ _) (etrans sz (esym (size_map _ _)))).
have sc : size cs = size (map p_time cd) by rewrite -(adj_size ha) !size_map.
have [b' hb' ob] := inter_adjr hb sc.
have h1 : adj (a' + b') (interleave (map p_time c) (map p_time cd) ++ map p_time w) (interleave cs ds ++ map p_time w).
  by apply: adj_app; apply: adj_trans ha' hb'.
set l0 := _ ++ _ in h1; set l1 := _ ++ _ in h1.
have n0 : NoDup l0.
  apply: NoDup_uniq; rewrite /l0 -map_weave -map_cat.
  have pw : perm_eq (weave c cd ++ w) (cd ++ c ++ w).
    rewrite catA perm_cat2r; apply: (@perm_trans _ (c ++ cd)); last by rewrite perm_catC.
    elim: (c) (cd) sz => [|x c' IH] [|y cd'] //= [/IH h]; rewrite perm_cons.
    by rewrite perm_sym -cat1s (perm_catCA c' [:: y] cd') cat1s perm_cons perm_sym.
  by rewrite (perm_uniq (perm_map _ pw)).
have par k l l' : NoDup l -> adj k l l' -> odd (inv ot_gt l') = odd k (+) odd (inv ot_gt l).
  by move=> h0 h; have := adj_parity ot_gt k _ _ ot_gt_total h0 h; rewrite !natoddE; case: (odd k); case: (odd (inv _ l)).
have dec0 l : decreasing l -> inv ot_gt l = 0%N by move=> h; apply: inv_sorted; exact: decreasing_desc.
have [k hk] := perm_adj _ _ (sort_desc_perm l1).
have n1 : NoDup l1 by apply: Permutation_NoDup n0; exact: adj_perm h1.
have dl : decreasing (sort_desc l1).
  by apply: desc_decreasing; [apply: Permutation_NoDup n1; exact: sort_desc_perm|exact: sort_desc_sorted].
have e1 : s = odd (inv ot_gt l1).
  have := hs _ _ hk dl; rewrite natoddE => ->.
  by have := par _ _ _ n1 hk; rewrite (dec0 _ dl) /=; case: (odd k); case: (odd _).
have e2 : odd (inv ot_gt l1) = odd (a' + b') (+) odd (inv ot_gt l0) := par _ _ _ n0 h1.
have ea : odd a = odd (inv ot_gt (map p_time c)).
  by have := par _ _ _ (NoDup_uniq u2) ha; rewrite (dec0 _ d1) /=; case: (odd a); case: (odd _).
have eb : odd b = odd (inv ot_gt (map p_time cd)).
  by have := par _ _ _ (NoDup_uniq u1) hb; rewrite (dec0 _ d2) /=; case: (odd b); case: (odd _).
have [k1 hk1 o1] := adj_tsort u2; have [k2 hk2 o2] := adj_tsort u1.
rewrite (hyb_det_adj F sz hk1 hk2) -exprD mulrA -exprD; congr (_ * _).
rewrite map_cat map_weave -/l0 -signr_odd -[RHS]signr_odd; congr (_ ^+ _).
rewrite !oddD o1 o2 oddb e1 e2 oddD oa ob ea eb /ninv.
have := congr1 odd (inv_both u2); have := congr1 odd (inv_both u1); rewrite !oddD !size_map sz => <-.
by case: (odd (inv ot_gt l0)); case: (odd (inv ot_gt (map p_time c))); case: (odd (inv ot_gt (map p_time cd)));
   case: (odd (inv ot_lt (map p_time c))); case: (odd (inv ot_lt (map p_time cd))).
Qed.

(** ** Minors of the inverse matrix *)
Lemma jacobi (K : numFieldType) (n m : nat) (G g : mat K) x1 x2 y1 y2 k1 k2 :
  adj k1 (iota 0 (n + m)) (x1 ++ x2) -> adj k2 (iota 0 (n + m)) (y1 ++ y2) -> size x1 = n -> size y1 = n ->
  toM (n + m) (n + m) G *m toM (n + m) (n + m) g = 1%:M ->
  \det (toM (n + m) (n + m) G) * \det (pick m m g y2 x2) = (-1) ^+ (k1 + k2) * \det (pick n n G x1 y1).
Proof.
move=> h1 h2 s1 s2 e.
have := pick_inverse (adj_iota_perm h1) (adj_iota_perm h2) e.
rewrite !pick_blocks // => /compl_det; rewrite -pick_blocks // (pick_det _ h1 h2) => <-.
by rewrite !mulrA -exprD addnn -signr_odd odd_double mul1r.
Qed.

Section Removal.
Variable K : numFieldType.
Variable F : psi -> psi -> K.
Variable R : nat.
Implicit Types (cd c w : seq psi) (rc rd : seq nat).

(** The matrix that is inverted: the hybridization function of all operators, and the auxiliary lines *)
Definition ext_mat cd c w (eps : K) (rnd : nat -> nat -> K) : mat K :=
  let n := size c in
  Mat (n + (R + R)) (n + (R + R)) (fun i j =>
    if (i < n + R)%N && (j < n + R)%N then F (nth psi0 (with_c R c w) i) (nth psi0 (with_cd R cd w) j)
    else if (i < n)%N || (j < n)%N then 0 else eps * rnd (i - n)%N (j - n)%N).
Lemma size_with_c c w : size (with_c R c w) = (size c + R)%N.
Proof. by rewrite size_cat size_map size_iota. Qed.
Lemma size_with_cd cd w : size (with_cd R cd w) = (size cd + R)%N.
Proof. by rewrite size_cat size_map size_iota. Qed.
Lemma nth_with_c c w i : nth psi0 (with_c R c w) (size c + i) = if (i < R)%N then nth psi0 w (2 * i) else psi0.
Proof.
rewrite nth_cat ltnNge leq_addr /= addKn; case: ltnP => h; last by rewrite nth_default // size_map size_iota.
by rewrite (nth_map 0%N) ?size_iota // nth_iota.
Qed.
Lemma nth_with_cd k c w i : size c = k -> nth psi0 (with_cd R c w) (k + i) = if (i < R)%N then nth psi0 w (2 * i + 1) else psi0.
Proof.
move=> <-; rewrite nth_cat ltnNge leq_addr /= addKn; case: ltnP => h; last by rewrite nth_default // size_map size_iota.
by rewrite (nth_map 0%N) ?size_iota // nth_iota.
Qed.
Lemma ext_block cd c w eps rnd : size cd = size c -> let n := size c in
  block_mx (matL psi0 psi0 F n c cd) (toM n (R + R) (ext_B F R c w)) (toM (R + R) n (ext_C F R cd w)) (toM (R + R) (R + R) (ext_D F R eps rnd w))
  = toM (n + (R + R)) (n + (R + R)) (ext_mat cd c w eps rnd).
Proof.
move=> sz n; apply/matrixP => i j; rewrite [in RHS]mxE.
case: (splitP i) => i' hi; case: (splitP j) => j' hj.
- have -> : i = lshift _ i' by apply: val_inj.
  have -> : j = lshift _ j' by apply: val_inj.
  rewrite block_mxEul mxE /= -/n !(leq_trans (ltn_ord _) (leq_addr _ _)) /= /with_c /with_cd !nth_cat -/n sz -/n !ltn_ord //.
- have -> : i = lshift _ i' by apply: val_inj.
  have -> : j = rshift _ j' by apply: val_inj.
  rewrite block_mxEur mxE /= -/n (leq_trans (ltn_ord i') (leq_addr _ _)) /= ltn_add2l ltn_ord /=.
  by case: ltnP => h //; rewrite (nth_with_cd _ _ sz) h /with_c nth_cat -/n ltn_ord.
- have -> : i = rshift _ i' by apply: val_inj.
  have -> : j = lshift _ j' by apply: val_inj.
  rewrite block_mxEdl mxE /= -/n (leq_trans (ltn_ord j') (leq_addr _ _)) /= ltn_add2l andbT ltn_ord orbT.
  by case: ltnP => h //; rewrite nth_with_c h /with_cd nth_cat sz -/n ltn_ord.
- have -> : i = rshift _ i' by apply: val_inj.
  have -> : j = rshift _ j' by apply: val_inj.
  rewrite block_mxEdr mxE /= -/n !ltn_add2l !ltnNge !leq_addr /= !addKn -!ltnNge.
  by case: ifP => // /andP[h1 h2]; rewrite nth_with_c h1 (nth_with_cd _ _ sz) h2.
Qed.

(** The matrix of the configuration is invertible and its inverse is known *)
Definition known_inverse cd c (g : mat K) : Prop :=
  [/\ size cd = size c, mr g = size c, mc g = size c & matL psi0 psi0 F (size c) c cd *m toM (size c) (size c) g = 1%:M].

Lemma extendE cd c w eps rnd g : (0 < R)%N -> known_inverse cd c g ->
  let n := size c in let e := ext_mat cd c w eps rnd in let de := \det (toM (n + (R + R)) (n + (R + R)) e) in
  (de = 0 -> extend F R cd c w eps rnd g = VSkip _) /\
  (de != 0 -> exists2 x, extend F R cd c w eps rnd g = VOk (Removal (with_cd R cd w) (with_c R c w) x (de / detL psi0 psi0 F n c cd)) &
     [/\ mr x = (n + (R + R))%N, mc x = (n + (R + R))%N & toM (n + (R + R)) (n + (R + R)) e *m toM (n + (R + R)) (n + (R + R)) x = 1%:M]).
Proof.
move=> R0 [sz g1 g2 hg] n e de.
have [uA eg] := right_inverse hg.
have R2 : (0 < R + R)%N by rewrite addn_gt0 R0.
have [hr hi] := @C31_up _ n (R + R) _ (ext_B F R c w) (ext_C F R cd w) (ext_D F R eps rnd w) g R2 g1 g2 erefl erefl erefl sz erefl erefl uA eg.
rewrite ext_block // -/n -/e -/de -/(detL _ _ _ _ _ _) in hr hi.
have dA : detL psi0 psi0 F n c cd != 0 by rewrite /detL -unitfE -unitmxE.
split=> hd; rewrite /extend hr; first by rewrite hd mul0r eqxx.
rewrite mulf_eq0 (negbTE hd) invr_eq0 (negbTE dA) /=.
move: (hi hd); case: (compute_inverse_matrix_up _ _ _ _) => r x /= [_ x1 x2 x3]; exists x => //; split=> //.
by rewrite x3 mulmxV // unitmxE unitfE.
Qed.

(** The minor of the inverse matrix: the rows of the chosen creation operators and the columns of the chosen annihilation
    operators (of [m] each), and the auxiliary lines *)
Definition minor (m : nat) (x : mat K) rc rd : K := \det (pick (R + R) (R + R) x (rd ++ iota m R) (rc ++ iota m R)).

Lemma choice_adj n k r : choice n k r -> exists2 j, adj j (iota 0 n) ([seq i <- iota 0 n | i \notin r] ++ r) &
  size [seq i <- iota 0 n | i \notin r] = (n - k)%N.
Proof.
move=> /and3P[u /eqP sz ha].
have p : perm_eq ([seq i <- iota 0 n | i \notin r] ++ r) (iota 0 n).
  apply: uniq_perm; rewrite ?iota_uniq //.
    rewrite cat_uniq filter_uniq ?iota_uniq // u andbT; by apply/hasPn => i hi /=; rewrite mem_filter hi.
  move=> i; rewrite mem_cat mem_filter mem_iota /= add0n; case: (boolP (i \in r)) => //= h; first by rewrite (allP ha).
  by rewrite orbF.
have [j hj] := perm_adj _ _ (perm_eq_Permutation (etrans (perm_sym _ _) p)); exists j => //.
by move: (perm_size p); rewrite size_cat size_iota sz; move: (size _) => q; clear; lia.
Qed.
Lemma adj_more j n m (s : seq nat) : adj j (iota 0 n) s -> adj j (iota 0 (n + m)) (s ++ iota n m).
Proof. by move=> h; rewrite iotaD; exact: adj_app. Qed.
Lemma picked_iota ops : picked ops (iota 0 (size ops)) = ops.
Proof. by apply: (@eq_from_nth _ psi0); rewrite size_map size_iota // => i hi; rewrite (nth_map 0%N) ?size_iota // nth_iota. Qed.
Lemma choice_ops ops j r : adj j (iota 0 (size ops)) ([seq i <- iota 0 (size ops) | i \notin r] ++ r) -> adj j ops (others ops r ++ picked ops r).
Proof. by move=> /(map_adj (nth psi0 ops)); rewrite -/(picked _ _) picked_iota map_cat. Qed.
Lemma w_weave w : size w = (2 * R)%N ->
  w = weave [seq nth psi0 w (2 * i) | i <- iota 0 R] [seq nth psi0 w (2 * i + 1) | i <- iota 0 R].
Proof.
elim: (R) w => [|k IH] [|x [|y w]]; rewrite ?mulnS //= => -[hs]; rewrite -[1%N]/(1 + 0)%N iotaDl -!map_comp /=.
congr [:: _, _ & _]; rewrite [LHS]IH //; congr weave; by apply: eq_map => i; rewrite /comp (_ : (2 * (1 + i) = (2 * i).+2)%N) //; lia.
Qed.
Lemma weave_perm c cd : size c = size cd -> perm_eq (weave c cd) (c ++ cd).
Proof.
elim: c cd => [|x c IH] [|y cd] //= [/IH h]; rewrite perm_cons perm_sym -cat1s (perm_catCA c [:: y] cd) cat1s perm_cons perm_sym //.
Qed.

Lemma with_perm cd c w : size cd = size c -> size w = (2 * R)%N -> perm_eq (cd ++ c ++ w) (with_c R c w ++ with_cd R cd w).
Proof.
move=> sz sw; apply: (@perm_trans _ (weave c cd ++ w)).
  by rewrite catA perm_cat2r perm_sym; apply: perm_trans (weave_perm _) _; rewrite ?sz // perm_catC.
by rewrite {1}(w_weave sw) -weave_cat ?sz //; apply: weave_perm; rewrite size_with_c size_with_cd sz.
Qed.
Lemma removal_weight cd c w eps rnd g rc rd x : (0 < R)%N -> known_inverse cd c g -> size w = (2 * R)%N ->
  uniq (map p_time (cd ++ c ++ w)) -> choice (size c + R) R rc -> choice (size c + R) R rd ->
  extend F R cd c w eps rnd g = VOk x ->
  rm_weight x * minor (size c + R) (rm_M x) rc rd =
    conf_weight F (others (rm_cd x) rd) (others (rm_c x) rc) (weave (picked (rm_c x) rc) (picked (rm_cd x) rd)) / conf_weight F cd c w.
Proof.
move=> R0 hk sw u hc hd.
have [sz g1 g2 hg] := hk; have [] := extendE w eps rnd R0 hk; cbv zeta.
move en : (size c) hc hd => n hc hd; set de := \det _ => d0 d1.
have [/d0 -> //|/d1 [M -> [x1 x2 hM]] [<-]] := eqVneq de 0; cbn [rm_weight rm_M rm_c rm_cd].
have [jc ac lc] := choice_adj hc; have [jd ad ld] := choice_adj hd; rewrite addnK in lc ld.
have := adj_more R ac; have := adj_more R ad; rewrite -!catA -!addnA => ad' ac'.
have hj := jacobi ac' ad' lc ld hM; rewrite -/de in hj.
have ed : \det (pick n n (ext_mat cd c w eps rnd) [seq i <- iota 0 (n + R) | i \notin rc] [seq i <- iota 0 (n + R) | i \notin rd])
   = detL psi0 psi0 F n (others (with_c R c w) rc) (others (with_cd R cd w) rd).
  rewrite /detL; congr (\det _); apply/matrixP => i j; rewrite !mxE /= en.
  have hlt s k : (k < size [seq i <- iota 0 (n + R) | i \notin s])%N -> (nth 0 [seq i <- iota 0 (n + R) | i \notin s] k < n + R)%N.
    by move=> hk'; have := mem_nth 0%N hk'; rewrite mem_filter mem_iota add0n => /and3P[].
  rewrite !hlt ?lc ?ld ?ltn_ord //= /others size_with_c size_with_cd sz en /picked !(nth_map 0%N) ?lc ?ld ?ltn_ord //.
rewrite ed in hj.
have ac2 := @choice_ops (with_c R c w) jc rc; rewrite size_with_c en in ac2; have {}ac2 := ac2 ac.
have ad2 := @choice_ops (with_cd R cd w) jd rd; rewrite size_with_cd sz en in ad2; have {}ad2 := ad2 ad.
have so1 : size (others (with_c R c w) rc) = n by rewrite size_map size_with_c en.
have so2 : size (others (with_cd R cd w) rd) = n by rewrite size_map size_with_cd sz en.
have sp1 : size (picked (with_c R c w) rc) = R by rewrite size_map; case/and3P: hc => _ /eqP.
have sp2 : size (picked (with_cd R cd w) rd) = R by rewrite size_map; case/and3P: hd => _ /eqP.
have ew : weave c cd ++ w = weave (with_c R c w) (with_cd R cd w).
  by rewrite {1}(w_weave sw) weave_cat // sz.
have pn : perm_eq (others (with_cd R cd w) rd ++ others (with_c R c w) rc ++ weave (picked (with_c R c w) rc) (picked (with_cd R cd w) rd))
   (cd ++ c ++ w).
  have p0 := with_perm sz sw.
  rewrite perm_sym; apply: perm_trans p0 _.
  have pc := Permutation_perm_eq (adj_perm _ _ _ ac2); have pd := Permutation_perm_eq (adj_perm _ _ _ ad2).
  apply: perm_trans (perm_cat pc pd) _; apply/seq.permP => q; rewrite !count_cat.
  rewrite (seq.permP (weave_perm (etrans sp1 (esym sp2)))) count_cat; clear; lia.
have un : uniq (map p_time (others (with_cd R cd w) rd ++ others (with_c R c w) rc ++ weave (picked (with_c R c w) rc) (picked (with_cd R cd w) rd))).
  by rewrite (perm_uniq (perm_map _ pn)).
have cw a b v : size b = size a -> uniq (map p_time (a ++ b ++ v)) ->
    conf_weight F a b v = (-1) ^+ (inv ot_gt (map p_time (weave b a ++ v))) * detL psi0 psi0 F (size b) b a.
  by move=> h1 h2; have [t et <-] := conf_weightE F h1 h2; rewrite /conf_weight et; case: t {et}.
rewrite !cw ?so1 ?so2 // en ew -weave_cat ?so1 ?so2 //.
set l0 := weave (with_c R c w) _; set l1 := weave (_ ++ _) _.
have par : odd (inv ot_gt (map p_time l1)) = odd (jc + jd) (+) odd (inv ot_gt (map p_time l0)).
  have [k1 h1 o1] := inter_adjl (ds := map p_time (with_cd R cd w)) (map_adj p_time ac2) (etrans (size_map _ _) (etrans (size_with_c _ _) (etrans (congr1 (addn^~ R) (esym sz)) (esym (etrans (size_map _ _) (size_with_cd _ _)))))).
  have [|k2 h2 o2] := @inter_adjr _ (map p_time (others (with_c R c w) rc ++ picked (with_c R c w) rc)) _ _ (map_adj p_time ad2).
    by rewrite !size_map size_cat so1 sp1 size_with_cd sz en.
  have h := adj_trans _ _ _ _ _ h1 h2; rewrite -!map_weave -/l0 -/l1 in h.
  have n0 : NoDup (map p_time l0).
    have pq : perm_eq (weave c cd ++ w) (cd ++ c ++ w).
      by rewrite catA perm_cat2r; apply: perm_trans (weave_perm _) _; rewrite ?sz // perm_catC.
    by apply: NoDup_uniq; rewrite /l0 -ew (perm_uniq (perm_map p_time pq)).
  have := adj_parity ot_gt _ _ _ ot_gt_total n0 h; rewrite !natoddE.
  by rewrite !oddD o1 o2; case: (odd jc); case: (odd jd); case: (odd _); case: (odd _).
have es : (-1) ^+ (inv ot_gt (map p_time l1)) = (-1) ^+ (jc + jd) * (-1) ^+ (inv ot_gt (map p_time l0)) :> K.
  by rewrite -signr_odd par signr_addb !signr_odd.
rewrite es invfM invr_sign mulrAC /minor hj.
rewrite [X in _ = X * _](_ : _ = (-1) ^+ (jc + jd) * detL psi0 psi0 F n (others (with_c R c w) rc) (others (with_cd R cd w) rd) * (-1) ^+ (inv ot_gt (map p_time l0))); last by rewrite mulrAC.
by rewrite -[RHS]mulrA [X in _ = _ * X]mulrA -expr2 sqrr_sign mul1r.
Qed.

(** ** Which operators and which rows are kept *)
Definition keeps (m n : nat) (p : seq nat) : Prop :=
  [/\ uniq p, size p = m, all (fun i => i < n + R)%N p, (R <= m)%N & drop (m - R) p = iota n R].
Lemma count_below q n : count (fun i => i < q)%N (iota 0 n) = minn q n.
Proof. elim: n => [|n IH]; first by rewrite minn0. by rewrite -(addn1 n) iotaD count_cat IH /= add0n addn0; case: ltnP; lia. Qed.
Lemma active_cat s k : active (s ++ nseq k true) = active s ++ iota (size s) k.
Proof.
rewrite /active size_cat size_nseq iotaD filter_cat add0n; congr (_ ++ _).
  by apply: eq_in_filter => i; rewrite mem_iota add0n nth_cat => /andP[_ ->].
rewrite (@eq_in_filter _ _ predT) ?filter_predT // => i; rewrite mem_iota => /andP[h1 h2].
by rewrite nth_cat ltnNge h1 /= nth_nseq; case: ltnP => //; lia.
Qed.
Lemma active_cons b s : active (b :: s) = (if b then cons 0%N else id) [seq i.+1 | i <- active s].
Proof.
rewrite /active /= -[1%N]/(1 + 0)%N iotaDl filter_map; case: b; congr (_ :: map _ _) || congr (map _ _); exact: eq_filter.
Qed.
Lemma size_active s : size (active s) = count id s.
Proof. by elim: s => //= b s IH; rewrite active_cons; case: b; rewrite /= ?size_map IH. Qed.
Lemma mask_active fl ops : (size ops <= size fl)%N -> mask (take (size ops) fl) ops = picked ops [seq i <- active fl | i < size ops]%N.
Proof.
elim: fl ops => [|b fl IH] [|x ops] //=; first by move=> _; rewrite /picked (@eq_filter _ _ pred0) ?filter_pred0.
rewrite ltnS => /IH h; rewrite h active_cons /picked; case: b => /=; rewrite ?h filter_map -?map_comp //.
Qed.
Lemma flags_keep n max shuf : (forall s, perm_eq (shuf s) s) -> (R <= max)%N -> (max < n + R)%N ->
  exists p, [/\ keeps max n p, active (flags R n max shuf) = p ++ iota (n + R) R &
    forall ops, size ops = (n + R)%N -> keep_ops (flags R n max shuf) ops = picked ops p].
Proof.
move=> hs h1 h2; rewrite /flags; move: (hs [seq (i < max - R)%N | i <- iota 0 n]); move: (shuf _) => s ps.
have sz : size s = n by rewrite (perm_size ps) size_map size_iota.
have ct : size (active s) = (max - R)%N.
  rewrite size_active (seq.permP ps) count_map (_ : count _ _ = count (fun i => i < max - R)%N (iota 0 n)) //.
  by rewrite count_below; lia.
have ha : all (fun i => i < n)%N (active s) by apply/allP => i; rewrite mem_filter mem_iota add0n sz => /and3P[].
exists (active s ++ iota n R); split.
- split=> //.
  + rewrite cat_uniq filter_uniq ?iota_uniq // andbT; apply/hasPn => i; rewrite mem_iota => /andP[hi _].
    by apply/negP => /(allP ha); rewrite ltnNge hi.
  + by rewrite size_cat size_iota ct subnK.
  + rewrite all_cat; apply/andP; split; first by apply: sub_all ha => i hi; rewrite ltn_addr.
    by apply/allP => i; rewrite mem_iota => /andP[].
  + by rewrite -ct drop_size_cat.
- by rewrite active_cat sz iotaD catA.
- move=> ops so; rewrite /keep_ops mask_active; last by rewrite size_cat size_nseq so sz leq_add2l leq_addr.
  rewrite active_cat sz so iotaD !filter_cat; congr (picked _ _).
  rewrite (@eq_in_filter _ _ predT) ?filter_predT => [|i /(allP ha) hi]; last by rewrite ltn_addr.
  rewrite (@eq_in_filter _ _ predT) ?filter_predT => [|i]; last by rewrite mem_iota => /andP[_ ->].
  rewrite (@eq_in_filter _ _ pred0) ?filter_pred0 ?cats0 // => i; rewrite mem_iota => /andP[hi _].
  by rewrite ltnNge hi.
Qed.
Lemma reduceE n max shuf_r shuf_c (x y : removal K) : (forall s, perm_eq (shuf_r s) s) -> (forall s, perm_eq (shuf_c s) s) ->
  size (rm_cd x) = (n + R)%N -> size (rm_c x) = (n + R)%N -> mr (rm_M x) = (n + (R + R))%N -> mc (rm_M x) = (n + (R + R))%N ->
  reduce R n max shuf_r shuf_c x = VOk y -> let m := minn (n + R) max in
  exists pd pc, [/\ keeps m n pd /\ keeps m n pc, rm_cd y = picked (rm_cd x) pd /\ rm_c y = picked (rm_c x) pc, rm_weight y = rm_weight x,
    mr (rm_M y) = (m + R)%N /\ mc (rm_M y) = (m + R)%N &
    forall i j, (i < m + R)%N -> (j < m + R)%N -> me (rm_M y) i j = me (rm_M x) (nth 0%N (pd ++ iota (n + R) R) i) (nth 0%N (pc ++ iota (n + R) R) j)].
Proof.
move=> hr hc s1 s2 m1 m2 e m; move: e; rewrite /reduce; case: (leqP (n + R) max) => h.
  move=> [<-]; rewrite /m (minn_idPl h); exists (iota 0 (n + R)), (iota 0 (n + R)).
  have hk : keeps (n + R) n (iota 0 (n + R)).
    split; rewrite ?iota_uniq ?size_iota ?leq_addl //; first by apply/allP => i; rewrite mem_iota add0n.
    by rewrite addnK iotaD drop_size_cat ?size_iota.
  split=> //; first by split; [rewrite -s1|rewrite -s2]; rewrite picked_iota.
    by rewrite -addnA.
  by move=> i j hi hj; rewrite (_ : iota 0 (n + R) ++ iota (n + R) R = iota 0 (n + R + R)) ?nth_iota // [RHS]iotaD.
case: ltnP => // h2 [<-]; cbn [rm_cd rm_c rm_weight rm_M]; rewrite /m (minn_idPr (ltnW h)).
have [pd [k1 a1 o1]] := flags_keep hr h2 h; have [pc [k2 a2 o2]] := flags_keep hc h2 h.
exists pd, pc; split=> //; first by rewrite o1 // o2.
by move=> i j hi hj; rewrite /keep_mat /= a1 a2.
Qed.
Lemma keeps_choice m n p r : keeps m n p -> choice m R r -> choice (n + R) R (map (nth 0%N p) r).
Proof.
move=> [u sz ha _ _] /and3P[ur sr har]; apply/and3P; split; rewrite ?size_map //.
  by rewrite map_inj_in_uniq // => i j /(allP har) hi /(allP har) hj /eqP; rewrite nth_uniq ?sz // => /eqP.
by apply/allP => i /mapP[j hj ->]; apply: (allP ha); rewrite mem_nth // sz (allP har).
Qed.
Lemma minor_keep m n pd pc (x y : mat K) rc rd : keeps m n pd -> keeps m n pc ->
  (forall i j, (i < m + R)%N -> (j < m + R)%N -> me y i j = me x (nth 0%N (pd ++ iota (n + R) R) i) (nth 0%N (pc ++ iota (n + R) R) j)) ->
  choice m R rc -> choice m R rd -> minor m y rc rd = minor (n + R) x (map (nth 0%N pc) rc) (map (nth 0%N pd) rd).
Proof.
move=> [_ s1 _ _ _] [_ s2 _ _ _] h cc cd; rewrite /minor; congr (\det _); apply/matrixP => i j; rewrite !mxE.
have hlt r (k : 'I_(R + R)) : choice m R r -> (nth 0 (r ++ iota m R) k < m + R)%N.
  move=> /and3P[_ /eqP sr har]; rewrite nth_cat sr; case: (ltnP k R) => hk; first by rewrite ltn_addr // (allP har) // mem_nth ?sr.
  by rewrite nth_iota ?ltn_add2l; move: (ltn_ord k); lia.
have he r p (k : 'I_(R + R)) : choice m R r -> size p = m ->
    nth 0%N (p ++ iota (n + R) R) (nth 0%N (r ++ iota m R) k) = nth 0%N (map (nth 0%N p) r ++ iota (n + R) R) k.
  move=> /and3P[_ /eqP sr har] sp; rewrite [in RHS]nth_cat size_map sr [nth 0%N (r ++ _) _]nth_cat sr; case: ltnP => hk.
    by rewrite nth_cat sp (allP har) ?mem_nth ?sr // (nth_map 0%N) ?sr.
  have hk' : (k - R < R)%N by move: (ltn_ord k); lia.
  by rewrite nth_iota // nth_cat sp ltnNge leq_addr /= addKn.
by rewrite h ?hlt // !he.
Qed.
Lemma picked2 ops p r : all (fun i => i < size p)%N r -> picked (picked ops p) r = picked ops (map (nth 0%N p) r).
Proof. by move=> h; rewrite /picked -map_comp; apply/eq_in_map => i /(allP h) hi /=; rewrite (nth_map 0%N). Qed.

(** The operators of [s] that are not in [t] *)
Definition minus (s t : seq psi) : seq psi := [seq y <- s | y \notin t].
Lemma others_minus ops r : uniq ops -> all (fun i => i < size ops)%N r -> others ops r = minus ops (picked ops r).
Proof.
move=> u ha; rewrite /minus -{3}(picked_iota ops) /others {3}/picked filter_map /picked; congr map; apply: eq_in_filter => i /=.
rewrite mem_iota add0n => /andP[_ hi]; congr negb; apply/idP/mapP => [h|[j hj /eqP]]; first by exists i.
by rewrite nth_uniq // ?(allP ha) // => /eqP ->.
Qed.
Lemma conf_weight_perm cd c w cd' c' : size c = size cd -> perm_eq cd cd' -> perm_eq c c' -> conf_weight F cd c w = conf_weight F cd' c' w.
Proof.
move=> sz p1 p2; rewrite /conf_weight (hyb_det_ext F p1 p2).
have hl : List.length c = List.length cd by rewrite !length_size.
by rewrite (C08_sign_independent_of_storage_order _ _ w _ _ hl (perm_eq_Permutation p1) (perm_eq_Permutation p2)).
Qed.
End Removal.

(** ** C59 *)
Section C59.
Variable K : numFieldType.
Variable F : psi -> psi -> K.
Variable R : nat.
Variable junk : nat -> nat -> K.
Variables (lab : seq nat) (nb : nat).
Hypothesis lab_ok : all (fun b => b < nb)%N lab.
(** no hybridization between the blocks *)
Hypothesis F_blocks : forall x y, blk lab nb (p_flavor x) != blk lab nb (p_flavor y) -> F x y = 0.
Hypothesis R_pos : (0 < R)%N.
Implicit Types (cd c w ac ad : seq psi).

(** Specification: the operators of the worm c_0 c^+_0 c_1 c^+_1 ... *)
Definition worm_c w : seq psi := [seq nth psi0 w (2 * i) | i <- iota 0 R].
Definition worm_cd w : seq psi := [seq nth psi0 w (2 * i + 1) | i <- iota 0 R].
(** The weight of the configuration in which the operators [ac] and [ad] form the worm and all the others are hybridized,
    relative to that of the present configuration *)
Definition moved cd c w ac ad : K :=
  conf_weight F (minus (cd ++ worm_cd w) ad) (minus (c ++ worm_c w) ac) (weave ac ad) / conf_weight F cd c w.

Lemma hist_inverse M cd c : phist F junk lab nb M cd c ->
  known_inverse F (pm_cd_order M) (pm_c_order M) (compute_inverse_matrix M) /\
  [/\ perm_eq (pm_cd_order M) cd, perm_eq (pm_c_order M) c, psize M = size c, size cd = size c & hyb_det F cd c != 0].
Proof.
move=> hh; have [_ nz _ [p1 p2] [s1 s2]] := C34_history lab_ok hh.
have [g1 g2 o1 o2 e] := C34_inverse lab_ok hh.
have ew x y : within F lab nb x y = F x y by rewrite /within; case: eqP => // /eqP /F_blocks.
split; last (split=> //; first by rewrite s1 s2).
  split; rewrite ?o1 ?o2 //.
  by rewrite -e; congr (_ *m _); apply/matrixP => i j; rewrite !mxE ew.
apply: contraNneq nz => h; apply/eqP; rewrite -h /full_det /hyb_det; case: eqP => // _; rewrite /detL; congr (\det _).
by apply/matrixP => i j; rewrite !mxE ew.
Qed.

Section State.
Variables (M : pm K) (cd c w : seq psi).
Hypothesis hist : phist F junk lab nb M cd c.
Hypothesis w_size : size w = (2 * R)%N.
Hypothesis times : uniq (map p_time (cd ++ c ++ w)).
Variables (eps : K) (rnd : nat -> nat -> K) (max_num_ops : nat) (shuf_r shuf_c : seq bool -> seq bool).
Hypothesis shuf_rP : forall s, perm_eq (shuf_r s) s.
Hypothesis shuf_cP : forall s, perm_eq (shuf_c s) s.
Notation run tiny := (intermediate F R tiny eps rnd max_num_ops shuf_r shuf_c M w).
Notation m := (minn (size c + R) max_num_ops).

Lemma cutoff0 (x : mat K) i j : me (cutoff 0 x) i j = me x i j.
Proof. by rewrite /cutoff /= mul0r normr_lt0. Qed.
Notation order_cd := (pm_cd_order M).
Notation order_c := (pm_c_order M).
Lemma run0 x : run 0 = VOk x -> exists y pd pc,
  [/\ extend F R order_cd order_c w eps rnd (compute_inverse_matrix M) = VOk y, rm_cd y = with_cd R order_cd w & rm_c y = with_c R order_c w] /\
  [/\ keeps R m (size c) pd /\ keeps R m (size c) pc, rm_cd x = picked (rm_cd y) pd /\ rm_c x = picked (rm_c y) pc, rm_weight x = rm_weight y,
    mr (rm_M x) = (m + R)%N /\ mc (rm_M x) = (m + R)%N &
    forall i j, (i < m + R)%N -> (j < m + R)%N ->
      me (rm_M x) i j = me (rm_M y) (nth 0%N (pd ++ iota (size c + R) R) i) (nth 0%N (pc ++ iota (size c + R) R) j)].
Proof.
rewrite /intermediate w_size ltnn; case ey: extend => [y| |] //; case ez: reduce => [z| |] // [<-]; cbn [rm_cd rm_c rm_M rm_weight].
have [hk [p1 p2 sp sz nz]] := hist_inverse hist.
have [sz' _ _ _] := hk; have so : size order_c = size c := perm_size p2.
have [h0 h1] := extendE w eps rnd R_pos hk; set de := \det _ in h0 h1.
have nd : de != 0 by apply: contraPneq ey => /h0 ->.
have [g eg [g1 g2 _]] := h1 nd; move: eg; rewrite ey => -[ey']; rewrite so in g1 g2.
have [y1 y2 [y3 y4]] : [/\ rm_cd y = with_cd R order_cd w, rm_c y = with_c R order_c w & mr (rm_M y) = (size c + (R + R))%N /\ mc (rm_M y) = (size c + (R + R))%N].
  by rewrite ey'.
have [|||pd [pc [k o ew mm eM]]] := @reduceE K R (size c) max_num_ops _ _ y z shuf_rP shuf_cP _ _ y3 y4; rewrite ?y1 ?y2 ?size_with_cd ?size_with_c ?sz' ?so //.
  by rewrite -{1}sp.
by exists y, pd, pc; rewrite y1 y2 in o *; split=> //; split=> // i j hi hj; rewrite cutoff0 eM.
Qed.

(** The weights *)
Theorem C59_weight x rc rd : run 0 = VOk x -> choice m R rc -> choice m R rd ->
  rm_weight x * minor R m (rm_M x) rc rd = moved cd c w (picked (rm_c x) rc) (picked (rm_cd x) rd).
Proof.
move=> /run0 [y [pd [pc [[ey e1 e2] [[k1 k2] [o1 o2] -> _ eM]]]]] hc hd; rewrite o1 o2.
have [hk [p1 p2 sp sz nz]] := hist_inverse hist; have [sz' _ _ _] := hk; have so : size order_c = size c := perm_size p2.
rewrite (minor_keep k1 k2 eM hc hd).
have c1 := keeps_choice k1 hd; have c2 := keeps_choice k2 hc.
have [_ q1 _ _ _] := k1; have [_ q2 _ _ _] := k2.
rewrite !picked2 ?q1 ?q2; try by case/and3P: hc; case/and3P: hd.
move: (map _ rd) (map _ rc) c1 c2 => {hd rd}rd {hc rc}rc c1 c2.
have u' : uniq (map p_time (order_cd ++ order_c ++ w)).
  by rewrite (perm_uniq (perm_map p_time (perm_cat p1 (perm_cat p2 (perm_refl w))))).
have hr := @removal_weight _ F R _ _ w eps rnd _ rc rd _ R_pos hk w_size u'; rewrite so in hr; rewrite (hr _ c2 c1 ey) /moved e1 e2.
have [uc ud] : uniq (with_c R order_c w) /\ uniq (with_cd R order_cd w).
  by have := map_uniq u'; rewrite (perm_uniq (with_perm sz' w_size)) cat_uniq => /and3P[].
have l1 : all (fun i => i < size (with_cd R order_cd w))%N rd by rewrite size_with_cd sz' so; case/and3P: c1.
have l2 : all (fun i => i < size (with_c R order_c w))%N rc by rewrite size_with_c so; case/and3P: c2.
rewrite (conf_weight_perm F w _ p1 p2) //.
rewrite (@conf_weight_perm _ F _ _ _ (minus (cd ++ worm_cd w) (picked (with_cd R order_cd w) rd)) (minus (c ++ worm_c w) (picked (with_c R order_c w) rc))) //.
- have [? _ n1] := choice_adj c1; have [? _ n2] := choice_adj c2.
  by rewrite !size_map size_with_c size_with_cd sz' so n1 n2.
- by rewrite others_minus //; apply: perm_filter; rewrite /with_cd perm_cat2r.
- by rewrite others_minus //; apply: perm_filter; rewrite /with_c perm_cat2r.
Qed.

(** The operators that can form the new worm: operators of the configuration and, always, those of the worm *)
Theorem C59_kept x : run 0 = VOk x ->
  [/\ size (rm_c x) = m /\ size (rm_cd x) = m, uniq (rm_c x ++ rm_cd x), {subset rm_c x <= c ++ worm_c w} /\ {subset rm_cd x <= cd ++ worm_cd w},
      (R <= m)%N & drop (m - R) (rm_c x) = worm_c w /\ drop (m - R) (rm_cd x) = worm_cd w] /\
  ((size c + R <= max_num_ops)%N -> perm_eq (rm_c x) (c ++ worm_c w) /\ perm_eq (rm_cd x) (cd ++ worm_cd w)).
Proof.
move=> /run0 [y [pd [pc [[ey e1 e2] [[k1 k2] [o1 o2] _ _ eM]]]]]; rewrite o1 o2 e1 e2.
have [hk [p1 p2 sp sz nz]] := hist_inverse hist; have [sz' _ _ _] := hk; have so : size order_c = size c := perm_size p2.
have u' : uniq (map p_time (order_cd ++ order_c ++ w)).
  by rewrite (perm_uniq (perm_map p_time (perm_cat p1 (perm_cat p2 (perm_refl w))))).
have [q1 q2 q3 q4 q5] := k1; have [r1 r2 r3 r4 r5] := k2.
have uu : uniq (with_c R order_c w ++ with_cd R order_cd w).
  by have := map_uniq u'; rewrite (perm_uniq (with_perm sz' w_size)).
have P1 : perm_eq (with_c R order_c w) (c ++ worm_c w) by rewrite /with_c perm_cat2r.
have P2 : perm_eq (with_cd R order_cd w) (cd ++ worm_cd w) by rewrite /with_cd perm_cat2r.
have S1 : size (with_c R order_c w) = (size c + R)%N by rewrite size_with_c so.
have S2 : size (with_cd R order_cd w) = (size c + R)%N by rewrite size_with_cd sz' so.
have sub ops p : all (fun i => i < size ops)%N p -> {subset picked ops p <= ops}.
  by move=> ha z /mapP[i hi ->]; rewrite mem_nth // (allP ha).
have un ops p : all (fun i => i < size ops)%N p -> uniq p -> uniq ops -> uniq (picked ops p).
  by move=> ha up uo; rewrite map_inj_in_uniq // => i j /(allP ha) hi /(allP ha) hj /eqP; rewrite nth_uniq // => /eqP.
have [H1 H2] : all (fun i => i < size (with_c R order_c w))%N pc /\ all (fun i => i < size (with_cd R order_cd w))%N pd by rewrite S1 S2.
split; last first.
  move=> /minn_idPl h; rewrite h in q2 r2.
  have full ops p : size p = size ops -> uniq p -> all (fun i => i < size ops)%N p -> perm_eq (picked ops p) ops.
    move=> s1 s2 s3; rewrite -{2}(picked_iota ops); apply: perm_map; apply: uniq_perm; rewrite ?iota_uniq //.
    have [|||_ //] := @uniq_min_size _ p (iota 0 (size ops)); rewrite ?size_iota ?s1 //.
    by move=> i /(allP s3); rewrite mem_iota add0n.
  by split; [apply: perm_trans (full _ _ _ _ _) P1; rewrite ?S1|apply: perm_trans (full _ _ _ _ _) P2; rewrite ?S2].
split=> //.
- by rewrite !size_map q2 r2.
- rewrite cat_uniq; move: uu; rewrite cat_uniq => /and3P[u1 /hasPn u2 u3]; rewrite !un // andbT.
  apply/hasPn => z hz /=; apply/negP => hz'; have := u2 z (sub _ _ H2 z hz); rewrite /= (sub _ _ H1 z hz') //.
- by split=> z; rewrite -?(perm_mem P1) -?(perm_mem P2); exact: sub.
- split.
  rewrite -map_drop r5 /worm_c -[in iota (size c) R](addn0 (size c)) iotaDl -map_comp; apply/eq_in_map => i.
  by rewrite mem_iota add0n /= => hi; rewrite -so nth_with_c hi.
  rewrite -map_drop q5 /worm_cd -[in iota (size c) R](addn0 (size c)) iotaDl -map_comp; apply/eq_in_map => i.
  by rewrite mem_iota add0n /= => hi; rewrite (@nth_with_cd _ (size c)) ?hi // sz' so.
Qed.

(** The present worm has weight 1 *)
Theorem C59_own x : run 0 = VOk x -> let own := iota (m - R) R in
  choice m R own /\ rm_weight x * minor R m (rm_M x) own own = 1.
Proof.
move=> hx own; have [[[s1 s2] _ _ hrm [d1 d2]] _] := C59_kept hx.
have co : choice m R own.
  by rewrite /choice iota_uniq size_iota eqxx /=; apply/allP => i; rewrite mem_iota subnK // => /andP[].
have pk ops : size ops = m -> picked ops own = drop (m - R) ops.
  move=> so; apply: (@eq_from_nth _ psi0); first by rewrite size_map size_iota size_drop so subKn.
  by move=> i; rewrite size_map size_iota => hi; rewrite (nth_map 0%N) ?size_iota // nth_iota // nth_drop.
have [hk [p1 p2 sp sz nz]] := hist_inverse hist.
split=> //; rewrite (C59_weight hx co co) !pk // d1 d2 /moved -w_weave //.
have mi s t : uniq (s ++ t) -> minus (s ++ t) t = s.
  rewrite cat_uniq => /and3P[_ /hasPn h _]; rewrite /minus filter_cat (@eq_in_filter _ _ predT) => [|z hz].
    by rewrite filter_predT (@eq_in_filter _ _ pred0) ?filter_pred0 ?cats0 // => z ->.
  by apply/negP => /h; rewrite /= hz.
have : uniq ((c ++ worm_c w) ++ (cd ++ worm_cd w)) by rewrite -(perm_uniq (with_perm sz w_size)) (map_uniq times).
rewrite cat_uniq => /and3P[u1 _ u2]; rewrite !mi // divff // /conf_weight mulf_neq0 //.
by case: ifP => _; rewrite ?oppr_eq0 oner_eq0.
Qed.

(** When something is measured *)
Theorem C59_defined tiny : (R <= max_num_ops)%N -> let k := (size c + (R + R))%N in
  let D := \det (toM k k (ext_mat F R order_cd order_c w eps rnd)) in
  (D != 0 -> exists x, run tiny = VOk x) /\ (D = 0 -> run tiny = VSkip K).
Proof.
move=> hR k D; have [hk [p1 p2 sp sz nz]] := hist_inverse hist; have so : size order_c = size c := perm_size p2.
have := extendE w eps rnd R_pos hk; cbv zeta; rewrite so -/k -/D => -[h0 h1]; rewrite /intermediate w_size ltnn.
split=> [/h1 [x -> _]|/h0 -> //]; rewrite /reduce; case: ifP => _; first by eexists.
by rewrite ltnNge hR; eexists.
Qed.

(** The cutoff *)
Theorem C59_cutoff tiny x : run tiny = VOk x -> exists y, [/\ run 0 = VOk y, rm_cd x = rm_cd y /\ rm_c x = rm_c y, rm_weight x = rm_weight y,
  mr (rm_M x) = (m + R)%N & forall i j, me (rm_M x) i j = if `|me (rm_M y) i j| < tiny * maxabs (rm_M y) then 0 else me (rm_M y) i j].
Proof.
move=> hx; have [y hy] : exists y, run 0 = VOk y.
  by move: hx; rewrite /intermediate; case: ifP => // _; case: extend => // y; case: reduce => // z _; eexists.
exists y; have [_ [_ [_ [_ [_ _ _ [mm _] _]]]]] := run0 hy.
move: hx hy mm; rewrite /intermediate; case: ifP => // _; case: extend => // u; case: reduce => // v [<-] [<-] //= mm.
split=> // i j; rewrite mul0r normr_lt0; congr (if _ < _ * _ then _ else _); rewrite /maxabs; congr foldl; rewrite /entries /=.
by apply: eq_allpairs => a b'; rewrite mul0r normr_lt0.
Qed.
End State.
End C59.

(** *** What is added to the data *)
Section Data.
Variables (K : numFieldType) (F : psi -> psi -> K) (junk : nat -> nat -> K) (lab : seq nat) (nb : nat).
Hypothesis lab_ok : all (fun b => b < nb)%N lab.
Hypothesis F_blocks : forall x y, blk lab nb (p_flavor x) != blk lab nb (p_flavor y) -> F x y = 0.
Variables (M : pm K) (cd c w : seq psi).
Hypothesis hist : phist F junk lab nb M cd c.
Hypothesis times : uniq (map p_time (cd ++ c ++ w)).
Variables (eps : K) (rnd : nat -> nat -> K) (max_num_ops : nat) (shuf_r shuf_c : seq bool -> seq bool).
Hypothesis shuf_rP : forall s, perm_eq (shuf_r s) s.
Hypothesis shuf_cP : forall s, perm_eq (shuf_c s) s.
Variables (sqrtf : K -> K) (n : nat) (t : transformer K) (tick : K) (beta : Z).
Hypothesis made : make_transformer sqrtf n = Some t.
Hypothesis beta_pos : (0 < beta)%coqZ.
Hypothesis in_period : all (in_beta beta) (cd ++ c ++ w).
Variables (tiny sign : K).
Hypothesis sign1 : `|sign| = 1.
Add Field Kf59 : (kfield_theory K).
Notation val := (val tick).
Notation sq l := (nth 0 (sqrt_2l_1 t) l).
Notation run R tiny := (intermediate F R tiny eps rnd max_num_ops shuf_r shuf_c M w).

Lemma all_beta R x : size w = (2 * R)%N -> {subset x <= c ++ worm_c R w} \/ {subset x <= cd ++ worm_cd R w} -> all (in_beta beta) x.
Proof.
move=> sw h; have p := with_perm (R := R).
have ha : forall z, z \in (c ++ worm_c R w) ++ (cd ++ worm_cd R w) -> in_beta beta z.
  have [_ [_ _ _ sz _]] := hist_inverse lab_ok F_blocks hist.
  by move=> z; rewrite -(perm_mem (with_perm sz sw)) => /(allP in_period).
by apply/allP => z hz; apply: ha; rewrite mem_cat; case: h => /(_ z hz) ->; rewrite ?orbT.
Qed.

(** G1: the sum over all pairs of an annihilation and a creation operator.  Partial: no entry is dropped by the cutoff,
    no two operators are at the same time, and an entry of the inverse matrix vanishes only if the weight does. *)
Section G1.
Hypothesis w_size : size w = 2%N.
Notation m := (minn (size c + 1) max_num_ops).
Variable x y : removal K.
Hypothesis run_x : run 1 tiny = VOk x.
Hypothesis run_y : run 1 0 = VOk y.
Hypothesis not_dropped : forall i j, me (rm_M x) i j = me (rm_M y) i j.
Definition rho (k l : nat) : K := moved F 1 cd c w [:: nth psi0 (rm_c x) k] [:: nth psi0 (rm_cd x) l].
Hypothesis not_skipped : forall k l, (k < m)%N -> (l < m)%N -> me (rm_M x) l k = 0 -> rho k l = 0.

Lemma same_ops : [/\ rm_cd x = rm_cd y, rm_c x = rm_c y, rm_weight x = rm_weight y & mr (rm_M x) = (m + 1)%N].
Proof. 
have [y' [e [e1 e2] e3 e4 _]] := C59_cutoff lab_ok F_blocks (ltn0Sn 0) hist w_size shuf_rP shuf_cP run_x.
by move: e; rewrite run_y => -[->].
Qed.
Lemma weight1E k l : (k < m)%N -> (l < m)%N -> weight1 sign (rm_weight x) (rm_M x) k l = sign * rho k l.
Proof.
move=> hk hl; have [e1 e2 e3 e4] := same_ops.
have ea : aux (rm_M x) = m by rewrite /aux e4 addnK.
have hc i : (i < m)%N -> choice m 1 [:: i] by move=> hi; rewrite /choice /= hi.
have hw := C59_weight lab_ok F_blocks (ltn0Sn 0) hist w_size times shuf_rP shuf_cP run_y (hc k hk) (hc l hl).
have er : rho k l = rm_weight y * minor 1 m (rm_M y) [:: k] [:: l] by rewrite hw /rho e1 e2.
rewrite /weight1 ea; case: eqP => [z|_]; first by rewrite not_skipped // mulr0.
rewrite er e3 /minor (expand_det_row _ ord0) !big_ord_recl big_ord0 addr0 /cofactor !det_mx11 !mxE /= !not_dropped.
by rewrite expr0 expr1; kring K.
Qed.

Theorem C59_green_partial (f : nat -> Z -> K) (result : garr K) : anti tick beta f ->
  (forall a b, a \in c ++ worm_c 1 w -> b \in cd ++ worm_cd 1 w -> elapsed a b <> 0%coqZ) ->
  exists r, perform1 tick beta t sign (rm_weight x) (rm_cd x) (rm_c x) (rm_M x) result = inl r /\
    forall fa fc il, (il < n)%N -> r fa fc il = result fa fc il +
      \sum_(k < m) \sum_(l < m) (if (fa == p_flavor (nth psi0 (rm_c x) k)) && (fc == p_flavor (nth psi0 (rm_cd x) l))
         then - (sign * rho k l / ((\sum_(k' < m) \sum_(l' < m) `|rho k' l'|) * val beta)) * sq il
              * f il (elapsed (nth psi0 (rm_c x) k) (nth psi0 (rm_cd x) l)) else 0).
Proof.
move=> hf hne; have [e1 e2 e3 e4] := same_ops.
have ea : aux (rm_M x) = m by rewrite /aux e4 addnK.
have [[[s1 s2] _ [b1 b2] hm [d1 d2]] _] := C59_kept lab_ok F_blocks (ltn0Sn 0) hist w_size times shuf_rP shuf_cP run_y.
have et : total1 sign (rm_weight x) (rm_M x) = \sum_(k' < m) \sum_(l' < m) `|rho k' l'|.
  by rewrite /total1 ea; apply: eq_bigr => k _; apply: eq_bigr => l _; rewrite weight1E // normrM sign1 mul1r.
have nz : total1 sign (rm_weight x) (rm_M x) != 0.
  have [co h1] := C59_own lab_ok F_blocks (ltn0Sn 0) hist w_size times shuf_rP shuf_cP run_y.
  rewrite (C59_weight lab_ok F_blocks (ltn0Sn 0) hist w_size times shuf_rP shuf_cP run_y co co) /= -e1 -e2 -/(rho _ _) in h1.
  have ho : (m - 1 < m)%N by lia.
  rewrite et gt_eqF // (bigD1 (Ordinal ho)) //= (bigD1 (Ordinal ho)) //= h1 normr1 -addrA; apply: ltr_paddr; rewrite ?ltr01 //; apply: addr_ge0.
    by apply: sumr_ge0 => i _.
  by apply: sumr_ge0 => i _; apply: sumr_ge0 => j _.
have [||||||r [er hr]] := @C53_g1_partial K sqrtf n t tick beta made sign (rm_weight x) (rm_cd x) (rm_c x) (rm_M x) f result hf.
- by rewrite ea e2.
- by rewrite ea e1.
- by apply: (@all_beta 1) => //; left; rewrite e2.
- by apply: (@all_beta 1) => //; right; rewrite e1.
- by move=> a b; rewrite e1 e2 => /b1 ha /b2 hb; exact: hne.
- by [].
exists r; split=> // fa fc il hil; rewrite hr // et ea; congr (_ + _); apply: eq_bigr => k _; apply: eq_bigr => l _.
by rewrite weight1E.
Qed.
End G1.

(** G2: the sum over all ordered pairs of annihilation and creation operators *)
Section G2.
Hypothesis w_size : size w = 4%N.
Notation m := (minn (size c + 2) max_num_ops).
Variables (expi : Z -> K) (n_freq : nat).
Variable x y : removal K.
Hypothesis run_x : run 2 tiny = VOk x.
Hypothesis run_y : run 2 0 = VOk y.
Hypothesis not_dropped2 : forall i j, me (rm_M x) i j = me (rm_M y) i j.
Definition rho2 (a b c' d : nat) : K :=
  moved F 2 cd c w [:: nth psi0 (rm_c x) a; nth psi0 (rm_c x) c'] [:: nth psi0 (rm_cd x) b; nth psi0 (rm_cd x) d].
Definition norm_rho2 : K := \sum_(a < m) \sum_(b < m) \sum_(c' < m | c' != a) \sum_(d < m | d != b) `|rho2 a b c' d|.

Lemma same_ops2 : [/\ rm_cd x = rm_cd y, rm_c x = rm_c y, rm_weight x = rm_weight y & mr (rm_M x) = (m + 2)%N].
Proof. 
have [y' [e [e1 e2] e3 e4 _]] := C59_cutoff lab_ok F_blocks (ltn0Sn 1) hist w_size shuf_rP shuf_cP run_x.
by move: e; rewrite run_y => -[->].
Qed.
Lemma coeffs2E a b c' d : (a < m)%N -> (b < m)%N -> (c' < m)%N -> (d < m)%N -> a != c' -> b != d ->
  coeffs2 sign (rm_weight x) (rm_M x) (a, b, c', d) = sign * rho2 a b c' d.
Proof.
move=> ha hb hc hd nac nbd; have [e1 e2 e3 e4] := same_ops2.
have cc : choice m 2 [:: a; c'] by rewrite /choice /= inE nac ha hc.
have cD : choice m 2 [:: b; d] by rewrite /choice /= inE nbd hb hd.
have hw := C59_weight lab_ok F_blocks (ltn0Sn 1) hist w_size times shuf_rP shuf_cP run_y cc cD.
have er : rho2 a b c' d = rm_weight y * minor 2 m (rm_M y) [:: a; c'] [:: b; d] by rewrite hw /rho2 e1 e2.
rewrite er /coeffs2 e3 -mulrA; congr (_ * (_ * _)).
by rewrite /minor /tmp_mat e4 addnK; congr (\det _); apply/matrixP => i j; rewrite !mxE not_dropped2 addn0 addn1; congr (me _ _ _).
Qed.
Lemma sum_quads (k : nat) (g : nat * nat * nat * nat -> K) :
  \sum_(q <- quads k) g q = \sum_(a < k) \sum_(b < k) \sum_(c' < k | c' != a) \sum_(d < k | d != b) g (nat_of_ord a, nat_of_ord b, nat_of_ord c', nat_of_ord d).
Proof.
have R1 (h : nat -> K) : \sum_(i <- iota 0 k) h i = \sum_(i < k) h i.
  by rewrite -(big_mkord predT h) /index_iota subn0.
rewrite /quads big_filter big_mkcond !big_allpairs_dep R1; apply: eq_bigr => a _.
rewrite R1; apply: eq_bigr => b _; rewrite R1 [RHS]big_mkcond; apply: eq_bigr => c' _; rewrite R1 /=.
rewrite [X in if _ then X else _]big_mkcond -(inj_eq val_inj) eq_sym /=.
case: eqP => _ /=; first by rewrite big1.
by apply: eq_bigr => d _; rewrite -(inj_eq val_inj) eq_sym.
Qed.
Lemma add2E coeff a b c' d pl plp r fs il ilp im : (il < n)%N -> (ilp < n)%N -> (im < n_freq)%N ->
  add2 t expi n_freq (rm_cd x) (rm_c x) coeff (a, b, c', d) pl plp r fs [:: il; ilp; im] = r fs [:: il; ilp; im] +
    (if fs == [:: p_flavor (nth psi0 (rm_c x) a); p_flavor (nth psi0 (rm_cd x) b); p_flavor (nth psi0 (rm_c x) c'); p_flavor (nth psi0 (rm_cd x) d)]
     then coeff * pl il * plp ilp * expi (elapsed (nth psi0 (rm_c x) a) (nth psi0 (rm_cd x) d)) ^+ im else 0).
Proof.
move=> h1 h2 h3; rewrite /add2 (nleg made); set fl := [:: _; _; _; _]; set L := [seq _ | x0 <- _, im0 <- _].
have gen s r' : foldl (fun r ls => fun fs l => if (fs == fl) && (l == ls)
           then r fs l + coeff * pl (nth 0%N ls 0) * plp (nth 0%N ls 1) * expiomega expi (rm_cd x) (rm_c x) a d (nth 0%N ls 2) else r fs l) r' s fs [:: il; ilp; im]
   = r' fs [:: il; ilp; im] + (if fs == fl then (coeff * pl il * plp ilp * expiomega expi (rm_cd x) (rm_c x) a d im) *+ count_mem [:: il; ilp; im] s else 0).
  elim: s r' => [|ls s IH] r' /=; first by rewrite if_same addr0.
  rewrite IH; case: eqP => _ //=; rewrite [ls == _]eq_sym; case: eqP => [<-|_] /=; last by rewrite add0n.
  by rewrite mulrnDr mulr1n addrA.
rewrite gen count_uniq_mem; last first.
  apply: allpairs_uniq; rewrite ?iota_uniq //; last by move=> [[? ?] ?] [[? ?] ?] _ _ /= [-> -> ->].
  by apply: allpairs_uniq; rewrite ?iota_uniq // => -[? ?] [? ?] _ _ [-> ->].
have -> : [:: il; ilp; im] \in L.
  apply/allpairsP; exists ((il, ilp), im); split=> //=; last by rewrite mem_iota.
  by apply/allpairsP; exists (il, ilp); split; rewrite //= mem_iota.
by rewrite mulr1n /expiomega iter_mulr_1.
Qed.

Theorem C59_two_particle (f : nat -> Z -> K) (result : arr2 K) : anti0 tick beta f ->
  exists r, perform2 tick beta t expi n_freq sign (rm_weight x) (rm_cd x) (rm_c x) (rm_M x) result = MOk r /\
    forall fs il ilp im, (il < n)%N -> (ilp < n)%N -> (im < n_freq)%N -> r fs [:: il; ilp; im] = result fs [:: il; ilp; im] +
      \sum_(a < m) \sum_(b < m) \sum_(c' < m | c' != a) \sum_(d < m | d != b)
        (let ca := nth psi0 (rm_c x) a in let cb := nth psi0 (rm_cd x) b in
         let cc := nth psi0 (rm_c x) c' in let ce := nth psi0 (rm_cd x) d in
         if fs == [:: p_flavor ca; p_flavor cb; p_flavor cc; p_flavor ce]
         then sign * rho2 a b c' d / (norm_rho2 * val beta)
              * (f il (elapsed ca cb) * sq il) * ((-1) ^+ ilp.+1 * f ilp (elapsed cc ce) * sq ilp) * expi (elapsed ca ce) ^+ im else 0).
Proof.
move=> hf; have [e1 e2 e3 e4] := same_ops2.
have [[[s1 s2] _ [b1 b2] hm [d1 d2]] _] := C59_kept lab_ok F_blocks (ltn0Sn 1) hist w_size times shuf_rP shuf_cP run_y.
have sc : size (rm_c x) = m by rewrite e2.
have sd : size (rm_cd x) = m by rewrite e1.
have bc : all (in_beta beta) (rm_c x) by apply: (@all_beta 2) => //; left; rewrite e2.
have bd : all (in_beta beta) (rm_cd x) by apply: (@all_beta 2) => //; right; rewrite e1.
have tab k l il : (k < m)%N -> (l < m)%N -> (il < n)%N -> let a := nth psi0 (rm_c x) k in let b := nth psi0 (rm_cd x) l in
   pl2 tick beta t a b il = Some (f il (elapsed a b) * sq il) /\ pl2p tick beta t a b il = Some ((-1) ^+ il.+1 * f il (elapsed a b) * sq il).
  by move=> hk hl hil a b; apply: (C53_g2_table made hf) => //; [apply: (allP bc)|apply: (allP bd)]; rewrite mem_nth ?sc ?sd.
rewrite /perform2 sc sd eqxx e4 addnK eqxx /=.
have -> : has (fun k => has (fun l => has (fun il => ~~ isSome (pl2 tick beta t (nth psi0 (rm_c x) k) (nth psi0 (rm_cd x) l) il))
                 (iota 0 (n_legendre t))) (iota 0 m)) (iota 0 m) = false.
  apply/negbTE; apply/hasPn => k; rewrite mem_iota add0n => /andP[_ hk]; apply/hasPn => l; rewrite mem_iota add0n => /andP[_ hl].
  apply/hasPn => il; rewrite mem_iota add0n (nleg made) => /andP[_ hil].
  by have [-> _] := tab k l il hk hl hil.
eexists; split; first reflexivity; move=> fs il ilp im h1 h2 h3.
have -> : norm2 sign (rm_weight x) (rm_M x) m = norm_rho2.
  have L s z : foldl (fun s q => s + `|coeffs2 sign (rm_weight x) (rm_M x) q|) z s = z + \sum_(q <- s) `|coeffs2 sign (rm_weight x) (rm_M x) q|.
    by elim: s z => [|q s IH] z; rewrite ?big_nil ?addr0 //= IH big_cons addrA.
  rewrite /norm2 L add0r sum_quads /norm_rho2; apply: eq_bigr => a _; apply: eq_bigr => b _; apply: eq_bigr => c' hc'; apply: eq_bigr => d hd.
  by rewrite coeffs2E // 1?eq_sym // normrM sign1 mul1r.
set g := (X in foldl X _ _).
have L s z : foldl g z s fs [:: il; ilp; im] = z fs [:: il; ilp; im] + \sum_(q <- s) (let: (a, b, c', d) := q in
    if fs == [:: p_flavor (nth psi0 (rm_c x) a); p_flavor (nth psi0 (rm_cd x) b); p_flavor (nth psi0 (rm_c x) c'); p_flavor (nth psi0 (rm_cd x) d)]
    then coeffs2 sign (rm_weight x) (rm_M x) q / (norm_rho2 * val beta) * table (pl2 tick beta t (nth psi0 (rm_c x) a) (nth psi0 (rm_cd x) b)) il
      * table (pl2p tick beta t (nth psi0 (rm_c x) c') (nth psi0 (rm_cd x) d)) ilp * expi (elapsed (nth psi0 (rm_c x) a) (nth psi0 (rm_cd x) d)) ^+ im else 0).
  elim: s z => [|[[[a b] c'] d] s IH] z; rewrite ?big_nil ?addr0 //= IH big_cons addrA; congr (_ + _).
  rewrite /g; case: eqP => [->|_]; first by rewrite !mul0r if_same addr0.
  by rewrite add2E //= div1r.
rewrite L; congr (_ + _); rewrite sum_quads; apply: eq_bigr => a _; apply: eq_bigr => b _; apply: eq_bigr => c' hc'; apply: eq_bigr => d hd.
cbv zeta; case: ifP => // _; rewrite coeffs2E // 1?eq_sym // /table.
by have [-> _] := tab a b il (ltn_ord a) (ltn_ord b) h1; have [_ ->] := tab c' d ilp (ltn_ord c') (ltn_ord d) h2.
Qed.
(** The norm is not 0: the present worm has weight 1 *)
Theorem C59_norm : 1 <= norm_rho2.
Proof.
have [e1 e2 e3 e4] := same_ops2.
have [[[s1 s2] _ [b1 b2] hm [d1 d2]] _] := C59_kept lab_ok F_blocks (ltn0Sn 1) hist w_size times shuf_rP shuf_cP run_y.
have [co h1] := C59_own lab_ok F_blocks (ltn0Sn 1) hist w_size times shuf_rP shuf_cP run_y.
rewrite (C59_weight lab_ok F_blocks (ltn0Sn 1) hist w_size times shuf_rP shuf_cP run_y co co) /= -e1 -e2 -/(rho2 _ _ _ _) in h1.
have ho : (m - 2 < m)%N by lia.
have hp : ((m - 2).+1 < m)%N by lia.
pose u := Ordinal ho; pose v := Ordinal hp; have uv : v != u by rewrite -(inj_eq (@ord_inj _)) /=; apply/eqP; lia.
rewrite /norm_rho2 (bigD1 u) //= (bigD1 u) //= (bigD1 v) //= (bigD1 v) //= h1 normr1 -!addrA ler_paddr //.
by do ? [apply: addr_ge0|apply: sumr_ge0 => ? _|exact: normr_ge0].
Qed.
End G2.
End Data.

(** ** Findings *)
(** measurement.ipp:227-276: with max_num_ops < Rank (a parameter of the simulation) and enough operators, more rows are
    kept than the reduced matrix has: entries outside of it are written *)
Theorem C59_small_maximum_refuted (K : numFieldType) (F : psi -> psi -> K) (junk : nat -> nat -> K) lab nb :
  all (fun b => b < nb)%N lab -> (forall x y, blk lab nb (p_flavor x) != blk lab nb (p_flavor y) -> F x y = 0) ->
  forall R M cd c w eps rnd max_num_ops shuf_r shuf_c tiny, (0 < R)%N -> phist F junk lab nb M cd c -> size w = (2 * R)%N ->
  (max_num_ops < R)%N -> let k := (size c + (R + R))%N in
  \det (toM k k (ext_mat F R (pm_cd_order M) (pm_c_order M) w eps rnd)) != 0 ->
  intermediate F R tiny eps rnd max_num_ops shuf_r shuf_c M w = VUB K.
Proof.
move=> lo hF R M cd c w eps rnd mx sr sc tiny R0 hh sw hm k hd.
have [hk [p1 p2 sp sz nz]] := hist_inverse lo hF hh; have so : size (pm_c_order M) = size c := perm_size p2.
have := extendE w eps rnd R0 hk; cbv zeta; rewrite so => -[_ h1]; rewrite /intermediate sw ltnn.
have [x -> _] := h1 hd; rewrite /reduce sp leqNgt ltn_addl //= hm //.
Qed.

Section Refuted.
Variable K : numFieldType.
Add Field Kf59r : (kfield_theory K).
Definition wc := Psi (OT 3%coqZ 0%coqZ) ANNIHILATION_OP 0%nat.
Definition wcd := Psi (OT 1%coqZ 0%coqZ) CREATION_OP 0%nat.
Definition ones (x y : psi) : K := (p_flavor x == p_flavor y)%:R.
Definition ww := [:: wc; wcd].
Variables (junk : nat -> nat -> K) (np : int) (mo : umode) (wk : work K).
(** the empty configuration of one flavor *)
Notation M0 := (pm0 junk [:: 0%N] 1 np mo wk).
Notation run tiny eps rnd := (intermediate ones 1 tiny eps rnd 10 id id M0 ww).
(** the random numbers: [r] for the entry of the auxiliary lines, 1/2 elsewhere *)
Definition draw (r : K) (i j : nat) : K := if (i == 1%N) && (j == 1%N) then r else 1 / 2%:R.

Lemma own_run eps r : let a := eps * (1 / 2%:R) in let b := eps * r in b - a * a != 0 ->
  exists2 y, run 0 eps (draw r) = VOk y & [/\ rm_c y = [:: wc], rm_cd y = [:: wcd], mr (rm_M y) = 2%N /\ mc (rm_M y) = 2%N,
    a * me (rm_M y) 0%N 0%N + b * me (rm_M y) 1%N 0%N = 0 /\ 1 * me (rm_M y) 0%N 0%N + a * me (rm_M y) 1%N 0%N = 1 &
    a * me (rm_M y) 0%N 1%N + b * me (rm_M y) 1%N 1%N = 1 /\ 1 * me (rm_M y) 0%N 1%N + a * me (rm_M y) 1%N 1%N = 0].
Proof.
move=> a b nz; have lo : all (fun b => b < 1)%N [:: 0%N] by [].
have hF x y : blk [:: 0%N] 1 (p_flavor x) != blk [:: 0%N] 1 (p_flavor y) -> ones x y = 0.
  by move=> h; rewrite /ones; case: eqP => // e; rewrite e eqxx in h.
have [hk _] := hist_inverse lo hF (phist0 ones junk [:: 0%N] 1 np mo wk).
have [_ h1] := extendE ww eps (draw r) (ltn0Sn 0) hk; cbv zeta in h1.
rewrite /intermediate -[size ww]/2%N ltnn.
have [|x -> [x1 x2 e]] := h1.
  rewrite /= (expand_det_row _ ord0) !big_ord_recl big_ord0 addr0 /cofactor !det_mx11 !mxE /= -/b -/a /ones /= -/b -/a.
  by rewrite expr0 expr1 !mul1r mulN1r mulrN.
rewrite /reduce; eexists; first reflexivity; cbn [rm_c rm_cd rm_M].
split=> //=.
- split; move/matrixP: e => e; [have := e (@Ordinal 2 1 isT) (@Ordinal 2 0 isT)|have := e (@Ordinal 2 0 isT) (@Ordinal 2 0 isT)];
    rewrite !mxE !big_ord_recl big_ord0 !mxE /= /draw /= /ones /= addr0 -/a -/b => e'; rewrite ?mul0r ?normr_lt0; exact: e'.
- split; move/matrixP: e => e; [have := e (@Ordinal 2 1 isT) (@Ordinal 2 1 isT)|have := e (@Ordinal 2 0 isT) (@Ordinal 2 1 isT)];
    rewrite !mxE !big_ord_recl big_ord0 !mxE /= /draw /= /ones /= addr0 -/a -/b => e'; rewrite ?mul0r ?normr_lt0; exact: e'.
Qed.

Lemma own_moved : moved ones 1 [::] [::] ww [:: wc] [:: wcd] = 1.
Proof.
rewrite /moved -[minus _ _]/[::] -[minus _ _]/[::] -[weave _ _]/ww divff // /conf_weight /hyb_det /= /detL det_mx00 mulr1.
by rewrite ?oppr_eq0 oner_eq0.
Qed.
Lemma own_lost tick beta (t : transformer K) sign wt (M : mat K) result : mr M = 2%N -> me M 0%N 0%N = 0 ->
  perform1 tick beta t sign wt [:: wcd] [:: wc] M result = inl result.
Proof. by move=> e z; rewrite /perform1 /norm1 /aux e /= /pair1 z eqxx /= andbF. Qed.

(** measurement.ipp:341-355: a pair whose entry of the inverse matrix is 0 is left out, whatever its weight: in the empty
    configuration, when random() gives 0 for the auxiliary lines, the worm itself, of weight 1, is not measured *)
Theorem C59_skipped_refuted : exists y, [/\ run 0 1 (draw 0) = VOk y, moved ones 1 [::] [::] ww [:: wc] [:: wcd] = 1 &
  forall tick beta t sign result, perform1 tick beta t sign (rm_weight y) (rm_cd y) (rm_c y) (rm_M y) result = inl result].
Proof.
have h2 : 2%:R != 0 :> K by rewrite pnatr_eq0.
have [|y ey [e1 e2 [m1 _] [h _] _]] := @own_run 1 0.
  by rewrite mulr0 sub0r oppr_eq0 !mul1r mulf_eq0 orbb invr_eq0.
exists y; split=> //; first exact: own_moved.
have z : me (rm_M y) 0%N 0%N = 0.
  by move/eqP: h; rewrite mulr0 mul0r addr0 !mul1r mulf_eq0 invr_eq0 (negbTE h2) => /eqP.
by move=> *; rewrite e1 e2 own_lost.
Qed.

(** measurement.ipp:279-287: the same happens to a weight of 1 through the cutoff, when the number drawn is small *)
Theorem C59_cutoff_refuted (tiny eps r : K) : 0 <= eps * r -> eps * r < tiny -> eps * r - eps * (1 / 2%:R) * (eps * (1 / 2%:R)) != 0 ->
  exists x, [/\ run tiny eps (draw r) = VOk x, moved ones 1 [::] [::] ww [:: wc] [:: wcd] = 1 &
  forall tick beta t sign result, perform1 tick beta t sign (rm_weight x) (rm_cd x) (rm_c x) (rm_M x) result = inl result].
Proof.
move=> b0 bt nz; have [y ey [e1 e2 [m1 m2] [h1 h2] [h3 h4]]] := @own_run eps r nz.
have lo : all (fun b => b < 1)%N [:: 0%N] by [].
have hF x y' : blk [:: 0%N] 1 (p_flavor x) != blk [:: 0%N] 1 (p_flavor y') -> ones x y' = 0.
  by move=> h; rewrite /ones; case: eqP => // e; rewrite e eqxx in h.
have hist := phist0 ones junk [:: 0%N] 1 np mo wk.
have sh (s : seq bool) : perm_eq (id s) s by [].
have [x ex] : exists x, run tiny eps (draw r) = VOk x.
  move: ey; rewrite /intermediate -[size ww]/2%N ltnn; case: (extend _ _ _ _ _ _ _ _) => // ?; case: (reduce _ _ _ _ _ _) => // ? _; by eexists.
exists x; split=> //; first exact: own_moved.
have [y' [ey' [f1 f2] f3 f4 f5]] := C59_cutoff lo hF (ltn0Sn 0) hist (erefl : size ww = (2 * 1)%N) sh sh ex.
move: ey'; rewrite ey => -[ey']; rewrite -ey' in f1 f2 f3 f5.
set a := eps * (1 / 2%:R) in nz h1 h2 h3 h4; set b := eps * r in b0 bt nz h1 h3.
have n11 : me (rm_M y) 1%N 1%N != 0.
  by apply: contra_eq_neq h3 => z; move/eqP: h4; rewrite z !mulr0 !addr0 mul1r => /eqP ->; rewrite mulr0 eq_sym oner_eq0.
have e00 : me (rm_M y) 0%N 0%N = b * me (rm_M y) 1%N 1%N.
  have k1 : (b - a * a) * me (rm_M y) 1%N 1%N = 1.
    transitivity ((a * me (rm_M y) 0%N 1%N + b * me (rm_M y) 1%N 1%N) - a * (1 * me (rm_M y) 0%N 1%N + a * me (rm_M y) 1%N 1%N)); first by kring K.
    by rewrite h3 h4 mulr0 subr0.
  have k0 : (b - a * a) * me (rm_M y) 0%N 0%N = b.
    transitivity (b * (1 * me (rm_M y) 0%N 0%N + a * me (rm_M y) 1%N 0%N) - a * (a * me (rm_M y) 0%N 0%N + b * me (rm_M y) 1%N 0%N)); first by kring K.
    by rewrite h1 h2 mulr0 subr0 mulr1.
  by apply: (mulfI nz); rewrite k0 mulrCA k1 mulr1.
have z : me (rm_M x) 0%N 0%N = 0.
  rewrite f5 e00 normrM (ger0_norm b0) ifT //.
  have [_ hmax _] := maxabs_ok (rm_M y).
  apply: lt_le_trans (ler_wpmul2l (ltW (le_lt_trans b0 bt)) (hmax 1%N 1%N _ _)); rewrite ?m1 ?m2 //.
  by rewrite ltr_pmul2r // normr_gt0.
by move=> *; rewrite f1 f2 e1 e2 own_lost.
Qed.
End Refuted.
(** with the numbers of the program: eps = 1e-5 (the default), a cutoff of 1e-10, and random() = 1e-6 *)
Example C59_cutoff_instance (K : numFieldType) : let eps := 10%:R ^- 5 in let r := 10%:R ^- 6 in let tiny := 10%:R ^- 10 : K in
  [/\ 0 <= eps * r, eps * r < tiny & eps * r - eps * (1 / 2%:R) * (eps * (1 / 2%:R)) != 0].
Proof.
cbv zeta; have : 1 < 10%:R :> K by rewrite ltr1n.
have : 10%:R != 4%:R :> K by rewrite eqr_nat.
move: (10%:R : K) => q n4 q1; have q0 : 0 < q := lt_trans ltr01 q1.
have -> : q ^- 5 * q ^- 6 = q ^- 11 by rewrite -invfM -exprD.
have -> : q ^- 5 * (1 / 2%:R) * (q ^- 5 * (1 / 2%:R)) = q ^- 10 / 4%:R by rewrite mulrACA -invfM -exprD div1r -invfM -natrM.
split; first by rewrite invr_ge0 exprn_ge0 // ltW.
  by rewrite ltf_pinv ?posrE ?exprn_gt0 // ltr_eexpn2l.
rewrite subr_eq0 -invfM (inj_eq (@invr_inj _)) exprSr (inj_eq (mulfI _)) //.
by rewrite expf_neq0 // gt_eqF.
Qed.

(** ** A concrete case: one pair in the configuration, a worm between its operators *)
Section Example.
Variable K : numFieldType.
Add Field Kf59e : (kfield_theory K).
Definition ey1 := Psi (OT 4%coqZ 0%coqZ) ANNIHILATION_OP 0%nat.
Definition ex1 := Psi (OT 1%coqZ 0%coqZ) CREATION_OP 0%nat.
Definition ewc := Psi (OT 3%coqZ 0%coqZ) ANNIHILATION_OP 0%nat.
Definition ewcd := Psi (OT 2%coqZ 0%coqZ) CREATION_OP 0%nat.
(** the hybridization function depends on the time difference; it vanishes between different flavors *)
Definition eF (x y : psi) : K :=
  if p_flavor x == p_flavor y then (if Z.eqb (ot_time (p_time x) - ot_time (p_time y)) 3 then 2%:R else 1) else 0.
Lemma eF_blocks x y : blk [:: 0%N] 1 (p_flavor x) != blk [:: 0%N] 1 (p_flavor y) -> eF x y = 0.
Proof. by move=> h; rewrite /eF; case: eqP => // e; rewrite e eqxx in h. Qed.
Example C59_instance (junk : nat -> nat -> K) (np : int) (mo : umode) (wk : work K) : exists M x,
  [/\ phist eF junk [:: 0%N] 1 M [:: ex1] [:: ey1], intermediate eF 1 0 1 (fun _ _ => 1) 10 id id M [:: ewc; ewcd] = VOk x,
      rm_c x = [:: ey1; ewc] /\ rm_cd x = [:: ex1; ewcd] &
      [/\ rm_weight x * minor 1 2 (rm_M x) [:: 1%N] [:: 1%N] = 1, rm_weight x * minor 1 2 (rm_M x) [:: 0%N] [:: 0%N] = 1 / 2%:R &
          rm_weight x * minor 1 2 (rm_M x) [:: 0%N] [:: 1%N] = - (1 / 2%:R)]].
Proof.
have lo : all (fun b => b < 1)%N [:: 0%N] by [].
have fd : full_det eF [:: 0%N] 1 [:: ex1] [:: ey1] != 0 by rewrite /full_det /hyb_det /= /detL det_mx11 !mxE /within /eF /= pnatr_eq0.
have [M _ hist] := @C34_build _ eF junk _ 1 lo np mo wk [:: ex1] [:: ey1] erefl isT isT fd.
have [hk [p1 p2 sp sz nz]] := hist_inverse lo eF_blocks hist.
have o1 : pm_cd_order M = [:: ex1] by apply/perm_small_eq.
have o2 : pm_c_order M = [:: ey1] by apply/perm_small_eq.
have sh (s : seq bool) : perm_eq (id s) s by [].
have [x ex] : exists x, intermediate eF 1 0 1 (fun _ _ => 1) 10 id id M [:: ewc; ewcd] = VOk x.
  have [h _] := @C59_defined _ eF 1 junk _ 1 lo eF_blocks isT M _ _ [:: ewc; ewcd] hist erefl 1 (fun _ _ => 1) 10 id id 0 isT.
  apply: h; rewrite o1 o2 /= (expand_det_row _ ord0) !big_ord_recl big_ord0 /cofactor.
  rewrite !(expand_det_row _ ord0) !big_ord_recl !big_ord0 /cofactor !det_mx11 !mxE /eF /=.
  rewrite (_ : _ + _ = -1); last by rewrite ?expr0 ?expr1 ?sqrrN ?expr1n; kring K.
  by rewrite oppr_eq0 oner_eq0.
exists M, x; have tm : uniq (map p_time ([:: ex1] ++ [:: ey1] ++ [:: ewc; ewcd])) by [].
have kp := @C59_weight _ eF 1 junk _ 1 lo eF_blocks isT M _ _ [:: ewc; ewcd] hist erefl tm 1 (fun _ _ => 1) 10 id id sh sh x.
have [rc rd] : rm_c x = [:: ey1; ewc] /\ rm_cd x = [:: ex1; ewcd].
  move: ex; rewrite /intermediate /extend o1 o2 ltnn; case: eqP => // _; rewrite /reduce sp; by case=> <-.
have cv a b v s : compute_permutation_sign_impl [:: a] [:: b] v = Some s -> conf_weight eF [:: a] [:: b] v = (-1) ^+ s * eF b a.
  by rewrite /conf_weight => ->; rewrite /hyb_det /= /detL det_mx11 !mxE /=; case: s.
have w0 : conf_weight eF [:: ex1] [:: ey1] [:: ewc; ewcd] = 2%:R by rewrite (cv _ _ _ false) // expr0 mul1r.
split; [exact: hist|exact: ex|by split|].
have hm : minn (size [:: ey1] + 1) 10 = 2%N by [].
rewrite hm in kp; split; rewrite (kp _ _ ex) // rc rd /moved w0.
- by rewrite divff // pnatr_eq0.
- by rewrite (_ : minus _ _ = [:: ewcd]) // (_ : minus _ _ = [:: ewc]) // (_ : weave _ _ = [:: ey1; ex1]) // (cv _ _ _ false) // expr0 mul1r.
- by rewrite (_ : minus _ _ = [:: ex1]) // (_ : minus _ _ = [:: ewc]) // (_ : weave _ _ = [:: ey1; ewcd]) // (cv _ _ _ true) // expr1 mulN1r mulNr.
Qed.
End Example.

Print Assumptions C59_weight.
Print Assumptions C59_kept.
Print Assumptions C59_own.
Print Assumptions C59_defined.
Print Assumptions C59_cutoff.
Print Assumptions C59_green_partial.
Print Assumptions C59_two_particle.
Print Assumptions C59_norm.
Print Assumptions C59_small_maximum_refuted.
Print Assumptions C59_skipped_refuted.
Print Assumptions C59_cutoff_refuted.
Print Assumptions C59_instance.