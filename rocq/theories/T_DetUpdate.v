(** * C32, C33: the updates of the matrix of one block *)
From Coq Require Import ZArith List Sorting.Permutation Sorting.Sorted.
From mathcomp Require Import all_ssreflect all_fingroup all_algebra zify.
From Verif Require Import OpContainer CombSort T_PermSign Dist Proposal HybDet EigenBasis T_EigenBasis FastUpdate T_FastUpdate DetMatrix T_DetMatrix.
Import Order.Theory GRing.Theory Num.Theory.
Set Implicit Arguments.
Unset Strict Implicit.
Unset Printing Implicit Defensive.
Local Close Scope Z_scope.
Local Open Scope nat_scope.
Local Open Scope ring_scope.

Local Arguments pop_op : simpl never.
Local Arguments push_op : simpl never.

Lemma times_of_cons p ops : times_of (p :: ops) = p_time p.1 :: p_time p.2 :: times_of ops.
Proof. by []. Qed.
Lemma perm_times ops : perm_eq (times_of ops) (map p_time (map fst ops ++ map snd ops)).
Proof.
elim: ops => [|[x y] ops IH] //; rewrite times_of_cons /= perm_cons.
rewrite map_cat /= (perm_trans _ (_ : perm_eq (p_time y :: (map p_time (map fst ops) ++ map p_time (map snd ops))) _)) //.
  by rewrite perm_cons -map_cat.
by rewrite perm_sym perm_catC /= perm_cons perm_catC.
Qed.
Lemma mem_times ops t : (t \in times_of ops) = (t \in map p_time (map fst ops ++ map snd ops)).
Proof. exact: perm_mem (perm_times ops) t. Qed.
Lemma all_times (P : optime -> bool) ops : all (fun p : psi * psi => P (p_time p.1) && P (p_time p.2)) ops = all P (times_of ops).
Proof. by elim: ops => [|p ops IH] //; rewrite times_of_cons /= IH andbA. Qed.

Lemma uniq_map_inj (T1 T2 : eqType) (f : T1 -> T2) (s : seq T1) : uniq (map f s) -> {in s &, injective f}.
Proof.
elim: s => [|z s IH] //= /andP[nz u] x y; rewrite !inE => /orP[/eqP ->|hx] /orP[/eqP ->|hy] // e.
- by case/negP: nz; rewrite e map_f.
- by case/negP: nz; rewrite -e map_f.
- exact: IH.
Qed.

Section Cut.
Implicit Types (s : side).
Lemma erase_at_ok s l r n : side_ok s -> s_ops s = l ++ r -> size l = n ->
  let s' := foldl (fun s i => erase_at (i + n) s) s (iota 0 (size r)) in
  side_ok (Side (take n (s_ops s')) (s_set s') (s_pos s')) /\ take n (s_ops s') = l.
Proof.
move=> [u [um hm] [hc hl]] e zl.
have inv k : (k <= size r)%N -> let s' := foldl (fun s i => erase_at (i + n) s) s (iota 0 k) in
  [/\ s_ops s' = l ++ r, uniq (unzip1 (s_pos s')), forall t i, ((t, i) \in s_pos s') = ((t, i) \in s_pos s) && (t \notin map p_time (take k r)),
      csorted (s_set s') & forall y, (y \in s_set s') = (y \in s_set s) && (p_time y \notin map p_time (take k r))].
  elim: k => [|k IH] hk; first by rewrite take0 /=; split=> // *; rewrite andbT.
  have [a1 a2 a3 a4 a5] := IH (ltnW hk); rewrite foldl_iotaS; set s1 := foldl _ _ _ in a1 a2 a3 a4 a5 *.
  have en : nth psi0 (s_ops s1) (k + n) = nth psi0 r k by rewrite a1 nth_cat zl ltnNge leq_addl /= addnK.
  rewrite /erase_at en /= (take_nth psi0) // map_rcons; split=> //.
  - exact: perase_uniq.
  - by move=> t i; rewrite perase_mem a3 mem_rcons inE negb_or andbA [(t != _) && _]andbC -!andbA; congr (_ && _); rewrite andbC.
  - by have [] := cerase_mem (nth psi0 r k) (nth psi0 r k) a4.
  - by move=> y; have [_ ->] := cerase_mem (nth psi0 r k) y a4; rewrite a5 mem_rcons inE negb_or -!andbA; congr (_ && _); rewrite andbC.
have [a1 a2 a3 a4 a5] := inv _ (leqnn (size r)); set s1 := foldl _ _ _ in a1 a2 a3 a4 a5 *.
have et : take n (s_ops s1) = l by rewrite a1 take_size_cat.
rewrite /= et; split=> //; rewrite take_size in a3 a5.
have u' := u; rewrite e map_cat cat_uniq in u'; case/and3P: u' => ul /hasPn dis ur.
split=> //=; split=> //.
- move=> t i; rewrite a3 hm e size_cat nth_cat zl; case: (ltnP i n) => hi.
    rewrite (ltn_addr _ hi) /=; case: eqP => //= <-; apply/negP => /dis /negP; apply; apply: map_f; apply: mem_nth; by rewrite zl.
  apply/negP => /andP[/andP[h1 /eqP h2]] /negP; apply; rewrite -h2; apply: map_f; apply: mem_nth; by rewrite ltn_subLR.
- move=> y; rewrite a5 hl e mem_cat; case hy : (y \in l) => /=.
    by apply/negP => /dis /negP; apply; exact: map_f.
  by apply/negP => /andP[h] /negP; apply; exact: map_f.
Qed.
End Cut.

Section Update.
Variable K : numFieldType.
Variable F : psi -> psi -> K.
Variable junk : nat -> nat -> K.
Notation dm := (dm K).
Notation wf := (wf F).
Implicit Types (d : dm) (g : mat K) (xs ys cd c : seq psi) (ops rem add : seq (psi * psi)).

(** The state between updates: no update is in progress and the operators are those in [cd] and [c] *)
Definition at_rest d cd c : Prop :=
  [/\ d_state d = Waiting, wf d, perm_eq (s_ops (d_cdagg d)) cd & perm_eq (s_ops (d_c d)) c].

(** What a try has to do: it returns a number [x] with [P x]; performing (if [x] is not 0) leads to the new operators,
    rejecting leads back *)
Definition tried d (r : res K K) (P : K -> Prop) cd c cd' c' (perf rej : dm -> res K unit) : Prop :=
  exists x d1, [/\ r = Ok x d1, d_mode d1 = d_mode d, P x,
    x != 0 -> exists2 d2, perf d1 = Ok tt d2 & at_rest d2 cd' c' &
    exists2 d2, rej d1 = Ok tt d2 & at_rest d2 cd c].

Lemma wf_det d : wf d -> hyb_det F (s_ops (d_cdagg d)) (s_ops (d_c d)) =
  (d_perm d)%:~R * \det (matL psi0 psi0 F (size (s_ops (d_c d))) (s_ops (d_c d)) (s_ops (d_cdagg d))).
Proof. by case=> -[u1 _ _] [u2 _ _] h3 _ ->; rewrite hyb_detE. Qed.
Lemma wf_unit d : wf d -> let G := matL psi0 psi0 F (size (s_ops (d_c d))) (s_ops (d_c d)) (s_ops (d_cdagg d)) in
  G \in unitmx /\ toM (size (s_ops (d_c d))) (size (s_ops (d_c d))) (d_inv d) = invmx G.
Proof. by case=> _ _ _ [_ _ h] _; exact: right_inverse h. Qed.
Lemma perm_unit n : ((sign_of n)%:~R : K) != 0. Proof. by rewrite intr_eq0 /sign_of; case: odd. Qed.
Lemma perm_sq n : ((sign_of n)%:~R * (sign_of n)%:~R : K) = 1. Proof. by rewrite -intrM sign_of2. Qed.
Lemma perm_inv n : ((sign_of n)%:~R^-1 : K) = (sign_of n)%:~R.
Proof. by apply: (mulfI (perm_unit n)); rewrite perm_sq mulfV // perm_unit. Qed.
Lemma wf_nz d : wf d -> hyb_det F (s_ops (d_cdagg d)) (s_ops (d_c d)) != 0.
Proof.
move=> hw; rewrite wf_det // mulf_neq0 //; first by case: hw => _ _ _ _ ->; exact: perm_unit.
by have [] := wf_unit hw; rewrite unitmxE unitfE.
Qed.
Lemma exist_ok d t : wf d -> exist d t = (t \in map p_time (s_ops (d_cdagg d) ++ s_ops (d_c d))).
Proof.
case=> -[u1 p1 _] [u2 p2 _] _ _ _; rewrite /exist (pfind_isSome _ u1 p1) (pfind_isSome _ u2 p2) map_cat mem_cat.
exact: orbC.
Qed.

(** the ratio of the two determinants from the ratio of the matrices in the order of storage *)
Lemma ratio_sign (n n' : nat) (pd : nat) (a b : K) : odd n' = odd (pd + n) ->
  (sign_of n')%:~R * a / ((sign_of n)%:~R * b) = (sign_of pd)%:~R * (a / b).
Proof.
move=> ho; rewrite (sign_of_odd (esym ho)) sign_ofD intrM invfM perm_inv.
have := perm_sq n; set s := (sign_of n)%:~R; set p := (sign_of pd)%:~R => e.
by rewrite mulrACA -(mulrA p s s) e mulr1.
Qed.

Lemma add_ok d ops : d_state d = Waiting -> wf d -> (0 < size ops)%N ->
  let cd := s_ops (d_cdagg d) in let c := s_ops (d_c d) in
  uniq (map p_time ((cd ++ c) ++ (map fst ops ++ map snd ops))) ->
  tried d (try_add F ops d) (fun x => x = hyb_det F (cd ++ map fst ops) (c ++ map snd ops) / hyb_det F cd c) cd c
    (cd ++ map fst ops) (c ++ map snd ops) (perform_add (K := K)) (reject_add (K := K)).
Proof.
move=> hst hw h0 cd c; rewrite map_cat cat_uniq => /and3P[u1 /hasPn dis0 u2].
have dis t : t \in map p_time (map fst ops ++ map snd ops) -> t \notin map p_time (cd ++ c) by move=> /dis0.
have [h1 h2 h3 [mr1 mc1 hinv] h5] := hw.
have ip : insertion_possible (set_state TryAdd d) ops.
  rewrite /insertion_possible /no_duplicate (perm_uniq (perm_times ops)) u2 andbT.
  rewrite (_ : all _ _ = all (fun t => t \notin map p_time (cd ++ c)) (times_of ops)).
    by apply/allP => t; rewrite mem_times => /dis.
  rewrite -all_times; apply: eq_all => p; by rewrite !(exist_ok (d := set_state TryAdd d)) // negb_or.
rewrite /tried /try_add /is_waiting hst ip /=.
have uc (l r : seq psi) : uniq (map p_time l) -> uniq (map p_time r) -> {in map p_time r, forall t, t \notin map p_time l} -> uniq (map p_time (l ++ r)).
  by move=> a b h; rewrite map_cat cat_uniq a b andbT; apply/hasPn.
have [u3 u4] : uniq (map p_time (map fst ops)) /\ uniq (map p_time (map snd ops)).
  by move: u2; rewrite map_cat cat_uniq => /and3P[].
have d1 : {in map p_time (map fst ops), forall t, t \notin map p_time cd}.
  by move=> t ht; have := dis t; rewrite !map_cat !mem_cat ht negb_or => /(_ isT) /andP[].
have d2 : {in map p_time (map snd ops), forall t, t \notin map p_time c}.
  by move=> t ht; have := dis t; rewrite !map_cat !mem_cat ht orbT negb_or => /(_ isT) /andP[].
have [U1 U2] : uniq (map p_time (cd ++ map fst ops)) /\ uniq (map p_time (c ++ map snd ops)).
  by split; apply: uc => //; [case: h1|case: h2].
have [pd [cd1 [c1 [-> [s1 e1] [s2 e2] i1]]]] := add_loop_ok 0 h3 h1 h2 U1 U2.
rewrite /= in e1 e2 i1; rewrite -/cd -/c in e1 e2.
set m := size ops; set n := size c; set gg := new_elements _ _ _ _ _.
have zcd : size cd = n by [].
have zf : size (map fst ops) = m by rewrite size_map.
have zs : size (map snd ops) = m by rewrite size_map.
have [uG iG] := wf_unit hw; rewrite -/c -/cd -/n in uG iG mr1 mc1.
have mb : matL psi0 psi0 F (n + m) (c ++ map snd ops) (cd ++ map fst ops) =
  block_mx (matL psi0 psi0 F n c cd) (toM n m gg.2) (toM m n gg.1.2) (toM m m gg.1.1).
  rewrite matL_block //; congr block_mx; apply/matrixP => i j; rewrite !mxE /= /compute_g e1 e2 -/c -/cd mr1 !nth_cat -/n ?zcd;
    rewrite ?ltn_ord ?[(n + _ < n)%N]ltnNge ?leq_addr /= ?addKn //.
have hd : detL psi0 psi0 F (size (c ++ map snd ops)) (c ++ map snd ops) (cd ++ map fst ops) =
  \det (matL psi0 psi0 F (n + m) (c ++ map snd ops) (cd ++ map fst ops)) by rewrite /detL size_cat zs.
have zz : size (c ++ map snd ops) = size (cd ++ map fst ops) by rewrite !size_cat zs zf zcd.
have dims : [/\ mr gg.2 = n, mc gg.2 = m, mr gg.1.2 = m, mc gg.1.2 = n & mr gg.1.1 = m /\ mc gg.1.1 = m].
  by rewrite /gg /new_elements /= -/c -/n mr1.
have [g1 g2 g3 g4 [g5 g6]] := dims.
have [C1 C2] := C31_up h0 mr1 mc1 g1 g2 g3 g4 g5 g6 uG iG; rewrite -mb in C1 C2.
have odds : odd (ninv (c ++ map snd ops) + ninv (cd ++ map fst ops)) = odd (pd + (ninv c + ninv cd)).
  move: i1; rewrite e1 e2 -/cd -/c; clear; lia.
do 2 eexists; split; [by []|by []| | |].
- rewrite C1 (hyb_detE F zz U1 U2) (wf_det hw) h5 -/c -/cd hd; rewrite -/n; symmetry; exact: ratio_sign odds.
- rewrite mulf_eq0 negb_or => /andP[_]; rewrite C1 mulf_eq0 negb_or => /andP[nz _].
  case E : (compute_inverse_matrix_up _ _ _ _) (C2 nz) => [r x] [_ x1 x2 x3].
  exists (DM Waiting (d_mode d) x (d_perm d * sign_of pd) cd1 c1 (w_add (sign_of pd) gg (d_work d))).
    by rewrite /perform_add; congr (Ok tt (DM _ _ _ _ _ _ _)); have := congr1 snd E; exact.
  split=> //=; rewrite ?e1 ?e2 //; split=> //=; rewrite ?e1 ?e2 //.
  - have -> : size (c ++ map snd ops) = (n + m)%N by rewrite size_cat zs.
    by split=> //; rewrite x3 mulmxV // unitmxE unitfE.
  - by rewrite h5 -/c -/cd (sign_of_odd (esym odds)) mulrC -sign_ofD.
- have nr : (size (s_pos cd1) - mr (d_inv d))%N = m.
    by have [q1 q2 _] := s1; rewrite (pos_size q1 q2) e1 mr1 size_cat zf zcd addKn.
  have [t1 o1] := erase_at_ok s1 e1 (etrans zcd (esym mr1)); rewrite zf in t1 o1.
  have [t2 o2] := erase_at_ok s2 e2 (esym mr1); rewrite zs in t2 o2.
  eexists; [by []|rewrite /remove_excess /= nr; split=> //=; rewrite ?o1 ?o2 //].
  by rewrite o1 in t1; rewrite o2 in t2; split=> //=; rewrite ?o1 ?o2.
Qed.

Lemma perm_rest (l r cd xs : seq psi) : uniq cd -> perm_eq (l ++ r) cd -> perm_eq r xs -> perm_eq l [seq x <- cd | x \notin xs].
Proof.
move=> u p q; have u' : uniq (l ++ r) by rewrite (perm_uniq p).
rewrite cat_uniq in u'; case/and3P: u' => ul /hasPn dis ur.
apply: uniq_perm => //; first exact: filter_uniq.
move=> x; rewrite mem_filter -(perm_mem p) -(perm_mem q) mem_cat.
case hr : (x \in r) => /=; last by rewrite orbF.
by apply/negP => h; have := dis x hr; rewrite /= h.
Qed.

(** what the first part of a removal does *)
Lemma down_ok d rem : wf d -> {subset map fst rem <= s_ops (d_cdagg d)} -> {subset map snd rem <= s_ops (d_c d)} ->
  uniq (map fst rem) -> uniq (map snd rem) ->
  let m := size rem in
  exists d' l1 r1 l2 r2, [/\ move_to_end rem d = Some d', wf d' /\ same_rest d d',
    [/\ s_ops (d_cdagg d') = l1 ++ r1, perm_eq (l1 ++ r1) (s_ops (d_cdagg d)), perm_eq r1 (map fst rem) & size r1 = m],
    [/\ s_ops (d_c d') = l2 ++ r2, perm_eq (l2 ++ r2) (s_ops (d_c d)), perm_eq r2 (map snd rem) & size r2 = m] &
    let d2 := take_out m d' in
    [/\ (m <= size (s_ops (d_cdagg d2)))%N,
      [/\ d_state d2 = d_state d, d_mode d2 = d_mode d, d_inv d2 = d_inv d', d_perm d2 = d_perm d' &
          d_work d2 = w_rem (rev (zip r1 r2)) (d_work d)] &
      exists (pd : nat) (cd1 c1 : side), [/\ remove_loop m 0 (d_cdagg d2) (d_c d2) = (pd, cd1, c1), side_ok cd1 /\ s_ops cd1 = l1, side_ok c1 /\ s_ops c1 = l2 &
        odd (ninv l2 + ninv l1) = odd (pd + (ninv (s_ops (d_c d')) + ninv (s_ops (d_cdagg d'))))]]].
Proof.
move=> hw s1 s2 u1 u2 m.
have [d' [l1 [r1 [l2 [r2 [E w' [sr1 sr2 sr3] [e1 p1 q1 z1] [e2 p2 q2 z2]]]]]]] := move_to_end_ok hw s1 s2 u1 u2.
have [t1 t2 o1 o2 [a1 a2 a3 a4 a5]] := take_out_ok w' e1 e2 z1 z2.
have [pd [cd1 [c1 [R1 R2 R3 R4]]]] := remove_loop_ok 0 t1 t2 o1 o2 z1 z2.
exists d', l1, r1, l2, r2; split=> //; split.
- by rewrite o1 size_cat z1 leq_addl.
- by rewrite a1 a2 a3 a4 a5 sr1 sr2 sr3.
- exists pd, cd1, c1; split=> //; move: R4; rewrite e1 e2; clear; lia.
Qed.

(** adding back what was taken out *)
Lemma back_ok l1 r1 l2 r2 (cd1 c1 : side) : size l1 = size l2 -> size r1 = size r2 -> side_ok cd1 -> s_ops cd1 = l1 -> side_ok c1 -> s_ops c1 = l2 ->
  uniq (map p_time (l1 ++ r1)) -> uniq (map p_time (l2 ++ r2)) ->
  exists (n : nat) (cd' c' : side), [/\ add_loop (rev (rev (zip r1 r2))) 0 cd1 c1 = (n, cd', c', true), side_ok cd' /\ s_ops cd' = l1 ++ r1 &
    side_ok c' /\ s_ops c' = l2 ++ r2].
Proof.
move=> zl zr h1 e1 h2 e2 u1 u2; rewrite revK.
have f1 : map fst (zip r1 r2) = r1 by rewrite -/(unzip1 _) unzip1_zip // zr.
have f2 : map snd (zip r1 r2) = r2 by rewrite -/(unzip2 _) unzip2_zip // zr.
have [||| n [cd' [c' [E h3 h4 _]]]] := @add_loop_ok (zip r1 r2) 0 cd1 c1 _ h1 h2; rewrite ?e1 ?e2 ?f1 ?f2 //.
by exists n, cd', c'; rewrite e1 f1 in h3; rewrite e2 f2 in h4.
Qed.

Lemma rem_times d rem : wf d -> uniq (map p_time (s_ops (d_cdagg d) ++ s_ops (d_c d))) ->
  {subset map fst rem <= s_ops (d_cdagg d)} -> {subset map snd rem <= s_ops (d_c d)} -> uniq (map fst rem) -> uniq (map snd rem) ->
  uniq (times_of rem) /\ all (fun p => exist d (p_time p.1) && exist d (p_time p.2)) rem.
Proof.
move=> hw u s1 s2 u1 u2; split; last first.
  rewrite (all_times (exist d)); apply/allP => t; rewrite mem_times (exist_ok _ hw) => /mapP[x]; rewrite mem_cat => hx ->.
  by apply: map_f; rewrite mem_cat; case/orP: hx => [/s1|/s2] ->; rewrite ?orbT.
have u' := map_uniq u.
rewrite (perm_uniq (perm_times rem)) map_inj_in_uniq.
  rewrite cat_uniq u1 u2 andbT; apply/hasPn => x /s2 hx; apply/negP => /s1 hy.
  by move: u'; rewrite cat_uniq => /and3P[_ /hasPn h _]; have := h _ hx; rewrite /= hy.
have sub : {subset map fst rem ++ map snd rem <= s_ops (d_cdagg d) ++ s_ops (d_c d)}.
  by move=> x; rewrite !mem_cat => /orP[/s1|/s2] ->; rewrite ?orbT.
move=> x y /sub hx /sub hy; exact: (uniq_map_inj u).
Qed.

Definition kept (xs cd : seq psi) : seq psi := [seq x <- cd | x \notin xs].

Lemma uniq_perm_times (l cd : seq psi) : perm_eq l cd -> uniq (map p_time cd) -> uniq (map p_time l).
Proof. by move=> p; rewrite (perm_uniq (perm_map p_time p)). Qed.
Lemma uniq_catl (l r : seq psi) : uniq (map p_time (l ++ r)) -> uniq (map p_time l).
Proof. by rewrite map_cat cat_uniq => /and3P[]. Qed.

Lemma remove_ok d rem : d_state d = Waiting -> wf d -> (0 < size rem)%N ->
  let cd := s_ops (d_cdagg d) in let c := s_ops (d_c d) in
  let cd' := kept (map fst rem) cd in let c' := kept (map snd rem) c in
  uniq (map p_time (cd ++ c)) -> {subset map fst rem <= cd} -> {subset map snd rem <= c} -> uniq (map fst rem) -> uniq (map snd rem) ->
  tried d (try_remove rem d) (fun x => x = hyb_det F cd' c' / hyb_det F cd c) cd c cd' c' (perform_remove (K := K)) (reject_remove (K := K)).
Proof.
move=> hst hw h0 cd c cd' c' u s1 s2 u1 u2.
have hw0 : wf (set_state TryRem d) by [].
have [ut ht] := @rem_times (set_state TryRem d) rem hw0 u s1 s2 u1 u2.
have [d' [l1 [r1 [l2 [r2 [E [w' _] [e1 p1 q1 z1] [e2 p2 q2 z2]]]]]]] := down_ok hw0 s1 s2 u1 u2.
rewrite /= -/cd -/c in p1 p2.
cbv zeta; case=> [hm [a1 a2 a3 a4 a5] [pd [cd1 [c1 [R1 [R2 R3] [R4 R5] R6]]]]].
have [Ucd Uc] : uniq (map p_time cd) /\ uniq (map p_time c) by case: hw => -[? _ _] [? _ _] _ _ _.
have P1 := perm_rest (map_uniq Ucd) p1 q1; have P2 := perm_rest (map_uniq Uc) p2 q2.
have U1 := uniq_perm_times p1 Ucd; have U2 := uniq_perm_times p2 Uc.
set m := size rem in z1 z2 hm a1 a2 a3 a4 a5 R1 *.
have [h1 h2 h3 [mr1 mc1 hinv] h5] := w'.
have zl : size l1 = size l2 by move: h3; rewrite e1 e2 !size_cat z1 z2; clear; lia.
set n := size l2 in zl *.
have zc : size (s_ops (d_c d')) = (n + m)%N by rewrite e2 size_cat z2.
have dE : hyb_det F cd c = (d_perm d')%:~R * \det (matL psi0 psi0 F (n + m) (l2 ++ r2) (l1 ++ r1)).
  have := wf_det w'; rewrite zc e1 e2 => <-; apply: hyb_det_ext; by rewrite perm_sym.
have nE : hyb_det F cd' c' = (sign_of (ninv l2 + ninv l1))%:~R * \det (matL psi0 psi0 F n l2 l1).
  rewrite -(hyb_det_ext F P1 P2) hyb_detE ?zl //; by [exact: uniq_catl U1|exact: uniq_catl U2].
have mb := matL_block F m r2 r1 (erefl n) zl.
have [uG iG] := wf_unit w'; move: uG iG; rewrite zc e1 e2 mb => uG iG.
have [C1 C2] := C31_down_last h0 (etrans mr1 zc) (etrans mc1 zc) uG iG.
rewrite -mb in C1.
exists ((sign_of pd)%:~R * compute_det_ratio_down_last m (d_inv d')).
exists (DM TryRem (d_mode d) (d_inv d') (d_perm d') cd1 c1 (w_rat (sign_of pd) (w_rem (rev (zip r1 r2)) (d_work d)))).
split=> //.
- rewrite /= in a2 a5 R1.
  by rewrite /try_remove /is_waiting hst /= /removal_possible ht /= /no_duplicate ut E ltnNge hm /= R1 a2 a5.
- rewrite C1 nE dE h5; symmetry; apply: ratio_sign; by rewrite R6.
- rewrite mulf_eq0 negb_or => /andP[_]; rewrite C1 mulf_eq0 negb_or => /andP[nz _].
  have [x X1 [X2 X3 X4]] := C2 nz.
  exists (DM Waiting (d_mode d) x (d_perm d' * sign_of pd) cd1 c1 (w_rat (sign_of pd) (w_rem (rev (zip r1 r2)) (d_work d)))).
    by rewrite /perform_remove /= size_rev size_zip z1 z2 minnn -/m X1.
  split=> //=; rewrite ?R3 ?R5 //; split=> //=; rewrite ?R3 ?R5 //.
  - by split=> //; rewrite X4 mulmxV // unitmxE unitfE.
  - by rewrite h5 (sign_of_odd (esym R6)) mulrC -sign_ofD.
- have [k [cd2 [c2 [A1 [A2 A3] [A4 A5]]]]] := back_ok zl (etrans z1 (esym z2)) R2 R3 R4 R5 U1 U2.
  exists (DM Waiting (d_mode d) (d_inv d') (d_perm d') cd2 c2 (w_rat (sign_of pd) (w_rem (rev (zip r1 r2)) (d_work d)))).
    by rewrite /reject_remove /= A1.
  split=> //=; rewrite ?A3 ?A5 //.
  move: (w') => [_ _ b3 b4 b5]; rewrite e1 e2 in b3 b4 b5.
  by split=> //=; rewrite ?A3 ?A5.
Qed.

Lemma remove_add_ok d rem add : d_state d = Waiting -> wf d -> (0 < size rem)%N ->
  let cd := s_ops (d_cdagg d) in let c := s_ops (d_c d) in
  let cd' := kept (map fst rem) cd in let c' := kept (map snd rem) c in
  let cd2 := cd' ++ map fst add in let c2 := c' ++ map snd add in
  uniq (map p_time (cd ++ c)) -> {subset map fst rem <= cd} -> {subset map snd rem <= c} -> uniq (map fst rem) -> uniq (map snd rem) ->
  uniq (map p_time ((cd' ++ c') ++ (map fst add ++ map snd add))) ->
  tried d (try_remove_add F rem add d)
    (fun x => (hyb_det F cd' c' != 0 -> x = hyb_det F cd2 c2 / hyb_det F cd c) /\ (hyb_det F cd' c' = 0 -> x = 0))
    cd c cd2 c2 (perform_remove_add junk) (reject_remove_add (K := K)).
Proof.
move=> hst hw h0 cd c cd' c' cdn cn u s1 s2 u1 u2; rewrite map_cat cat_uniq => /and3P[v1 /hasPn dis0 v2].
set d0 := set_work (w_imp false (d_work d)) (set_state TryRemAdd d).
have hw0 : wf d0 by [].
have [ut ht] := @rem_times d0 rem hw0 u s1 s2 u1 u2.
have [d' [l1 [r1 [l2 [r2 [E [w' _] [e1 p1 q1 z1] [e2 p2 q2 z2]]]]]]] := down_ok hw0 s1 s2 u1 u2.
rewrite /= -/cd -/c in p1 p2.
cbv zeta; case=> [hm [a1 a2 a3 a4 a5] [pd [cd1 [c1 [R1 [R2 R3] [R4 R5] R6]]]]].
have [Ucd Uc] : uniq (map p_time cd) /\ uniq (map p_time c) by case: hw => -[? _ _] [? _ _] _ _ _.
have P1 : perm_eq l1 cd' := perm_rest (map_uniq Ucd) p1 q1; have P2 : perm_eq l2 c' := perm_rest (map_uniq Uc) p2 q2.
have U1 := uniq_perm_times p1 Ucd; have U2 := uniq_perm_times p2 Uc.
have rp : removal_insertion_possible d0 rem add = Some true.
  rewrite /removal_insertion_possible ht /= /no_duplicate ut (perm_uniq (perm_times add)) v2 /= andbT; congr Some.
  set Q := fun t => ~~ exist d0 t || (t \in times_of rem).
  rewrite -[all _ _]/(all (fun p => Q (p_time p.1) && Q (p_time p.2)) add) all_times; apply/allP => t; rewrite mem_times => /dis0 /= hn.
  rewrite /Q (exist_ok _ hw0) /= -/cd -/c; case ht2 : (t \in _) => //=.
  case/mapP: ht2 hn => x hx -> hn; rewrite mem_times; apply: map_f; rewrite mem_cat.
  apply/negPn/negP; rewrite negb_or => /andP[n1 n2]; case/negP: hn; apply: map_f.
  by move: hx; rewrite !mem_cat /cd' /c' !mem_filter n1 n2.
set m := size rem in z1 z2 hm a1 a2 a3 a4 a5 R1 *; set k := size add.
have [h1 h2 h3 [mr1 mc1 hinv] h5] := w'.
have zl : size l1 = size l2 by move: h3; rewrite e1 e2 !size_cat z1 z2; clear; lia.
set n := size l2 in zl *.
have zc : size (s_ops (d_c d')) = (n + m)%N by rewrite e2 size_cat z2.
have [v3 v4] : uniq (map p_time (map fst add)) /\ uniq (map p_time (map snd add)).
  by move: v2; rewrite map_cat cat_uniq => /and3P[].
have uc (l l' r : seq psi) : perm_eq l l' -> uniq (map p_time l) -> uniq (map p_time r) -> {in map p_time r, forall t, t \notin map p_time l'} -> uniq (map p_time (l ++ r)).
  move=> p a b h; rewrite map_cat cat_uniq a b andbT; apply/hasPn => t /h; by rewrite /= -(perm_mem (perm_map p_time p)).
have V1 : uniq (map p_time (l1 ++ map fst add)).
  apply: (uc _ _ _ P1) => //; first exact: uniq_catl U1.
  by move=> t hh; have /= := dis0 t; rewrite map_cat mem_cat hh => /(_ isT); rewrite map_cat mem_cat negb_or => /andP[].
have V2 : uniq (map p_time (l2 ++ map snd add)).
  apply: (uc _ _ _ P2) => //; first exact: uniq_catl U2.
  by move=> t hh; have /= := dis0 t; rewrite map_cat mem_cat hh orbT => /(_ isT); rewrite map_cat mem_cat negb_or => /andP[].
have sz1 : size (s_ops cd1) = size (s_ops c1) by rewrite R3 R5.
have [||pd2 [cd3 [c3 [B1 [B2 B3] [B4 B5] B6]]]] := @add_loop_ok add 0 cd1 c1 sz1 R2 R4; rewrite ?R3 ?R5 //.
rewrite R3 R5 in B3 B5 B6.
set gg := new_elements F n k cd3 c3.
have zf : size (map fst add) = k by rewrite size_map.
have zs : size (map snd add) = k by rewrite size_map.
have mb2 : matL psi0 psi0 F (n + k) (l2 ++ map snd add) (l1 ++ map fst add) =
  block_mx (matL psi0 psi0 F n l2 l1) (toM n k gg.2) (toM k n gg.1.2) (toM k k gg.1.1).
  rewrite matL_block //; congr block_mx; apply/matrixP => i j; rewrite !mxE /= /compute_g B3 B5 !nth_cat -/n ?zl;
    rewrite ?ltn_ord ?[(n + _ < n)%N]ltnNge ?leq_addr /= ?addKn //.
have dE : hyb_det F cd c = (d_perm d')%:~R * \det (matL psi0 psi0 F (n + m) (l2 ++ r2) (l1 ++ r1)).
  have := wf_det w'; rewrite zc e1 e2 => <-; apply: hyb_det_ext; by rewrite perm_sym.
have kE : hyb_det F cd' c' = (sign_of (ninv l2 + ninv l1))%:~R * \det (matL psi0 psi0 F n l2 l1).
  rewrite -(hyb_det_ext F P1 P2) hyb_detE ?zl //; by [exact: uniq_catl U1|exact: uniq_catl U2].
have PP1 : perm_eq (l1 ++ map fst add) cdn by rewrite perm_cat2r.
have PP2 : perm_eq (l2 ++ map snd add) cn by rewrite perm_cat2r.
have nE : hyb_det F cdn cn = (sign_of (ninv (l2 ++ map snd add) + ninv (l1 ++ map fst add)))%:~R * 
    \det (matL psi0 psi0 F (n + k) (l2 ++ map snd add) (l1 ++ map fst add)).
  rewrite -(hyb_det_ext F PP1 PP2) hyb_detE //; last by rewrite !size_cat zf zs zl.
  by rewrite /detL size_cat zs.
have mb := matL_block F m r2 r1 (erefl n) zl.
have [uG iG] := wf_unit w'; move: uG iG; rewrite zc e1 e2 mb => uG iG.
have nun : (mr (d_inv d') - m)%N = n by rewrite mr1 zc addnK.
case Erep : (replace_det_ratio (d_inv d') gg.2 gg.1.2 gg.1.1) => [r hlp].
set rat := sign_of pd * sign_of pd2.
set w1 := w_rem_add rat k gg (odflt (mat0 K, mat0 K) hlp) (w_rem (rev (zip r1 r2)) (w_imp false (d_work d))).
have odds : odd (ninv (l2 ++ map snd add) + ninv (l1 ++ map fst add)) = odd ((pd + pd2) + (ninv (s_ops (d_c d')) + ninv (s_ops (d_cdagg d')))).
  move: R6 B6; rewrite e1 e2 B3 B5; clear; lia.
exists (rat%:~R * r), (DM TryRemAdd (d_mode d) (d_inv d') (d_perm d') cd3 c3 w1).
split=> //.
- rewrite /= in a2 a5 R1.
  by rewrite /try_remove_add /is_waiting hst -/d0; cbv zeta; rewrite rp /= -/m h0 E /= ltnNge hm /= R1 B1 /= a2 a5 nun -/k -/gg Erep.
- split=> [nz|z0].
  - have dP : \det (matL psi0 psi0 F n l2 l1) != 0 by move: nz; rewrite kE mulf_eq0 negb_or => /andP[].
    have := @C31_replace K n m k _ _ _ _ gg.2 gg.1.2 gg.1.1 (d_inv d') junk (etrans mr1 zc) (etrans mc1 zc) erefl erefl erefl erefl erefl erefl uG iG dP.
    rewrite Erep -mb2 -mb => -[-> _]; rewrite nE dE h5; symmetry; rewrite /rat -sign_ofD; apply: ratio_sign; exact: odds.
  - have dP : \det (matL psi0 psi0 F n l2 l1) = 0 by apply/eqP; move/eqP: z0; rewrite kE mulf_eq0 (negbTE (perm_unit _)).
    have n0 : (0 < n)%N by case: (posnP n) => // e; move: dP; rewrite e det_mx00 => /eqP; rewrite oner_eq0.
    have := @C31_replace_singular K n m k _ _ _ _ gg.2 gg.1.2 gg.1.1 (d_inv d') (etrans mr1 zc) (etrans mc1 zc) erefl erefl n0 uG iG dP.
    by rewrite Erep => -[-> _]; rewrite mulr0.
- rewrite mulf_eq0 negb_or => /andP[_ nr].
  have dP : \det (matL psi0 psi0 F n l2 l1) != 0.
    apply/eqP => dP.
    have n0 : (0 < n)%N by case: (posnP n) => // e; move: dP; rewrite e det_mx00 => /eqP; rewrite oner_eq0.
    have := @C31_replace_singular K n m k _ _ _ _ gg.2 gg.1.2 gg.1.1 (d_inv d') (etrans mr1 zc) (etrans mc1 zc) erefl erefl n0 uG iG dP.
    by rewrite Erep => -[e0 _]; rewrite e0 eqxx in nr.
  have := @C31_replace K n m k _ _ _ _ gg.2 gg.1.2 gg.1.1 (d_inv d') junk (etrans mr1 zc) (etrans mc1 zc) erefl erefl erefl erefl erefl erefl uG iG dP.
  rewrite Erep -mb2 => -[er X]; have dn : \det (matL psi0 psi0 F (n + k) (l2 ++ map snd add) (l1 ++ map fst add)) != 0.
    by move: nr; rewrite er mulf_eq0 negb_or => /andP[].
  have [x [_ [X1 [X2 X3 X4]]]] := X dn.
  exists (DM Waiting (d_mode d) x (d_perm d' * rat) cd3 c3 w1).
    by rewrite /perform_remove_add X1.
  split=> //=; rewrite ?B3 ?B5 //; split=> //=; rewrite ?B3 ?B5 //.
  - by rewrite !size_cat zf zs zl.
  - have -> : size (l2 ++ map snd add) = (n + k)%N by rewrite size_cat zs.
    by split=> //; rewrite X4 mulmxV // unitmxE unitfE.
  - by rewrite h5 (sign_of_odd (esym odds)) mulrC /rat -!sign_ofD.
- have sub1 : {subset l1 <= s_ops cd3} by rewrite B3 => x hx; rewrite mem_cat hx.
  have sub2 : {subset l2 <= s_ops c3} by rewrite B5 => x hx; rewrite mem_cat hx.
  have [k3 [cd4 [c4 [D1 [D2 D3] [D4 D5] _]]]] := remove_loop_ok 0 (side_part B2 sub1) (side_part B4 sub2) B3 B5 zf zs.
  have [k4 [cd5 [c5 [A1 [A2 A3] [A4 A5]]]]] := back_ok zl (etrans z1 (esym z2)) D2 D3 D4 D5 U1 U2.
  exists (DM Waiting (d_mode d) (d_inv d') (d_perm d') cd5 c5 w1).
    by rewrite /reject_remove_add /= B3 size_cat zf ltnNge leq_addl /= D1 A1.
  split=> //=; rewrite ?A3 ?A5 //.
  move: (w') => [_ _ b3 b4 b5]; rewrite e1 e2 in b3 b4 b5.
  by split=> //=; rewrite ?A3 ?A5.
Qed.

Lemma swap_last (s : seq psi) x : x \in s -> exists2 l, swapl (index x s) (size s - 1) s = rcons l x & perm_eq (rcons l x) s.
Proof.
move=> hx; have hi : (index x s < size s)%N by rewrite index_mem.
have hl : (size s - 1 < size s)%N by lia.
have p := perm_swapl hi hl; have z := size_swapl (index x s) (size s - 1) s.
move: p z (nth_swapl (index x s) (size s - 1) hl); case/lastP: (swapl _ _ _) => [|l y] p z.
  by move: hi; rewrite -z.
rewrite size_rcons in z; rewrite nth_rcons -z subn1 /= ltnn eqxx => ey.
have e : y = x by rewrite ey /swapn eqxx; case: eqP => [->|_]; exact: nth_index.
by rewrite e in p *; exists l.
Qed.

Lemma replace_last_ok s l x y n : side_ok s -> s_ops s = rcons l x -> size l = n -> p_time y \notin map p_time l ->
  side_ok (replace_last x y n.+1 s) /\ s_ops (replace_last x y n.+1 s) = rcons l y.
Proof.
move=> [u hp hs] e zl hy; have eo : seq.set_nth psi0 (s_ops s) (n.+1 - 1) y = rcons l y.
  rewrite e subn1 /= -zl; elim: (l) => //= a l' ->; by [].
have u' := u; rewrite e map_rcons rcons_uniq in u'; case/andP: u' => nx ul.
rewrite e in hp u; have hp1 := pos_pop hp u.
have [i1 i2] := pos_rcons hp1 hy.
split=> //; split=> /=; rewrite ?eo //.
- by rewrite map_rcons rcons_uniq hy.
- by rewrite subn1 /= -zl i1.
- apply: set_insert => //; have [hc hl] := hs; split; first by have [] := cerase_mem x x hc.
  move=> z; have [_ ->] := cerase_mem x z hc; rewrite hl e mem_rcons inE.
  case: (eqVneq z x) => [->|nz] /=; rewrite ?eqxx; first by apply/esym/negP => h; case/negP: nx; exact: map_f.
  case hz : (z \in l) => //=; apply/eqP => ez; case/negP: nx; rewrite -ez; exact: map_f.
Qed.

Lemma replace_sign_ok s l x y : side_ok s -> s_ops s = rcons l x -> p_time y \notin map p_time l ->
  exists2 k, replace_sign (p_time x) (p_time y) (s_pos s) = sign_of k & odd (ninv (rcons l y)) = odd (k + ninv (rcons l x)).
Proof.
move=> [u hp _] e hy; rewrite e in u hp; rewrite /replace_sign !(pgeE _ u hp) !ninv_rcons -!cats1 !count_cat /= ot_lt_irrefl /=.
have u' := u; rewrite map_rcons rcons_uniq in u'; case/andP: u' => nx ul.
have cE z : p_time z \notin map p_time l -> count (fun w => ~~ ot_lt (p_time w) (p_time z)) l = count (fun w => ot_lt (p_time z) (p_time w)) l.
  move=> hz; apply: eq_in_count => w hw; rewrite ot_lt_flip ?negbK // => ez; case/negP: hz; rewrite -ez; exact: map_f.
rewrite (cE x nx) (cE y hy); set A := count _ l; set B := count _ l; set I := ninv l.
exists (A + B)%N; last by clear; lia.
rewrite /absdiff; case: (ot_lt _ _) => /=; last by apply: sign_of_odd; clear; lia.
by apply: sign_ofN; clear; lia.
Qed.

Lemma replace_cdagg_ok d x y : d_state d = Waiting -> wf d ->
  let cd := s_ops (d_cdagg d) in let c := s_ops (d_c d) in let cd' := kept [:: x] cd ++ [:: y] in
  x \in cd -> p_time y \notin map p_time (kept [:: x] cd) ->
  tried d (try_replace_cdagg F x y d) (fun r => r = hyb_det F cd' c / hyb_det F cd c) cd c cd' c
    (perform_replace_cdagg (K := K)) (reject_replace_cdagg (K := K)).
Proof.
move=> hst hw cd c cd' hx hy; have [[u1 hp1 hs1] [u2 _ _] h3 [mr1 mc1 _] h5] := hw.
have [l e p] := swap_last hx.
have zn : size cd = (size l).+1 by rewrite -(perm_size p) size_rcons.
set n := size l in zn; have zc : size c = n.+1 by rewrite -zn.
have b1 : (index x cd < size c)%N by rewrite zc -zn index_mem.
have b2 : (size cd - 1 < size c)%N by rewrite zc zn; clear; lia.
have hw0 : wf (set_state TryReplaceCdagg d) by [].
have [w' [q1 q2 q3] o1 o2] := @wf_swap_cdagg _ _ (set_state TryReplaceCdagg d) _ _ hw0 b1 b2.
set d' := swap_cdagg_op _ _ _ in w' q1 q2 q3 o1 o2; rewrite /= -/cd -/c e in o1 o2.
have kl : perm_eq l (kept [:: x] cd).
  by apply: (@perm_rest l [:: x]); rewrite ?(map_uniq u1) ?cats1.
have hyl : p_time y \notin map p_time l by rewrite (perm_mem (perm_map p_time kl)).
have P1 : perm_eq (rcons l y) cd' by rewrite -cats1 perm_cat2r.
have U1 : uniq (map p_time (rcons l x)) by apply: uniq_perm_times p u1.
have U2 : uniq (map p_time (rcons l y)).
  by move: U1; rewrite !map_rcons !rcons_uniq hyl => /andP[].
have [s1 s2 _ [mr2 mc2 _] h52] := w'; rewrite o2 in mr2 mc2.
have [k K1 K2] := replace_sign_ok s1 o1 hyl.
set g := Mat n.+1 1 (fun i _ => F (nth psi0 c i) y).
have [uG iG] := wf_unit w'; move: uG iG; rewrite o1 o2 zc => uG iG.
rewrite zc in mr2 mc2; rewrite -/c zc in mr1.
have [C1 C2] := C31_last_col mr2 mc2 (erefl : mr g = n.+1) (erefl : mc g = 1%N) uG iG.
have mb : matL psi0 psi0 F n.+1 c (rcons l y) = with_last_col (matL psi0 psi0 F n.+1 c (rcons l x)) g.
  apply/matrixP => i j; rewrite !mxE !nth_rcons -/n; case: (eqVneq j ord_max) => [->|nj]; first by rewrite ltnn eqxx.
  by move: nj; rewrite -val_eqE /= => nj; rewrite ifT // ltn_neqAle nj -ltnS ltn_ord.
rewrite -mb in C1 C2.
have dE : hyb_det F cd c = (d_perm d')%:~R * \det (matL psi0 psi0 F n.+1 c (rcons l x)).
  by have := wf_det w'; rewrite o1 o2 zc => <-; apply: hyb_det_ext; rewrite // perm_sym.
have nE : hyb_det F cd' c = (sign_of (ninv c + ninv (rcons l y)))%:~R * \det (matL psi0 psi0 F n.+1 c (rcons l y)).
  by rewrite -(hyb_det_ext F P1 (perm_refl c)) hyb_detE // ?size_rcons ?zc.
have odds : odd (ninv c + ninv (rcons l y)) = odd (k + (ninv (s_ops (d_c d')) + ninv (s_ops (d_cdagg d')))).
  by move: K2; rewrite o1 o2 !oddD => ->; rewrite addbCA.
set dr := ratio_replace_last_col (d_inv d') g.
set w1 := w_repl_cdagg x y g (sign_of k) dr (d_work d).
have idx : pfind (p_time x) (s_pos (d_cdagg d)) = Some (index x cd) by exact: pfind_in.
exists ((sign_of k)%:~R * dr), (set_work w1 d'); split=> //.
- rewrite /try_replace_cdagg /is_waiting hst /= idx /= -/c mr1 -[(n.+1 - 1)%N](_ : (size cd - 1)%N = _); last by rewrite zn.
  by rewrite -/d' K1 o2 q3.
- rewrite /dr C1 nE dE h52; symmetry; exact: ratio_sign.
- rewrite mulf_eq0 negb_or => /andP[_]; rewrite /dr C1 mulf_eq0 negb_or => /andP[nz _].
  have [X1 X2 X3] := C2 nz.
  have [t1 t2] := replace_last_ok s1 o1 (erefl n) hyl.
  exists (DM Waiting (d_mode d') (inverse_replace_last_col (d_inv d') g dr) (d_perm d' * sign_of k) (replace_last x y n.+1 (d_cdagg d')) (d_c d') w1).
    by rewrite /perform_replace_cdagg /= q1 /= mr2.
  split=> //; rewrite ?[s_ops _]t2 ?[s_ops (d_c _)]o2 //.
  split=> //; rewrite ?[s_ops (d_cdagg _)]t2 ?[s_ops (d_c _)]o2 ?size_rcons ?zc //.
  - by split=> //; rewrite [toM _ _ _]X3 mulmxV // unitmxE unitfE.
  - by rewrite /= h52 (sign_of_odd (esym odds)) mulrC -!sign_ofD.
- exists (set_state Waiting (set_work w1 d')).
    by rewrite /reject_replace_cdagg /= q1.
  by split=> //=; rewrite ?o1 ?o2.
Qed.

Lemma replace_c_ok d x y : d_state d = Waiting -> wf d ->
  let cd := s_ops (d_cdagg d) in let c := s_ops (d_c d) in let c' := kept [:: x] c ++ [:: y] in
  x \in c -> p_time y \notin map p_time (kept [:: x] c) ->
  tried d (try_replace_c F x y d) (fun r => r = hyb_det F cd c' / hyb_det F cd c) cd c cd c'
    (perform_replace_c (K := K)) (reject_replace_c (K := K)).
Proof.
move=> hst hw cd c c' hx hy; have [[u1 _ _] [u2 hp1 hs1] h3 [mr1 mc1 _] h5] := hw.
have [l e p] := swap_last hx.
have zn : size c = (size l).+1 by rewrite -(perm_size p) size_rcons.
set n := size l in zn; have zc : size cd = n.+1 by rewrite /cd h3 -zn.
have b1 : (index x c < size c)%N by rewrite index_mem.
have b2 : (size c - 1 < size c)%N by rewrite zn; clear; lia.
have hw0 : wf (set_state TryReplaceC d) by [].
have [w' [q1 q2 q3] o1 o2] := @wf_swap_c _ _ (set_state TryReplaceC d) _ _ hw0 b1 b2.
set d' := swap_c_op _ _ _ in w' q1 q2 q3 o1 o2; rewrite /= -/cd -/c e in o1 o2.
have kl : perm_eq l (kept [:: x] c).
  by apply: (@perm_rest l [:: x]); rewrite ?(map_uniq u2) ?cats1.
have hyl : p_time y \notin map p_time l by rewrite (perm_mem (perm_map p_time kl)).
have P1 : perm_eq (rcons l y) c' by rewrite -cats1 perm_cat2r.
have U1 : uniq (map p_time (rcons l x)) by apply: uniq_perm_times p u2.
have U2 : uniq (map p_time (rcons l y)).
  by move: U1; rewrite !map_rcons !rcons_uniq hyl => /andP[].
have [s1 s2 _ [mr2 mc2 _] h52] := w'; rewrite o1 size_rcons -/n in mr2 mc2.
have [k K1 K2] := replace_sign_ok s2 o1 hyl.
set g := Mat 1 n.+1 (fun _ i => F y (nth psi0 cd i)).
have [uG iG] := wf_unit w'; move: uG iG; rewrite o1 o2 size_rcons -/n => uG iG.
rewrite -/c zn in mr1.
have [C1 C2] := C31_last_row mr2 mc2 (erefl : mr g = 1%N) (erefl : mc g = n.+1) uG iG.
have mb : matL psi0 psi0 F n.+1 (rcons l y) cd = with_last_row (matL psi0 psi0 F n.+1 (rcons l x) cd) g.
  apply/matrixP => i j; rewrite !mxE !nth_rcons -/n; case: (eqVneq i ord_max) => [->|nj]; first by rewrite ltnn eqxx.
  by move: nj; rewrite -val_eqE /= => nj; rewrite ifT // ltn_neqAle nj -ltnS ltn_ord.
rewrite -mb in C1 C2.
have dE : hyb_det F cd c = (d_perm d')%:~R * \det (matL psi0 psi0 F n.+1 (rcons l x) cd).
  by have := wf_det w'; rewrite o1 o2 size_rcons -/n => <-; apply: hyb_det_ext; rewrite // perm_sym.
have nE : hyb_det F cd c' = (sign_of (ninv (rcons l y) + ninv cd))%:~R * \det (matL psi0 psi0 F n.+1 (rcons l y) cd).
  by rewrite -(hyb_det_ext F (perm_refl cd) P1) hyb_detE // ?size_rcons ?zc.
have odds : odd (ninv (rcons l y) + ninv cd) = odd (k + (ninv (s_ops (d_c d')) + ninv (s_ops (d_cdagg d')))).
  by move: K2; rewrite o1 o2 !oddD => ->; rewrite addbA.
set dr := ratio_replace_last_row (d_inv d') g.
set w1 := w_repl_c x y g (sign_of k) dr (d_work d).
have idx : pfind (p_time x) (s_pos (d_c d)) = Some (index x c) by exact: pfind_in.
exists ((sign_of k)%:~R * dr), (set_work w1 d'); split=> //.
- rewrite /try_replace_c /is_waiting hst /= idx /= -/c mr1 -[(n.+1 - 1)%N](_ : (size c - 1)%N = _); last by rewrite zn.
  by rewrite -/d' K1 o2 q3.
- rewrite /dr C1 nE dE h52; symmetry; exact: ratio_sign.
- rewrite mulf_eq0 negb_or => /andP[_]; rewrite /dr C1 mulf_eq0 negb_or => /andP[nz _].
  have [X1 X2 X3] := C2 nz.
  have [t1 t2] := replace_last_ok s2 o1 (erefl n) hyl.
  exists (DM Waiting (d_mode d') (inverse_replace_last_row (d_inv d') g dr) (d_perm d' * sign_of k) (d_cdagg d') (replace_last x y n.+1 (d_c d')) w1).
    by rewrite /perform_replace_c /= q1 /= mr2.
  split=> //; rewrite ?[s_ops (d_c _)]t2 ?[s_ops (d_cdagg _)]o2 //.
  split=> //; rewrite ?[s_ops (d_c _)]t2 ?[s_ops (d_cdagg _)]o2 ?size_rcons ?zc //.
  - by split=> //; rewrite [toM _ _ _]X3 mulmxV // unitmxE unitfE.
  - by rewrite /= h52 (sign_of_odd (esym odds)) mulrC -!sign_ofD.
- exists (set_state Waiting (set_work w1 d')).
    by rewrite /reject_replace_c /= q1.
  by split=> //=; rewrite ?o1 ?o2.
Qed.
End Update.
