(** * C32, C33: histories of updates of the matrix of one block *)
From Coq Require Import ZArith List Sorting.Permutation Sorting.Sorted.
From mathcomp Require Import all_ssreflect all_fingroup all_algebra zify.
From Verif Require Import OpContainer CombSort T_PermSign Dist Proposal HybDet EigenBasis T_EigenBasis FastUpdate T_FastUpdate DetMatrix T_DetMatrix T_DetUpdate.
Import Order.Theory GRing.Theory Num.Theory.
Set Implicit Arguments.
Unset Strict Implicit.
Unset Printing Implicit Defensive.
Local Close Scope Z_scope.
Local Open Scope nat_scope.
Local Open Scope ring_scope.

(** ** Specification: the operators are two lists, in any order, and the determinant is [hyb_det]: the determinant of the
    matrix F(c, cdagg) with the operators in time order (HybDet.v) *)
Record call := Call { cd_rem : seq psi; c_rem : seq psi; cd_add : seq psi; c_add : seq psi }.
Definition after (rem add cd : seq psi) : seq psi := kept rem cd ++ add.
Definition new_cd (k : call) (cd : seq psi) := after (cd_rem k) (cd_add k) cd.
Definition new_c (k : call) (c : seq psi) := after (c_rem k) (c_add k) c.
(** the operators to be removed are there, none is listed twice, and afterwards all times are different *)
Definition valid (cd c : seq psi) (k : call) : Prop :=
  [/\ {subset cd_rem k <= cd}, {subset c_rem k <= c}, uniq (cd_rem k), uniq (c_rem k) & uniq (map p_time (new_cd k cd ++ new_c k c))].
(** as many creation as annihilation operators are added and as many are removed; or one operator is replaced; or the
    result has no square matrix *)
Definition paired (k : call) : bool :=
  let n1 := size (cd_add k) in let n2 := size (cd_rem k) in let n3 := size (c_add k) in let n4 := size (c_rem k) in
  [|| (n1 == n3) && (n2 == n4), [&& n1 == 1%N, n2 == 1%N, n3 == 0%N & n4 == 0%N], [&& n1 == 0%N, n2 == 0%N, n3 == 1%N & n4 == 1%N] |
      (n1 + n4)%N != (n3 + n2)%N].
(** operators are removed and others are added *)
Definition both (k : call) : bool :=
  [&& (0 < size (cd_add k))%N, (0 < size (cd_rem k))%N, (0 < size (c_add k))%N & (0 < size (c_rem k))%N].

Section History.
Variable K : numFieldType.
Variable F : psi -> psi -> K.
Variable junk : nat -> nat -> K.
Notation dm := (dm K).
Notation wf := (wf F).
Notation at_rest := (at_rest F).
Implicit Types (d : dm) (g : mat K) (cd c : seq psi) (k : call).

Definition new_det k cd c : K := hyb_det F (new_cd k cd) (new_c k c).
Definition kept_det k cd c : K := hyb_det F (kept (cd_rem k) cd) (kept (c_rem k) c).
(** the number a try has to return; when operators are both removed and added and what stays in between has determinant
    0 the code returns 0 (T_FastUpdate.v, C31_replace_refuted) *)
Definition ratio_ok k cd c (x : K) : Prop :=
  if both k && (kept_det k cd c == 0) then x = 0 else x = new_det k cd c / hyb_det F cd c.

Definition try_call k d := try_update F (cd_rem k) (c_rem k) (cd_add k) (c_add k) d.

Lemma permEr (s t : seq psi) : perm_eq s t -> perm_eq t s. Proof. by rewrite perm_sym. Qed.
Lemma kept_perm xs (l cd : seq psi) : perm_eq l cd -> perm_eq (kept xs l) (kept xs cd).
Proof. exact: perm_filter. Qed.
Lemma kept_nil (cd : seq psi) : kept [::] cd = cd.
Proof. by rewrite /kept (eq_filter (a2 := xpredT)) ?filter_predT. Qed.
Lemma size_kept xs (cd : seq psi) : {subset xs <= cd} -> uniq xs -> uniq cd -> (size (kept xs cd) + size xs)%N = size cd.
Proof.
move=> hs ux uc; rewrite -(count_predC (mem xs) cd) addnC /kept size_filter; congr (_ + _)%N.
rewrite -size_filter; apply/perm_size/uniq_perm => //; first exact: filter_uniq.
by move=> x; rewrite mem_filter /=; case hx : (x \in xs) => //=; rewrite hs.
Qed.

Lemma tried_perm d r (P P' : K -> Prop) cd c cd2 c2 cd' c' cd2' c2' perf rej : (forall x, P x -> P' x) -> perm_eq cd cd' -> perm_eq c c' -> perm_eq cd2 cd2' -> perm_eq c2 c2' ->
  tried F d r P cd c cd2 c2 perf rej -> tried F d r P' cd' c' cd2' c2' perf rej.
Proof.
move=> hP p1 p2 p3 p4 [x [d1 [e m hx h1 [d3 e3 [a1 a2 a3 a4]]]]]; exists x, d1; split=> //; first exact: hP.
  move=> nx; have [d2 e2 [b1 b2 b3 b4]] := h1 nx; exists d2 => //; split=> //; [exact: perm_trans b3 p3|exact: perm_trans b4 p4].
exists d3 => //; split=> //; [exact: perm_trans a3 p1|exact: perm_trans a4 p2].
Qed.

Lemma zip_fst (a b : seq psi) : size a = size b -> map fst (zip a b) = a.
Proof. by move=> e; rewrite -/(unzip1 _) unzip1_zip // e. Qed.
Lemma zip_snd (a b : seq psi) : size a = size b -> map snd (zip a b) = b.
Proof. by move=> e; rewrite -/(unzip2 _) unzip2_zip // e. Qed.

Lemma at_rest_nz d cd c : at_rest d cd c -> hyb_det F cd c != 0.
Proof. by case=> _ hw p1 p2; rewrite -(hyb_det_ext F p1 p2) wf_nz. Qed.
Lemma at_rest_size d cd c : at_rest d cd c -> size cd = size c.
Proof. by case=> _ [_ _ e _ _] /perm_size <- /perm_size <-. Qed.

(** C32, C33. One call: the number returned, and what performing and rejecting lead to. *)
Theorem C32_step d cd c k : at_rest d cd c -> uniq (map p_time (cd ++ c)) -> valid cd c k -> paired k ->
  exists x d1, [/\ try_call k d = Ok x d1, ratio_ok k cd c x,
    x != 0 -> exists2 d2, perform_update junk d1 = Ok tt d2 & at_rest d2 (new_cd k cd) (new_c k c) &
    exists2 d2, reject_update d1 = Ok tt d2 & at_rest d2 cd c].
Proof.
move=> hr u [hv1 hv2 hv3 hv4 hv5] hp; have [hst hw p1 p2] := hr.
have nz := at_rest_nz hr; have sz := at_rest_size hr.
have [Ucd Uc] : uniq cd /\ uniq c.
  by move: u; rewrite map_cat cat_uniq => /and3P[/map_uniq ? _ /map_uniq].
have scd := size_kept hv1 hv3 Ucd; have sc := size_kept hv2 hv4 Uc.
have pu : perm_eq (s_ops (d_cdagg d) ++ s_ops (d_c d)) (cd ++ c) by exact: perm_cat.
have u0 : uniq (map p_time (s_ops (d_cdagg d) ++ s_ops (d_c d))) by rewrite (perm_uniq (perm_map _ pu)).
case: k hv1 hv2 hv3 hv4 hv5 hp scd sc => a b a' b' /= hv1 hv2 hv3 hv4.
rewrite /try_call /ratio_ok /new_det /kept_det /new_cd /new_c /after /paired /both /try_update /=.
set n1 := size a'; set n2 := size a; set n3 := size b'; set n4 := size b => hv5 hp scd sc.
case: (eqVneq (n1%:Z - n2%:Z) (n3%:Z - n4%:Z)) => hd; last first.
  have -> : hyb_det F (kept a cd ++ a') (kept b c ++ b') = 0.
    by rewrite /hyb_det !size_cat ifF //; apply/eqP => e; case/eqP: hd; move: e scd sc sz; rewrite -/n1 -/n3 -/n2 -/n4; clear; lia.
  exists 0, (set_mode Invalid d); split=> //; first by case: ifP => // _; rewrite mul0r.
    by rewrite eqxx.
  by exists (set_mode Invalid d).
have hd2 : (n1 + n4)%N = (n3 + n2)%N by move: hd; clear; lia.
case hA : [&& n1 == 0%N, n2 == 0%N, n3 == 0%N & n4 == 0%N].
  case/and4P: hA => /eqP z1 /eqP z2 /eqP z3 /eqP z4; rewrite z1 (size0nil z1) (size0nil z2) (size0nil z3) (size0nil z4).
  rewrite !kept_nil !cats0 /=; exists 1, (set_mode DoNothing d); split=> //; first by rewrite divff.
    by move=> _; exists (set_mode DoNothing d).
  by exists (set_mode DoNothing d).
have gen (mo : umode) r (P : K -> Prop) perf rej cdx cx : tried F (set_mode mo d) r P cd c cdx cx perf rej ->
    (forall d, d_mode d = mo -> perform_update junk d = perf d) -> (forall d, d_mode d = mo -> reject_update d = rej d) ->
    exists x d1, [/\ r = Ok x d1, P x, x != 0 -> exists2 d2, perform_update junk d1 = Ok tt d2 & at_rest d2 cdx cx &
      exists2 d2, reject_update d1 = Ok tt d2 & at_rest d2 cd c].
  move=> [x [d1 [e m hx h1 h2]]] ep er; exists x, d1; split=> //; first by move=> /h1; rewrite ep.
  by rewrite er.
case hB : [&& n1 == 1%N, n2 == 1%N, n3 == 0%N & n4 == 0%N].
  case/and4P: hB; rewrite /n1 /n2 /n3 /n4; case: a a' b b' @n1 @n2 @n3 @n4 hv1 hv2 hv3 hv4 hv5 hp hd hd2 hA scd sc => [|x [|//]] // [|y [|//]] // [|//] // [|//] //=.
  move=> hv1 _ _ _ hv5 _ _ _ _ scd sc _ _ _ _; rewrite !kept_nil cats0 in hv5 *.
  apply: (gen ReplaceCdagg _ _ (@perform_replace_cdagg K) (@reject_replace_cdagg K)); last 2 first.
  - by move=> d0 e; rewrite /perform_update e.
  - by move=> d0 e; rewrite /reject_update e.
  have hx : x \in s_ops (d_cdagg d) by rewrite (perm_mem p1) hv1 ?inE.
  have hy : p_time y \notin map p_time (kept [:: x] (s_ops (d_cdagg d))).
    rewrite (perm_mem (perm_map p_time (kept_perm _ p1))).
    by move: hv5; rewrite cats1 map_cat cat_uniq map_rcons rcons_uniq => /and3P[/andP[]].
  have p3 : perm_eq (kept [:: x] (s_ops (d_cdagg d)) ++ [:: y]) (kept [:: x] cd ++ [:: y]) by rewrite perm_cat2r kept_perm.
  apply: (tried_perm _ p1 p2 p3 p2 (@replace_cdagg_ok K F (set_mode ReplaceCdagg d) x y hst hw hx hy)) => z ->.
  by rewrite (hyb_det_ext F p3 p2) (hyb_det_ext F p1 p2).
case hC : [&& n1 == 0%N, n2 == 0%N, n3 == 1%N & n4 == 1%N].
  case/and4P: hC; rewrite /n1 /n2 /n3 /n4; case: a a' b b' @n1 @n2 @n3 @n4 hv1 hv2 hv3 hv4 hv5 hp hd hd2 hA hB scd sc => [|//] [|//] [|x [|//]] // [|y [|//]] // /=.
  move=> _ hv2 _ _ hv5 _ _ _ _ _ scd sc _ _ _ _; rewrite !kept_nil cats0 in hv5 *.
  apply: (gen ReplaceC _ _ (@perform_replace_c K) (@reject_replace_c K)); last 2 first.
  - by move=> d0 e; rewrite /perform_update e.
  - by move=> d0 e; rewrite /reject_update e.
  have hx : x \in s_ops (d_c d) by rewrite (perm_mem p2) hv2 ?inE.
  have hy : p_time y \notin map p_time (kept [:: x] (s_ops (d_c d))).
    rewrite (perm_mem (perm_map p_time (kept_perm _ p2))).
    by move: hv5; rewrite cats1 map_cat cat_uniq map_rcons rcons_uniq => /and3P[_ _ /andP[]].
  have p3 : perm_eq (kept [:: x] (s_ops (d_c d)) ++ [:: y]) (kept [:: x] c ++ [:: y]) by rewrite perm_cat2r kept_perm.
  apply: (tried_perm _ p1 p2 p1 p3 (@replace_c_ok K F (set_mode ReplaceC d) x y hst hw hx hy)) => z ->.
  by rewrite (hyb_det_ext F p1 p3) (hyb_det_ext F p1 p2).
have [n13 n24] : n1 = n3 /\ n2 = n4.
  by move: hp; rewrite hB hC hd2 eqxx !orbF => /andP[/eqP ? /eqP ?].
have s13 : size a' = size b' by [].
have s24 : size a = size b by [].
have t1 : to_operator_pairs a' b' = Some (zip a' b') by rewrite /to_operator_pairs s13 ltnn take_size.
have t2 : to_operator_pairs a b = Some (zip a b) by rewrite /to_operator_pairs s24 ltnn take_size.
rewrite t1 t2 -n13 -n24.
have pk1 := kept_perm a p1; have pk2 := kept_perm b p2.
have q1 : perm_eq (kept a (s_ops (d_cdagg d)) ++ a') (kept a cd ++ a') by rewrite perm_cat2r.
have q2 : perm_eq (kept b (s_ops (d_c d)) ++ b') (kept b c ++ b') by rewrite perm_cat2r.
have sub1 : {subset a <= s_ops (d_cdagg d)} by move=> x /hv1; rewrite (perm_mem p1).
have sub2 : {subset b <= s_ops (d_c d)} by move=> x /hv2; rewrite (perm_mem p2).
have pt : perm_eq ((kept a cd ++ a') ++ kept b c ++ b') ((kept a (s_ops (d_cdagg d)) ++ kept b (s_ops (d_c d))) ++ a' ++ b').
  rewrite -!catA (perm_trans (_ : perm_eq _ (kept a cd ++ kept b c ++ a' ++ b'))) //; first by rewrite perm_cat2l perm_catCA.
  by rewrite !catA !perm_cat2r; apply: perm_cat; rewrite perm_sym.
rewrite (perm_uniq (perm_map p_time pt)) in hv5.
case: (posnP n2) => h2.
  have ea : a = [::] by exact: size0nil. have eb : b = [::] by apply: size0nil; rewrite -/n4 -n24.
  have n10 : (0 < n1)%N by move: hA; rewrite -n13 -n24 h2; case: (n1).
  rewrite n10 /=; rewrite ea eb !kept_nil in hv5 q1 q2 *.
  apply: (gen Add _ _ (@perform_add K) (@reject_add K)); last 2 first.
  - by move=> d0 e; rewrite /perform_update e.
  - by move=> d0 e; rewrite /reject_update e.
  have z0 : (0 < size (zip a' b'))%N by rewrite size_zip -s13 minnn.
  have := @add_ok K F (set_mode Add d) (zip a' b') hst hw z0; rewrite (zip_fst s13) (zip_snd s13) => /(_ hv5).
  apply: (tried_perm _ p1 p2 q1 q2) => z ->; by rewrite (hyb_det_ext F q1 q2) (hyb_det_ext F p1 p2).
have z0 : (0 < size (zip a b))%N by rewrite size_zip -s24 minnn.
rewrite /= ?andbF /=.
case: (posnP n1) => h1 /=.
  have ea : a' = [::] by exact: size0nil. have eb : b' = [::] by apply: size0nil; rewrite -/n3 -n13.
  rewrite ea eb !cats0 in hv5 q1 q2 *.
  apply: (gen Rem _ _ (@perform_remove K) (@reject_remove K)); last 2 first.
  - by move=> d0 e; rewrite /perform_update e.
  - by move=> d0 e; rewrite /reject_update e.
  have := @remove_ok K F (set_mode Rem d) (zip a b) hst hw z0; rewrite (zip_fst s24) (zip_snd s24) => /(_ u0 sub1 sub2 hv3 hv4).
  apply: (tried_perm _ p1 p2 pk1 pk2) => z ->; by rewrite (hyb_det_ext F pk1 pk2) (hyb_det_ext F p1 p2).
apply: (gen RemAdd _ _ (perform_remove_add junk) (@reject_remove_add K)); last 2 first.
- by move=> d0 e; rewrite /perform_update e.
- by move=> d0 e; rewrite /reject_update e.
have := @remove_add_ok K F junk (set_mode RemAdd d) (zip a b) (zip a' b') hst hw z0.
rewrite (zip_fst s24) (zip_snd s24) (zip_fst s13) (zip_snd s13) => /(_ u0 sub1 sub2 hv3 hv4 hv5).
apply: (tried_perm _ p1 p2 q1 q2) => z [Z1 Z2]; rewrite (hyb_det_ext F pk1 pk2) (hyb_det_ext F q1 q2) (hyb_det_ext F p1 p2) in Z1 Z2.
by case: eqP => [/Z2|/eqP /Z1].
Qed.

Lemma rebuild_ok d cd c : at_rest d cd c -> exists2 d2, rebuild_inverse_matrix F d = Ok tt d2 & at_rest d2 cd c.
Proof.
move=> [hst hw p1 p2]; have [h1 h2 h3 [m1 m2 _] h5] := hw; have [uG _] := wf_unit hw.
rewrite /rebuild_inverse_matrix /is_waiting hst m1 h3 eqxx /=; eexists; first by [].
split=> //; split=> //=; set n := size (s_ops (d_c d)) in uG *; set g := Mat n n _.
have eg : toM n n g = matL psi0 psi0 F n (s_ops (d_c d)) (s_ops (d_cdagg d)) by apply/matrixP => i j; rewrite !mxE.
case: (posnP n) => [n0|_] /=; last first.
  have [s1 s2] := safe_inv_dim g; split; rewrite ?s1 ?s2 //.
  by rewrite (@safe_invE _ n) // eg // mulmxV.
by split=> //; apply/matrixP => -[i hi]; exfalso; rewrite n0 in hi.
Qed.

(** C32. What can be reached: by performing or rejecting a try, and by recomputing the inverse *)
Inductive hist : dm -> seq psi -> seq psi -> Prop :=
| hist0 mo w : hist (dm0 junk mo w) [::] [::]
| hist_perform d cd c k x d1 d2 : hist d cd c -> valid cd c k -> paired k -> try_call k d = Ok x d1 -> x != 0 ->
    perform_update junk d1 = Ok tt d2 -> hist d2 (new_cd k cd) (new_c k c)
| hist_reject d cd c k x d1 d2 : hist d cd c -> valid cd c k -> paired k -> try_call k d = Ok x d1 ->
    reject_update d1 = Ok tt d2 -> hist d2 cd c
| hist_rebuild d cd c d2 : hist d cd c -> rebuild_inverse_matrix F d = Ok tt d2 -> hist d2 cd c.

Lemma at_rest0 mo w : at_rest (dm0 junk mo w) [::] [::].
Proof.
have h : side_ok side0 by split=> //; split=> //; constructor.
split=> //; split=> //.
by split=> //; apply/matrixP => -[].
Qed.
Lemma hist_ok d cd c : hist d cd c -> at_rest d cd c /\ uniq (map p_time (cd ++ c)).
Proof.
elim=> {d cd c} [mo w|d cd c k x d1 d2 _ [IH u] hv hp e nx ep|d cd c k x d1 d2 _ [IH u] hv hp e er|d cd c d2 _ [IH u] e].
- by split=> //; exact: at_rest0.
- have [x' [d1' [e' _ h _]]] := C32_step IH u hv hp; move: e'; rewrite e => -[ex ed]; rewrite -ed -ex in h.
  by have [d2' E A] := h nx; move: E; rewrite ep => -[->]; case: hv.
- have [x' [d1' [e' _ _ [d2' E A]]]] := C32_step IH u hv hp; move: e'; rewrite e => -[_ ed]; rewrite -ed in E.
  by move: E; rewrite er => -[->].
- by have [d2' E A] := rebuild_ok IH; move: E; rewrite e => -[->].
Qed.

(** C32. In every reachable state: the ordered sets hold the operators that the performed updates say, the stored matrix is
    the inverse of the matrix of hybridization values, and the determinant is that of the time-ordered matrix *)
Theorem C32_history d cd c : hist d cd c -> let xs := s_ops (d_c d) in let ys := s_ops (d_cdagg d) in let n := size c in
  [/\ d_state d = Waiting, perm_eq xs c /\ perm_eq ys cd, s_set (d_cdagg d) = tsort cd /\ s_set (d_c d) = tsort c,
      [/\ size cd = n, dsize d = n & (\matrix_(i < n, j < n) F (nth psi0 xs i) (nth psi0 ys j)) *m toM n n (d_inv d) = 1%:M] &
      compute_determinant d = hyb_det F cd c].
Proof.
move=> /hist_ok [[hst hw p1 p2] u] xs ys n; have [[u1 hp1 hs1] [u2 hp2 hs2] h3 [m1 m2 hm] h5] := hw.
have zn : size xs = n by exact: perm_size.
split=> //.
- by rewrite (set_tsort u1 hs1) (set_tsort u2 hs2) (tsort_ext p1) (tsort_ext p2).
- rewrite /dsize m1 -/xs zn; split=> //; first by rewrite -(perm_size p1) h3.
  move: hm; rewrite -/xs -/ys zn => hm; exact: hm.
- rewrite -(hyb_det_ext F p1 p2) (wf_det hw) /compute_determinant /dsize m1; have [uG ->] := wf_unit hw.
  by rewrite det_inv invrK.
Qed.

(** C32. In every reachable state every valid call goes through, returns the ratio of the determinants of the time-ordered
    matrices, and can be performed (unless it returned 0) or rejected *)
Theorem C32_progress d cd c k : hist d cd c -> valid cd c k -> paired k ->
  exists x d1, [/\ try_call k d = Ok x d1,
    (both k -> kept_det k cd c != 0) -> x = new_det k cd c / hyb_det F cd c,
    both k -> kept_det k cd c = 0 -> x = 0,
    x != 0 -> exists2 d2, perform_update junk d1 = Ok tt d2 & hist d2 (new_cd k cd) (new_c k c) &
    exists2 d2, reject_update d1 = Ok tt d2 & hist d2 cd c].
Proof.
move=> hh hv hp; have [ha u] := hist_ok hh; have [x [d1 [e hx h1 [d3 e3 _]]]] := C32_step ha u hv hp.
exists x, d1; split=> //.
- move: hx; rewrite /ratio_ok; case: (both k) => //= hx h; move: hx; by rewrite (negbTE (h isT)).
- by move=> h1' h2'; move: hx; rewrite /ratio_ok h1' h2' eqxx.
- by move=> nx; have [d2 e2 _] := h1 nx; exists d2 => //; exact: hist_perform hh hv hp e nx e2.
- by exists d3 => //; exact: hist_reject hh hv hp e e3.
Qed.

(** C33. Rejecting restores the sets and the determinant *)
Theorem C33_reject d cd c k x d1 d2 : hist d cd c -> valid cd c k -> paired k -> try_call k d = Ok x d1 -> reject_update d1 = Ok tt d2 ->
  [/\ d_state d2 = Waiting, s_set (d_cdagg d2) = s_set (d_cdagg d), s_set (d_c d2) = s_set (d_c d),
      perm_eq (s_ops (d_cdagg d2)) (s_ops (d_cdagg d)) /\ perm_eq (s_ops (d_c d2)) (s_ops (d_c d)) &
      compute_determinant d2 = compute_determinant d].
Proof.
move=> hh hv hp e er; have h2 := hist_reject hh hv hp e er.
have [_ [a1 a2] [a3 a4] _ a5] := C32_history hh; have [b0 [b1 b2] [b3 b4] _ b5] := C32_history h2.
split; rewrite ?a5 ?b5 ?a3 ?a4 ?b3 ?b4 //; split; [exact: perm_trans b2 (permEr a2)|exact: perm_trans b1 (permEr a1)].
Qed.

Lemma impossible_insertion d cd c k : at_rest d cd c -> uniq (map p_time (cd ++ c)) -> cd_rem k = [::] -> c_rem k = [::] -> size (cd_add k) = size (c_add k) ->
  (0 < size (cd_add k))%N -> ~~ uniq (map p_time ((cd ++ c) ++ (cd_add k ++ c_add k))) ->
  exists d1 d2, [/\ try_call k d = Ok 0 d1, reject_update d1 = Ok tt d2,
    [/\ d_inv d2 = d_inv d, d_perm d2 = d_perm d, d_cdagg d2 = d_cdagg d & d_c d2 = d_c d] & at_rest d2 cd c].
Proof.
move=> hr u; case: k => a b a' b' /= -> -> sz n0 nu; have [hst hw p1 p2] := hr.
have imp : insertion_possible (set_state TryAdd (set_mode Add d)) (zip a' b') = false.
  apply/negP => /andP[h1 h2]; case/negP: nu; rewrite map_cat cat_uniq u /=.
  have := perm_times (zip a' b'); rewrite (zip_fst sz) (zip_snd sz) => pt.
  rewrite -(perm_uniq pt); apply/andP; split; last exact: h2.
  apply/hasPn => t; rewrite -(perm_mem pt) => ht /=.
  have pu : perm_eq (s_ops (d_cdagg d) ++ s_ops (d_c d)) (cd ++ c) by exact: perm_cat.
  rewrite -(perm_mem (perm_map p_time pu)).
  have hw0 : wf (set_state TryAdd (set_mode Add d)) by [].
  have := exist_ok t hw0 => /= <-.
  move: h1; rewrite (eq_all (a2 := fun p => (fun t => ~~ exist (set_state TryAdd (set_mode Add d)) t) (p_time p.1) && (fun t => ~~ exist (set_state TryAdd (set_mode Add d)) t) (p_time p.2))).
    by have := all_times (fun t => ~~ exist (set_state TryAdd (set_mode Add d)) t) (zip a' b') => /= -> /allP; exact.
  by move=> p; rewrite negb_or.
have [_ _ h3 [m1 m2 _] _] := hw.
rewrite /try_call /try_update /= -sz !subr0 eqxx /= gtn_eqF //= n0 ?andbF /=.
rewrite /to_operator_pairs sz ltnn take_size /try_add /is_waiting hst /= imp /=.
exists (set_state TryAdd (set_mode Add d)), (set_state Waiting (set_mode Add d)); split=> //.
have z : (size (s_pos (d_cdagg d)) - mr (d_inv d))%N = 0%N.
  by have [[q1 q2 _] _ _ _ _] := hw; rewrite (pos_size q1 q2) m1 h3 subnn.
rewrite /reject_update /= /reject_add /= /remove_excess /= z /= !take_oversize ?m1 ?h3 //.
by rewrite /set_state /=; case: (d_cdagg d); case: (d_c d).
Qed.

(** C33. A try with operators whose time is already there (or listed twice) returns 0, and rejecting it restores the state *)
Theorem C33_impossible_insertion d cd c k : hist d cd c -> cd_rem k = [::] -> c_rem k = [::] -> size (cd_add k) = size (c_add k) ->
  (0 < size (cd_add k))%N -> ~~ uniq (map p_time ((cd ++ c) ++ (cd_add k ++ c_add k))) ->
  exists d1 d2, [/\ try_call k d = Ok 0 d1, reject_update d1 = Ok tt d2,
    [/\ d_inv d2 = d_inv d, d_perm d2 = d_perm d, d_cdagg d2 = d_cdagg d & d_c d2 = d_c d] & at_rest d2 cd c].
Proof. by move=> /hist_ok [hr u]; exact: impossible_insertion. Qed.

(** C33. Unequal numbers: the try returns 0, performing or rejecting changes nothing *)
Theorem C33_unbalanced d cd c k : hist d cd c -> (size (cd_add k) + size (c_rem k))%N != (size (c_add k) + size (cd_rem k))%N ->
  exists d1, [/\ try_call k d = Ok 0 d1, reject_update d1 = Ok tt d1, perform_update junk d1 = Ok tt d1,
    [/\ d_inv d1 = d_inv d, d_perm d1 = d_perm d, d_cdagg d1 = d_cdagg d & d_c d1 = d_c d] & at_rest d1 cd c].
Proof.
move=> hh hne; have [ha _] := hist_ok hh.
exists (set_mode Invalid d); split=> //; rewrite /try_call /try_update ifT //.
by apply: contraNneq hne => h; apply/eqP; move: h; clear; lia.
Qed.
End History.

(** ** A concrete history *)
Section Example.
Local Open Scope Z_scope.
Definition ox1 := Psi (OT 1 0) CREATION_OP 0%nat.
Definition oy1 := Psi (OT 2 0) ANNIHILATION_OP 0%nat.
Definition ox2 := Psi (OT 4 0) CREATION_OP 1%nat.
Definition oy2 := Psi (OT 3 0) ANNIHILATION_OP 0%nat.
Local Close Scope Z_scope.
Local Open Scope ring_scope.
Definition Fex (c cd : psi) : rat_numFieldType :=
  match p_time c == p_time oy1, p_time cd == p_time ox1 with
  | true, true => 2%:R | true, false => 1 | false, true => 3%:R | false, false => 1 end.
Definition add1 := Call [::] [::] [:: ox1] [:: oy1].
Definition add2 := Call [::] [::] [:: ox2] [:: oy2].
Definition ox3 := Psi (OT 5%coqZ 0%coqZ) CREATION_OP 1%nat.
Definition rep2 := Call [:: ox1] [::] [:: ox3] [::].

Lemma detL2 (K : numFieldType) (F : psi -> psi -> K) a b c d : detL psi0 psi0 F 2 [:: a; b] [:: c; d] = F a c * F b d - F a d * F b c.
Proof.
rewrite /detL (expand_det_row _ ord0) !big_ord_recl big_ord0 /cofactor !det_mx11 !mxE /= /bump /= !addn0 expr0 expr1.
by rewrite addr0 mul1r mulN1r mulrN.
Qed.
Lemma ex_det0 : hyb_det Fex [::] [::] = 1.
Proof. by rewrite /hyb_det /= /detL det_mx00. Qed.
Lemma ex_det1 : hyb_det Fex [:: ox1] [:: oy1] = 2%:R.
Proof. by rewrite /hyb_det /= /detL det_mx11 !mxE /= /tsort. Qed.
Lemma ex_det2 : hyb_det Fex [:: ox1; ox2] [:: oy1; oy2] = - 1.
Proof. by rewrite /hyb_det /= detL2. Qed.

(** C32, C33: two insertions, the second with a negative ratio of determinants -1/2; a rejected replacement *)
Example C32_instance junk (mo : umode) (w : work rat_numFieldType) : exists d, [/\ hist Fex junk d [:: ox1; ox2] [:: oy1; oy2], compute_determinant d = - 1 &
  exists x d1 d2, [/\ try_call Fex rep2 d = Ok x d1, reject_update d1 = Ok tt d2 & hist Fex junk d2 [:: ox1; ox2] [:: oy1; oy2]]].
Proof.
have h0 := hist0 Fex junk mo w.
have v1 : valid [::] [::] add1 by split.
have [x1 [d1 [e1 q1 _ p1 _]]] := C32_progress h0 v1 erefl.
have {q1} ex1 : x1 = 2%:R.
  by rewrite (q1 _) // /new_det -[new_cd _ _]/[:: ox1] -[new_c _ _]/[:: oy1] ex_det1 ex_det0 divr1.
have [d2 _ h2] : exists2 d2, perform_update junk d1 = Ok tt d2 & hist Fex junk d2 [:: ox1] [:: oy1] by apply: p1; rewrite ex1.
have v2 : valid [:: ox1] [:: oy1] add2 by split.
have [x2 [d3 [e2 q2 _ p2 _]]] := C32_progress h2 v2 erefl.
have {q2} ex2 : x2 = - (1 / 2%:R).
  by rewrite (q2 _) // /new_det -[new_cd _ _]/[:: ox1; ox2] -[new_c _ _]/[:: oy1; oy2] ex_det1 ex_det2 mulNr.
have [d4 _ h4] : exists2 d4, perform_update junk d3 = Ok tt d4 & hist Fex junk d4 [:: ox1; ox2] [:: oy1; oy2] by apply: p2; rewrite ex2.
exists d4; split=> //; first by have [_ _ _ _ ->] := C32_history h4; exact: ex_det2.
have v3 : valid [:: ox1; ox2] [:: oy1; oy2] rep2 by split=> // z; rewrite !inE => ->.
have [x3 [d5 [e5 _ _ _ [d6 e6 h6]]]] := C32_progress h4 v3 erefl.
by exists x3, d5, d6.
Qed.

(** the hypotheses of [C33_impossible_insertion] and [C33_unbalanced] in a reachable state *)
Example C33_instance junk (mo : umode) (w : work rat_numFieldType) : exists d, hist Fex junk d [:: ox1] [:: oy1] /\
  [/\ ~~ uniq (map p_time (([:: ox1] ++ [:: oy1]) ++ (cd_add add1 ++ c_add add1))),
      (size (cd_add (Call [::] [:: oy1] [::] [::])) + size (c_rem (Call [::] [:: oy1] [::] [::])))%N != 0%N &
      valid [:: ox1] [:: oy1] (Call [:: ox1] [:: oy1] [:: ox2] [:: oy2])].
Proof.
have h0 := hist0 Fex junk mo w.
have v1 : valid [::] [::] add1 by split.
have [x1 [d1 [e1 q1 _ p1 _]]] := C32_progress h0 v1 erefl.
have {q1} ex1 : x1 = 2%:R.
  by rewrite (q1 _) // /new_det -[new_cd _ _]/[:: ox1] -[new_c _ _]/[:: oy1] ex_det1 ex_det0 divr1.
have [d2 _ h2] : exists2 d2, perform_update junk d1 = Ok tt d2 & hist Fex junk d2 [:: ox1] [:: oy1] by apply: p1; rewrite ex1.
exists d2; split=> //; split=> //; by split=> // z; rewrite !inE.
Qed.
End Example.

(** ** Where the claims fail *)
Section Refuted.
Variable K : numFieldType.
Variable F : psi -> psi -> K.
Variable junk : nat -> nat -> K.
Hypothesis F0 : F oy1 ox1 != 0.

(** one insertion into the empty matrix: the workspace keeps what was in nop_added_ *)
Lemma one_pair (mo : umode) (w : work K) : exists d, [/\ hist F junk d [:: ox1] [:: oy1], w_nop_added (d_work d) = w_nop_added w, s_ops (d_cdagg d) = [:: ox1],
   s_ops (d_c d) = [:: oy1] & mr (d_inv d) = 1%N].
Proof.
have h0 := hist0 F junk mo w.
have v1 : valid [::] [::] add1 by split.
have [x1 [d1 [e1 q1 _ p1 _]]] := C32_progress h0 v1 erefl.
have ex1 : x1 = F oy1 ox1.
  rewrite (q1 _) // /new_det -[new_cd _ _]/[:: ox1] -[new_c _ _]/[:: oy1].
  by rewrite /hyb_det /= /detL det_mx00 det_mx11 !mxE divr1.
have [d2 e2 h2] : exists2 d2, perform_update junk d1 = Ok tt d2 & hist F junk d2 [:: ox1] [:: oy1] by apply: p1; rewrite ex1.
have [_ [a1 a2] _ [_ a3 _] _] := C32_history h2.
exists d2; split=> //; last 2 first.
- by apply: perm_small_eq.
- by apply: perm_small_eq.
- by move: e1 e2; rewrite /try_call /try_update /= /try_add /= => -[_ <-] /= [<-].
Qed.

(** C33. "also when the try was impossible" fails for removals that list an operator twice: rejecting such a try puts back
    the operators of an earlier removal. In this history an earlier removal of the same pair was rejected; the second
    rejection ends with an exception and an operator list longer than the matrix *)
Definition rem1 := Call [:: ox1] [:: oy1] [::] [::].
Definition rem11 := Call [:: ox1; ox1] [:: oy1; oy1] [::] [::].
Theorem C33_refuted_removal (mo : umode) (w : work K) : exists d d1 d2, [/\ hist F junk d [:: ox1] [:: oy1],
  try_call F rem11 d = Ok 0 d1, reject_update d1 = Throw unit d2 & size (s_ops (d_cdagg d2)) = 2%N /\ mr (d_inv d2) = 1%N].
Proof.
have [d [h _ o1 o2 m1]] := one_pair mo w.
have v : valid [:: ox1] [:: oy1] rem1 by split.
have [x [d1 [e1 _ _ _ [d2 e2 h2]]]] := C32_progress h v erefl.
have [[hst hw _ _] _] := hist_ok h.
have [[u1 q1 _] [u2 q2 _] _ _ _] := hw.
have f1 : pfind (p_time ox1) (s_pos (d_cdagg d)) = Some 0%N by rewrite (pfind_in u1 q1) o1 ?inE.
have f2 : pfind (p_time oy1) (s_pos (d_c d)) = Some 0%N by rewrite (pfind_in u2 q2) o2 ?inE.
have wr : w_removed (d_work d2) = [:: (ox1, oy1)].
  move: e1 e2; rewrite /try_call /try_update /= /try_remove /is_waiting hst /= /removal_possible /= /exist f1 f2 /= orbT /=.
  rewrite /move_to_end /= f1 f2 /= m1 /= /swap_cdagg_op /swap_c_op /= /take_out /= m1 /= o1 /= => -[_ <-] /=.
  by rewrite /reject_update /= /reject_remove /=; case: (push_op _ _ _) => [[n1 s1] []] //=; case: (push_op _ _ _) => [[n2 s2] []] //= [<-] /=; rewrite /removed_pairs /= o1 o2.
have [[hst2 hw2 p1 p2] _] := hist_ok h2.
have [[v1 r1 _] [v2 r2 _] _ [m2 _ _] _] := hw2.
have O1 : s_ops (d_cdagg d2) = [:: ox1] by apply: perm_small_eq.
have O2 : s_ops (d_c d2) = [:: oy1] by apply: perm_small_eq.
have g1 : pfind (p_time ox1) (s_pos (d_cdagg d2)) = Some 0%N by rewrite (pfind_in v1 r1) O1 ?inE.
have g2 : pfind (p_time oy1) (s_pos (d_c d2)) = Some 0%N by rewrite (pfind_in v2 r2) O2 ?inE.
rewrite O2 /= in m2.
exists d2; do 2 eexists; split=> //.
- by rewrite /try_call /try_update /= /try_remove /is_waiting hst2 /= /removal_possible /= /exist g1 g2 /= orbT /=.
- by rewrite /reject_update /= /reject_remove /= wr /= /push_op /pinsert g1 /=.
- by rewrite /= O1.
Qed.

(** C33. The same for a try that removes and adds: rejecting an impossible one removes as many operators as nop_added_ says,
    which no constructor sets *)
Definition remadd := Call [:: ox1] [:: oy1] [:: ox2; ox2] [:: oy2; oy2].
Theorem C33_refuted_remove_add (mo : umode) (w : work K) : (1 < w_nop_added w)%N ->
  exists d d1, [/\ hist F junk d [:: ox1] [:: oy1], try_call F remadd d = Ok 0 d1 & reject_update d1 = UB K unit].
Proof.
move=> hn; have [d [h hw o1 o2 m1]] := one_pair mo w.
have [[hst hw1 _ _] _] := hist_ok h.
have [[u1 q1 _] [u2 q2 _] _ _ _] := hw1.
have f1 : pfind (p_time ox1) (s_pos (d_cdagg d)) = Some 0%N by rewrite (pfind_in u1 q1) o1 ?inE.
have f2 : pfind (p_time oy1) (s_pos (d_c d)) = Some 0%N by rewrite (pfind_in u2 q2) o2 ?inE.
exists d; eexists; split=> //.
- by rewrite /try_call /try_update /= /try_remove_add /is_waiting hst /= /removal_insertion_possible /= /exist /= f1 f2 /= orbT /= ?andbF.
- by rewrite /reject_update /= /reject_remove_add /= hw o1 /= hn.
Qed.

(** C32. Creation operators 2 in, 1 out; annihilation operators 1 in, none out: a valid change to a square matrix, but the
    pairing reads past the end of the shorter list *)
Definition uneven := Call [:: ox1] [::] [:: ox2; ox3] [:: oy2].
Theorem C32_refuted_uneven (mo : umode) (w : work K) : exists d, [/\ hist F junk d [:: ox1] [:: oy1], valid [:: ox1] [:: oy1] uneven,
  size (new_cd uneven [:: ox1]) = size (new_c uneven [:: oy1]) & try_call F uneven d = UB K K].
Proof.
by have [d [h _ _ _ _]] := one_pair mo w; exists d; split=> //; split.
Qed.
End Refuted.

Print Assumptions C32_step.
Print Assumptions C32_history.
Print Assumptions C32_progress.
Print Assumptions C32_refuted_uneven.
Print Assumptions C33_reject.
Print Assumptions C33_impossible_insertion.
Print Assumptions C33_unbalanced.
Print Assumptions C33_refuted_removal.
Print Assumptions C33_refuted_remove_add.
