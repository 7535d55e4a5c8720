(** * C73: the mean of the worm measurement by removal *)
From Coq Require Import ZArith.
From mathcomp Require Import all_ssreflect all_fingroup all_algebra zify.
From Verif Require Import OpContainer Dist Proposal HybDet EigenBasis FastUpdate T_FastUpdate DetMatrix T_DetMatrix T_DetUpdate T_DetHistory DetPartitioned T_DetPartitioned Legendre T_Legendre Measure T_Measure MeasureHyb T_MeasureHyb KField.
Import Order.Theory GRing.Theory Num.Theory.
Set Implicit Arguments.
Unset Strict Implicit.
Unset Printing Implicit Defensive.
Local Close Scope Z_scope.
Local Open Scope nat_scope.
Local Open Scope ring_scope.
Delimit Scope Z_scope with coqZ.

(** ** Random subsets *)
Section Perms.
Variable n : nat.
(** Specification of a uniformly random shuffle (std::random_shuffle with an ideal generator): every permutation is as likely
    as every other one *)
Definition shuffle (p : {perm 'I_n}) (s : seq bool) : seq bool :=
  if size s == n then [seq nth false s (p i) | i <- enum 'I_n] else s.
Lemma shuffleP p s : perm_eq (shuffle p s) s.
Proof.
rewrite /shuffle; case: eqP => // e.
have -> : [seq nth false s (p i) | i <- enum 'I_n] = map (nth false s) (map (fun i : 'I_n => nat_of_ord (p i)) (enum 'I_n)) by rewrite -map_comp.
have {2}-> : s = map (nth false s) (map (@nat_of_ord n) (enum 'I_n)) by rewrite val_enum_ord -[X in iota 0 X]e map_nth_iota0 ?take_size.
apply: perm_map; rewrite (map_comp (@nat_of_ord n) p); apply: perm_map; apply: uniq_perm => [||i].
- by rewrite (map_inj_uniq (@perm_inj _ p)) enum_uniq.
- exact: enum_uniq.
- by rewrite mem_enum; apply/mapP; exists (p^-1%g i); rewrite ?mem_enum // permKV.
Qed.
Lemma move_set (A B : {set 'I_n}) : #|A| = #|B| -> exists h : {perm 'I_n}, h @: A = B.
Proof.
move=> e; pose t1 := enum A ++ enum (~: A); pose t2 := enum B ++ enum (~: B).
have un (C : {set 'I_n}) : uniq (enum C ++ enum (~: C)).
  rewrite cat_uniq !enum_uniq andbT; by apply/hasPn => i; rewrite mem_enum in_setC => hi; rewrite /= mem_enum.
have al (C : {set 'I_n}) i : i \in enum C ++ enum (~: C) by rewrite mem_cat !mem_enum in_setC; case: (i \in C).
have sz : size t1 = size t2.
  by rewrite !size_cat -!cardE e; congr addn; apply/eqP; rewrite -(eqn_add2l #|A|) cardsC e cardsC.
pose f i := nth i t2 (index i t1).
have fi : injective f.
  move=> i j; have hi := al A i; have hj := al A j; rewrite /f (set_nth_default j) -?sz ?index_mem // => /eqP.
  by rewrite nth_uniq ?un -?sz ?index_mem // => /eqP /(congr1 (nth i t1)); rewrite nth_index // (set_nth_default j) ?index_mem // nth_index.
exists (perm fi); apply/eqP; rewrite eqEcard card_imset ?e ?leqnn ?andbT; last exact: perm_inj.
apply/subsetP => j /imsetP[i iA ->]; rewrite permE /f.
have hi : (index i t1 < size (enum B))%N by rewrite index_cat mem_enum iA -cardE -e cardE index_mem mem_enum.
by rewrite nth_cat hi -mem_enum mem_nth.
Qed.
Definition low (s : nat) : {set 'I_n} := [set k : 'I_n | (k < s)%N].
Definition hits s (X : {set 'I_n}) : nat := #|[set p : {perm 'I_n} | p @^-1: low s == X]|.
Lemma preimE (p : {perm 'I_n}) (S X : {set 'I_n}) : (p @^-1: S == X) = (p @: X == S).
Proof.
apply/eqP/eqP => [<-|<-]; apply/setP => i.
  apply/imsetP/idP => [[j]|hi]; first by rewrite inE => h ->.
  by exists (p^-1%g i); rewrite ?inE permKV.
by rewrite inE mem_imset //; exact: perm_inj.
Qed.
Lemma hits_const s (X : {set 'I_n}) : hits s X = if #|X| == #|low s| then hits s (low s) else 0%N.
Proof.
case: eqP => [e|ne]; last first.
  apply/eqP; rewrite cards_eq0; apply/eqP/setP => p; rewrite !inE preimE; apply/negP => /eqP h; apply: ne.
  by rewrite -h card_imset //; exact: perm_inj.
have [h eh] := move_set (esym e).
have act (p : {perm 'I_n}) : (h * p)%g @: low s = p @: X.
  by rewrite -eh -imset_comp; apply: eq_imset => i; rewrite permM.
rewrite /hits -(card_imset _ (mulgI h)); apply: eq_card => p; apply/imsetP/idP => [[p']|]; rewrite !inE !preimE.
  by move=> h1 ->; rewrite act.
by move=> h1; exists (h^-1 * p)%g; rewrite ?mulKVg // inE preimE -act mulKVg.
Qed.
End Perms.

(** ** The operators that are kept *)
Section Kept.
Variables (N n s : nat) (ops order ws : seq psi).
Hypothesis all_ops : perm_eq (order ++ ws) ops.
Hypothesis ops_uniq : uniq ops.
Hypothesis ops_size : size ops = N.
Hypothesis order_size : size order = n.
(** The positions in [ops] of some operators *)
Definition places (t : seq psi) : {set 'I_N} := [set i : 'I_N | nth psi0 ops i \in t].
(** What is kept besides the worm [ws]: the operators that the shuffle moved to one of the first [s] positions *)
Definition kept (p : {perm 'I_n}) : {set 'I_N} := places (ws ++ [seq nth psi0 order (nat_of_ord k) | k <- enum 'I_n & (p k < s)%N]).
Lemma order_uniq : uniq (order ++ ws).
Proof. by rewrite (perm_uniq all_ops). Qed.
Lemma place_lt (k : 'I_n) : (index (nth psi0 order k) ops < N)%N.
Proof. by rewrite -ops_size index_mem -(perm_mem all_ops) mem_cat mem_nth ?order_size. Qed.
Definition place (k : 'I_n) : 'I_N := Ordinal (place_lt k).
Lemma nth_place k : nth psi0 ops (place k) = nth psi0 order k.
Proof. by rewrite /= nth_index // -(perm_mem all_ops) mem_cat mem_nth ?order_size. Qed.
Lemma place_inj : injective place.
Proof.
move=> k l e; have := congr1 (fun i : 'I_N => nth psi0 ops i) e; rewrite !nth_place => /eqP.
have := order_uniq; rewrite cat_uniq => /and3P[u _ _].
by rewrite nth_uniq ?order_size // => /eqP /ord_inj.
Qed.
Lemma place_free k : place k \notin places ws.
Proof.
rewrite inE nth_place; have := order_uniq; rewrite cat_uniq => /and3P[_ /hasPn h _]; apply/negP => /h.
by rewrite /= mem_nth ?order_size.
Qed.
Lemma placeP (i : 'I_N) : i \notin places ws -> exists k, i = place k.
Proof.
move=> hi; have hm : nth psi0 ops i \in order ++ ws by rewrite (perm_mem all_ops) mem_nth ?ops_size.
move: hm; rewrite mem_cat; rewrite inE in hi; rewrite (negbTE hi) orbF => ho.
have hk : (index (nth psi0 ops i) order < n)%N by rewrite -order_size index_mem.
exists (Ordinal hk); apply: ord_inj; apply/eqP; rewrite -(nth_uniq psi0 _ _ ops_uniq) ?ops_size //.
by rewrite nth_place /= nth_index.
Qed.
Lemma worm_compl : ~: places ws = place @: setT.
Proof.
apply/setP => i; rewrite in_setC; apply/idP/imsetP => [/placeP [k ->]|[k _ ->]]; first by exists k.
exact: place_free.
Qed.
Lemma card_worm : #|places ws| = size ws.
Proof.
have := cardsC (places ws); rewrite worm_compl card_imset; last exact: place_inj.
rewrite cardsT !card_ord; have := perm_size all_ops; rewrite size_cat order_size ops_size => h1 h2.
by apply/eqP; rewrite -(eqn_add2r n) h2 -h1 addnC.
Qed.
Lemma keptE p : kept p = places ws :|: place @: (p @^-1: low n s).
Proof.
apply/setP => i; rewrite /kept !inE mem_cat; case: (boolP (_ \in ws)) => //= hi.
apply/mapP/imsetP => [[k]|[k]].
  rewrite mem_filter mem_enum andbT => hk e; exists k; first by rewrite !inE.
  by apply: ord_inj; apply/eqP; rewrite -(nth_uniq psi0 _ _ ops_uniq) ?ops_size // nth_place e.
rewrite !inE => hk ->; exists k; last exact: nth_place.
by rewrite mem_filter hk mem_enum.
Qed.
Lemma kept_worm p : places ws \subset kept p.
Proof. by rewrite keptE subsetUl. Qed.
Lemma ways_kept (X : {set 'I_N}) : #|[set p | kept p == X]| =
  if (places ws \subset X) && (#|X| == minn n s + size ws)%N then hits s (low n s) else 0%N.
Proof.
have clow : #|low n s| = minn n s.
  rewrite -sum1dep_card -(big_mkord (fun i => i < s)%N (fun=> 1%N)) sum1_count /index_iota subn0 count_below; lia.
case: (boolP (_ \subset X)) => hs /=; last first.
  apply/eqP; rewrite cards_eq0; apply/eqP/setP => p; rewrite !inE; apply/negP => /eqP h; case/negP: hs.
  by rewrite -h kept_worm.
have eX : X = places ws :|: place @: (place @^-1: X).
  apply/setP => i; rewrite inE; apply/idP/orP => [hi|[/(subsetP hs) //|/imsetP[k]]]; last by rewrite inE => h ->.
  case: (boolP (i \in places ws)) => h; first by left.
  by right; case/placeP: h hi => k -> hk; apply: imset_f; rewrite inE.
have cX : #|X| = (size ws + #|place @^-1: X|)%N.
  rewrite {1}eX cardsU card_worm card_imset; last exact: place_inj.
  rewrite (_ : _ :&: _ = set0) ?cards0 ?subn0 //; apply/setP => i; rewrite !inE; apply/negP => /andP[h1 /imsetP[k _ e]].
  by have := place_free k; rewrite -e inE h1.
have -> : [set p | kept p == X] = [set p : {perm 'I_n} | p @^-1: low n s == place @^-1: X].
  apply/setP => p; rewrite !inE keptE; apply/eqP/eqP => [<-|->]; last by rewrite -eX.
  apply/setP => k; rewrite !inE; case: (boolP (_ || _)) => [/orP[h|]|/norP[_ h]].
  - by have := place_free k; rewrite inE h.
  - by case/imsetP => l; rewrite !inE => hl /place_inj ->.
  - by apply/negP => hk; case/negP: h; apply: imset_f; rewrite !inE.
rewrite -/(hits s _) hits_const clow cX addnC eqn_add2r; by [].
Qed.
End Kept.

(** ** The exchange argument *)
Section Mean.
Variables (K : numFieldType) (N : nat) (Q P : finType) (D : pred Q) (a b : Q -> {set 'I_N}) (ka kb : Q -> P -> {set 'I_N}) (C m : nat).
Variables (W obs : Q -> K).
Hypothesis ways_a : forall q X, D q -> W q != 0 -> #|[set p | ka q p == X]| = if (a q \subset X) && (#|X| == m) then C else 0%N.
Hypothesis ways_b : forall q X, D q -> W q != 0 -> #|[set p | kb q p == X]| = if (b q \subset X) && (#|X| == m) then C else 0%N.
Definition among (X Y : {set 'I_N}) (q : Q) : bool := [&& D q, a q \subset X & b q \subset Y].
(** the sum over all choices among the kept operators, and its norm *)
Definition amount X Y : K := \sum_(q | among X Y q) W q * obs q.
Definition total X Y : K := \sum_(q | among X Y q) `|W q|.
Lemma group (h : {set 'I_N} -> K) (k : P -> {set 'I_N}) : \sum_p h (k p) = \sum_X h X *+ #|[set p | k p == X]|.
Proof.
rewrite (partition_big k predT) //=; apply: eq_bigr => X _; rewrite -sumr_const; apply: eq_big => [p|p /eqP -> //].
by rewrite inE.
Qed.
Lemma share X Y : total X Y * (amount X Y / total X Y) = amount X Y.
Proof.
case: (eqVneq (total X Y) 0) => [e|ne]; last by rewrite mulrCA mulfV ?mulr1.
rewrite e mul0r /amount big1 // => q hq; have := psumr_eq0P (fun q _ => normr_ge0 (W q)) e hq.
by move/eqP; rewrite normr_eq0 => /eqP ->; rewrite mul0r.
Qed.
Lemma two_sets (g : {set 'I_N} -> {set 'I_N} -> K) q : D q -> W q != 0 ->
  \sum_p \sum_p' g (ka q p) (kb q p') = \sum_(X : {set 'I_N} | #|X| == m) \sum_(Y : {set 'I_N} | #|Y| == m) (if among X Y q then g X Y *+ (C * C) else 0).
Proof.
move=> hq h0; rewrite (group (fun X => \sum_p' g X (kb q p'))) [RHS]big_mkcond /=; apply: eq_bigr => X _.
rewrite ways_a // (group (g X)) andbC; case: eqP => //= _; rewrite [RHS]big_mkcond /= /among hq /=.
case: (a q \subset X) => /=; last by rewrite mulr0n big1 // => Y _; rewrite if_same.
rewrite -sumrMnl; apply: eq_bigr => Y _; rewrite ways_b // andbC; case: eqP => //= _; last by rewrite mulr0n mul0rn.
by case: ifP => _; rewrite ?mulr0n ?mul0rn // -mulrnA.
Qed.
Lemma mean : \sum_(q | D q) `|W q| * (\sum_p \sum_p' amount (ka q p) (kb q p') / total (ka q p) (kb q p'))
  = \sum_(q | D q) \sum_(p : P) \sum_(p' : P) W q * obs q.
Proof.
pose T g := \sum_(X : {set 'I_N} | #|X| == m) \sum_(Y : {set 'I_N} | #|Y| == m) \sum_(q | among X Y q) (g q X Y : K) *+ (C * C).
have swap (g : Q -> {set 'I_N} -> {set 'I_N} -> K) : \sum_(q | D q) \sum_(X : {set 'I_N} | #|X| == m) \sum_(Y : {set 'I_N} | #|Y| == m)
    (if among X Y q then g q X Y *+ (C * C) else 0) = T g.
  rewrite exchange_big; apply: eq_bigr => X _ /=; rewrite exchange_big; apply: eq_bigr => Y _ /=; rewrite -big_mkcondr /=.
  by apply: eq_bigl => q; rewrite /among; case: (D q).
transitivity (T (fun q X Y => `|W q| * (amount X Y / total X Y))).
  rewrite -swap; apply: eq_bigr => q hq; have [e|h0] := eqVneq (W q) 0.
    by rewrite e normr0 mul0r big1 // => X _; rewrite big1 // => Y _; rewrite mul0r mul0rn if_same.
  rewrite (two_sets (fun X Y => amount X Y / total X Y)) // mulr_sumr; apply: eq_bigr => X _; rewrite mulr_sumr; apply: eq_bigr => Y _.
  by case: ifP => _; rewrite ?mulr0 // mulrnAr.
transitivity (T (fun q X Y => W q * obs q)).
  apply: eq_bigr => X _; apply: eq_bigr => Y _; rewrite !sumrMnl; congr (_ *+ _).
  by rewrite -mulr_suml -/(total X Y) share.
rewrite -swap; apply: eq_bigr => q hq; have [e|h0] := eqVneq (W q) 0.
  rewrite e mul0r !(big1 _ _ (fun=> 0)) //.
  by rewrite big1 // => X _; rewrite big1 // => Y _; rewrite mul0rn if_same.
by rewrite -(two_sets (fun _ _ => W q * obs q) hq h0).
Qed.
End Mean.

(** ** What is kept by the code *)
Section Run.
Variables (K : numFieldType) (F : psi -> psi -> K) (R : nat).
Lemma keep_opsE (ops ws : seq psi) n max (p : {perm 'I_n}) : size ops = n -> size ws = R -> uniq (ops ++ ws) -> (R <= max)%N ->
  keep_ops (flags R n max (shuffle p)) (ops ++ ws) =i ws ++ [seq nth psi0 ops (nat_of_ord k) | k <- enum 'I_n & (p k < max - R)%N].
Proof.
move=> so sw u hm z; rewrite /keep_ops /flags /shuffle size_map size_iota eqxx.
set fl := [seq nth false _ _ | _ <- _].
have sf : size fl = n by rewrite size_map size_enum_ord.
have -> : take (size (ops ++ ws)) (fl ++ nseq (R + R) true) = fl ++ nseq R true.
  by rewrite take_cat sf size_cat so sw ltnNge leq_addr /= addKn nseqD take_cat size_nseq ltnn subnn take0 cats0.
rewrite mask_cat ?sf // (_ : mask (nseq R true) ws = ws); last by rewrite -sw mask_true.
rewrite !mem_cat orbC; congr orb.
have uo : uniq ops by move: u; rewrite cat_uniq => /and3P[].
rewrite in_mask //; apply/andP/mapP => [[hz]|[k]].
  have hk : (index z ops < n)%N by rewrite -so index_mem.
  rewrite (nth_map (Ordinal hk)) ?size_enum_ord //; set k := nth (Ordinal hk) _ _.
  have ek : k = Ordinal hk by apply: ord_inj; rewrite /k nth_enum_ord.
  rewrite ek => hf; exists (Ordinal hk); last by rewrite /= nth_index.
  by rewrite mem_filter mem_enum andbT; move: hf; rewrite (nth_map 0%N) ?size_iota ?ltn_ord // nth_iota ?ltn_ord.
rewrite mem_filter mem_enum andbT => hk ->; have hi : (k < size ops)%N by rewrite so.
split; first by rewrite mem_nth.
rewrite index_uniq // (nth_map k) ?size_enum_ord // nth_ord_enum (nth_map 0%N) ?size_iota ?ltn_ord // nth_iota ?ltn_ord //.
Qed.
Lemma run_kept tiny eps rnd max (M : pm K) w x cd c n (pr pc : {perm 'I_n}) : (0 < R)%N -> size w = (2 * R)%N ->
  known_inverse F (pm_cd_order M) (pm_c_order M) (compute_inverse_matrix M) ->
  perm_eq (pm_cd_order M) cd -> perm_eq (pm_c_order M) c -> psize M = n -> size c = n -> size cd = n -> uniq (cd ++ c ++ w) -> (R <= max)%N ->
  intermediate F R tiny eps rnd max (shuffle pr) (shuffle pc) M w = VOk x ->
  rm_c x =i worm_c R w ++ [seq nth psi0 (pm_c_order M) (nat_of_ord k) | k <- enum 'I_n & (pc k < max - R)%N] /\
  rm_cd x =i worm_cd R w ++ [seq nth psi0 (pm_cd_order M) (nat_of_ord k) | k <- enum 'I_n & (pr k < max - R)%N].
Proof.
move=> R0 sw hk p1 p2 sp sc sd u hm; rewrite /intermediate sw ltnn.
have s1 : size (pm_cd_order M) = n by rewrite (perm_size p1).
have s2 : size (pm_c_order M) = n by rewrite (perm_size p2).
have sz : size (pm_cd_order M) = size (pm_c_order M) by rewrite s1 s2.
have uu : uniq (with_c R (pm_c_order M) w ++ with_cd R (pm_cd_order M) w).
  rewrite -(perm_uniq (with_perm sz sw)) -(perm_uniq (_ : perm_eq (cd ++ c ++ w) _)) // perm_sym.
  by apply: perm_cat => //; apply: perm_cat.
have [u1 _ u2] : [/\ uniq (with_c R (pm_c_order M) w), true & uniq (with_cd R (pm_cd_order M) w)].
  by move: uu; rewrite cat_uniq => /and3P[? ? ?].
have [] := extendE w eps rnd R0 hk; cbv zeta; set de := \det _ => d0 d1.
have [/d0 -> //|/d1 [M' -> _]] := eqVneq de 0.
case er : reduce => [y| |] // [<-]; cbn [rm_c rm_cd].
move: er; rewrite /reduce sp; case: (leqP (n + R) max) => hl.
  move=> [<-]; cbn [rm_c rm_cd].
  have al (ops ws : seq psi) (p : {perm 'I_n}) : size ops = n -> ops ++ ws =i ws ++ [seq nth psi0 ops (nat_of_ord k) | k <- enum 'I_n & (p k < max - R)%N].
    move=> so z; rewrite (eq_filter (a2 := predT)) ?filter_predT => [|k]; last by have := ltn_ord (p k); rewrite /=; lia.
    by rewrite (map_comp (nth psi0 ops) (@nat_of_ord n)) val_enum_ord -so map_nth_iota0 // take_size !mem_cat orbC.
  by split; apply: al.
case: ltnP => // _ [<-]; cbn [rm_c rm_cd].
by split; apply: keep_opsE; rewrite // size_map size_iota.
Qed.
End Run.

(** ** The configurations with the same operators *)
Section Class.
Variables (K : numFieldType) (F : psi -> psi -> K) (junk : nat -> nat -> K) (lab : seq nat) (nb : nat).
Hypothesis lab_ok : all (fun b => b < nb)%N lab.
Hypothesis F_blocks : forall x y, blk lab nb (p_flavor x) != blk lab nb (p_flavor y) -> F x y = 0.
(** all annihilation and creation operators, those of the worm included *)
Variables (R N : nat) (A B : seq psi).
Hypothesis R_pos : (0 < R)%N.
Hypothesis size_A : size A = N.
Hypothesis size_B : size B = N.
Hypothesis times : uniq (map p_time (B ++ A)).
Notation n := (N - R)%N.
(** A worm formed by some of them, all others hybridized: such a configuration, and its weight apart from the trace (which is
    the same for all of them) *)
Variable w : seq psi.
Hypothesis w_size : size w = (2 * R)%N.
Hypothesis w_uniq : uniq w.
Hypothesis w_A : {subset worm_c R w <= A}.
Hypothesis w_B : {subset worm_cd R w <= B}.
Definition weight_of : K := conf_weight F (minus B (worm_cd R w)) (minus A (worm_c R w)) w.

Lemma AB_uniq : uniq (B ++ A).
Proof. exact: map_uniq times. Qed.
Lemma A_uniq : uniq A.
Proof. by move: AB_uniq; rewrite cat_uniq => /and3P[]. Qed.
Lemma B_uniq : uniq B.
Proof. by move: AB_uniq; rewrite cat_uniq => /and3P[]. Qed.
Lemma w_perm : perm_eq w (worm_c R w ++ worm_cd R w).
Proof. by rewrite {1}(w_weave w_size); apply: weave_perm; rewrite !size_map. Qed.
Lemma worm_uniq : uniq (worm_c R w) /\ uniq (worm_cd R w).
Proof. by have := w_uniq; rewrite (perm_uniq w_perm) cat_uniq => /and3P[]. Qed.
Lemma minus_perm (s t : seq psi) : uniq s -> uniq t -> {subset t <= s} -> perm_eq (minus s t ++ t) s.
Proof.
move=> us ut h; apply: uniq_perm => //.
  rewrite cat_uniq filter_uniq //= ut andbT; apply/hasPn => z hz /=; by rewrite mem_filter hz.
by move=> z; rewrite mem_cat mem_filter; case: (boolP (z \in t)) => [/h ->|_]; rewrite ?orbT ?orbF.
Qed.

Variables (M : pm K) (cd c : seq psi).
Hypothesis hist : phist F junk lab nb M cd c.
Hypothesis cd_ops : perm_eq cd (minus B (worm_cd R w)).
Hypothesis c_ops : perm_eq c (minus A (worm_c R w)).
Lemma all_c : perm_eq (c ++ worm_c R w) A.
Proof.
have [u1 _] := worm_uniq; apply: perm_trans (_ : perm_eq _ (minus A (worm_c R w) ++ worm_c R w)) _; first by rewrite perm_cat2r.
exact: minus_perm A_uniq u1 w_A.
Qed.
Lemma all_cd : perm_eq (cd ++ worm_cd R w) B.
Proof.
have [_ u1] := worm_uniq; apply: perm_trans (_ : perm_eq _ (minus B (worm_cd R w) ++ worm_cd R w)) _; first by rewrite perm_cat2r.
exact: minus_perm B_uniq u1 w_B.
Qed.
Lemma size_c : size c = n /\ size cd = n.
Proof.
have h1 := perm_size all_c; have h2 := perm_size all_cd; rewrite !size_cat !size_map !size_iota size_A size_B in h1 h2.
by split; [rewrite -h1|rewrite -h2]; rewrite addnK.
Qed.
Lemma n_R : (n + R)%N = N.
Proof. by have h1 := perm_size all_c; rewrite !size_cat !size_map !size_iota size_A in h1; rewrite -h1 addnK. Qed.
Lemma conf_perm : perm_eq (cd ++ c ++ w) (B ++ A).
Proof.
apply: perm_trans (_ : perm_eq _ ((cd ++ worm_cd R w) ++ (c ++ worm_c R w))) _; last by apply: perm_cat; [exact: all_cd|exact: all_c].
apply/seq.permP => q; rewrite !count_cat (seq.permP w_perm) count_cat; clear; lia.
Qed.
Lemma conf_times : uniq (map p_time (cd ++ c ++ w)).
Proof. by rewrite (perm_uniq (perm_map p_time conf_perm)). Qed.
Lemma conf_w : conf_weight F cd c w = weight_of.
Proof. by apply: conf_weight_perm => //; have [-> ->] := size_c. Qed.
Lemma weight_nz : weight_of != 0.
Proof.
rewrite -conf_w /conf_weight; have [_ [_ _ _ _ nz]] := hist_inverse lab_ok F_blocks hist.
by apply: mulf_neq0 => //; case: ifP => _; rewrite ?oppr_eq0 oner_eq0.
Qed.
Lemma movedE ac ad : size ac = R -> size ad = R -> uniq ac -> uniq ad -> {subset ac <= A} -> {subset ad <= B} ->
  moved F R cd c w ac ad = conf_weight F (minus B ad) (minus A ac) (weave ac ad) / weight_of.
Proof.
move=> sc sd uc ud hc hd; rewrite /moved conf_w; congr (_ / _).
apply: conf_weight_perm.
- have h1 := perm_size (minus_perm A_uniq uc hc); have h2 := perm_size (minus_perm B_uniq ud hd).
  have p1 := perm_filter (fun y => y \notin ac) all_c; have p2 := perm_filter (fun y => y \notin ad) all_cd.
  rewrite (perm_size p1) (perm_size p2) -/(minus A ac) -/(minus B ad).
  by rewrite !size_cat size_A size_B sc sd in h1 h2; apply/eqP; rewrite -(eqn_add2r R) h1 h2.
- by apply: perm_filter; exact: all_cd.
- by apply: perm_filter; exact: all_c.
Qed.

(** the operators that are kept for two shuffles *)
Variables (max : nat) (pr pc : {perm 'I_n}).
Hypothesis max_R : (R <= max)%N.
Definition kept_c := kept N (max - R) A (pm_c_order M) (worm_c R w) pc.
Definition kept_cd := kept N (max - R) B (pm_cd_order M) (worm_cd R w) pr.
Definition listed (ops : seq psi) (X : {set 'I_N}) : seq psi := [seq nth psi0 ops (nat_of_ord i) | i <- enum X].
Lemma listedP ops (X : {set 'I_N}) s t : uniq ops -> size ops = N -> {subset s <= ops} -> uniq s -> s =i t -> X = places N ops t -> perm_eq s (listed ops X).
Proof.
move=> uo so hs us est ->; apply: uniq_perm => // [|z].
  rewrite map_inj_in_uniq ?enum_uniq // => i j _ _ /eqP; rewrite nth_uniq ?so // => /eqP; exact: ord_inj.
apply/idP/mapP => [hz|[i]]; last by rewrite mem_enum inE -est => h ->.
have hi : (index z ops < N)%N by rewrite -so index_mem hs.
by exists (Ordinal hi); rewrite ?mem_enum ?inE /= nth_index ?hs // -est.
Qed.
Lemma lists tiny eps rnd x : intermediate F R tiny eps rnd max (shuffle pr) (shuffle pc) M w = VOk x ->
  [/\ perm_eq (rm_c x) (listed A kept_c), perm_eq (rm_cd x) (listed B kept_cd) & uniq (rm_c x) /\ uniq (rm_cd x)].
Proof.
move=> hx; have [hk [p1 p2 sp sz nz]] := hist_inverse lab_ok F_blocks hist.
have [y [hy [e1 e2] _ _ _]] := C59_cutoff lab_ok F_blocks R_pos hist w_size (shuffleP pr) (shuffleP pc) hx.
have [sc sd] := size_c; have [||r1 r2] := run_kept R_pos w_size hk p1 p2 _ sc sd _ max_R hx.
- by rewrite sp.
- exact: map_uniq conf_times.
have [[_ u [s1 s2] _ _] _] := C59_kept lab_ok F_blocks R_pos hist w_size conf_times (shuffleP pr) (shuffleP pc) hy.
rewrite -e1 -e2 in u s1 s2; move: u; rewrite cat_uniq => /and3P[u1 _ u2].
split=> //.
- by apply: (listedP A_uniq size_A _ u1 r1) => // z /s1; rewrite (perm_mem all_c).
- by apply: (listedP B_uniq size_B _ u2 r2) => // z /s2; rewrite (perm_mem all_cd).
Qed.
End Class.

(** A sum over the kept operators *)
Section Resum.
Variables (K : numFieldType) (N m : nat) (ops s : seq psi) (X : {set 'I_N}).
Hypothesis s_size : size s = m.
Hypothesis s_X : perm_eq s (listed ops X).
Hypothesis s_uniq : uniq s.
Lemma resum (h : psi -> K) : \sum_(a < m) h (nth psi0 s a) = \sum_(i in X) h (nth psi0 ops i).
Proof. by rewrite -(big_mkord predT (fun a => h (nth psi0 s a))) -s_size -(big_nth psi0 predT h) (perm_big _ s_X) big_map big_enum. Qed.
Lemma resum_but (a : 'I_m) (h : psi -> K) :
  \sum_(c < m | c != a) h (nth psi0 s c) = \sum_(i in X) (if nth psi0 ops i == nth psi0 s a then 0 else h (nth psi0 ops i)).
Proof.
rewrite -(resum (fun z => if z == nth psi0 s a then 0 else h z)) big_mkcond; apply: eq_bigr => c _.
by rewrite nth_uniq ?s_size // -(inj_eq (@ord_inj _)); case: eqP.
Qed.
End Resum.

(** ** The two-particle Green's function *)
Section G2.
Variables (K : numFieldType) (F : psi -> psi -> K) (junk : nat -> nat -> K) (lab : seq nat) (nb : nat).
Hypothesis lab_ok : all (fun b => b < nb)%N lab.
Hypothesis F_blocks : forall x y, blk lab nb (p_flavor x) != blk lab nb (p_flavor y) -> F x y = 0.
(** all annihilation and all creation operators, hybridized or in the worm *)
Variables (N : nat) (A B : seq psi).
Hypothesis size_A : size A = N.
Hypothesis size_B : size B = N.
Hypothesis times : uniq (map p_time (B ++ A)).
(** Specification: the configurations of the worm space with these operators.  The worm is c_a c^+_b c_c c^+_d. *)
Definition quad : finType := [finType of 'I_N * 'I_N * 'I_N * 'I_N].
Implicit Types q : quad.
Notation ann i := (nth psi0 A (nat_of_ord i)).
Notation cre i := (nth psi0 B (nat_of_ord i)).
Definition legal2 q : bool := let: (a, b, c, d) := q in (a != c) && (b != d).
Definition worm2 q : seq psi := let: (a, b, c, d) := q in [:: ann a; cre b; ann c; cre d].
Definition weight2 q : K := let: (a, b, c, d) := q in
  conf_weight F (minus B [:: cre b; cre d]) (minus A [:: ann a; ann c]) (worm2 q).
Variables (sqrtf : K -> K) (nl : nat) (t : transformer K) (tick : K) (beta : Z).
Hypothesis made : make_transformer sqrtf nl = Some t.
Hypothesis in_period : all (in_beta beta) (B ++ A).
Add Field Kf73 : (kfield_theory K).
Variables (expi : Z -> K) (n_freq : nat) (f : nat -> Z -> K).
Hypothesis f_anti : anti0 tick beta f.
Notation sq l := (nth 0 (sqrt_2l_1 t) l).
(** The value of a worm *)
Definition value2 q (fs : seq nat) (il ilp im : nat) : K := let: (a, b, c, d) := q in
  if fs == [:: p_flavor (ann a); p_flavor (cre b); p_flavor (ann c); p_flavor (cre d)]
  then (f il (elapsed (ann a) (cre b)) * sq il) * ((-1) ^+ ilp.+1 * f ilp (elapsed (ann c) (cre d)) * sq ilp) * expi (elapsed (ann a) (cre d)) ^+ im
  else 0.
(** The states of the program with the weight of the trace [theta] up to a positive factor *)
Variables (M : quad -> pm K) (cd c : quad -> seq psi) (theta : K).
Hypothesis theta1 : `|theta| = 1.
Hypothesis states : forall q, legal2 q -> weight2 q != 0 -> [/\ phist F junk lab nb (M q) (cd q) (c q),
  perm_eq (cd q) (minus B (worm2 q)) & perm_eq (c q) (minus A (worm2 q))].
Definition sign2 q : K := theta * (weight2 q / `|weight2 q|).
(** The random numbers: the entries of the auxiliary rows and columns, and two shuffles *)
Variables (tiny eps : K) (rnd : quad -> nat -> nat -> K) (max : nat).
Hypothesis max_2 : (2 <= max)%N.
Notation perm := {perm 'I_(N - 2)}.
Definition run2 q (pr pc : perm) (tol : K) := intermediate F 2 tol eps (rnd q) max (shuffle pr) (shuffle pc) (M q) (worm2 q).
Hypothesis runs : forall q pr pc, legal2 q -> weight2 q != 0 -> exists x y,
  [/\ run2 q pr pc tiny = VOk x, run2 q pr pc 0 = VOk y & forall i j, me (rm_M x) i j = me (rm_M y) i j].
(** What one measurement adds to an entry *)
Definition added2 q pr pc (fs ls : seq nat) : K :=
  if run2 q pr pc tiny is VOk x then
    if perform2 tick beta t expi n_freq (sign2 q) (rm_weight x) (rm_cd x) (rm_c x) (rm_M x) (fun _ _ => 0) is MOk r then r fs ls else 0
  else 0.

Notation pa q := (places N A (worm_c 2 (worm2 q))).
Notation pb q := (places N B (worm_cd 2 (worm2 q))).
Notation ka q := (kept N (max - 2) A (pm_c_order (M q)) (worm_c 2 (worm2 q))).
Notation kb q := (kept N (max - 2) B (pm_cd_order (M q)) (worm_cd 2 (worm2 q))).
Lemma weight2E q : weight2 q = weight_of F 2 A B (worm2 q).
Proof. by case: q => [[[a b] c'] d]. Qed.
Lemma A_nth i j : (nth psi0 A (nat_of_ord i) == nth psi0 A (nat_of_ord j)) = (i == j :> 'I_N).
Proof. by rewrite nth_uniq ?size_A // (A_uniq times). Qed.
Lemma B_nth i j : (nth psi0 B (nat_of_ord i) == nth psi0 B (nat_of_ord j)) = (i == j :> 'I_N).
Proof. by rewrite nth_uniq ?size_B // (B_uniq times). Qed.
Lemma AB_nth (i j : 'I_N) : (ann i == cre j) = false.
Proof.
have := AB_uniq times; rewrite cat_uniq => /and3P[_ /hasPn h _]; apply/negP => /eqP e.
by have := h (ann i); rewrite mem_nth ?size_A // => /(_ isT); rewrite /= e mem_nth ?size_B.
Qed.
Lemma worm2_ok q : legal2 q -> [/\ size (worm2 q) = (2 * 2)%N, uniq (worm2 q), {subset worm_c 2 (worm2 q) <= A} & {subset worm_cd 2 (worm2 q) <= B}].
Proof.
case: q => [[[a b] c'] d] /andP[h1 h2]; split=> //=.
- by rewrite !inE !A_nth !B_nth !AB_nth [cre b == _]eq_sym AB_nth !negb_or h1 h2.
- by move=> z; rewrite /worm_c /= !inE => /orP[] /eqP ->; rewrite mem_nth ?size_A.
- by move=> z; rewrite /worm_cd /= !inE => /orP[] /eqP ->; rewrite mem_nth ?size_B.
Qed.
Lemma minus_worm q : minus B (worm2 q) = minus B (worm_cd 2 (worm2 q)) /\ minus A (worm2 q) = minus A (worm_c 2 (worm2 q)).
Proof.
have nab z : z \in A -> z \in B -> False.
  by move=> h1 h2; have := AB_uniq times; rewrite cat_uniq => /and3P[_ /hasPn /(_ z h1) /negP].
case: q => [[[a b] c'] d]; split; apply: eq_in_filter => z hz; rewrite /worm_c /worm_cd /= !inE.
- have ne (i : 'I_N) : (z == ann i) = false by apply/negP => /eqP e; apply: (nab z) => //; rewrite e mem_nth ?size_A.
  by rewrite !ne.
- have ne (i : 'I_N) : (z == cre i) = false by apply/negP => /eqP e; apply: (nab z) => //; rewrite e mem_nth ?size_B.
  by rewrite !ne orbF.
Qed.

Lemma pairE (ops : seq psi) (X : {set 'I_N}) (i j : 'I_N) : uniq ops -> size ops = N ->
  (places N ops [:: nth psi0 ops i; nth psi0 ops j] \subset X) = (i \in X) && (j \in X).
Proof.
move=> u so; have m (k l : 'I_N) : (nth psi0 ops k == nth psi0 ops l) = (k == l) by rewrite nth_uniq ?so.
apply/subsetP/andP => [h|[hi hj] k]; first by split; apply: h; rewrite !inE eqxx ?orbT.
by rewrite !inE !m => /orP[] /eqP ->.
Qed.
Lemma sum_quad (G : psi -> psi -> psi -> psi -> K) m sc sd (X Y : {set 'I_N}) : size sc = m -> size sd = m -> uniq sc -> uniq sd ->
  perm_eq sc (listed A X) -> perm_eq sd (listed B Y) ->
  \sum_(a < m) \sum_(b < m) \sum_(c' < m | c' != a) \sum_(d < m | d != b) G (nth psi0 sc a) (nth psi0 sd b) (nth psi0 sc c') (nth psi0 sd d)
  = \sum_(q : quad | among legal2 (fun q => pa q) (fun q => pb q) X Y q) (let: (a, b, c', d) := q in G (ann a) (cre b) (ann c') (cre d)).
Proof.
move=> s1 s2 u1 u2 p1 p2.
transitivity (\sum_i \sum_j \sum_k \sum_l
   (if among legal2 (fun q => pa q) (fun q => pb q) X Y (i, j, k, l) then G (ann i) (cre j) (ann k) (cre l) else 0)); last first.
  by rewrite !pair_bigA [RHS]big_mkcond; apply: eq_bigr => -[[[i j] k] l] _.
transitivity (\sum_(i in X) \sum_(j in Y) \sum_(k in X) (if ann k == ann i then 0 else
    \sum_(l in Y) (if cre l == cre j then 0 else G (ann i) (cre j) (ann k) (cre l)))).
  rewrite -(resum s1 p1 (fun za => \sum_(j in Y) \sum_(k in X) (if ann k == za then 0 else
    \sum_(l in Y) (if cre l == cre j then 0 else G za (cre j) (ann k) (cre l))))); apply: eq_bigr => a _.
  rewrite -(resum s2 p2 (fun zb => \sum_(k in X) (if ann k == nth psi0 sc a then 0 else
    \sum_(l in Y) (if cre l == zb then 0 else G (nth psi0 sc a) zb (ann k) (cre l))))); apply: eq_bigr => b _.
  rewrite -(resum_but s1 p1 u1 a (fun zc => \sum_(l in Y) (if cre l == nth psi0 sd b then 0 else G (nth psi0 sc a) (nth psi0 sd b) zc (cre l)))).
  apply: eq_bigr => c' _.
  by rewrite -(resum_but s2 p2 u2 b (fun zd => G (nth psi0 sc a) (nth psi0 sd b) (nth psi0 sc c') zd)).
have am i j k l : among legal2 (fun q => pa q) (fun q => pb q) X Y (i, j, k, l) = [&& i \in X, j \in Y, k \in X, l \in Y, k != i & l != j].
  rewrite /among /legal2 [worm2 _]/= /worm_c /worm_cd [map _ _]/= [map _ (iota 0 2)]/= !pairE ?(A_uniq times) ?(B_uniq times) //.
  by rewrite ![_ == k]eq_sym ![_ == l]eq_sym; case: (i \in X); case: (j \in Y); case: (k \in X); case: (l \in Y); rewrite ?andbF ?andbT.
rewrite big_mkcond; apply: eq_bigr => i _; case: (boolP (i \in X)) => hi; last first.
  by rewrite big1 // => j _; rewrite big1 // => k _; rewrite big1 // => l _; rewrite am (negbTE hi).
rewrite big_mkcond; apply: eq_bigr => j _; case: (boolP (j \in Y)) => hj; last first.
  by rewrite big1 // => k _; rewrite big1 // => l _; rewrite am (negbTE hj) andbF.
rewrite big_mkcond; apply: eq_bigr => k _; case: (boolP (k \in X)) => hk; last first.
  by rewrite big1 // => l _; rewrite am (negbTE hk) !andbF.
rewrite A_nth; case: (boolP (k == i)) => hki.
  by rewrite big1 // => l _; rewrite am hki !andbF.
rewrite big_mkcond; apply: eq_bigr => l _; rewrite am hi hj hk hki B_nth /=; case: (l \in Y) => //=.
by case: (l == j).
Qed.
Lemma state_ok q : legal2 q -> weight2 q != 0 -> [/\ phist F junk lab nb (M q) (cd q) (c q),
  perm_eq (cd q) (minus B (worm_cd 2 (worm2 q))) & perm_eq (c q) (minus A (worm_c 2 (worm2 q)))].
Proof. by move=> h1 h2; have [? ? ?] := states h1 h2; have [<- <-] := minus_worm q. Qed.
Definition sum2 fs il ilp im X Y := amount legal2 (fun q => pa q) (fun q => pb q) weight2 (fun q => value2 q fs il ilp im) X Y.
Definition all2 X Y := total legal2 (fun q => pa q) (fun q => pb q) weight2 X Y.
Lemma added2E q pr pc fs il ilp im : legal2 q -> weight2 q != 0 -> (il < nl)%N -> (ilp < nl)%N -> (im < n_freq)%N ->
  added2 q pr pc fs [:: il; ilp; im] = theta / val tick beta * (sum2 fs il ilp im (ka q pc) (kb q pr) / all2 (ka q pc) (kb q pr)).
Proof.
move=> hl h0 i1 i2 i3; have [x [y [hx hy hd]]] := runs pr pc hl h0; rewrite /added2 hx.
have [hh pcd pcc] := state_ok hl h0; have [sw uw wA wB] := worm2_ok hl.
have hs1 : `|sign2 q| = 1 by rewrite /sign2 normrM theta1 mul1r normrM normfV normr_id divff // normr_eq0.
have ct := conf_times times sw uw wA wB pcd pcc.
have ip : all (in_beta beta) (cd q ++ c q ++ worm2 q).
  apply/allP => z hz; apply: (allP in_period); rewrite -(perm_mem (conf_perm times sw uw wA wB pcd pcc)) //.
have [l1 l2 [u1 u2]] := lists lab_ok F_blocks (ltn0Sn 1) size_A size_B times sw uw wA wB hh pcd pcc max_2 hx.
have [y' [hy' [e1 e2] e3 e4 _]] := C59_cutoff lab_ok F_blocks (ltn0Sn 1) hh sw (shuffleP pr) (shuffleP pc) hx.
have ey : y' = y by move: hy'; rewrite -/(run2 q pr pc 0) hy => -[].
have [[[z1 z2] _ _ _ _] _] := C59_kept lab_ok F_blocks (ltn0Sn 1) hh sw ct (shuffleP pr) (shuffleP pc) hy'.
rewrite -e1 -e2 in z1 z2.
have [r [-> hr]] := C59_two_particle lab_ok F_blocks hh ct (shuffleP pr) (shuffleP pc) made ip hs1 sw expi n_freq hx hy hd (fun _ _ => 0) f_anti.
rewrite (hr fs il ilp im i1 i2 i3) add0r {hr}.
have emv q' : legal2 q' -> (let: (a, b, c', d) := q' in moved F 2 (cd q) (c q) (worm2 q) [:: ann a; ann c'] [:: cre b; cre d]) = weight2 q' / weight2 q.
  case: q' => [[[a b] c'] d] /andP[n1 n2]; rewrite (movedE _ size_A size_B times sw uw wA wB pcd pcc) // -?weight2E //=.
  - by rewrite inE A_nth n1.
  - by rewrite inE B_nth n2.
  - by move=> z; rewrite !inE => /orP[] /eqP ->; rewrite mem_nth ?size_A.
  - by move=> z; rewrite !inE => /orP[] /eqP ->; rewrite mem_nth ?size_B.
have eN : norm_rho2 F (cd q) (c q) (worm2 q) max x = all2 (ka q pc) (kb q pr) / `|weight2 q|.
  rewrite /norm_rho2 /rho2 (sum_quad (fun za zb zc zd => `|moved F 2 (cd q) (c q) (worm2 q) [:: za; zc] [:: zb; zd]|) z1 z2 u1 u2 l1 l2).
  rewrite /all2 /total mulr_suml; apply: eq_bigr => q' /and3P[hq' _ _]; move/emv: hq'.
  by case: q' => [[[a b] c'] d] ->; rewrite normrM normfV.
rewrite eN /rho2 (sum_quad (fun za zb zc zd => if fs == [:: p_flavor za; p_flavor zb; p_flavor zc; p_flavor zd] then
    sign2 q * moved F 2 (cd q) (c q) (worm2 q) [:: za; zc] [:: zb; zd] / (all2 (ka q pc) (kb q pr) / `|weight2 q| * val tick beta)
    * (f il (elapsed za zb) * sq il) * ((-1) ^+ ilp.+1 * f ilp (elapsed zc zd) * sq ilp) * expi (elapsed za zd) ^+ im else 0) z1 z2 u1 u2 l1 l2).
rewrite [RHS]mulrA [RHS]mulrAC /sum2 /amount mulr_sumr; apply: eq_bigr => q' /and3P[hq' _ _]; move/emv: hq'.
move: (weight2 q') (all2 _ _) => W' T'; case: q' => [[[a b] c'] d] ->; rewrite /value2; case: ifP => _; last by rewrite !mulr0.
have hn : `|weight2 q| != 0 by rewrite normr_eq0.
rewrite /sign2 !invfM invrK; move: h0 hn; set w0 := weight2 q; set n0 := `|w0|; move: (T'^-1) (_^-1 / tick) => Ti bi h0 hn.
rewrite (_ : theta * (w0 / n0) * (W' / w0) * (Ti * n0 * bi) = theta * bi * Ti * W'); last by kfield K; rewrite ?hn ?h0.
by rewrite !mulrA.
Qed.
(** The kept sets *)
Lemma ways2 q X : legal2 q -> weight2 q != 0 ->
  #|[set p : perm | ka q p == X]| = (if (pa q \subset X) && (#|X| == minn (N - 2) (max - 2) + 2)%N then hits (max - 2) (low (N - 2) (max - 2)) else 0%N) /\
  #|[set p : perm | kb q p == X]| = (if (pb q \subset X) && (#|X| == minn (N - 2) (max - 2) + 2)%N then hits (max - 2) (low (N - 2) (max - 2)) else 0%N).
Proof.
move=> hl h0; have [hh pcd pcc] := state_ok hl h0; have [sw uw wA wB] := worm2_ok hl.
have [_ [p1 p2 _ _ _]] := hist_inverse lab_ok F_blocks hh.
have [s1 s2] := size_c size_A size_B times sw uw wA wB pcd pcc.
split; rewrite ways_kept ?size_map ?size_iota ?(A_uniq times) ?(B_uniq times) ?(perm_size p1) ?(perm_size p2) //.
- by apply: perm_trans (all_c times sw uw wA pcc); rewrite perm_cat2r.
- by apply: perm_trans (all_cd times sw uw wB pcd); rewrite perm_cat2r.
Qed.

(** The mean over the configurations with the same operators, each with its weight, and over the shuffles: what the program
    adds is on average the value of the worm of the configuration itself, with the sign of the configuration *)
Theorem C73_two_particle_partial fs il ilp im : (il < nl)%N -> (ilp < nl)%N -> (im < n_freq)%N ->
  \sum_(q | legal2 q) `|weight2 q| * (\sum_(pr : perm) \sum_(pc : perm) added2 q pr pc fs [:: il; ilp; im])
  = \sum_(q | legal2 q) `|weight2 q| * (\sum_(pr : perm) \sum_(pc : perm) sign2 q * value2 q fs il ilp im / val tick beta).
Proof.
move=> i1 i2 i3.
transitivity (theta / val tick beta * \sum_(q | legal2 q) `|weight2 q| * (\sum_(pc : perm) \sum_(pr : perm)
   sum2 fs il ilp im (ka q pc) (kb q pr) / all2 (ka q pc) (kb q pr))).
  rewrite mulr_sumr; apply: eq_bigr => q hq; have [->|h0] := eqVneq (weight2 q) 0; first by rewrite normr0 !mul0r mulr0.
  rewrite mulrCA; congr (_ * _); rewrite exchange_big mulr_sumr; apply: eq_bigr => pc _; rewrite mulr_sumr; apply: eq_bigr => pr _.
  by rewrite added2E.
rewrite (mean (C := hits (max - 2) (low (N - 2) (max - 2))) (m := (minn (N - 2) (max - 2) + 2)%N)); first last.
- by move=> q X h1 h2; have [_ ->] := ways2 X h1 h2.
- by move=> q X h1 h2; have [-> _] := ways2 X h1 h2.
rewrite mulr_sumr; apply: eq_bigr => q hq; rewrite !mulr_sumr; apply: eq_bigr => pc _; rewrite ?mulr_sumr; apply: eq_bigr => pr _.
have [->|h0] := eqVneq (weight2 q) 0; first by rewrite normr0 !mul0r mulr0.
have hn : `|weight2 q| != 0 by rewrite normr_eq0.
rewrite /sign2; move: hn; set n0 := `|_|; move: (value2 _ _ _ _ _) ((val tick beta)^-1) => v vi hn.
by kfield K; rewrite ?hn.
Qed.
(** With all operators kept, all configurations with the same operators give the same *)
Theorem C73_same_partial q q' pr pc pr' pc' fs il ilp im : (N <= max)%N -> legal2 q -> legal2 q' -> weight2 q != 0 -> weight2 q' != 0 ->
  (il < nl)%N -> (ilp < nl)%N -> (im < n_freq)%N ->
  added2 q pr pc fs [:: il; ilp; im] = added2 q' pr' pc' fs [:: il; ilp; im].
Proof.
move=> hm h1 h2 n1 n2 i1 i2 i3; rewrite !added2E //.
have full q0 (p : perm) : legal2 q0 -> weight2 q0 != 0 -> ka q0 p = setT /\ kb q0 p = setT.
  move=> hl h0; have big (X : {set 'I_N}) : #|X| = (minn (N - 2) (max - 2) + 2)%N -> X = setT.
    by move=> e; apply/eqP; rewrite eqEcard subsetT cardsT card_ord e; move: hm; clear; lia.
  have [wa _] := ways2 (ka q0 p) hl h0; have [_ wb] := ways2 (kb q0 p) hl h0.
  have pos (k : perm -> {set 'I_N}) : #|[set p' | k p' == k p]| != 0%N by rewrite cards_eq0; apply/set0Pn; exists p; rewrite inE.
  split; apply: big; apply/eqP.
    by move: (pos (ka q0)); rewrite wa; case: ifP => // /andP[].
  by move: (pos (kb q0)); rewrite wb; case: ifP => // /andP[].
have [a1 _] := full q pc h1 n1; have [_ b1] := full q pr h1 n1; have [a2 _] := full q' pc' h2 n2; have [_ b2] := full q' pr' h2 n2.
by rewrite a1 b1 a2 b2.
Qed.
End G2.

(** ** The hypotheses can be met, whatever the operators are *)
Section Possible.
Variables (K : numFieldType) (F : psi -> psi -> K).
(** random numbers for which the intermediate state has a weight if the configuration has one *)
Definition drawn (R : nat) (i j : nat) : K := ((i == j + R)%N || (j == i + R)%N)%:R.
Lemma drawn_det R cd c w g : known_inverse F cd c g ->
  \det (toM (size c + (R + R)) (size c + (R + R)) (ext_mat F R cd c w 1 (drawn R))) != 0.
Proof.
move=> [sz g1 g2 hg]; have [uA _] := right_inverse hg.
rewrite -ext_block // schur_det //; apply: mulf_neq0; first by rewrite -unitfE -unitmxE.
set B := toM _ _ (ext_B _ _ _ _); set C := toM _ _ (ext_C _ _ _ _); set D := toM _ _ (ext_D _ _ _ _ _); set S := _ *m B.
have hB i (j : 'I_R) : B i (rshift R j) = 0 by rewrite mxE /= ltnNge leq_addr.
have hC (i : 'I_R) j : C (rshift R i) j = 0 by rewrite mxE /= ltnNge leq_addr.
have e : D - S = block_mx (ulsubmx (D - S)) 1%:M 1%:M 0.
  rewrite -{1}[D - S]submxK; congr block_mx; apply/matrixP => i j; rewrite !mxE.
  - rewrite (_ : \sum_k _ = 0) ?subr0; last by apply: big1 => k _; rewrite hB mulr0.
    rewrite /= ltn_ord /= ltnNge leq_addr /= mul1r /drawn (_ : (_ == _)%N = false); last by have := ltn_ord i; apply: contraTF => /eqP ->; rewrite -leqNgt; lia.
    by rewrite orFb [in RHS]eq_sym addnC eqn_add2r -(inj_eq (@ord_inj _)).
  - rewrite (_ : \sum_k _ = 0) ?subr0; last first.
      apply: big1 => k _; rewrite mxE (_ : \sum_l _ = 0) ?mul0r //; apply: big1 => l _; rewrite hC mul0r //.
    rewrite /= ltnNge leq_addr /= mul1r /drawn [X in _ || X](_ : (_ == _)%N = false); last by have := ltn_ord j; apply: contraTF => /eqP ->; rewrite -leqNgt; lia.
    by rewrite orbF addnC eqn_add2r -(inj_eq (@ord_inj _)).
  - rewrite (_ : \sum_k _ = 0) ?subr0; last by apply: big1 => k _; rewrite hB mulr0.
    rewrite /= ltnNge leq_addr /= mul1r /drawn; have := ltn_ord i; have := ltn_ord j => h1 h2.
    by rewrite (_ : _ || _ = false) //; apply/negP => /orP[] /eqP; lia.
rewrite e; move: (ulsubmx _) => X.
have h : block_mx X 1%:M 1%:M 0 *m block_mx 0 1%:M 1%:M (- X) = 1%:M.
  by rewrite mulmx_block !mulmx0 !mul0mx !mulmx1 !mul1mx !addr0 ?add0r subrr -scalar_mx_block.
have := congr1 determinant h; rewrite det_mulmx det1 => hd.
by apply/negP => /eqP h0; move: hd; rewrite h0 mul0r => /eqP; rewrite eq_sym oner_eq0.
Qed.

Variables (junk : nat -> nat -> K) (lab : seq nat) (nb : nat).
Hypothesis lab_ok : all (fun b => b < nb)%N lab.
Hypothesis F_blocks : forall x y, blk lab nb (p_flavor x) != blk lab nb (p_flavor y) -> F x y = 0.
Variables (N : nat) (A B : seq psi).
Hypothesis size_A : size A = N.
Hypothesis size_B : size B = N.
Hypothesis times : uniq (map p_time (B ++ A)).
Hypothesis flavors : all (fun x => p_flavor x < size lab)%N (B ++ A).
Variable max : nat.
Hypothesis max_2 : (2 <= max)%N.
Theorem C73_possible (np : int) (mo : umode) (wk : work K) : exists M : quad N -> pm K, forall q, legal2 q -> weight2 F A B q != 0 ->
  phist F junk lab nb (M q) (minus B (worm2 A B q)) (minus A (worm2 A B q)) /\
  forall pr pc, exists x, run2 F A B M 1 (fun=> drawn 2) max q pr pc 0 = VOk x.
Proof.
have one (q : quad N) : exists M, legal2 q -> weight2 F A B q != 0 -> phist F junk lab nb M (minus B (worm2 A B q)) (minus A (worm2 A B q)).
  have [hl|] := boolP (legal2 q); last by exists (pm0 junk lab nb np mo wk).
  have [h0|h0] := eqVneq (weight2 F A B q) 0; first by exists (pm0 junk lab nb np mo wk).
  have [sw uw wA wB] := worm2_ok size_A size_B times hl; have [e1 e2] := minus_worm size_A size_B times q.
  have [u1 u2] := worm_uniq sw uw.
  have p1 := minus_perm (A_uniq times) u1 wA; have p2 := minus_perm (B_uniq times) u2 wB.
  have s1 : size (minus B (worm2 A B q)) = size (minus A (worm2 A B q)).
    have h1 := perm_size p1; have h2 := perm_size p2; rewrite !size_cat !size_map !size_iota size_A size_B in h1 h2.
    by rewrite e1 e2; apply/eqP; rewrite -(eqn_add2r 2) h1 h2.
  have sub z : z \in minus B (worm2 A B q) ++ minus A (worm2 A B q) -> z \in B ++ A.
    by rewrite !mem_cat !mem_filter => /orP[] /andP[_ ->]; rewrite ?orbT.
  have [||||M _ hM] := @C34_build _ F junk lab nb lab_ok np mo wk (minus B (worm2 A B q)) (minus A (worm2 A B q)).
  - by [].
  - apply: subseq_uniq times; apply: map_subseq; apply: cat_subseq; exact: filter_subseq.
  - by apply/allP => z /sub /(allP flavors).
  - move: h0; rewrite weight2E /weight_of /conf_weight -e1 -e2 mulf_eq0 negb_or => /andP[_].
    rewrite /full_det (_ : hyb_det (within F lab nb) _ _ = hyb_det F (minus B (worm2 A B q)) (minus A (worm2 A B q))) //.
    rewrite /hyb_det; case: eqP => // _; rewrite /detL; congr (\det _).
    apply/matrixP => i j; rewrite !mxE /within; by case: eqP => // /eqP /F_blocks.
  by exists M.
have [M hM] := fin_all_exists one; exists M => q hl h0; have hh := hM q hl h0; split=> // pr pc.
have [sw uw wA wB] := worm2_ok size_A size_B times hl.
have [hk [p1 p2 sp sz nz]] := hist_inverse lab_ok F_blocks hh.
have [hd _] := C59_defined lab_ok F_blocks (ltn0Sn 1) hh sw 1 (drawn 2) (shuffle pr) (shuffle pc) 0 max_2.
apply: hd; have := @drawn_det 2 _ _ (worm2 A B q) _ hk; by rewrite (perm_size p2).
Qed.
End Possible.

(** ** The single-particle Green's function *)
Section G1.
Variables (K : numFieldType) (F : psi -> psi -> K) (junk : nat -> nat -> K) (lab : seq nat) (nb : nat).
Hypothesis lab_ok : all (fun b => b < nb)%N lab.
Hypothesis F_blocks : forall x y, blk lab nb (p_flavor x) != blk lab nb (p_flavor y) -> F x y = 0.
Variables (N : nat) (A B : seq psi).
Hypothesis size_A : size A = N.
Hypothesis size_B : size B = N.
Hypothesis times : uniq (map p_time (B ++ A)).
(** Specification: the worm is c_a c^+_b *)
Definition pair1 : finType := [finType of 'I_N * 'I_N].
Implicit Types q : pair1.
Notation ann i := (nth psi0 A (nat_of_ord i)).
Notation cre i := (nth psi0 B (nat_of_ord i)).
Definition worm1 q : seq psi := [:: ann q.1; cre q.2].
Definition weight1' q : K := conf_weight F (minus B [:: cre q.2]) (minus A [:: ann q.1]) (worm1 q).
Variables (sqrtf : K -> K) (nl : nat) (t : transformer K) (tick : K) (beta : Z).
Hypothesis made : make_transformer sqrtf nl = Some t.
Hypothesis in_period : all (in_beta beta) (B ++ A).
(** no two operators at the same time (the second components of the times only order the operators) *)
Hypothesis apart : forall a b, a \in A -> b \in B -> elapsed a b <> 0%coqZ.
Variable f : nat -> Z -> K.
Hypothesis f_anti : anti tick beta f.
Add Field Kf73a : (kfield_theory K).
Notation sq l := (nth 0 (sqrt_2l_1 t) l).
(** The value of a worm *)
Definition value1 q (fa fc il : nat) : K :=
  if (fa == p_flavor (ann q.1)) && (fc == p_flavor (cre q.2)) then - (sq il * f il (elapsed (ann q.1) (cre q.2))) else 0.
Variables (M : pair1 -> pm K) (cd c : pair1 -> seq psi) (theta : K).
Hypothesis theta1 : `|theta| = 1.
Hypothesis states : forall q, weight1' q != 0 -> [/\ phist F junk lab nb (M q) (cd q) (c q),
  perm_eq (cd q) (minus B [:: cre q.2]) & perm_eq (c q) (minus A [:: ann q.1])].
Definition sign1' q : K := theta * (weight1' q / `|weight1' q|).
Variables (tiny eps : K) (rnd : pair1 -> nat -> nat -> K) (max : nat).
Hypothesis max_1 : (1 <= max)%N.
Notation perm := {perm 'I_(N - 1)}.
Definition run1 q (pr pc : perm) (tol : K) := intermediate F 1 tol eps (rnd q) max (shuffle pr) (shuffle pc) (M q) (worm1 q).
(** nothing is dropped, and no entry of the reduced matrix vanishes unless the weight does *)
Hypothesis runs : forall q pr pc, weight1' q != 0 -> exists x y,
  [/\ run1 q pr pc tiny = VOk x, run1 q pr pc 0 = VOk y, forall i j, me (rm_M x) i j = me (rm_M y) i j &
      forall k l, (k < minn N max)%N -> (l < minn N max)%N -> me (rm_M x) l k = 0 ->
        moved F 1 (cd q) (c q) (worm1 q) [:: nth psi0 (rm_c x) k] [:: nth psi0 (rm_cd x) l] = 0].
Definition added1 q pr pc (fa fc il : nat) : K :=
  if run1 q pr pc tiny is VOk x then
    if perform1 tick beta t (sign1' q) (rm_weight x) (rm_cd x) (rm_c x) (rm_M x) (fun _ _ _ => 0) is inl r then r fa fc il else 0
  else 0.

Notation pa q := (places N A (worm_c 1 (worm1 q))).
Notation pb q := (places N B (worm_cd 1 (worm1 q))).
Notation ka q := (kept N (max - 1) A (pm_c_order (M q)) (worm_c 1 (worm1 q))).
Notation kb q := (kept N (max - 1) B (pm_cd_order (M q)) (worm_cd 1 (worm1 q))).
Lemma worm1_ok q : [/\ size (worm1 q) = (2 * 1)%N, uniq (worm1 q), {subset worm_c 1 (worm1 q) <= A} & {subset worm_cd 1 (worm1 q) <= B}].
Proof.
split=> //=.
- by rewrite inE (AB_nth size_A size_B times).
- by move=> z; rewrite /worm_c /= !inE => /eqP ->; rewrite mem_nth ?size_A.
- by move=> z; rewrite /worm_cd /= !inE => /eqP ->; rewrite mem_nth ?size_B.
Qed.
Lemma sum_pair (G : psi -> psi -> K) m sc sd (X Y : {set 'I_N}) : size sc = m -> size sd = m ->
  perm_eq sc (listed A X) -> perm_eq sd (listed B Y) ->
  \sum_(a < m) \sum_(b < m) G (nth psi0 sc a) (nth psi0 sd b)
  = \sum_(q : pair1 | among predT (fun q => pa q) (fun q => pb q) X Y q) G (ann q.1) (cre q.2).
Proof.
move=> s1 s2 p1 p2.
have one (ops : seq psi) (Z : {set 'I_N}) (i : 'I_N) : uniq ops -> size ops = N -> (places N ops [:: nth psi0 ops i] \subset Z) = (i \in Z).
  move=> u so; apply/subsetP/idP => [h|hi k]; first by apply: h; rewrite !inE.
  by rewrite !inE nth_uniq ?so // => /eqP /ord_inj ->.
transitivity (\sum_(i in X) \sum_(j in Y) G (ann i) (cre j)).
  rewrite -(resum s1 p1 (fun za => \sum_(j in Y) G za (cre j))); apply: eq_bigr => a _.
  by rewrite -(resum s2 p2 (fun zb => G (nth psi0 sc a) zb)).
rewrite pair_big; apply: eq_bigl => q; rewrite /among /worm_c /worm_cd /= !one //; [exact: (B_uniq times)|exact: (A_uniq times)].
Qed.
Definition sum1' fa fc il X Y := amount predT (fun q => pa q) (fun q => pb q) weight1' (fun q => value1 q fa fc il) X Y.
Definition all1 X Y := total predT (fun q => pa q) (fun q => pb q) weight1' X Y.
Lemma added1E q pr pc fa fc il : weight1' q != 0 -> (il < nl)%N ->
  added1 q pr pc fa fc il = theta / val tick beta * (sum1' fa fc il (ka q pc) (kb q pr) / all1 (ka q pc) (kb q pr)).
Proof.
move=> h0 i1; have [x [y [hx hy hd hz]]] := runs pr pc h0; rewrite /added1 hx.
have [hh pcd pcc] := states h0; have [sw uw wA wB] := worm1_ok q.
have hs1 : `|sign1' q| = 1 by rewrite /sign1' normrM theta1 mul1r normrM normfV normr_id divff // normr_eq0.
have ct := conf_times times sw uw wA wB pcd pcc.
have ip : all (in_beta beta) (cd q ++ c q ++ worm1 q).
  apply/allP => z hz'; apply: (allP in_period); rewrite -(perm_mem (conf_perm times sw uw wA wB pcd pcc)) //.
have [l1 l2 [u1 u2]] := lists lab_ok F_blocks (ltn0Sn 0) size_A size_B times sw uw wA wB hh pcd pcc max_1 hx.
have [y' [hy' [e1 e2] e3 e4 _]] := C59_cutoff lab_ok F_blocks (ltn0Sn 0) hh sw (shuffleP pr) (shuffleP pc) hx.
have [[[z1 z2] _ _ _ _] _] := C59_kept lab_ok F_blocks (ltn0Sn 0) hh sw ct (shuffleP pr) (shuffleP pc) hy'.
rewrite -e1 -e2 in z1 z2.
have [sc _] := size_c size_A size_B times sw uw wA wB pcd pcc.
have eN1 : (size (c q) + 1)%N = N by rewrite sc (n_R size_A times sw uw wA pcc).
have hz' : forall k l, (k < minn (size (c q) + 1) max)%N -> (l < minn (size (c q) + 1) max)%N -> me (rm_M x) l k = 0 -> rho F (cd q) (c q) (worm1 q) x k l = 0.
  by rewrite eN1.
have hap : forall a b, a \in c q ++ worm_c 1 (worm1 q) -> b \in cd q ++ worm_cd 1 (worm1 q) -> elapsed a b <> 0%coqZ.
  move=> a b; rewrite (perm_mem (all_c times sw uw wA pcc)) (perm_mem (all_cd times sw uw wB pcd)); exact: apart.
have [r [-> hr]] := C59_green_partial lab_ok F_blocks hh ct (shuffleP pr) (shuffleP pc) made ip hs1 sw hx hy hd hz' (fun _ _ _ => 0) f_anti hap.
rewrite (hr fa fc il i1) add0r {hr}.
have emv q' : moved F 1 (cd q) (c q) (worm1 q) [:: ann q'.1] [:: cre q'.2] = weight1' q' / weight1' q.
  rewrite (movedE _ size_A size_B times sw uw wA wB pcd pcc) //=.
  - by move=> z; rewrite !inE => /eqP ->; rewrite mem_nth ?size_A.
  - by move=> z; rewrite !inE => /eqP ->; rewrite mem_nth ?size_B.
have eN : \sum_(k' < minn (size (c q) + 1) max) \sum_(l' < minn (size (c q) + 1) max) `|rho F (cd q) (c q) (worm1 q) x k' l'| = all1 (ka q pc) (kb q pr) / `|weight1' q|.
  rewrite /rho (sum_pair (fun za zb => `|moved F 1 (cd q) (c q) (worm1 q) [:: za] [:: zb]|) z1 z2 l1 l2).
  by rewrite /all1 /total mulr_suml; apply: eq_bigr => q' _; rewrite emv normrM normfV.
rewrite eN /rho (sum_pair (fun za zb => if (fa == p_flavor za) && (fc == p_flavor zb) then
    - (sign1' q * moved F 1 (cd q) (c q) (worm1 q) [:: za] [:: zb] / (all1 (ka q pc) (kb q pr) / `|weight1' q| * val tick beta)) * sq il * f il (elapsed za zb) else 0) z1 z2 l1 l2).
rewrite [RHS]mulrA [RHS]mulrAC /sum1' /amount mulr_sumr; apply: eq_bigr => q' _; rewrite emv /value1.
case: ifP => _; last by rewrite !mulr0.
move: (weight1' q') (all1 _ _) => W' T'; have hn : `|weight1' q| != 0 by rewrite normr_eq0.
rewrite /sign1'; move: h0 hn; move: (weight1' q) => w0; set n0 := `|w0| => h0 hn; rewrite !invfM invrK; move: (T'^-1) (_^-1 / tick) => Ti bi.
rewrite (_ : theta * (w0 / n0) * (W' / w0) * (Ti * n0 * bi) = theta * bi * Ti * W'); last by kfield K; rewrite ?hn ?h0.
by rewrite !mulNr !mulrN !mulrA.
Qed.
Lemma ways1 q X : weight1' q != 0 ->
  #|[set p : perm | ka q p == X]| = (if (pa q \subset X) && (#|X| == minn (N - 1) (max - 1) + 1)%N then hits (max - 1) (low (N - 1) (max - 1)) else 0%N) /\
  #|[set p : perm | kb q p == X]| = (if (pb q \subset X) && (#|X| == minn (N - 1) (max - 1) + 1)%N then hits (max - 1) (low (N - 1) (max - 1)) else 0%N).
Proof.
move=> h0; have [hh pcd pcc] := states h0; have [sw uw wA wB] := worm1_ok q.
have [_ [p1 p2 _ _ _]] := hist_inverse lab_ok F_blocks hh.
have [s1 s2] := size_c size_A size_B times sw uw wA wB pcd pcc.
split; rewrite ways_kept ?size_map ?size_iota ?(A_uniq times) ?(B_uniq times) ?(perm_size p1) ?(perm_size p2) //.
- by apply: perm_trans (all_c times sw uw wA pcc); rewrite perm_cat2r.
- by apply: perm_trans (all_cd times sw uw wB pcd); rewrite perm_cat2r.
Qed.
Theorem C73_green_partial fa fc il : (il < nl)%N ->
  \sum_q `|weight1' q| * (\sum_(pr : perm) \sum_(pc : perm) added1 q pr pc fa fc il)
  = \sum_q `|weight1' q| * (\sum_(pr : perm) \sum_(pc : perm) sign1' q * value1 q fa fc il / val tick beta).
Proof.
move=> i1.
transitivity (theta / val tick beta * \sum_(q | predT q) `|weight1' q| * (\sum_(pc : perm) \sum_(pr : perm)
   sum1' fa fc il (ka q pc) (kb q pr) / all1 (ka q pc) (kb q pr))).
  rewrite mulr_sumr; apply: eq_bigr => q hq; have [->|h0] := eqVneq (weight1' q) 0; first by rewrite normr0 !mul0r mulr0.
  rewrite mulrCA; congr (_ * _); rewrite exchange_big mulr_sumr; apply: eq_bigr => pc _; rewrite mulr_sumr; apply: eq_bigr => pr _.
  by rewrite added1E.
rewrite (mean (C := hits (max - 1) (low (N - 1) (max - 1))) (m := (minn (N - 1) (max - 1) + 1)%N)); first last.
- by move=> q X _ h2; have [_ ->] := ways1 X h2.
- by move=> q X _ h2; have [-> _] := ways1 X h2.
rewrite mulr_sumr; apply: eq_bigr => q hq; rewrite !mulr_sumr; apply: eq_bigr => pc _; rewrite ?mulr_sumr; apply: eq_bigr => pr _.
have [->|h0] := eqVneq (weight1' q) 0; first by rewrite normr0 !mul0r mulr0.
have hn : `|weight1' q| != 0 by rewrite normr_eq0.
rewrite /sign1'; move: hn; set n0 := `|_|; move: (value1 _ _ _ _) ((val tick beta)^-1) => v vi hn.
by kfield K; rewrite ?hn.
Qed.
End G1.

(** ** Concrete cases *)
Section Instance.
Variable K : numFieldType.
Add Field Kf73i : (kfield_theory K).
(** Four annihilation and four creation operators; three of each are kept *)
Definition fA : seq psi := [seq Psi (OT x 0%coqZ) ANNIHILATION_OP 0%nat | x <- [:: 2; 4; 6; 8]%coqZ].
Definition fB : seq psi := [seq Psi (OT x 0%coqZ) CREATION_OP 0%nat | x <- [:: 1; 3; 5; 7]%coqZ].
Definition fF (x y : psi) : K :=
  if p_flavor x == p_flavor y then (if Z.eqb (ot_time (p_time x) - ot_time (p_time y)) 1 then 2%:R else 1) else 0.
Lemma fF_blocks x y : blk [:: 0%N] 1 (p_flavor x) != blk [:: 0%N] 1 (p_flavor y) -> fF x y = 0.
Proof. by move=> h; rewrite /fF; case: eqP => // e; rewrite e eqxx in h. Qed.
Example C73_instance (sqrtf : K -> K) (junk : nat -> nat -> K) (np : int) (mo : umode) (wk : work K) (expi : Z -> K) :
  exists (M : quad 4 -> pm K) (f : nat -> Z -> K) (t : transformer K),
  let W := weight2 fF fA fB in let q0 : quad 4 := (@Ordinal 4 0 isT, @Ordinal 4 0 isT, @Ordinal 4 1 isT, @Ordinal 4 1 isT) in
  [/\ legal2 q0, W q0 != 0 & forall fs il ilp im, (il < 2)%N -> (ilp < 2)%N -> (im < 3)%N ->
    \sum_(q | legal2 q) `|W q| * (\sum_(pr : {perm 'I_2}) \sum_(pc : {perm 'I_2})
        added2 fF fA fB t 1 10 expi 3 M 1 0 1 (fun=> drawn K 2) 3 q pr pc fs [:: il; ilp; im])
    = \sum_(q | legal2 q) `|W q| * (\sum_(pr : {perm 'I_2}) \sum_(pc : {perm 'I_2})
        sign2 fF fA fB 1 q * value2 fA fB t expi f q fs il ilp im / val 1 10)].
Proof.
have lo : all (fun b => b < 1)%N [:: 0%N] by [].
have tm : uniq (map p_time (fB ++ fA)) by [].
have [M hM] := @C73_possible K fF junk _ 1 lo fF_blocks 4 fA fB erefl erefl tm isT 3 isT np mo wk.
have [f hf] := @anti0_exists K 1 10 erefl; have [t ht] : exists t, make_transformer sqrtf 2 = Some t by eexists.
exists M, f, t; split=> //.
  cbv zeta; rewrite /weight2; set x := minus fB _; set y := minus fA _.
  have -> : x = [seq Psi (OT z 0%coqZ) CREATION_OP 0%nat | z <- [:: 5; 7]%coqZ] by vm_compute.
  have -> : y = [seq Psi (OT z 0%coqZ) ANNIHILATION_OP 0%nat | z <- [:: 6; 8]%coqZ] by vm_compute.
  rewrite /conf_weight; move: (_ == Some true) => b; apply: mulf_neq0; first by case: b; rewrite ?oppr_eq0 oner_eq0.
  rewrite /hyb_det [size _]/= [size _]/= eqxx.
  set u := tsort _; set v := tsort _.
  have -> : u = [seq Psi (OT z 0%coqZ) ANNIHILATION_OP 0%nat | z <- [:: 6; 8]%coqZ] by vm_compute.
  have -> : v = [seq Psi (OT z 0%coqZ) CREATION_OP 0%nat | z <- [:: 5; 7]%coqZ] by vm_compute.
  rewrite /detL (expand_det_row _ ord0) !big_ord_recl big_ord0 addr0 /cofactor !det_mx11 !mxE /fF /=.
  rewrite (_ : (0 + bump 0 0)%N = 1%N) // addn0 expr0 expr1.
  have -> : 2%:R * (1 * 2%:R) + 1 * (-1 * 1) = 3%:R :> K by rewrite !mul1r mulr1 -natrM -[X in _ - X]mulr1n -natrB.
  by rewrite pnatr_eq0.
move=> fs il ilp im h1 h2 h3.
pose cd q := minus fB (worm2 fA fB (N := 4) q); pose c q := minus fA (worm2 fA fB (N := 4) q).
have st q : legal2 q -> weight2 fF fA fB q != 0 -> [/\ phist fF junk [:: 0%N] 1 (M q) (cd q) (c q), perm_eq (cd q) (minus fB (worm2 fA fB q)) & perm_eq (c q) (minus fA (worm2 fA fB q))].
  by move=> hl hw; have [h _] := hM q hl hw; split; [exact: h|exact: perm_refl|exact: perm_refl].
have rn q pr pc : legal2 q -> weight2 fF fA fB q != 0 -> exists x y,
    [/\ run2 fF fA fB M 1 (fun=> drawn K 2) 3 q pr pc 0 = VOk x, run2 fF fA fB M 1 (fun=> drawn K 2) 3 q pr pc 0 = VOk y & forall i j, me (rm_M x) i j = me (rm_M y) i j].
  by move=> hl hw; have [_ /(_ pr pc) [x hx]] := hM q hl hw; exists x, x.
have ip : all (in_beta 10) (fB ++ fA) by [].
have mx : (2 <= 3)%N by [].
have := C73_two_particle_partial lo fF_blocks (erefl : size fA = 4%N) (erefl : size fB = 4%N) tm ht ip expi hf (normr1 _) st mx rn fs h1 h2 h3.
by [].

Qed.

(** Two annihilation and two creation operators *)
Definition gA : seq psi := [:: ey1; ewc].
Definition gB : seq psi := [:: ex1; ewcd].
Definition three (i j : nat) : K := if (i == 1%N) && (j == 1%N) then 3%:R else 1.
Lemma det_three (a b c d : K) :
  \det (\matrix_(i < 1 + 2, j < 1 + 2) nth 0 (nth [::] [:: [:: a; b; 0]; [:: c; d; 1]; [:: 0; 1; 3%:R]] i) j) = a * (d * 3%:R - 1) - b * (c * 3%:R).
Proof.
rewrite (expand_det_row _ ord0) !big_ord_recl big_ord0 /cofactor.
rewrite !(expand_det_row _ ord0) !big_ord_recl !big_ord0 /cofactor !det_mx11 !mxE /=.
by rewrite ?expr0 ?expr1 ?sqrrN ?expr1n; kring K.
Qed.
Lemma no_zero (a b c d : K) (x : 'M[K]_(1 + 2)) (i j : 'I_(1 + 2)) : a != 0 -> b != 0 -> c != 0 -> 1 - 3%:R * d != 0 ->
  (\matrix_(i < 1 + 2, j < 1 + 2) nth 0 (nth [::] [:: [:: a; b; 0]; [:: c; d; 1]; [:: 0; 1; 3%:R]] i) j) *m x = 1%:M -> (i < 2)%N -> (j < 2)%N -> x i j != 0.
Proof.
move=> ha hb hc hd e; set i0 := lshift 2 ord0 : 'I_(1 + 2); set i1 := rshift 1 ord0 : 'I_(1 + 2); set i2 := rshift 1 (lift ord0 ord0) : 'I_(1 + 2).
have sp (k : 'I_(1 + 2)) : (k < 2)%N -> k = i0 \/ k = i1 by case: k => [[|[|k]] hk] // _; [left|right]; apply: ord_inj.
have eq (k l : 'I_(1 + 2)) : nth 0 (nth [::] [:: [:: a; b; 0]; [:: c; d; 1]; [:: 0; 1; 3%:R]] k) 0 * x i0 l
   + (nth 0 (nth [::] [:: [:: a; b; 0]; [:: c; d; 1]; [:: 0; 1; 3%:R]] k) 1 * x i1 l + nth 0 (nth [::] [:: [:: a; b; 0]; [:: c; d; 1]; [:: 0; 1; 3%:R]] k) 2 * x i2 l) = (k == l)%:R.
  have := congr1 (fun y : 'M[K]_(1 + 2) => y k l) e; rewrite !mxE !big_ord_recl big_ord0 addr0 !mxE /= => <-.
  by congr (_ * x _ _ + (_ * x _ _ + _ * x _ _)); apply: ord_inj.
move=> /sp hi /sp hj; apply/negP => /eqP z.
have o : 1 <> 0 :> K by apply/eqP; exact: oner_neq0.
have := eq i2 j; have := eq i1 j; have := eq i0 j; rewrite /= !mul0r ?mul1r ?add0r ?addr0.
have -> : (i2 == j)%:R = 0 :> K by case: hj => ->.
move: hi hj z => [] -> [] ->; rewrite ?eqxx => ->; rewrite ?mulr0 ?add0r ?addr0 /= ?mulr0n ?mulr1n.
- move=> h1 h2 h3; have e1 : x i1 i0 = - (3%:R * x i2 i0) by apply/eqP; rewrite -subr_eq0 opprK h3.
  have : (1 - 3%:R * d) * x i2 i0 = 0 by rewrite -h2 e1; kring K.
  move/eqP; rewrite mulf_eq0 (negbTE hd) => /eqP e2; apply: o; rewrite -h1 e1 e2 mulr0 oppr0 mulr0 //.
- move=> h1 h2 h3; have e1 : x i1 i1 = 0 by move/eqP: h1; rewrite mulf_eq0 (negbTE hb) => /eqP.
  move: h3 h2; rewrite e1 add0r mulr0 add0r => /eqP; rewrite mulf_eq0 pnatr_eq0 /= => /eqP -> h; exact: o (esym h).
- move=> h1 h2 /eqP; rewrite mulf_eq0 pnatr_eq0 /= => /eqP e2; move: h2; rewrite e2 addr0 => /eqP; rewrite mulf_eq0 (negbTE hc) /= => /eqP e1.
  by apply: o; rewrite -h1 e1 mulr0.
- move=> /eqP; rewrite mulf_eq0 (negbTE ha) /= => /eqP e1 h2 /eqP; rewrite mulf_eq0 pnatr_eq0 /= => /eqP e2.
  by apply: o; rewrite -h2 e1 e2 mulr0 addr0.
Qed.
Lemma eF_nz (x y : psi) : p_flavor x = p_flavor y -> eF K x y != 0 /\ 1 - 3%:R * eF K x y != 0.
Proof.
move=> e; rewrite /eF e eqxx; case: ifP => _; split; rewrite ?pnatr_eq0 ?oner_eq0 //.
  by rewrite -natrM subr_eq0 eq_sym (eqr_nat K 6 1).
by rewrite mulr1 subr_eq0 eq_sym (eqr_nat K 3 1).
Qed.
Example C73_instance_green (sqrtf : K -> K) (junk : nat -> nat -> K) (np : int) (mo : umode) (wk : work K) :
  exists (M : pair1 2 -> pm K) (f : nat -> Z -> K) (t : transformer K),
  let W := weight1' (eF K) gA gB (N := 2) in
  (forall q, W q != 0) /\ forall fa fc il, (il < 2)%N ->
    \sum_q `|W q| * (\sum_(pr : {perm 'I_1}) \sum_(pc : {perm 'I_1}) added1 (eF K) gA gB t 1 5 M 1 0 1 (fun=> three) 10 q pr pc fa fc il)
    = \sum_q `|W q| * (\sum_(pr : {perm 'I_1}) \sum_(pc : {perm 'I_1}) sign1' (eF K) gA gB 1 q * value1 gA gB t f q fa fc il / val 1 5).
Proof.
have lo : all (fun b => b < 1)%N [:: 0%N] by [].
have tm : uniq (map p_time (gB ++ gA)) by [].
pose oth (s : seq psi) (i : 'I_2) := nth psi0 s (1 - i).
have mA (i : 'I_2) : minus gA [:: nth psi0 gA i] = [:: oth gA i] by case: i => [[|[|i]] hi].
have mB (i : 'I_2) : minus gB [:: nth psi0 gB i] = [:: oth gB i] by case: i => [[|[|i]] hi].
have fl (i j : 'I_2) : [/\ p_flavor (nth psi0 gA i) = 0%N, p_flavor (oth gA i) = 0%N, p_flavor (nth psi0 gB j) = 0%N & p_flavor (oth gB j) = 0%N].
  by case: i => [[|[|i]] hi] //; case: j => [[|[|j]] hj].
have nz (i j : 'I_2) : hyb_det (eF K) [:: oth gB j] [:: oth gA i] != 0.
  have [_ f1 _ f2] := fl i j; rewrite /hyb_det /= /detL det_mx11 !mxE /=; have [h _] := @eF_nz (oth gA i) (oth gB j) (etrans f1 (esym f2)); exact: h.
have wn q : weight1' (eF K) gA gB (N := 2) q != 0.
  rewrite /weight1' mA mB /conf_weight; move: (_ == Some true) => b; apply: mulf_neq0; first by case: b; rewrite ?oppr_eq0 oner_eq0.
  exact: nz.
have one (q : pair1 2) : exists M, phist (eF K) junk [:: 0%N] 1 M (minus gB [:: nth psi0 gB q.2]) (minus gA [:: nth psi0 gA q.1]).
  have [_ f1 _ f2] := fl q.1 q.2.
  rewrite mA mB; have [||||M _ hM] := @C34_build _ (eF K) junk _ 1 lo np mo wk [:: oth gB q.2] [:: oth gA q.1]; last by exists M.
  - by [].
  - by case: q {f1 f2} => [[[|[|i]] hi] [[|[|j]] hj]].
  - by rewrite /= /flavor_known f1 f2.
  - rewrite /full_det (_ : hyb_det _ _ _ = hyb_det (eF K) [:: oth gB q.2] [:: oth gA q.1]) ?nz //.
    rewrite /hyb_det; case: eqP => // _; rewrite /detL; congr (\det _); apply/matrixP => i j; rewrite !mxE /within; by case: eqP => // /eqP /(@eF_blocks K).
have [M hM] := fin_all_exists one.
have [f hf] := @anti_exists K 1 5 erefl; have [t ht] : exists t, make_transformer sqrtf 2 = Some t by eexists.
exists M, f, t; split=> [|fa fc il hl]; first exact: wn.
pose cd (q : pair1 2) := minus gB [:: nth psi0 gB q.2]; pose c (q : pair1 2) := minus gA [:: nth psi0 gA q.1].
have st q : weight1' (eF K) gA gB q != 0 -> [/\ phist (eF K) junk [:: 0%N] 1 (M q) (cd q) (c q), perm_eq (cd q) (minus gB [:: nth psi0 gB q.2]) & perm_eq (c q) (minus gA [:: nth psi0 gA q.1])].
  by move=> _; split; [exact: hM|exact: perm_refl|exact: perm_refl].
have rn q pr pc : weight1' (eF K) gA gB q != 0 -> exists x y,
    [/\ run1 (eF K) gA gB M 1 (fun=> three) 10 q pr pc 0 = VOk x, run1 (eF K) gA gB M 1 (fun=> three) 10 q pr pc 0 = VOk y,
     forall i j, me (rm_M x) i j = me (rm_M y) i j & forall k l, (k < minn 2 10)%N -> (l < minn 2 10)%N -> me (rm_M x) l k = 0 ->
        moved (eF K) 1 (cd q) (c q) (worm1 gA gB q) [:: nth psi0 (rm_c x) k] [:: nth psi0 (rm_cd x) l] = 0].
  move=> _; have [hk [p1 p2 sp sz _]] := hist_inverse lo (@eF_blocks K) (hM q).
  have o1 : pm_cd_order (M q) = [:: oth gB q.2] by apply/perm_small_eq; rewrite // mB in p1 *.
  have o2 : pm_c_order (M q) = [:: oth gA q.1] by apply/perm_small_eq; rewrite // mA in p2 *.
  pose h := oth gA q.1; pose h' := oth gB q.2; pose v := nth psi0 gA q.1; pose v' := nth psi0 gB q.2.
  have [f1 f2 f3 f4] := fl q.1 q.2; rewrite -/h -/h' -/v -/v' in f1 f2 f3 f4.
  have [ha _] := @eF_nz h h' (etrans f2 (esym f4)); have [hb _] := @eF_nz h v' (etrans f2 (esym f3)).
  have [hc _] := @eF_nz v h' (etrans f1 (esym f4)); have [_ hd] := @eF_nz v v' (etrans f1 (esym f3)).
  have eE : toM (1 + (1 + 1)) (1 + (1 + 1)) (ext_mat (eF K) 1 [:: h'] [:: h] (worm1 gA gB q) 1 three)
     = \matrix_(i < 1 + 2, j < 1 + 2) nth 0 (nth [::] [:: [:: eF K h h'; eF K h v'; 0]; [:: eF K v h'; eF K v v'; 1]; [:: 0; 1; 3%:R]] i) j.
    apply/matrixP => i j; rewrite !mxE /=; case: i => [[|[|[|i]]] hi]; case: j => [[|[|[|j]]] hj] //=; by rewrite /three /= ?mul1r.
  have dE : \det (toM (1 + (1 + 1)) (1 + (1 + 1)) (ext_mat (eF K) 1 [:: h'] [:: h] (worm1 gA gB q) 1 three)) != 0.
    rewrite eE det_three /h /h' /v /v' /oth; case: (q) => [[[|[|i]] hi] [[|[|j]] hj]] //; rewrite /eF /= ?mul1r ?mulr1 -?natrM.
    - by rewrite -addrA -opprD -[X in X + 3%:R]mulr1n -natrD subr_eq0 eqr_nat.
    - by rewrite -addrA -opprD -[X in X + (2 * 3)%:R]mulr1n -natrD subr_eq0 eqr_nat.
    - by rewrite -addrA -opprD -[X in X + (2 * 3)%:R]mulr1n -natrD subr_eq0 eqr_nat.
    - by rewrite mulrBr mulr1 -natrM -addrA -opprD -natrD subr_eq0 eqr_nat.
  have [_] := extendE (worm1 gA gB q) 1 three (ltn0Sn 0) hk; cbv zeta; rewrite o1 o2 => /(_ dE) [X hX [x1 x2 eX]].
  have hr p p' : run1 (eF K) gA gB M 1 (fun=> three) 10 q p p' 0 = VOk (Removal (with_cd 1 [:: h'] (worm1 gA gB q)) (with_c 1 [:: h] (worm1 gA gB q)) (cutoff 0 X) (\det (toM (1 + (1 + 1)) (1 + (1 + 1)) (ext_mat (eF K) 1 [:: h'] [:: h] (worm1 gA gB q) 1 three)) / detL psi0 psi0 (eF K) 1 [:: h] [:: h'])).
    by rewrite /run1 /intermediate o1 o2 hX /= /reduce sp mA.
  eexists; eexists; split; [exact: hr|exact: hr|by []|]; cbn [rm_M] => k l hkk hll; rewrite cutoff0 => z; exfalso.
  have k2 : (k < 2)%N := hkk; have l2 : (l < 2)%N := hll.
  have h1 : (k < 1 + 2)%N := ltn_trans k2 (ltnSn 2).
  have h2 : (l < 1 + 2)%N := ltn_trans l2 (ltnSn 2).
  rewrite eE in eX; have := @no_zero _ _ _ _ _ (Ordinal h2) (Ordinal h1) ha hb hc hd eX; rewrite /= mxE /= z eqxx => h0.
  by have := h0 l2 k2.
have ip : all (in_beta 5) (gB ++ gA) by [].
have ap a b : a \in gA -> b \in gB -> elapsed a b <> 0%coqZ.
  by rewrite !inE => /orP[] /eqP -> /orP[] /eqP ->.
have mx : (1 <= 10)%N by [].
have := C73_green_partial lo (@eF_blocks K) (erefl : size gA = 2%N) (erefl : size gB = 2%N) tm ht ip ap hf (normr1 _) st mx rn fa fc hl.
by [].
Qed.
End Instance.

Print Assumptions C73_possible.
Print Assumptions C73_two_particle_partial.
Print Assumptions C73_same_partial.
Print Assumptions C73_green_partial.
