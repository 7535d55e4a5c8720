(** * C32, C33: the matrix of one block and its updates *)
From Coq Require Import ZArith List Sorting.Permutation Sorting.Sorted.
From mathcomp Require Import all_ssreflect all_fingroup all_algebra zify.
From Verif Require Import OpContainer CombSort T_PermSign Dist Proposal HybDet EigenBasis T_EigenBasis FastUpdate T_FastUpdate DetMatrix.
Import Order.Theory GRing.Theory Num.Theory.
Set Implicit Arguments.
Unset Strict Implicit.
Unset Printing Implicit Defensive.
Local Close Scope Z_scope.
Local Open Scope nat_scope.
Local Open Scope ring_scope.

Local Arguments pop_op : simpl never.
Local Arguments push_op : simpl never.

(** ** Inversions of the times *)
Definition ninv (s : seq psi) : nat := inv ot_lt (map p_time s).
Lemma natoddE m : Nat.odd m = odd m. Proof. by elim: m => // m IH; rewrite Nat.odd_succ -Nat.negb_odd IH. Qed.
Lemma count_ltE t (s : seq optime) : count_lt ot_lt t s = count (fun u => ot_lt u t) s.
Proof. by rewrite /count_lt; elim: s => //= x s IH; case: (ot_lt x t) => /=; rewrite IH. Qed.
Lemma inv_rcons (s : seq optime) t : inv ot_lt (rcons s t) = (inv ot_lt s + count (ot_lt t) s)%N.
Proof.
by elim: s => [|x s IH] //=; rewrite IH !count_ltE -cats1 count_cat /= addn0; lia.
Qed.
Lemma ninv_rcons s x : ninv (rcons s x) = (ninv s + count (fun y => ot_lt (p_time x) (p_time y)) s)%N.
Proof. by rewrite /ninv map_rcons inv_rcons count_map. Qed.
Lemma ninv_nil : ninv [::] = 0%N. Proof. by []. Qed.

Lemma ninv_adj k s s' : uniq (map p_time s) -> adj k s s' -> odd (ninv s') = odd k (+) odd (ninv s).
Proof.
move=> u h; have nd : NoDup (map p_time s) by apply/NoDup_uniq.
have := adj_parity ot_lt k _ _ ot_lt_flip nd (map_adj p_time h).
by rewrite -!natoddE => ->; case: Nat.odd; case: Nat.odd.
Qed.
Lemma adj_tsort s : uniq (map p_time s) -> exists2 k, adj k s (tsort s) & odd k = odd (ninv s).
Proof.
move=> u; have [k h] := perm_adj s (tsort s) (perm_eq_Permutation (perm_tsort s)).
exists k => //; have := ninv_adj u h; rewrite /ninv tsort_inv => /esym/eqP.
by rewrite addbC; case: odd; case: odd.
Qed.

Lemma nth_swapl a b s i : (i < size s)%N -> nth psi0 (swapl a b s) i = nth psi0 s (swapn a b i).
Proof. by move=> h; rewrite nth_mkseq. Qed.
Lemma size_swapl a b s : size (swapl a b s) = size s. Proof. exact: size_mkseq. Qed.
Lemma swapnC a b i : swapn a b i = swapn b a i.
Proof. by rewrite /swapn; case: (eqVneq i a) => [->|]; case: eqVneq => // ->. Qed.
Lemma swapnK a b : involutive (swapn a b).
Proof. move=> i; rewrite /swapn; do ![case: eqP => //; try congruence]. Qed.
Lemma swaplC a b s : swapl a b s = swapl b a s. Proof. by apply/eq_mkseq => i; rewrite swapnC. Qed.
Lemma swapl_id a s : swapl a a s = s.
Proof.
rewrite /swapl (eq_mkseq (g := nth psi0 s)) ?mkseq_nth // => i; rewrite /swapn.
by case: (eqVneq i a) => [->|].
Qed.
Lemma swapl_shape i j s : (i < j)%N -> (j < size s)%N ->
  exists a x m y b, [/\ s = a ++ x :: m ++ y :: b, size a = i, (size a + (size m).+1)%N = j & swapl i j s = a ++ y :: m ++ x :: b].
Proof.
move=> h1 h2; exists (take i s), (nth psi0 s i), (take (j - i.+1) (drop i.+1 s)), (nth psi0 s j), (drop j.+1 s).
have sa : size (take i s) = i by rewrite size_takel //; lia.
have sm : size (take (j - i.+1) (drop i.+1 s)) = (j - i.+1)%N by rewrite size_takel // size_drop; lia.
have e1 : s = take i s ++ nth psi0 s i :: drop i.+1 s by rewrite -drop_nth ?cat_take_drop //; lia.
have e2 : drop i.+1 s = take (j - i.+1) (drop i.+1 s) ++ nth psi0 s j :: drop j.+1 s.
  rewrite -[LHS](cat_take_drop (j - i.+1)); congr (_ ++ _); rewrite drop_drop.
  by rewrite subnK // -drop_nth.
split; [by rewrite -e2|by []|by rewrite sa sm; lia|].
apply: (@eq_from_nth _ psi0).
  by rewrite size_swapl size_cat sa /= size_cat sm /= size_drop; lia.
move=> k; rewrite size_swapl => hk; rewrite nth_swapl // /swapn nth_cat sa.
case: (eqVneq k i) => [->|n1]; first by rewrite ltnn subnn.
case: (eqVneq k j) => [->|n2].
  rewrite ifF; last lia.
  by rewrite (_ : (j - i)%N = (j - i.+1).+1) /= ?nth_cat ?sm ?ltnn ?subnn //; lia.
case: ltnP => h3; first by rewrite nth_take.
have -> : (k - i)%N = (k - i.+1).+1 by lia.
rewrite /= nth_cat sm; case: ltnP => h4; first by rewrite nth_take // nth_drop; congr nth; lia.
have -> : (k - i.+1 - (j - i.+1))%N = (k - j.+1).+1 by lia.
by rewrite /= nth_drop; congr nth; lia.
Qed.
Lemma perm_swapl a b s : (a < size s)%N -> (b < size s)%N -> perm_eq (swapl a b s) s.
Proof.
wlog h : a b / (a < b)%N.
  move=> H; case: (ltngtP a b) => [h|h|->]; [exact: H|by rewrite swaplC => ? ?; apply: H|by rewrite swapl_id].
move=> _ hb; have [u [x [m [y [v [-> _ _ ->]]]]]] := swapl_shape h hb.
rewrite perm_cat2l; apply/seq.permP => p; rewrite /= !count_cat /=; lia.
Qed.
Lemma ninv_swapl a b s : uniq (map p_time s) -> (a < size s)%N -> (b < size s)%N -> a != b ->
  odd (ninv (swapl a b s)) = ~~ odd (ninv s).
Proof.
wlog h : a b / (a < b)%N.
  move=> H u ha hb n; case: (ltngtP a b) => [h|h|e]; [exact: H|by rewrite swaplC; apply: H => //; rewrite eq_sym|by rewrite e eqxx in n].
move=> us _ hb _; have [u [x [m [y [v [e _ _ ->]]]]]] := swapl_shape h hb.
have h1 : adj (size m).+1 s (u ++ m ++ y :: x :: v).
  have := @adj_move _ u (rcons m y) x; rewrite size_rcons => h1.
  have {}h1 : adj (size m).+1 ((u ++ x :: rcons m y) ++ v) ((u ++ rcons (rcons m y) x) ++ v).
    elim: h1 => [l|k l a1 x1 y1 b1 _ IH]; first exact: adj_refl.
    by move: IH; rewrite !app_cat -!catA /= -!app_cat; exact: adj_step.
  by move: h1; rewrite -!catA /= !cat_rcons e.
have h2 : adj (size m) (u ++ y :: m ++ x :: v) (u ++ m ++ y :: x :: v).
  have h2 := @adj_move _ u m y.
  have {}h2 : adj (size m) ((u ++ y :: m) ++ x :: v) ((u ++ rcons m y) ++ x :: v).
    elim: h2 => [l|k l a1 x1 y1 b1 _ IH]; first exact: adj_refl.
    by move: IH; rewrite !app_cat -!catA /= -!app_cat; exact: adj_step.
  by move: h2; rewrite -!catA /= cat_rcons.
have u2 : uniq (map p_time (u ++ y :: m ++ x :: v)).
  move: us; rewrite e !map_cat /= !map_cat /=; apply: etrans; apply: perm_uniq; rewrite perm_cat2l.
  by apply/seq.permP => p; rewrite /= !count_cat /=; lia.
have := ninv_adj us h1; rewrite (ninv_adj u2 h2) /=.
by case: odd; case: odd; case: odd.
Qed.

(** ** Maps and sets *)
Section Side.
Implicit Types (s : side) (m : posmap) (t : optime) (x y : psi).

Definition pos_ok m (ops : seq psi) : Prop :=
  uniq (unzip1 m) /\ forall t i, ((t, i) \in m) = (i < size ops)%N && (p_time (nth psi0 ops i) == t).
Definition set_ok (l : container) (ops : seq psi) : Prop := csorted l /\ l =i ops.

Lemma perase_mem t m u i : ((u, i) \in perase t m) = (u != t) && ((u, i) \in m).
Proof. by rewrite mem_filter. Qed.
Lemma perase_uniq t m : uniq (unzip1 m) -> uniq (unzip1 (perase t m)).
Proof. by move=> h; apply: subseq_uniq h; apply: map_subseq; exact: filter_subseq. Qed.
Lemma pset_mem t j m u i : ((u, i) \in pset t j m) = if u == t then i == j else (u, i) \in m.
Proof. by rewrite inE perase_mem xpair_eqE; case: (eqVneq u t) => [->|] //=; rewrite ?orbF ?andbT. Qed.
Lemma pset_uniq t j m : uniq (unzip1 m) -> uniq (unzip1 (pset t j m)).
Proof.
move=> h; rewrite /= perase_uniq // andbT; apply/mapP => -[[u i]]; rewrite perase_mem /= => /andP[n _] e.
by rewrite e eqxx in n.
Qed.
Lemma pfindP t m : uniq (unzip1 m) -> forall i, (pfind t m == Some i) = ((t, i) \in m).
Proof.
elim: m => [|[u j] m IH] //= /andP[nu um] i; rewrite inE xpair_eqE -[ot_eqb u t]/(u == t) [t == u]eq_sym.
case: (eqVneq u t) => [e|] /=; last by rewrite IH.
rewrite e in nu; have -> : ((t, i) \in m) = false by apply/negP => h; case/negP: nu; apply/mapP; exists (t, i).
by rewrite orbF /eq_op /= eq_sym.
Qed.
Lemma pfind_none t m : (pfind t m == None) = (t \notin unzip1 m).
Proof.
elim: m => [|[u j] m IH] //=; rewrite inE -[ot_eqb u t]/(u == t) [t == u]eq_sym.
by case: (eqVneq u t).
Qed.

Lemma perm_pos m ops : uniq (map p_time ops) -> pos_ok m ops -> perm_eq m (zip (map p_time ops) (iota 0 (size ops))).
Proof.
move=> u [um hm]; apply: uniq_perm; first exact: (map_uniq um).
  by apply: (@map_uniq _ _ fst); rewrite -/(unzip1 _) unzip1_zip // size_map size_iota.
move=> [t i]; rewrite hm; apply/andP/(nthP (p_time psi0, 0%N)) => [[h1 /eqP h2]|[j]].
  exists i; first by rewrite size_zip size_map size_iota minnn.
  by rewrite nth_zip ?size_map ?size_iota // (nth_map psi0) // nth_iota // h2.
rewrite size_zip size_map size_iota minnn => hj; rewrite nth_zip ?size_map ?size_iota // (nth_map psi0) // nth_iota //.
by rewrite add0n => -[<- <-]; rewrite eqxx.
Qed.
Lemma pos_keys m ops : uniq (map p_time ops) -> pos_ok m ops -> perm_eq (unzip1 m) (map p_time ops).
Proof. by move=> u h; have := perm_map fst (perm_pos u h); rewrite -/(unzip1 (zip _ _)) unzip1_zip // size_map size_iota. Qed.
Lemma pos_size m ops : uniq (map p_time ops) -> pos_ok m ops -> size m = size ops.
Proof. by move=> u h; have := perm_size (pos_keys u h); rewrite !size_map. Qed.
Lemma pgeE m ops t : uniq (map p_time ops) -> pos_ok m ops -> pge t m = count (fun x => ~~ ot_lt (p_time x) t) ops.
Proof.
move=> u h; rewrite /pge -(count_map fst (fun u => ~~ ot_lt u t)) (seq.permP (pos_keys u h)) count_map //.
Qed.
Lemma pfind_in m ops x : uniq (map p_time ops) -> pos_ok m ops -> x \in ops -> pfind (p_time x) m = Some (index x ops).
Proof.
move=> u h hx; apply/eqP; rewrite pfindP; last by case: h.
by have [_ ->] := h; rewrite index_mem hx nth_index // eqxx.
Qed.
Lemma pfind_isSome m ops t : uniq (map p_time ops) -> pos_ok m ops -> isSome (pfind t m) = (t \in map p_time ops).
Proof. by move=> u h; rewrite -(perm_mem (pos_keys u h)) -[RHS]negbK -pfind_none; case: pfind. Qed.

Lemma pos_swap m ops a b : uniq (map p_time ops) -> pos_ok m ops -> (a < size ops)%N -> (b < size ops)%N -> a != b ->
  pos_ok (pset (p_time (nth psi0 ops b)) a (pset (p_time (nth psi0 ops a)) b m)) (swapl a b ops).
Proof.
move=> u [um hm] ha hb nab; split; first by apply/pset_uniq/pset_uniq.
have inj i j : (i < size ops)%N -> (j < size ops)%N -> (p_time (nth psi0 ops i) == p_time (nth psi0 ops j)) = (i == j).
  by move=> hi hj; rewrite -!(nth_map psi0 (p_time psi0)) // nth_uniq ?size_map.
move=> t i; rewrite !pset_mem hm size_swapl.
case: (ltnP i (size ops)) => hi /=; last first.
  by have [h1 h2] : (i == a) = false /\ (i == b) = false; [lia|rewrite h1 h2; case: ifP => //; case: ifP].
rewrite nth_swapl // /swapn.
case: (eqVneq t (p_time (nth psi0 ops b))) => [->|n1].
  case: (eqVneq i a) => [_|n2]; first by rewrite eqxx.
  by case: (eqVneq i b) => [_|n3]; rewrite inj // ?(negbTE nab) ?(negbTE n3).
case: (eqVneq t (p_time (nth psi0 ops a))) => [->|n2].
  case: (eqVneq i b) => [->|n3]; first by rewrite [b == a]eq_sym (negbTE nab) eqxx.
  by case: (eqVneq i a) => [_|n4]; rewrite inj // ?(negbTE n4) // [b == a]eq_sym (negbTE nab).
case: (eqVneq i a) => [->|_]; first by rewrite [_ == t]eq_sym (negbTE n2) [_ == t]eq_sym (negbTE n1).
by case: (eqVneq i b) => [->|_]; rewrite // [_ == t]eq_sym (negbTE n1) [_ == t]eq_sym (negbTE n2).
Qed.
Lemma pos_rcons m ops x : pos_ok m ops -> p_time x \notin map p_time ops ->
  pinsert (p_time x) (size ops) m = ((p_time x, size ops) :: m, true) /\ pos_ok ((p_time x, size ops) :: m) (rcons ops x).
Proof.
move=> [um hm] hx.
have nk : p_time x \notin unzip1 m.
  apply/negP => /mapP[[t i]]; rewrite hm => /andP[hi /eqP e1] /= e2; case/negP: hx; apply/mapP; exists (nth psi0 ops i).
    exact: mem_nth.
  by rewrite e1.
split; first by rewrite /pinsert; have := pfind_none (p_time x) m; rewrite nk; case: pfind.
split; first by rewrite /= nk.
move=> t i; rewrite inE xpair_eqE hm size_rcons ltnS nth_rcons; case: ltngtP => hi /=.
- by rewrite andbF.
- by rewrite andbF.
- by rewrite andbT orbF eq_sym.
Qed.
Lemma pos_pop m ops x : pos_ok m (rcons ops x) -> uniq (map p_time (rcons ops x)) -> pos_ok (perase (p_time x) m) ops.
Proof.
move=> [um hm]; rewrite map_rcons rcons_uniq => /andP[hx u]; split; first exact: perase_uniq.
move=> t i; rewrite perase_mem hm size_rcons ltnS nth_rcons; case: ltngtP => hi /=; rewrite ?andbF //.
  case: (eqVneq t (p_time x)) => [->|] //=; apply/esym/negP => /eqP e; case/negP: hx; apply/mapP.
  by exists (nth psi0 ops i) => //; exact: mem_nth.
by rewrite eq_sym andNb.
Qed.

Lemma lookup_none l t : (lookup l t == None) = (t \notin map p_time l).
Proof.
elim: l => [|x l IH] //=; rewrite inE negb_or -[ot_eqb _ t]/(p_time x == t) [t == _]eq_sym.
by case: (eqVneq (p_time x) t).
Qed.
Lemma cinsert_mem l x y : csorted l -> p_time x \notin map p_time l ->
  csorted (cinsert x l).1 /\ (y \in (cinsert x l).1) = (y == x) || (y \in l).
Proof.
move=> hs; rewrite -lookup_none => /eqP hx; split; first exact: cinsert_sorted.
have [h1 _] := cinsert_lookup x l hs; have [h2 _] := h1 hx; have h3 := cinsert_in_iff x l y hs h2.
apply/idP/orP => [/In_mem hy|[/eqP e|/In_mem h]].
- by case: (h3.1 hy) => [->|/In_mem ->]; [left; rewrite eqxx|right].
- by apply/In_mem/(h3.2); left.
- by apply/In_mem/(h3.2); right.
Qed.
Lemma cerase_mem l x y : csorted l ->
  csorted (cerase x l).1 /\ (y \in (cerase x l).1) = (y \in l) && (p_time y != p_time x).
Proof.
move=> hs; have hs' := cerase_sorted x l hs; split=> //; have [h1 h2] := cerase_lookup x l hs.
case: (eqVneq (lookup l (p_time x)) None) => [hn|hn].
  rewrite h2 //=; case hy : (y \in l) => //=; apply/esym/eqP => e.
  by move/eqP: hn; rewrite lookup_none => /negP; apply; apply/mapP; exists y.
have [_ h3] := h1 (elimN eqP hn).
apply/idP/andP => [hy|[hy ne]].
  have /In_mem hy' := hy; split; first by apply/In_mem/(cerase_in x).
  apply/eqP => e; have := lookup_in _ _ hs' hy'; rewrite h3 /upd e ot_eqb_refl //.
have /In_mem hy' := hy; have := lookup_in _ _ hs hy' => hl; have := h3 (p_time y).
rewrite /upd ot_eqb_false ?hl => [h4|]; first by apply/In_mem; have [] := lookup_time _ _ _ h4.
by move=> e; rewrite e eqxx in ne.
Qed.
Lemma set_insert l ops x : set_ok l ops -> p_time x \notin map p_time ops -> set_ok (cinsert x l).1 (rcons ops x).
Proof.
move=> [hs hl] hx; have nx : p_time x \notin map p_time l.
  by apply/mapP => -[y]; rewrite hl => hy e; case/negP: hx; apply/mapP; exists y.
split; first by have [] := cinsert_mem x hs nx.
by move=> y; have [_ ->] := cinsert_mem y hs nx; rewrite mem_rcons inE hl.
Qed.
Lemma csorted_psi_le l : csorted l -> sorted psi_le l.
Proof.
elim=> [|x {}l hs IH hf] //=; rewrite path_min_sorted //; apply/allP => y /In_mem hy.
by have := (Forall_forall _ _).1 hf _ hy; rewrite /plt /psi_lt /psi_le => ->.
Qed.
Lemma csorted_uniq l : csorted l -> uniq l.
Proof.
elim=> [|x {}l hs IH hf] //=; rewrite IH andbT; apply/negP => /In_mem hy.
by have := (Forall_forall _ _).1 hf _ hy; rewrite /plt /psi_lt ot_lt_irrefl.
Qed.
(** The set is the list of the operators in time order *)
Lemma set_tsort l ops : uniq (map p_time ops) -> set_ok l ops -> l = tsort ops.
Proof.
move=> u [hs hl]; have ho := map_uniq u.
have p : perm_eq l ops by apply: uniq_perm => //; exact: csorted_uniq.
by rewrite -(tsort_ext p) /tsort sorted_sort //; [exact: psi_le_trans|exact: csorted_psi_le].
Qed.

Definition side_ok s : Prop := [/\ uniq (map p_time (s_ops s)), pos_ok (s_pos s) (s_ops s) & set_ok (s_set s) (s_ops s)].

Lemma push_ok s x : side_ok s -> p_time x \notin map p_time (s_ops s) ->
  exists n s', [/\ push_op x (size (s_ops s)) s = (n, s', true), side_ok s', s_ops s' = rcons (s_ops s) x &
    (n + ninv (s_ops s))%N = ninv (rcons (s_ops s) x)].
Proof.
move=> [u hp hs] hx; have [e hp'] := pos_rcons hp hx.
rewrite /push_op e; do 2 eexists; split=> //.
  split=> //=; [by rewrite map_rcons rcons_uniq hx|exact: set_insert].
rewrite (pgeE _ u hp) ninv_rcons addnC; congr (_ + _)%N; apply: eq_in_count => y hy.
rewrite ot_lt_flip ?negbK //.
by move=> e2; case/negP: hx; apply/mapP; exists y.
Qed.

Lemma add_loop_ok ops pd cd c : size (s_ops cd) = size (s_ops c) -> side_ok cd -> side_ok c ->
  uniq (map p_time (s_ops cd ++ map fst ops)) -> uniq (map p_time (s_ops c ++ map snd ops)) ->
  exists n cd' c', [/\ add_loop ops pd cd c = (n, cd', c', true), side_ok cd' /\ s_ops cd' = s_ops cd ++ map fst ops,
    side_ok c' /\ s_ops c' = s_ops c ++ map snd ops &
    (n + ninv (s_ops cd) + ninv (s_ops c))%N = (pd + ninv (s_ops cd') + ninv (s_ops c'))%N].
Proof.
elim: ops pd cd c => [|[x y] ops IH] pd cd c sz hcd hc ucd uc /=.
  by exists pd, cd, c; rewrite !cats0; split.
have nx : p_time x \notin map p_time (s_ops cd).
  by move: ucd; rewrite /= -cat_rcons map_cat cat_uniq map_rcons rcons_uniq => /and3P[/andP[]].
have ny : p_time y \notin map p_time (s_ops c).
  by move: uc; rewrite /= -cat_rcons map_cat cat_uniq map_rcons rcons_uniq => /and3P[/andP[]].
have [n1 [cd1 [e1 h1 o1 i1]]] := push_ok hcd nx; have [n2 [c1 [e2 h2 o2 i2]]] := push_ok hc ny.
rewrite e1 /= sz e2 /=.
have [| | |n [cd2 [c2 [e h3 h4 h5]]]] := IH (pd + n1 + n2)%N cd1 c1 _ h1 h2.
- by rewrite o1 o2 !size_rcons sz.
- by rewrite o1 cat_rcons.
- by rewrite o2 cat_rcons.
rewrite o1 o2 !cat_rcons in h3 h4 h5; rewrite e; exists n, cd2, c2; split=> //; move: h5; rewrite -i1 -i2; lia.
Qed.

(** A side whose last operators may already be missing in the set *)
Definition part_ok s (core : seq psi) : Prop :=
  [/\ uniq (map p_time (s_ops s)), pos_ok (s_pos s) (s_ops s), csorted (s_set s), {subset s_set s <= s_ops s} &
      {subset core <= s_set s}].
Lemma part_side s : part_ok s (s_ops s) -> side_ok s.
Proof. by case=> u hp hs h1 h2; split=> //; split=> // x; apply/idP/idP => [/h1|/h2]. Qed.
Lemma side_part s core : side_ok s -> {subset core <= s_ops s} -> part_ok s core.
Proof. by case=> u hp [hs h1] h2; split=> // x; rewrite h1 // => /h2. Qed.

Lemma pop_ok s l x core : part_ok s core -> s_ops s = rcons l x -> {subset core <= l} ->
  exists n s', [/\ pop_op s = (n, s'), part_ok s' core, s_ops s' = l & (n + ninv l)%N = (ninv (rcons l x)).+1].
Proof.
move=> [u hp hs h1 h2] e hc; exists (pge (p_time x) (s_pos s)), (Side l (cerase x (s_set s)).1 (perase (p_time x) (s_pos s))).
have u' := u; rewrite e map_rcons rcons_uniq in u'; case/andP: u' => nx ul.
have te y : y \in l -> p_time y != p_time x by move=> hy; apply: contraNneq nx => <-; exact: map_f.
split=> //.
- by rewrite /pop_op e last_rcons size_rcons /= -cats1 take_size_cat.
- split=> //=.
  - by apply: pos_pop; rewrite -e.
  - by have [] := cerase_mem x x hs.
  - move=> y; have [_ ->] := cerase_mem x y hs; case/andP => /h1; rewrite e mem_rcons inE => /orP[/eqP ->|//].
    by rewrite eqxx.
  - by move=> y hy; have [_ ->] := cerase_mem x y hs; rewrite h2 // te // hc.
rewrite (pgeE _ u hp) e ninv_rcons -cats1 count_cat /= ot_lt_irrefl /= addn0 addn1 addSn addnC; congr (_ + _).+1.
apply: eq_in_count => y hy; rewrite ot_lt_flip ?negbK // => e2; by have := te _ hy; rewrite e2 eqxx.
Qed.

Lemma remove_loopS k pd cd c : remove_loop k.+1 pd cd c =
  let: (n1, c') := pop_op c in let: (n2, cd') := pop_op cd in remove_loop k (pd + n1 + n2)%N cd' c'.
Proof. by []. Qed.
Lemma remove_loop_ok k pd cd c l1 r1 l2 r2 : part_ok cd l1 -> part_ok c l2 -> s_ops cd = l1 ++ r1 -> s_ops c = l2 ++ r2 ->
  size r1 = k -> size r2 = k ->
  exists n cd' c', [/\ remove_loop k pd cd c = (n, cd', c'), side_ok cd' /\ s_ops cd' = l1, side_ok c' /\ s_ops c' = l2 &
    (n + ninv l1 + ninv l2)%N = (pd + ninv (l1 ++ r1) + ninv (l2 ++ r2) + k + k)%N].
Proof.
elim: k pd cd c r1 r2 => [|k IH] pd cd c r1 r2 h1 h2 e1 e2.
  case: r1 r2 e1 e2 => // -[] //; rewrite !cats0 => e1 e2 _ _; exists pd, cd, c.
  rewrite -e1 in h1; rewrite -e2 in h2; split=> //; first by split=> //; exact: part_side.
    by split=> //; exact: part_side.
  lia.
elim/last_ind: r1 e1 => [//|r1 x _]; elim/last_ind: r2 e2 => [//|r2 y _].
rewrite !size_rcons -!rcons_cat => e2 e1 [s1] [s2].
have sub (T : eqType) (u v : seq T) : {subset u <= u ++ v} by move=> z; rewrite mem_cat => ->.
have [n1 [c1 [E1 p1 o1 i1]]] := pop_ok h2 e2 (sub _ _ _).
have [n2 [cd1 [E2 p2 o2 i2]]] := pop_ok h1 e1 (sub _ _ _).
rewrite remove_loopS E1 E2.
have [n [cd2 [c2 [e h3 h4 h5]]]] := IH (pd + n1 + n2)%N cd1 c1 r1 r2 p2 p1 o2 o1 s1 s2.
by exists n, cd2, c2; split=> //; rewrite -?rcons_cat; lia.
Qed.
End Side.

(** ** Exchanges that bring listed positions to the end *)
Lemma sorted_bound (r : seq nat) n j : sorted ltn r -> all (fun i => i < n)%N r -> (j < size r)%N ->
  (nth 0%N r j + (size r - j) <= n)%N.
Proof.
move=> hs ha; move e : (size r - j.+1)%N => k; elim: k j e => [|k IH] j e hj.
  by have /= := allP ha _ (mem_nth 0%N hj); lia.
have hj1 : (j.+1 < size r)%N by lia.
have e1 : (size r - j.+2)%N = k by lia.
have := IH j.+1 e1 hj1; have /sortedP -/(_ 0%N j hj1) /= := hs; lia.
Qed.
Definition to_end (cols : seq nat) (n k : nat) (s : seq psi) : seq psi :=
  foldl (fun s k => swapl (nth 0%N cols (size cols - 1 - k)%N) (n - 1 - k)%N s) s (iota 0 k).
Lemma foldl_iotaS (T : Type) (f : T -> nat -> T) x k : foldl f x (iota 0 k.+1) = f (foldl f x (iota 0 k)) k.
Proof. by rewrite -addn1 iotaD foldl_cat. Qed.
Lemma to_endS cols n k s : to_end cols n k.+1 s = swapl (nth 0%N cols (size cols - 1 - k)%N) (n - 1 - k)%N (to_end cols n k s).
Proof. exact: foldl_iotaS. Qed.
Lemma drop_eq (s s' : seq psi) k : size s = size s' -> (forall i, (k <= i)%N -> (i < size s)%N -> nth psi0 s i = nth psi0 s' i) ->
  drop k s = drop k s'.
Proof.
move=> sz h; apply: (@eq_from_nth _ psi0); rewrite ?size_drop ?sz // => i hi; rewrite !nth_drop; apply: h; lia.
Qed.
Lemma to_endP cols n k s : sorted ltn cols -> all (fun i => i < n)%N cols -> size s = n -> (k <= size cols)%N ->
  let s' := to_end cols n k s in
  [/\ size s' = n, perm_eq s' s,
      forall i, (forall j, (size cols - k <= j)%N -> (j < size cols)%N -> (i < nth 0%N cols j)%N) -> (i < n)%N -> nth psi0 s' i = nth psi0 s i &
      perm_eq (drop (n - k)%N s') [seq nth psi0 s c | c <- drop (size cols - k)%N cols]].
Proof.
move=> hs ha sz; elim: k => [|k IH] hk; first by split=> //; rewrite !subn0 drop_oversize ?sz // drop_oversize.
have [i1 i2 i3 i4] := IH (ltnW hk); rewrite to_endS; set s1 := to_end cols n k s in i1 i2 i3 i4 *.
set m := size cols; set p := nth 0%N cols (m - 1 - k)%N.
have hp : (p + k < n)%N by have := @sorted_bound cols n (m - 1 - k)%N hs ha; rewrite /p -/m; lia.
have later j : (m - k <= j)%N -> (j < m)%N -> (p < nth 0%N cols j)%N.
  by move=> h1 h2; rewrite /p; apply: (sorted_ltn_nth ltn_trans 0%N hs); rewrite ?inE -/m; lia.
split.
- by rewrite size_swapl.
- by apply: perm_trans i2; apply: perm_swapl; lia.
- move=> i hi hin; have hip : (i < p)%N by apply: hi; lia.
  rewrite nth_swapl ?i1 // /swapn ifF; last lia.
  rewrite ifF; last lia.
  by apply: i3 => // j h1 h2; apply: hi => //; lia.
- have -> : drop (n - k.+1)%N (swapl p (n - 1 - k)%N s1) = nth psi0 s1 p :: drop (n - k)%N s1.
    rewrite (drop_nth psi0) ?size_swapl; last lia.
    rewrite nth_swapl; last lia.
    rewrite /swapn (_ : (n - k.+1)%N = (n - 1 - k)%N); last lia.
    rewrite eqxx; congr (_ :: _); first by case: eqP => [<-|].
    rewrite (_ : (n - 1 - k).+1 = (n - k)%N); last lia.
    apply: drop_eq => [|i h1]; rewrite size_swapl // => h2; rewrite nth_swapl // /swapn ifF; last lia.
    by rewrite ifF //; lia.
  rewrite (_ : (m - k.+1)%N = (m - 1 - k)%N); last lia.
  rewrite (drop_nth 0%N); last by rewrite -/m; lia.
  rewrite (_ : (m - 1 - k).+1 = (m - k)%N); last lia.
  by rewrite /= i3 ?perm_cons //; lia.
Qed.

(** ** The matrix *)
Section Inv.
Variable K : numFieldType.
Variable F : psi -> psi -> K.
Variable junk : nat -> nat -> K.
Notation dm := (dm K).
Implicit Types (d : dm) (g : mat K) (xs ys cd c : seq psi).

Definition minv (n : nat) g xs ys : Prop := [/\ mr g = n, mc g = n & matL psi0 psi0 F n xs ys *m toM n n g = 1%:M].
Definition matR (n m : nat) xs ys : 'M[K]_(n, m) := \matrix_(i < n, j < m) F (nth psi0 xs i) (nth psi0 ys j).

Lemma sum_swapn n (f : nat -> K) a b : (a < n)%N -> (b < n)%N -> \sum_(k < n) f (swapn a b k) = \sum_(k < n) f k.
Proof.
move=> ha hb; rewrite [RHS](reindex_inj (@perm_inj _ (tperm (Ordinal ha) (Ordinal hb)))) /=.
apply: eq_bigr => k _; congr f; rewrite permE /= /swapn -!val_eqE /=; by case: eqP => //; case: eqP.
Qed.
Lemma minv_swap_row n g xs ys a b : size ys = n -> (a < n)%N -> (b < n)%N -> minv n g xs ys -> minv n (swap_row a b g) xs (swapl a b ys).
Proof.
move=> sz ha hb [h1 h2 h]; split=> //; rewrite -h; apply/matrixP => i j; rewrite !mxE.
have -> : \sum_(k < n) matL psi0 psi0 F n xs ys i k * toM n n g k j = \sum_(k < n) F (nth psi0 xs i) (nth psi0 ys k) * me g k j.
  by apply: eq_bigr => k _; rewrite !mxE.
rewrite -(sum_swapn (fun k => F (nth psi0 xs i) (nth psi0 ys k) * me g k j) ha hb).
by apply: eq_bigr => k _; rewrite !mxE nth_swapl ?sz.
Qed.
Lemma minv_swap_col n g xs ys a b : size xs = n -> (a < n)%N -> (b < n)%N -> minv n g xs ys -> minv n (swap_col a b g) (swapl a b xs) ys.
Proof.
move=> sz ha hb [h1 h2 h]; split=> //; apply/matrixP => i j.
have sl k : (k < n)%N -> (swapn a b k < n)%N by rewrite /swapn; case: ifP => // _; case: ifP.
have := congr1 (fun A : 'M[K]_n => A (Ordinal (sl _ (ltn_ord i))) (Ordinal (sl _ (ltn_ord j)))) h; rewrite !mxE => e.
have -> : (i == j) = (Ordinal (sl i (ltn_ord i)) == Ordinal (sl j (ltn_ord j))).
  by rewrite -!val_eqE /= (inj_eq (can_inj (@swapnK a b))).
by rewrite -e; apply: eq_bigr => k _; rewrite !mxE nth_swapl ?sz.
Qed.
Lemma matL_block n m xs1 xs2 ys1 ys2 : size xs1 = n -> size ys1 = n ->
  matL psi0 psi0 F (n + m) (xs1 ++ xs2) (ys1 ++ ys2) =
  block_mx (matL psi0 psi0 F n xs1 ys1) (matR n m xs1 ys2) (matR m n xs2 ys1) (matL psi0 psi0 F m xs2 ys2).
Proof.
move=> s1 s2; apply/matrixP => i j; rewrite !mxE; case: (splitP i) => i' hi; rewrite !mxE; case: (splitP j) => j' hj; rewrite !mxE;
  rewrite !nth_cat hi hj s1 s2 ?ltn_ord ?ltnNge ?leq_addr /= ?addKn //.
Qed.

Lemma hyb_detE cd c : size c = size cd -> uniq (map p_time cd) -> uniq (map p_time c) ->
  hyb_det F cd c = (sign_of (ninv c + ninv cd))%:~R * detL psi0 psi0 F (size c) c cd.
Proof.
move=> sz u1 u2; have [k1 a1 o1] := adj_tsort u2; have [k2 a2 o2] := adj_tsort u1.
rewrite (hyb_det_adj F sz a1 a2) -exprD -[in LHS]signr_odd oddD o1 o2 -oddD /sign_of.
by case: (odd (ninv c + ninv cd)) => /=; rewrite ?expr1 ?expr0 ?rmorphN ?rmorph1.
Qed.

(** The invariant; nothing in it depends on the workspace *)
Definition wf d : Prop :=
  [/\ side_ok (d_cdagg d), side_ok (d_c d), size (s_ops (d_cdagg d)) = size (s_ops (d_c d)),
      minv (size (s_ops (d_c d))) (d_inv d) (s_ops (d_c d)) (s_ops (d_cdagg d)) &
      d_perm d = sign_of (ninv (s_ops (d_c d)) + ninv (s_ops (d_cdagg d)))].

Lemma sign_ofN n m : odd n = ~~ odd m -> - sign_of m = sign_of n.
Proof. by rewrite /sign_of => ->; case: (odd m) => /=; rewrite ?opprK. Qed.
Lemma sign_of_odd n m : odd n = odd m -> sign_of m = sign_of n. Proof. by rewrite /sign_of => ->. Qed.
Lemma sign_ofD n m : sign_of (n + m) = sign_of n * sign_of m.
Proof. by rewrite /sign_of oddD; case: (odd n); case: (odd m). Qed.
Lemma sign_of2 n : sign_of n * sign_of n = 1. Proof. by rewrite /sign_of; case: odd. Qed.

Lemma side_swap s a b : side_ok s -> (a < size (s_ops s))%N -> (b < size (s_ops s))%N ->
  side_ok (swap_side a b s) /\ s_ops (swap_side a b s) = swapl a b (s_ops s).
Proof.
move=> [u hp [hs hl]] ha hb; rewrite /swap_side; case: (eqVneq a b) => [->|n]; first by rewrite swapl_id.
have p := perm_swapl ha hb; split=> //; split=> /=.
- by rewrite (perm_uniq (perm_map _ p)).
- exact: pos_swap.
- by split=> // x; rewrite hl (perm_mem p).
Qed.
Definition same_rest d d' : Prop := [/\ d_state d' = d_state d, d_mode d' = d_mode d & d_work d' = d_work d].
Lemma same_rest_trans d1 d2 d3 : same_rest d1 d2 -> same_rest d2 d3 -> same_rest d1 d3.
Proof. by move=> [a1 a2 a3] [b1 b2 b3]; rewrite /same_rest b1 b2 b3. Qed.
Lemma wf_swap_cdagg d a b : wf d -> (a < size (s_ops (d_c d)))%N -> (b < size (s_ops (d_c d)))%N ->
  let d' := swap_cdagg_op a b d in
  [/\ wf d', same_rest d d', s_ops (d_cdagg d') = swapl a b (s_ops (d_cdagg d)) & s_ops (d_c d') = s_ops (d_c d)].
Proof.
move=> [h1 h2 h3 h4 h5] ha hb; rewrite /swap_cdagg_op; case: (eqVneq a b) => [->|n] /=; first by rewrite swapl_id.
rewrite -h3 in ha hb; have [s1 s2] := side_swap h1 ha hb.
split=> //; split=> //=; rewrite ?s2 ?size_swapl //.
- by rewrite -?h3; apply: minv_swap_row => //; rewrite h3.
- rewrite h5; apply: sign_ofN; rewrite !oddD ninv_swapl //; last by case: h1.
  by case: odd; case: odd.
Qed.
Lemma wf_swap_c d a b : wf d -> (a < size (s_ops (d_c d)))%N -> (b < size (s_ops (d_c d)))%N ->
  let d' := swap_c_op a b d in
  [/\ wf d', same_rest d d', s_ops (d_c d') = swapl a b (s_ops (d_c d)) & s_ops (d_cdagg d') = s_ops (d_cdagg d)].
Proof.
move=> [h1 h2 h3 h4 h5] ha hb; rewrite /swap_c_op; case: (eqVneq a b) => [->|n] /=; first by rewrite swapl_id.
have [s1 s2] := side_swap h2 ha hb.
split=> //; split=> //=; rewrite ?s2 ?size_swapl //.
- by apply: minv_swap_col.
- rewrite h5; apply: sign_ofN; rewrite !oddD ninv_swapl //; last by case: h2.
  by case: odd; case: odd.
Qed.

Lemma find_all_ok s xs : side_ok s -> {subset xs <= s_ops s} -> find_all s xs = Some [seq index x (s_ops s) | x <- xs].
Proof.
move=> [u hp hs]; elim: xs => [|x xs IH] //= h; rewrite IH => [|y hy]; last by apply: h; rewrite inE hy orbT.
by rewrite /= (pfind_in u hp) // h // inE eqxx.
Qed.
Lemma cols_ok (ops xs : seq psi) : {subset xs <= ops} -> uniq xs ->
  let cols := sort leq [seq index x ops | x <- xs] in
  [/\ sorted ltn cols, all (fun i => i < size ops)%N cols, size cols = size xs & perm_eq [seq nth psi0 ops c | c <- cols] xs].
Proof.
move=> hx u cols; have p : perm_eq cols [seq index x ops | x <- xs] by exact/permPl/perm_sort.
split.
- rewrite ltn_sorted_uniq_leq (perm_uniq p) sort_sorted ?andbT; last exact: leq_total.
  by rewrite map_inj_in_uniq // => x y h1 h2 e; rewrite -(nth_index psi0 (hx _ h1)) e nth_index // hx.
- by apply/allP => i; rewrite (perm_mem p) => /mapP[x h ->]; rewrite index_mem hx.
- by rewrite (perm_size p) size_map.
- rewrite (perm_trans (perm_map _ p)) // -map_comp map_id_in // => x h /=; by rewrite nth_index // hx.
Qed.

Lemma move_to_end_ok d rem : wf d -> {subset map fst rem <= s_ops (d_cdagg d)} -> {subset map snd rem <= s_ops (d_c d)} ->
  uniq (map fst rem) -> uniq (map snd rem) ->
  exists d' l1 r1 l2 r2, [/\ move_to_end rem d = Some d', wf d', same_rest d d',
    [/\ s_ops (d_cdagg d') = l1 ++ r1, perm_eq (l1 ++ r1) (s_ops (d_cdagg d)), perm_eq r1 (map fst rem) & size r1 = size rem] &
    [/\ s_ops (d_c d') = l2 ++ r2, perm_eq (l2 ++ r2) (s_ops (d_c d)), perm_eq r2 (map snd rem) & size r2 = size rem]].
Proof.
move=> hw s1 s2 u1 u2; have [h1 h2 h3 [mr1 _ _] _] := hw.
rewrite /move_to_end (find_all_ok h1 s1) (find_all_ok h2 s2) mr1.
set n := size (s_ops (d_c d)); set m := size rem.
have := cols_ok s1 u1; have := cols_ok s2 u2; rewrite !size_map h3 -/n -/m.
set rows := sort leq _; set cols := sort leq _.
move=> [sr ar zr pr] [sc ac zc pc].
pose step := fun (d : dm) k => swap_c_op (nth 0%N rows (m - 1 - k)) (n - 1 - k) (swap_cdagg_op (nth 0%N cols (m - 1 - k)) (n - 1 - k) d).
have inv k : (k <= m)%N -> let d' := foldl step d (iota 0 k) in
  [/\ wf d', same_rest d d', s_ops (d_cdagg d') = to_end cols n k (s_ops (d_cdagg d)) &
      s_ops (d_c d') = to_end rows n k (s_ops (d_c d))].
  elim: k => [|k IH] hk; first by split.
  have [w1 r1 e1 e2] := IH (ltnW hk); rewrite foldl_iotaS to_endS to_endS; set d1 := foldl _ _ _ in w1 r1 e1 e2 *.
  have zs1 : size (s_ops (d_c d1)) = n.
    by rewrite e2; have [] := @to_endP rows n k _ sr ar (erefl _); rewrite ?zr // ltnW.
  have b1 : (nth 0%N cols (m - 1 - k) + (m - (m - 1 - k)) <= n)%N by have := @sorted_bound cols n (m - 1 - k)%N sc ac; rewrite zc; apply; lia.
  have b2 : (nth 0%N rows (m - 1 - k) + (m - (m - 1 - k)) <= n)%N by have := @sorted_bound rows n (m - 1 - k)%N sr ar; rewrite zr; apply; lia.
  have c1 : (nth 0%N cols (m - 1 - k) < size (s_ops (d_c d1)))%N by rewrite zs1; clear -b1 hk; lia.
  have c2 : (nth 0%N rows (m - 1 - k) < size (s_ops (d_c d1)))%N by rewrite zs1; clear -b2 hk; lia.
  have c3 : (n - 1 - k < size (s_ops (d_c d1)))%N by rewrite zs1; clear -b2 hk; lia.
  have [w2 r2 e3 e4] := wf_swap_cdagg w1 c1 c3.
  rewrite /step; set d2 := swap_cdagg_op _ _ _ in w2 r2 e3 e4 *.
  rewrite -e4 in c2 c3; have [w3 r3 e5 e6] := wf_swap_c w2 c2 c3.
  split=> //; last by rewrite e5 e4 e2 zr.
    exact: same_rest_trans (same_rest_trans r1 r2) r3.
  by rewrite e6 e3 e1 zc.
have [w1 rr e1 e2] := inv m (leqnn m).
have [z1 p1 _ q1] := @to_endP cols n m (s_ops (d_cdagg d)) sc ac h3 (eq_leq (esym zc)).
have [z2 p2 _ q2] := @to_endP rows n m (s_ops (d_c d)) sr ar (erefl _) (eq_leq (esym zr)).
rewrite zc subnn drop0 in q1; rewrite zr subnn drop0 in q2.
have mn : (m <= n)%N by have := uniq_leq_size u2 s2; rewrite size_map.
exists (foldl step d (iota 0 m)), (take (n - m) (to_end cols n m (s_ops (d_cdagg d)))), (drop (n - m) (to_end cols n m (s_ops (d_cdagg d)))),
  (take (n - m) (to_end rows n m (s_ops (d_c d)))), (drop (n - m) (to_end rows n m (s_ops (d_c d)))).
rewrite !cat_take_drop; split=> //; split=> //.
- exact: perm_trans q1 pc.
- by rewrite size_drop z1 subKn.
- exact: perm_trans q2 pr.
- by rewrite size_drop z2 subKn.
Qed.

Lemma rev_nth_drop (s : seq psi) n m : size s = n -> (m <= n)%N -> [seq nth psi0 s (n - 1 - i) | i <- iota 0 m] = rev (drop (n - m) s).
Proof.
move=> sz hm; have zd : size (drop (n - m)%N s) = m by rewrite size_drop sz subKn.
apply: (@eq_from_nth _ psi0); rewrite size_map size_iota; first by rewrite size_rev zd.
move=> i hi; rewrite (nth_map 0%N) ?size_iota // nth_iota // add0n nth_rev ?zd // nth_drop; congr nth; lia.
Qed.
Lemma erase_set_part s xs core : side_ok s -> {subset core <= s_ops s} -> {in core, forall y, p_time y \notin map p_time xs} ->
  part_ok (erase_set xs s) core.
Proof.
move=> hs hc; have := side_part hs hc; rewrite /erase_set; case: s hs hc => ops set pos _ _ /=.
elim: xs set => [|x xs IH] set //= [u hp so h1 h2] hn.
have hn1 y : y \in core -> p_time y != p_time x by move=> /hn; rewrite inE negb_or => /andP[].
have [] := IH (cerase x set).1 _ _.
- split=> //=; first by have [] := cerase_mem x x so.
    by move=> y; have [_ ->] := cerase_mem x y so; case/andP => /h1.
  by move=> y hy; have [_ ->] := cerase_mem x y so; rewrite h2 // hn1.
- by move=> y /hn; rewrite inE negb_or => /andP[].
by split.
Qed.

Lemma take_out_ok d l1 r1 l2 r2 m : wf d -> s_ops (d_cdagg d) = l1 ++ r1 -> s_ops (d_c d) = l2 ++ r2 -> size r1 = m -> size r2 = m ->
  let d' := take_out m d in
  [/\ part_ok (d_cdagg d') l1, part_ok (d_c d') l2, s_ops (d_cdagg d') = l1 ++ r1, s_ops (d_c d') = l2 ++ r2 &
      [/\ d_state d' = d_state d, d_mode d' = d_mode d, d_inv d' = d_inv d, d_perm d' = d_perm d &
          d_work d' = w_rem (rev (zip r1 r2)) (d_work d)]].
Proof.
move=> [h1 h2 h3 [mr1 _ _] _] e1 e2 z1 z2 d'.
have zn : size (s_ops (d_c d)) = (size l2 + m)%N by rewrite e2 size_cat z2.
have eN : size l1 = size l2 by move: h3; rewrite e1 e2 !size_cat z1 z2; lia.
have er : removed_pairs (mr (d_inv d)) m d = rev (zip r1 r2).
  rewrite /removed_pairs mr1; apply: (@eq_from_nth _ (psi0, psi0)); rewrite size_map size_iota.
    by rewrite size_rev size_zip z1 z2 minnn.
  move=> i hi; rewrite (nth_map 0%N) ?size_iota // nth_iota // add0n nth_rev size_zip z1 z2 minnn // nth_zip ?z1 ?z2 //.
  rewrite zn e1 e2 !nth_cat; congr (_, _); rewrite ifF; try (clear -eN hi; lia); congr nth; clear -eN hi; lia.
have f1 : map fst (rev (zip r1 r2)) = rev r1 by rewrite map_rev -/(unzip1 _) unzip1_zip // z1 z2.
have f2 : map snd (rev (zip r1 r2)) = rev r2 by rewrite map_rev -/(unzip2 _) unzip2_zip // z1 z2.
have dis (l r : seq psi) : uniq (map p_time (l ++ r)) -> {in l, forall y, p_time y \notin map p_time (rev r)}.
  rewrite map_cat cat_uniq => /and3P[_ /hasPn hd _] y hy; apply/negP; rewrite map_rev mem_rev => h.
  by have := hd _ h; rewrite /= map_f.
rewrite /d' /take_out er f1 f2; split=> //=.
- apply: erase_set_part => //; first by rewrite e1 => x; rewrite mem_cat => ->.
  by apply: dis; rewrite -e1; case: h1.
- apply: erase_set_part => //; first by rewrite e2 => x; rewrite mem_cat => ->.
  by apply: dis; rewrite -e2; case: h2.
Qed.
End Inv.
