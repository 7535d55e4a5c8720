(** * C27: labels are the connected components *)
From mathcomp Require Import all_ssreflect zify.
From Verif Require Import Clustering.
Set Implicit Arguments.
Unset Strict Implicit.
Unset Printing Implicit Defensive.

(** ** Specification *)
Inductive linked (E : seq (nat * nat)) : nat -> nat -> Prop :=
| l_edge a b : (a, b) \in E -> linked E a b
| l_refl a : linked E a a
| l_sym a b : linked E a b -> linked E b a
| l_trans a b c : linked E a b -> linked E b c -> linked E a c.

Lemma linked_mono E E' a b : {subset E <= E'} -> linked E a b -> linked E' a b.
Proof.
move=> h; elim=> {a b} [a b /h|a|a b _|a b c _ h1 _ h2]; [exact: l_edge|exact: l_refl|exact: l_sym|exact: l_trans h1 h2].
Qed.

(** ** Alias tables *)
Section Al.
Variable N : nat.
Definition wf (al : seq nat) : Prop := size al = N /\ forall i, i < N -> nth 0 al i <= i.
Lemma wf_le al i : wf al -> i < N -> nth 0 al i <= i.
Proof. by case=> _; apply. Qed.
Definition root (al : seq nat) (i : nat) : nat := iter i (nth 0 al) i.

Lemma root_fix_iter al i n : nth 0 al i = i -> iter n (nth 0 al) i = i.
Proof. by move=> h; elim: n => //= n ->. Qed.
Lemma root_more al i n : wf al -> i < N -> i <= n -> iter n (nth 0 al) i = root al i /\ nth 0 al (root al i) = root al i /\ root al i <= i.
Proof.
move=> [hs hw]; rewrite /root; elim/ltn_ind: i n => i IH n hi hn.
have := hw i hi; rewrite leq_eqVlt => /orP[/eqP e|h]; first by rewrite !root_fix_iter.
case: i IH hi hn h => // i IH hi hn h; case: n hn => // n hn; rewrite !iterSr.
set j := nth 0 al i.+1 in h *; have hj : j < N by exact: ltn_trans h hi.
have [|e1 [e2 e3]] := IH j h n hj; first by lia.
have [|e4 _] := IH j h i hj; first by lia.
by rewrite e1 e4; do 2 split=> //; lia.
Qed.
Lemma root_step al i : wf al -> i < N -> root al i = root al (nth 0 al i).
Proof.
move=> hw hi; have hj : nth 0 al i < N by apply: leq_ltn_trans (hi); exact: wf_le.
have [e _] := root_more hw hj (leqnn _); case: i hi hj e => [|i] hi hj e.
  have /eqP e0 : nth 0 al 0 == 0 by have := wf_le hw hi; lia.
  by rewrite e0.
have := wf_le hw hi; rewrite leq_eqVlt => /orP[/eqP -> //|h].
rewrite {1}/root iterSr; by have [] := root_more (n := i) hw hj.
Qed.
Lemma root_lt al i : wf al -> i < N -> root al i < N.
Proof. by move=> hw hi; have [_ [_ h]] := root_more hw hi (leqnn _); exact: leq_ltn_trans h hi. Qed.
Lemma root_le al i : wf al -> i < N -> root al i <= i.
Proof. by move=> hw hi; have [_ [_ h]] := root_more hw hi (leqnn _). Qed.
Lemma root_fix al i : wf al -> i < N -> nth 0 al (root al i) = root al i.
Proof. by move=> hw hi; have [_ [h _]] := root_more hw hi (leqnn _). Qed.
Lemma fix_root al i : nth 0 al i = i -> root al i = i.
Proof. exact: root_fix_iter. Qed.
Lemma root_idem al i : wf al -> i < N -> root al (root al i) = root al i.
Proof. by move=> hw hi; apply: fix_root; exact: root_fix. Qed.

Lemma wf_set al v r : wf al -> v < N -> r <= v -> wf (set_nth 0 al v r).
Proof.
move=> [hs hw] hv hr; split; first by rewrite size_set_nth hs; lia.
by move=> i hi; rewrite nth_set_nth /=; case: eqP => [->//|_]; exact: hw.
Qed.

(** Pointing a vertex directly to its root changes no root. *)
Lemma root_compress al v i : wf al -> v < N -> i < N -> root (set_nth 0 al v (root al v)) i = root al i.
Proof.
move=> hw hv; have hw' := wf_set hw hv (root_le hw hv); set al' := set_nth _ _ _ _ in hw' *.
elim/ltn_ind: i => i IH hi; rewrite (root_step hw' hi) /al' nth_set_nth /= -/al'.
case: eqP => [->|ne].
  case: (eqVneq (root al v) v) => [e|ne]; last by apply: fix_root; rewrite /al' nth_set_nth /= (negbTE ne); exact: root_fix.
  by rewrite e; apply: fix_root; rewrite /al' nth_set_nth /= eqxx.
rewrite (root_step hw hi); have := wf_le hw hi; rewrite leq_eqVlt => /orP[/eqP e|h].
  by rewrite e fix_root ?[RHS]fix_root //; rewrite /al' nth_set_nth /=; case: eqP.
by apply: IH => //; exact: ltn_trans h hi.
Qed.

(** Merging two roots. *)
Lemma root_merge al r s i : wf al -> s < N -> r < s -> nth 0 al r = r -> nth 0 al s = s -> i < N ->
  root (set_nth 0 al s r) i = if root al i == s then r else root al i.
Proof.
move=> hw hs hrs er es; have hw' := wf_set hw hs (ltnW hrs); set al' := set_nth _ _ _ _ in hw' *.
have fr : root al' r = r by apply: fix_root; rewrite /al' nth_set_nth /= ltn_eqF.
elim/ltn_ind: i => i IH hi; rewrite (root_step hw' hi) /al' nth_set_nth /= -/al'.
case: eqP => [->|ne]; first by rewrite (fix_root es) eqxx.
have := wf_le hw hi; rewrite leq_eqVlt => /orP[/eqP e|h].
  by rewrite e (fix_root e); case: eqP => // _; apply: fix_root; rewrite /al' nth_set_nth /=; case: eqP.
by rewrite (root_step hw hi); apply: IH => //; exact: ltn_trans h hi.
Qed.

Lemma walk_ok al c fuel : wf al -> c < fuel -> c < N ->
  exists vis, walk fuel al c = Some (root al c, vis) /\ all (fun v => (v < N) && (root al v == root al c)) vis.
Proof.
move=> hw; elim: fuel c => // f IH c hf hc /=; case: eqP => [e|ne].
  by exists [::]; rewrite (fix_root (esym e)).
have h : nth 0 al c < c by rewrite ltn_neqAle (wf_le hw hc) andbT; apply/eqP => e; exact: ne.
have [||vis [-> hv]] := IH (nth 0 al c); [by lia|by exact: ltn_trans h hc|].
exists (c :: vis); rewrite -(root_step hw hc); split=> //=; rewrite hc eqxx /=.
by rewrite [root al c in X in all X _](root_step hw hc).
Qed.

Definition same_roots (al al' : seq nat) : Prop :=
  [/\ wf al', forall i, i < N -> root al' i = root al i & forall i, i < N -> nth 0 al i = root al i -> nth 0 al' i = root al i].
Lemma compress_all al r vis : wf al -> all (fun v => (v < N) && (root al v == r)) vis ->
  same_roots al (foldl (fun a v => set_nth 0 a v r) al vis).
Proof.
elim: vis al => [|v vis IH] al hw /=; first by split.
move=> /andP[/andP[hv /eqP e] h]; have hw' := wf_set hw hv (root_le hw hv); rewrite e in hw'.
have e2 i : i < N -> root (set_nth 0 al v r) i = root al i by rewrite -e; exact: root_compress.
have [||h1 h2 h3] := IH (set_nth 0 al v r) => //.
  by apply/allP => x hx; move/allP: h => /(_ x hx) /andP[h1 h2]; rewrite h1 e2.
split=> // i hi; first by rewrite h2 // e2.
move=> ei; rewrite -(e2 i hi) in ei *; apply: h3 => //; rewrite nth_set_nth /=; case: eqP => // ->.
by rewrite e2 // e.
Qed.
Lemma gtl_ok al c : wf al -> c < N -> exists al', get_true_label N al c = Some (root al c, al') /\ same_roots al al'.
Proof.
move=> hw hc; rewrite /get_true_label; case: eqP => [e|ne]; first by exists al; rewrite (fix_root (esym e)).
have [vis [-> hv]] := walk_ok hw hc hc; eexists; split; first by [].
exact: compress_all.
Qed.

(** ** Connecting *)
Definition repr (E : seq (nat * nat)) (al : seq nat) : Prop :=
  [/\ wf al, forall i, i < N -> linked E i (root al i) & forall a b, (a, b) \in E -> root al a = root al b].
Definition edges_ok (E : seq (nat * nat)) : bool := all (fun e => (e.1 < N) && (e.2 < N)) E.

Lemma repr_linked E al i j : repr E al -> edges_ok E -> i < N -> j < N -> (root al i = root al j <-> linked E i j).
Proof.
move=> [hw h1 h2] he hi hj; split=> [e|h].
  by apply: l_trans (h1 i hi) _; rewrite e; apply: l_sym; exact: h1.
have gen a b : linked E a b -> (a < N <-> b < N) /\ root al a = root al b.
  elim=> {a b} [a b hab|//|a b _ [h3 h4]|a b c _ [h3 h4] _ [h5 h6]]; last 2 first.
  - by split; [tauto|].
  - by split; [tauto|rewrite h4].
  by split; [move/allP: he => /(_ _ hab) /= /andP[-> ->]|exact: h2].
by case: (gen i j h).
Qed.

Lemma repr_by E al0 al1 a b : repr E al0 -> edges_ok E -> a < N -> b < N -> wf al1 ->
  (forall i, i < N -> root al0 i != root al0 a -> root al0 i != root al0 b -> root al1 i = root al0 i) ->
  (exists r, (r = root al0 a \/ r = root al0 b) /\
     forall i, i < N -> (root al0 i == root al0 a) || (root al0 i == root al0 b) -> root al1 i = r) ->
  repr (rcons E (a, b)) al1.
Proof.
move=> [hw h1 h2] he ha hb hw1 h3 [r [hr h4]].
have sub : {subset E <= rcons E (a, b)} by move=> x hx; rewrite mem_rcons inE hx orbT.
have la i : i < N -> linked (rcons E (a, b)) i (root al0 i) by move=> hi; apply: linked_mono sub (h1 i hi).
have lab : linked (rcons E (a, b)) (root al0 a) (root al0 b).
  apply: l_trans (l_sym (la a ha)) _; apply: l_trans (la b hb); apply: l_edge; by rewrite mem_rcons mem_head.
have cases i : i < N -> root al1 i = if (root al0 i == root al0 a) || (root al0 i == root al0 b) then r else root al0 i.
  by move=> hi; case: ifP => [h|/negbT]; [exact: h4|rewrite negb_or => /andP[n1 n2]; exact: h3].
split=> //.
  move=> i hi; rewrite (cases i hi); case: ifP => [/orP h|_]; last exact: la.
  apply: l_trans (la i hi) _; case: h => /eqP ->; case: hr => ->; try exact: l_refl; [exact: lab|exact: l_sym].
move=> x y; rewrite mem_rcons inE => /orP[/eqP[-> ->]|hxy]; first by rewrite !cases // !eqxx orbT.
by move/allP: he => /(_ _ hxy) /= /andP[hx hy]; rewrite !cases // (h2 _ _ hxy).
Qed.

Lemma connect_ok E al a b : repr E al -> edges_ok E -> a < N -> b < N ->
  exists al', connect_vertices N al a b = Some al' /\ repr (rcons E (a, b)) al'.
Proof.
move=> hE hok ha hb; have [hw _ _] := hE; rewrite /connect_vertices.
have na x : x < N -> nth 0 al x < N by move=> hx; apply: leq_ltn_trans (hx); exact: wf_le.
have [al1 [-> [hw1 e1 k1]]] := gtl_ok hw (na _ ha).
have nb : nth 0 al1 b < N by apply: leq_ltn_trans (hb); exact: wf_le.
have [al2 [-> [hw2 e2 _]]] := gtl_ok hw1 nb.
rewrite -(root_step hw ha) -(root_step hw1 hb) e1 //.
have e i : i < N -> root al2 i = root al i by move=> hi; rewrite e2 // e1.
have fa x : x < N -> nth 0 al2 (root al x) = root al x by move=> hx; rewrite -(e x hx); exact: root_fix.
have [lt_ab|lt_ba|eq_ab] := ltngtP (root al a) (root al b).
- exists (set_nth 0 al2 (root al b) (root al a)); split=> //.
  have hm i : i < N -> root (set_nth 0 al2 (root al b) (root al a)) i = if root al i == root al b then root al a else root al i.
    by move=> hi; rewrite root_merge ?fa ?e //; exact: root_lt.
  apply: (repr_by hE hok ha hb).
  + by apply: wf_set => //; [exact: root_lt|exact: ltnW].
  + by move=> i hi _ /negbTE n; rewrite hm // n.
  + exists (root al a); split; first by left.
    by move=> i hi h; rewrite hm //; move: h; case: (eqVneq (root al i) (root al b)) => [//|_] /=; rewrite orbF => /eqP.
- exists (set_nth 0 al2 (root al a) (root al b)); split=> //.
  have hm i : i < N -> root (set_nth 0 al2 (root al a) (root al b)) i = if root al i == root al a then root al b else root al i.
    by move=> hi; rewrite root_merge ?fa ?e //; exact: root_lt.
  apply: (repr_by hE hok ha hb).
  + by apply: wf_set => //; [exact: root_lt|exact: ltnW].
  + by move=> i hi /negbTE n _; rewrite hm // n.
  + exists (root al b); split; first by right.
    by move=> i hi h; rewrite hm //; move: h; case: (eqVneq (root al i) (root al a)) => [//|_] /= /eqP.
- exists al2; split=> //; apply: (repr_by hE hok ha hb hw2); first by move=> i hi _ _; exact: e.
  by exists (root al a); split; [left|move=> i hi; rewrite -eq_ab orbb e // => /eqP].
Qed.

Lemma connect_all_ok E E' al : repr E al -> edges_ok (E ++ E') -> exists al', connect_all N al E' = Some al' /\ repr (E ++ E') al'.
Proof.
elim: E' E al => [|[a b] E' IH] E al hE; first by rewrite cats0; exists al.
rewrite -cat_rcons => hok; have := hok; rewrite {1}/edges_ok all_cat all_rcons => /andP[/andP[/andP[ha hb] hE0] _].
have [al' [/= -> h]] := connect_ok hE hE0 ha hb; exact: IH.
Qed.
Lemma init_repr : repr [::] (cl_init N).
Proof.
have n i : i < N -> nth 0 (cl_init N) i = i by move=> hi; rewrite nth_iota.
split=> [|i hi|//]; first by split; [rewrite size_iota|move=> i hi; rewrite n].
by rewrite fix_root ?n //; exact: l_refl.
Qed.

(** ** Final labelling *)
Lemma fin_loop_ok al todo pre valid : wf al -> all (fun i => i < N) (pre ++ todo) ->
  (forall i, i \in pre -> nth 0 al i = root al i) ->
  exists al' valid', [/\ fin_loop N todo al valid = Some (al', valid'), same_roots al al',
    forall i, i \in pre ++ todo -> nth 0 al' i = root al i &
    valid' = foldl (fun v r => if r \in v then v else rcons v r) valid [seq root al i | i <- todo]].
Proof.
elim: todo pre al valid => [|i todo IH] pre al valid hw hall hpre.
  by exists al, valid; split=> // x; rewrite cats0; exact: hpre.
move: hall; rewrite -cat_rcons => hall; have := hall; rewrite all_cat all_rcons => /andP[/andP[hi hp] _] /=.
have [al1 [-> [hw1 e1 k1]]] := gtl_ok hw hi.
have hw2 : wf (set_nth 0 al1 i (root al i)) by apply: wf_set => //; exact: root_le.
have e2 x : x < N -> root (set_nth 0 al1 i (root al i)) x = root al x by move=> hx; rewrite -(e1 i hi) root_compress ?e1.
have [|||al' [valid' [-> [h1 h2 h3] h4 h5]]] := IH (rcons pre i) (set_nth 0 al1 i (root al i)) (if root al i \in valid then valid else rcons valid (root al i)) => //.
  move=> x; rewrite mem_rcons inE nth_set_nth /=; case: eqP => [-> _|ne /= hx]; first by rewrite e2.
  by have hxN := allP hp x hx; rewrite e2 // k1 // hpre.
exists al', valid'; split=> //.
- split=> // x hx; first by rewrite h2 // e2.
  move=> ex; rewrite -(e2 x hx); apply: h3 => //; rewrite e2 // nth_set_nth /=; case: eqP => [-> //|_]; exact: k1.
- by move=> x hx; rewrite h4 // e2 //; exact: (allP hall).
rewrite h5; congr foldl; apply/eq_in_map => x hx; apply: e2; apply: (allP hall).
by rewrite mem_cat hx orbT.
Qed.

(** The labels pushed: first occurrences of roots. *)
Definition firsts (s : seq nat) : seq nat := foldl (fun v r => if r \in v then v else rcons v r) [::] s.
Lemma firsts_rcons s x : firsts (rcons s x) = if x \in firsts s then firsts s else rcons (firsts s) x.
Proof. by rewrite /firsts -cats1 foldl_cat. Qed.
Lemma mem_firsts s : firsts s =i s.
Proof.
elim/last_ind: s => [//|s x IH] y; rewrite firsts_rcons mem_rcons inE -IH.
by case: ifP => h; [case: eqP => // ->; rewrite h|rewrite mem_rcons inE].
Qed.
Lemma firsts_uniq s : uniq (firsts s).
Proof. by elim/last_ind: s => [//|s x IH]; rewrite firsts_rcons; case: ifP => // h; rewrite rcons_uniq h. Qed.

Lemma roots_firsts al n : wf al -> n <= N -> firsts [seq root al i | i <- iota 0 n] = [seq i <- iota 0 n | root al i == i].
Proof.
move=> hw; elim: n => // n IH hn; rewrite -addn1 iotaD /= add0n map_cat filter_cat /= cats1 firsts_rcons IH ?(ltnW hn) //.
have := root_le hw hn; rewrite leq_eqVlt => /orP[/eqP e|h].
  by rewrite e eqxx cats1 mem_filter mem_iota add0n ltnn !andbF.
by rewrite ltn_eqF // cats0 mem_filter mem_iota /= root_idem // eqxx h.
Qed.

Lemma label_map_ok valid i : uniq valid -> all (fun r => r < N) valid -> i \in valid ->
  nth 0 (label_map valid N) i = index i valid.
Proof.
move=> hu hN hi; rewrite /label_map.
have gen n m : n <= size valid -> index i valid < n ->
    nth 0 (foldl (fun m l => set_nth 0 m (nth 0 valid l) l) m (iota 0 n)) i = index i valid.
  elim: n m => // n IH m hn hin; rewrite -addn1 iotaD /= add0n foldl_cat /= nth_set_nth /=; case: eqP => [e|ne].
    by rewrite e index_uniq.
  apply: IH; first exact: ltnW; move: hin; rewrite ltnS leq_eqVlt => /orP[/eqP e|//].
  by case: ne; rewrite -e nth_index.
by apply: gen; rewrite ?index_mem.
Qed.

Lemma members_ok (lab : nat -> nat) k n l : (forall i, i < n -> lab i < k) ->
  let ms := foldl (fun ms i => add_member ms (lab i) i) (nseq k [::]) (iota 0 n) in
  size ms = k /\ nth [::] ms l = [seq i <- iota 0 n | lab i == l].
Proof.
elim: n => [|n IH] h; first by rewrite /= size_nseq nth_nseq; case: ifP.
have [|h1 h2] := IH; first by move=> i hi; apply: h; exact: ltnW.
rewrite -[n.+1]addn1; cbv zeta; move: h1 h2; cbv zeta => h1 h2.
rewrite iotaD add0n foldl_cat /= filter_cat /=; set ms := foldl _ _ _ in h1 h2 *.
rewrite /add_member size_set_nth h1 nth_set_nth /=; split; first by have := h n (ltnSn n); lia.
by rewrite -h2 eq_sym; case: eqP => [->|_]; rewrite ?cats1 ?cats0.
Qed.
End Al.

Lemma filter_iota_head (p : pred nat) v N : v < N -> p v -> (forall i, i < v -> ~~ p i) ->
  [seq i <- iota 0 N | p i] = v :: [seq i <- iota v.+1 (N - v.+1) | p i].
Proof.
move=> hv pv h; rewrite -{1}(subnKC hv) addSnnS iotaD filter_cat add0n.
rewrite (_ : filter p (iota 0 v) = [::]) ?cat0s /= ?pv //.
apply/eqP; rewrite -(negbK (_ == _)) -has_filter; apply/hasPn => x; rewrite mem_iota => /andP[_ hx]; exact: h.
Qed.

(** C27. For every number of vertices and every sequence of connections between existing vertices: the loops end;
    two vertices carry the same label exactly when a path of connections joins them; the labels used are 0..k-1,
    numbered by the smallest vertex of the component; the k member lists hold exactly the vertices with that label. *)
Theorem C27_components N es : all (fun e => (e.1 < N) && (e.2 < N)) es ->
  exists labels members, [/\ clustering N es = Some (labels, members),
    size labels = N,
    forall i j, i < N -> j < N -> (nth 0 labels i = nth 0 labels j <-> linked es i j),
    [/\ forall i, i < N -> nth 0 labels i < size members,
        forall l, l < size members -> nth [::] members l != [::] &
        forall l l', l < l' < size members -> head 0 (nth [::] members l) < head 0 (nth [::] members l')] &
    forall l i, i \in nth [::] members l <-> i < N /\ l < size members /\ nth 0 labels i = l].
Proof.
move=> hok; have [al [e hE]] := connect_all_ok (init_repr N) hok; rewrite /clustering e /finalize_labeling.
have [hw _ _] := hE.
have hall : all (fun i => i < N) ([::] ++ iota 0 N) by apply/allP => x; rewrite mem_iota.
have [//|al' [valid [-> _ hal' hv]]] := @fin_loop_ok N al (iota 0 N) [::] [::] hw hall.
have {}hv : valid = [seq i <- iota 0 N | root al i == i] by rewrite hv -(roots_firsts hw (leqnn N)).
set labels := [seq _ | i <- _]; set members := foldl _ _ _.
have vu : uniq valid by rewrite hv filter_uniq // iota_uniq.
have vN : all (fun r => r < N) valid by apply/allP => x; rewrite hv mem_filter mem_iota => /andP[].
have rv i : i < N -> root al i \in valid.
  by move=> hi; rewrite hv mem_filter mem_iota (root_idem hw hi) eqxx /=; exact: root_lt.
have lab i : i < N -> nth 0 labels i = index (root al i) valid.
  move=> hi; rewrite /labels (nth_map 0) ?size_iota // nth_iota // add0n hal' ?mem_iota //.
  by apply: label_map_ok => //; exact: rv.
have labk i : i < N -> nth 0 labels i < size valid by move=> hi; rewrite lab // index_mem; exact: rv.
have [ms_size _] := @members_ok (nth 0 labels) (size valid) N 0 labk.
have ms l : nth [::] members l = [seq i <- iota 0 N | nth 0 labels i == l].
  by have [_] := @members_ok (nth 0 labels) (size valid) N l labk.
rewrite -/members in ms_size.
have hd l : l < size valid -> nth [::] members l != [::] /\ head 0 (nth [::] members l) = nth 0 valid l.
  move=> hl; rewrite ms; set v := nth 0 valid l.
  have hv0 : v \in valid by exact: mem_nth.
  have hvN : v < N by exact: (allP vN).
  have rvv : root al v = v by move: hv0; rewrite hv mem_filter => /andP[/eqP].
  have lv : nth 0 labels v = l by rewrite lab // rvv index_uniq.
  have -> : [seq i <- iota 0 N | nth 0 labels i == l] = v :: [seq i <- iota v.+1 (N - v.+1) | nth 0 labels i == l].
    apply: filter_iota_head => //; first by rewrite lv.
    move=> i hi; have hiN : i < N by exact: ltn_trans hi hvN.
    apply/negP => /eqP e1; have := root_le hw hiN.
    have -> : root al i = v by rewrite /v -e1 lab // nth_index ?rv.
    by rewrite leqNgt hi.
  by [].
exists labels, members; rewrite ms_size; split=> //.
- by rewrite size_map size_iota.
- move=> i j hi hj; rewrite !lab //; split=> [e1|/(repr_linked hE hok hi hj) -> //].
  apply/(repr_linked hE hok hi hj).
  by rewrite -[LHS](nth_index 0 (rv i hi)) e1 nth_index ?rv.
- split=> //; first by move=> l /hd[].
  move=> l l' /andP[h1 h2]; have h0 := ltn_trans h1 h2.
  have [_ ->] := hd l h0; have [_ ->] := hd l' h2.
  apply: (@sorted_ltn_nth _ ltn ltn_trans) => //.
  by rewrite hv; apply: sorted_filter; [exact: ltn_trans|exact: iota_ltn_sorted].
- move=> l i; rewrite ms mem_filter mem_iota /= add0n; split=> [/andP[/eqP e1 hi]|[hi [_ ->]]]; last by rewrite eqxx.
  by rewrite -e1; split=> //; split=> //; exact: labk.
Qed.
Print Assumptions C27_components.

(** Six vertices; 0-4, 3-1 and 4-3 join {0,1,3,4}; 2 and 5 stay alone. The second class is labelled before vertex 5. *)
Example C27_instance : all (fun e => (e.1 < 6) && (e.2 < 6)) [:: (0, 4); (3, 1); (4, 3)] /\
  clustering 6 [:: (0, 4); (3, 1); (4, 3)] = Some ([:: 0; 0; 1; 0; 0; 2], [:: [:: 0; 1; 3; 4]; [:: 2]; [:: 5]]).
Proof. by []. Qed.
