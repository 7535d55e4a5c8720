(** * C34: the determinant of all flavors from the blocks *)
From Coq Require Import ZArith List Sorting.Permutation Sorting.Sorted.
From mathcomp Require Import all_ssreflect all_fingroup all_algebra zify.
From Verif Require Import OpContainer CombSort T_PermSign Dist Proposal HybDet EigenBasis T_EigenBasis FastUpdate T_FastUpdate DetMatrix T_DetMatrix T_DetUpdate T_DetHistory Clustering T_Clustering DetPartitioned.
Import Order.Theory GRing.Theory Num.Theory.
Set Implicit Arguments.
Unset Strict Implicit.
Unset Printing Implicit Defensive.
Local Close Scope Z_scope.
Local Open Scope nat_scope.
Local Open Scope ring_scope.

(** ** Pairs of operators whose order by sectors differs from their order in time *)
Section Cross.
Variable blk : nat -> nat.
Notation bk x := (blk (p_flavor x)).
Notation inb := (inb blk).
Definition crossing (x y : psi) : bool :=
  (bk y < bk x)%N && ot_lt (p_time x) (p_time y) || (bk x < bk y)%N && ot_lt (p_time y) (p_time x).
Lemma crossingC x y : crossing x y = crossing y x. Proof. by rewrite /crossing orbC. Qed.
Fixpoint xinv (s : seq psi) : nat := if s is x :: s' then (count (crossing x) s' + xinv s')%N else 0%N.

Lemma xinv_cat s t : xinv (s ++ t) = (xinv s + xinv t + sumn [seq count (crossing x) t | x <- s])%N.
Proof. by elim: s => [|x s IH] /=; rewrite ?addn0 // IH count_cat; lia. Qed.
Lemma xinv_rcons s x : xinv (rcons s x) = (xinv s + count (crossing x) s)%N.
Proof.
rewrite -cats1 xinv_cat /= !addn0; congr (_ + _)%N.
elim: s => [|y s IH] //=; rewrite IH crossingC; lia.
Qed.
Lemma xinv_adj k s t : adj k s t -> xinv t = xinv s.
Proof.
elim=> // {}k l a x y b _ <-; rewrite !app_cat !xinv_cat /= (crossingC y x).
rewrite (eq_map (f2 := fun z => (crossing z x + (crossing z y + count (crossing z) b))%N)); first by lia.
by move=> z; rewrite addnCA.
Qed.
Lemma xinv_perm s t : perm_eq s t -> xinv s = xinv t.
Proof. by move=> /perm_eq_Permutation /perm_adj [k /xinv_adj]. Qed.

(** sorted by sectors, and by time in each sector *)
Definition before (x y : psi) : bool := (bk x < bk y)%N || (bk x == bk y) && ot_lt (p_time x) (p_time y).
Lemma ninv_before s : pairwise before s -> ninv s = xinv s.
Proof.
elim: s => [|x s IH] //= /andP[/allP hx hs].
rewrite -[ninv _]/(count_lt ot_lt (p_time x) (map p_time s) + inv ot_lt (map p_time s))%N -/(ninv s) IH //.
congr (_ + _)%N; rewrite count_ltE count_map; apply: eq_in_count => y hy /=.
have := hx _ hy; rewrite /before /crossing; case: ltngtP => //= _.
by move=> /ot_lt_asym ->.
Qed.

Lemma inb_tsort b s : inb b (tsort s) = tsort (inb b s).
Proof. by rewrite /tsort /HybDet.inb filter_sort //; [exact: psi_le_total|exact: psi_le_trans]. Qed.
Lemma tsort_pairwise s : uniq (map p_time s) -> pairwise (fun x y => ot_lt (p_time x) (p_time y)) (tsort s).
Proof.
move=> u; have u2 : uniq (map p_time (tsort s)) by rewrite -(perm_uniq (perm_map _ (perm_tsort s))).
have := sort_sorted psi_le_total s; rewrite -/(tsort s) sorted_pairwise; last exact: psi_le_trans.
elim: (tsort s) u2 => [|x l IH] //= /andP[hx ul] /andP[ha hp]; rewrite (IH ul hp) andbT.
apply/allP => y hy; have := allP ha _ hy; rewrite /psi_le => /orP[//|/andP[/ot_eqb_spec e _]].
by case/negP: hx; rewrite e map_f.
Qed.
Lemma blocks_before n m s : uniq (map p_time s) -> pairwise before (by_blocks blk (iota n m) (tsort s)).
Proof.
move=> u; elim: m n => [|m IH] n //; rewrite /by_blocks /= pairwise_cat IH andbT; apply/andP; split.
  apply/allrelP => x y; rewrite -/(by_blocks _ _ _) mem_by_blocks mem_filter mem_iota => /andP[/eqP hx _] /andP[/andP[hy _] _].
  by rewrite /before hx hy.
rewrite inb_tsort.
have ub : uniq (map p_time (inb n s)).
  by apply: subseq_uniq u; apply: map_subseq; exact: filter_subseq.
have hb : all (fun x => bk x == n) (tsort (inb n s)).
  by apply/allP => x; rewrite -(perm_mem (perm_tsort _)) mem_filter => /andP[].
move: (tsort_pairwise ub) hb; elim: (tsort _) => [|x l IH2] //= /andP[ha hp] /andP[/eqP hx hl]; rewrite IH2 // andbT.
by apply/allP => y hy; rewrite /before hx (eqP (allP hl _ hy)) eqxx ltnn /= (allP ha).
Qed.

(** The number of operators the code counts has the parity of the number of crossings *)
Definition ncode (x : psi) (s : seq psi) : nat :=
  (count (fun y => ~~ ot_lt (p_time y) (p_time x)) s + count (fun y => bk x < bk y)%N s + count (fun y => ~~ ot_lt (p_time y) (p_time x)) (inb (bk x) s))%N.
Lemma ncode_parity x s : p_time x \notin map p_time s -> odd (ncode x s) = odd (count (crossing x) s).
Proof.
elim: s => [|y s IH] //=; rewrite inE negb_or => /andP[ne hs].
move: (IH hs); rewrite /ncode /= -/(crossing x y) => {}IH.
have -> : count (fun z => ~~ ot_lt (p_time z) (p_time x)) (inb (bk x) (y :: s)) =
  (((bk y == bk x) && ~~ ot_lt (p_time y) (p_time x)) + count (fun z => ~~ ot_lt (p_time z) (p_time x)) (inb (bk x) s))%N.
  by rewrite /HybDet.inb /=; case: (bk y == bk x).
rewrite [in RHS]oddD -IH.
set A := count _ s; set B := count _ s; set C := count _ (inb _ s).
have e : odd (~~ ot_lt (p_time y) (p_time x) + (bk x < bk y)%N + ((bk y == bk x) && ~~ ot_lt (p_time y) (p_time x))) = crossing x y.
  rewrite /crossing (ot_lt_flip (x := p_time x) (y := p_time y)); last exact/eqP.
  by case: ltngtP => _; case: ot_lt.
by rewrite oddb -e -oddD; congr odd; lia.
Qed.
Lemma ncode_self x s : x \in s -> uniq (map p_time s) -> odd (ncode x s) = odd (count (crossing x) (kept [:: x] s)).
Proof.
move=> hx u; have us := map_uniq u.
have p : perm_eq s (x :: kept [:: x] s).
  apply: uniq_perm => //=; first by rewrite mem_filter inE eqxx /= filter_uniq.
  by move=> y; rewrite !inE mem_filter inE; case: (eqVneq y x) => [->|].
have nc : ncode x s = ncode x (x :: kept [:: x] s).
  rewrite /ncode; congr (_ + _ + _)%N; try exact/seq.permP.
  by rewrite /HybDet.inb !count_filter; exact/seq.permP.
have hn : p_time x \notin map p_time (kept [:: x] s).
  by move: u; rewrite (perm_uniq (perm_map p_time p)) /= => /andP[].
rewrite nc -(ncode_parity hn) /ncode /= /HybDet.inb /= eqxx ltnn /= ot_lt_irrefl /=.
by rewrite -/(HybDet.inb _ _ _) !oddD /=; case: (odd (count _ _)); case: (odd (count _ _)); case: (odd (count _ _)).
Qed.
End Cross.

(** ** The operators of one kind *)
Section Sets.
Variables (lab : seq nat) (nb : nat).
Notation blk := (blk lab nb).
Notation bk x := (blk (p_flavor x)).
Notation inb := (inb blk).
Notation xinv := (xinv blk).
Notation inr := (fun x => bk x < nb)%N.

Definition tok (T : tset) (ops rem add : seq psi) : Prop :=
  [/\ set_ok (t_all T) ops, size (t_sec T) = nb, forall b, (b < nb)%N -> set_ok (nth [::] (t_sec T) b) (inb b ops),
      forall b, (b < nb)%N -> nth [::] (t_rem T) b = inb b rem & forall b, (b < nb)%N -> nth [::] (t_add T) b = inb b add].

Lemma inb_uniq b (s : seq psi) : uniq (map p_time s) -> uniq (map p_time (inb b s)).
Proof. by move=> u; apply: subseq_uniq u; apply: map_subseq; exact: filter_subseq. Qed.
Lemma set_perm l ops : uniq (map p_time ops) -> set_ok l ops -> perm_eq l ops.
Proof. by move=> u /(set_tsort u) ->; rewrite perm_sym perm_tsort. Qed.
Lemma inb_kept b xs (s : seq psi) : inb b (kept xs s) = kept (inb b xs) (inb b s).
Proof.
rewrite /HybDet.inb /kept -!filter_predI; apply: eq_in_filter => x _ /=; rewrite mem_filter.
by case: (bk x == b); rewrite ?andbT ?andbF.
Qed.
Lemma inb_cat b (s t : seq psi) : inb b (s ++ t) = inb b s ++ inb b t. Proof. exact: filter_cat. Qed.
Lemma set_ok_perm l s t : s =i t -> set_ok l s -> set_ok l t.
Proof. by move=> e [h1 h2]; split=> // x; rewrite h2 e. Qed.
Lemma set_erase l ops x : set_ok l ops -> uniq (map p_time ops) -> x \in ops -> set_ok (cerase x l).1 (kept [:: x] ops).
Proof.
move=> [hs hl] u hx; split; first by have [] := cerase_mem x x hs.
move=> y; have [_ ->] := cerase_mem x y hs; rewrite hl mem_filter inE andbC; case hy : (y \in ops) => /=; last by rewrite !andbF.
rewrite !andbT; congr negb; apply/eqP/eqP => [e|-> //].
by apply: (uniq_map_inj u).
Qed.
Lemma sumn_mapD (f g : nat -> nat) l : sumn [seq (f b + g b)%N | b <- l] = (sumn (map f l) + sumn (map g l))%N.
Proof. by elim: l => //= b l ->; rewrite addnACA. Qed.
Lemma num_opsE T ops rem add x : tok T ops rem add -> uniq (map p_time ops) -> all inr ops -> (bk x < nb)%N ->
  num_ops x (bk x) T = ncode blk x ops.
Proof.
move=> [h1 h2 h3 _ _] u hr hx; rewrite /num_ops /ncode /cge.
have p1 := set_perm u h1; have p2 := set_perm (inb_uniq _ u) (h3 _ hx).
congr (_ + _ + _)%N; [exact/seq.permP| |exact/seq.permP].
have -> : t_sec T = [seq nth [::] (t_sec T) b | b <- iota 0 nb].
  by rewrite -{1}[t_sec T]take_size h2 -h2 map_nth_iota0 // take_size.
rewrite -map_drop drop_iota -map_comp.
have -> : [seq (size \o [eta nth [::] (t_sec T)]) b | b <- iota (0 + (bk x).+1) (nb - (bk x).+1)] =
   [seq size (inb b ops) | b <- iota (bk x).+1 (nb - (bk x).+1)].
  apply/eq_in_map => b; rewrite mem_iota => /andP[_ hb] /=; apply/perm_size/set_perm; first exact: inb_uniq.
  by apply: h3; move: hb; lia.
elim: ops hr {h1 h3 u p1 p2} => [|y ops IH] /=; first by elim: (iota _ _).
move=> /andP[hy hr]; rewrite -(IH hr) => {IH}.
rewrite (eq_map (f2 := fun b => ((bk y == b) + size (inb b ops))%N)); last first.
  by move=> b; rewrite /HybDet.inb /=; case: eqP.
rewrite sumn_mapD; congr (_ + _)%N.
have -> : sumn [seq (bk y == b : nat) | b <- iota (bk x).+1 (nb - (bk x).+1)] = count_mem (bk y) (iota (bk x).+1 (nb - (bk x).+1)).
  by elim: (iota _ _) => //= b l ->; rewrite eq_sym.
by rewrite count_uniq_mem ?iota_uniq // mem_iota; congr nat_of_bool; move: hy; clear; lia.
Qed.

Lemma inb_rcons b (s : seq psi) x : inb b (rcons s x) = if bk x == b then rcons (inb b s) x else inb b s.
Proof. by rewrite /HybDet.inb filter_rcons. Qed.
Lemma tok_push_rem T ops rem add x : tok T ops rem add -> tok (push_rem x (bk x) T) ops (rcons rem x) add.
Proof.
move=> [h1 h2 h3 h4 h5]; split=> //= b hb; rewrite nth_set_nth /= inb_rcons [bk x == b]eq_sym.
by case: eqP => [<-|_]; rewrite h4.
Qed.
Lemma tok_push_add T ops rem add x : tok T ops rem add -> tok (push_add x (bk x) T) ops rem (rcons add x).
Proof.
move=> [h1 h2 h3 h4 h5]; split=> //= b hb; rewrite nth_set_nth /= inb_rcons [bk x == b]eq_sym.
by case: eqP => [<-|_]; rewrite h5.
Qed.
Lemma mem_inb b x (s : seq psi) : x \in inb b s = (bk x == b) && (x \in s).
Proof. by rewrite mem_filter. Qed.
Lemma tok_erase T ops rem add x : tok T ops rem add -> uniq (map p_time ops) -> x \in ops -> (bk x < nb)%N ->
  tok (erase_at x (bk x) T) (kept [:: x] ops) rem add.
Proof.
move=> [h1 h2 h3 h4 h5] u hx hb; split=> //=; first exact: set_erase.
  by rewrite size_set_nth h2; apply/maxn_idPr.
move=> b hb'; rewrite nth_set_nth /= inb_kept eq_sym; case: eqP => [<-|ne].
  rewrite -[inb _ [:: x]]/(if bk x == bk x then _ else _) eqxx; apply: set_erase => //; first exact: h3.
    exact: inb_uniq.
  by rewrite mem_inb eqxx.
rewrite -[inb _ [:: x]]/(if bk x == b then _ else _) (introF eqP ne) kept_nil; exact: h3.
Qed.
Lemma tok_insert T ops rem add x : tok T ops rem add -> p_time x \notin map p_time ops -> (bk x < nb)%N ->
  tok (insert_at x (bk x) T) (rcons ops x) rem add.
Proof.
move=> [h1 h2 h3 h4 h5] hx hb; split=> //=; first exact: set_insert.
  by rewrite size_set_nth h2; apply/maxn_idPr.
move=> b hb'; rewrite nth_set_nth /= inb_rcons eq_sym; case: eqP => [<-|ne]; last exact: h3.
apply: set_insert; first exact: h3.
by apply: contra hx => /mapP[y]; rewrite mem_inb => /andP[_ hy] ->; exact: map_f.
Qed.

Lemma kept_cons x xs (ops : seq psi) : kept (x :: xs) ops = kept xs (kept [:: x] ops).
Proof. by rewrite /kept -filter_predI; apply: eq_filter => y /=; rewrite !inE negb_or andbC. Qed.
Lemma xinv_kept x (ops : seq psi) : x \in ops -> uniq ops -> xinv ops = (count (crossing blk x) (kept [:: x] ops) + xinv (kept [:: x] ops))%N.
Proof.
move=> hx u; rewrite (@xinv_perm blk ops (x :: kept [:: x] ops)) //.
apply: uniq_perm => //=; first by rewrite mem_filter inE eqxx /= filter_uniq.
by move=> y; rewrite !inE mem_filter inE; case: (eqVneq y x) => [->|].
Qed.

Lemma rem_fold xs T ops rem add s : tok T ops rem add -> uniq (map p_time ops) -> all inr ops -> {subset xs <= ops} -> uniq xs ->
  exists T', foldl (rem_step lab nb) (s, T) xs = (s * (sign_of (xinv ops) * sign_of (xinv (kept xs ops))), T') /\ tok T' (kept xs ops) (rem ++ xs) add.
Proof.
elim: xs T ops rem s => [|x xs IH] T ops rem s ht u hr hs.
  by move=> _; exists T; rewrite kept_nil cats0 sign_of2 mulr1.
move=> /= /andP[nx ux].
have hx : x \in ops by apply: hs; rewrite inE eqxx.
have hb : (bk x < nb)%N by exact: (allP hr).
have t1 := tok_push_rem x ht; have t2 := tok_erase t1 u hx hb.
have u2 : uniq (map p_time (kept [:: x] ops)) by apply: subseq_uniq u; apply: map_subseq; exact: filter_subseq.
have r2 : all inr (kept [:: x] ops) by apply/allP => y; rewrite mem_filter => /andP[_ /(allP hr)].
have s2 : {subset xs <= kept [:: x] ops}.
  move=> y hy; rewrite mem_filter inE hs ?inE ?hy ?orbT // andbT; apply: contraNneq nx => <- //.
rewrite /rem_step -/(rem_step lab nb) (num_opsE t1 u hr hb).
have [T' [e tT]] := IH _ _ _ (s * sign_of (ncode blk x ops)) t2 u2 r2 s2 ux.
exists T'; rewrite e kept_cons; split; last by rewrite -cat_rcons.
congr (_, _); rewrite -mulrA; congr (_ * _); rewrite mulrA; congr (_ * _).
rewrite (sign_of_odd (m := ncode blk x ops) (n := count (crossing blk x) (kept [:: x] ops))); last by rewrite ncode_self.
by rewrite -sign_ofD -xinv_kept //; exact: map_uniq u.
Qed.

Lemma add_fold xs T ops rem add s : tok T ops rem add -> uniq (map p_time (ops ++ xs)) -> all inr (ops ++ xs) ->
  exists T', foldl (add_step lab nb) (s, T) xs = (s * (sign_of (xinv ops) * sign_of (xinv (ops ++ xs))), T') /\ tok T' (ops ++ xs) rem (add ++ xs).
Proof.
elim: xs T ops add s => [|x xs IH] T ops add s ht.
  by move=> _ _; exists T; rewrite !cats0 sign_of2 mulr1.
rewrite -cat_rcons => u hr.
have [hx u0] : p_time x \notin map p_time ops /\ uniq (map p_time ops).
  by move: u; rewrite map_cat cat_uniq map_rcons rcons_uniq => /and3P[/andP[-> ->]].
have hb : (bk x < nb)%N by apply: (allP hr); rewrite mem_cat mem_rcons inE eqxx.
have r0 : all inr ops by apply/allP => y hy; apply: (allP hr); rewrite mem_cat mem_rcons inE hy orbT.
have t1 := tok_push_add x ht; have t2 := tok_insert t1 hx hb.
rewrite [foldl _ _ _]/= /add_step -/(add_step lab nb) (num_opsE t1 u0 r0 hb).
have [T' [e tT]] := IH _ _ _ (s * sign_of (ncode blk x ops)) t2 u hr.
exists T'; rewrite e; split; last by rewrite -[add ++ _]cat_rcons.
congr (_, _); rewrite -mulrA; congr (_ * _); rewrite mulrA; congr (_ * _).
by rewrite xinv_rcons addnC sign_ofD -(sign_of_odd (@ncode_parity blk x ops hx)) mulrA sign_of2 mul1r.
Qed.

Lemma tok_ext T ops ops' rem add : ops =i ops' -> tok T ops rem add -> tok T ops' rem add.
Proof.
move=> e [h1 h2 h3 h4 h5]; split=> //; first exact: set_ok_perm h1.
by move=> b hb; apply: set_ok_perm (h3 _ hb) => x; rewrite !mem_inb e.
Qed.
Lemma erase_sec b xs T ops rem add : tok T ops rem add -> uniq (map p_time ops) -> {subset xs <= ops} -> uniq xs ->
  all (fun x => bk x == b) xs -> (b < nb)%N -> tok (foldl (fun T x => erase_at x b T) T xs) (kept xs ops) rem add.
Proof.
move=> ht u hs ux hb hn; elim: xs T ops ht u hs ux hb => [|x xs IH] T ops ht u hs /=; first by rewrite kept_nil.
move=> /andP[nx ux] /andP[/eqP hx hb]; have xo : x \in ops by apply: hs; rewrite inE eqxx.
have t2 : tok (erase_at x b T) (kept [:: x] ops) rem add by rewrite -hx; apply: tok_erase; rewrite ?hx.
rewrite kept_cons; apply: IH => //.
  by apply: subseq_uniq u; apply: map_subseq; exact: filter_subseq.
move=> y hy; rewrite mem_filter inE hs ?inE ?hy ?orbT // andbT; apply: contraNneq nx => <- //.
Qed.
Lemma insert_sec b xs T ops rem add : tok T ops rem add -> uniq (map p_time (ops ++ xs)) ->
  all (fun x => bk x == b) xs -> (b < nb)%N -> tok (foldl (fun T x => insert_at x b T) T xs) (ops ++ xs) rem add.
Proof.
move=> ht u hb hn; elim: xs T ops ht u hb => [|x xs IH] T ops ht; first by rewrite cats0.
rewrite -cat_rcons => u /= /andP[/eqP hx hb]; apply: IH => //.
rewrite -hx; apply: tok_insert; rewrite ?hx //.
by move: u; rewrite map_cat cat_uniq map_rcons rcons_uniq => /and3P[/andP[]].
Qed.
Lemma by_blocksS n (s : seq psi) : by_blocks blk (iota 0 n.+1) s = by_blocks blk (iota 0 n) s ++ inb n s.
Proof. by rewrite -addn1 iotaD /by_blocks map_cat flatten_cat /= cats0. Qed.
Lemma by_blocks_uniq n (s : seq psi) : uniq s -> uniq (by_blocks blk (iota 0 n) s).
Proof.
move=> u; elim: n => [|n IH] //; rewrite by_blocksS cat_uniq IH filter_uniq // andbT /=.
by apply/hasPn => x; rewrite mem_inb => /andP[/eqP e _] /=; rewrite mem_by_blocks mem_iota e add0n ltnn.
Qed.
Lemma erase_added_ok T ops rem add : tok T ops rem add -> uniq (map p_time ops) -> {subset add <= ops} -> uniq add ->
  tok (erase_added nb T) (kept (by_blocks blk (iota 0 nb) add) ops) rem add.
Proof.
move=> ht u hs ua; rewrite /erase_added.
suff : forall n, (n <= nb)%N -> tok (foldl (fun T b => foldl (fun T x => erase_at x b T) T (nth [::] (t_add T) b)) T (iota 0 n))
  (kept (by_blocks blk (iota 0 n) add) ops) rem add by apply.
elim=> [|n IH] hn; first by rewrite /by_blocks /= kept_nil.
rewrite foldl_iotaS; set T1 := foldl _ T _ in IH *; have t1 := IH (ltnW hn).
have -> : nth [::] (t_add T1) n = inb n add by case: t1 => _ _ _ _ ->.
have -> : kept (by_blocks blk (iota 0 n.+1) add) ops = kept (inb n add) (kept (by_blocks blk (iota 0 n) add) ops).
  by rewrite /kept -filter_predI; apply: eq_filter => y /=; rewrite by_blocksS mem_cat negb_or andbC.
apply: erase_sec => //.
- by apply: subseq_uniq u; apply: map_subseq; exact: filter_subseq.
- move=> x; rewrite mem_inb => /andP[/eqP e hx]; rewrite mem_filter hs // andbT mem_by_blocks e mem_iota add0n ltnn //.
- exact: filter_uniq.
- by apply/allP => x; rewrite mem_inb => /andP[].
Qed.
Lemma insert_removed_ok T ops rem add : tok T ops rem add -> uniq (map p_time (ops ++ rem)) ->
  tok (insert_removed nb T) (ops ++ by_blocks blk (iota 0 nb) rem) rem add.
Proof.
move=> ht u; rewrite /insert_removed.
suff : forall n, (n <= nb)%N -> tok (foldl (fun T b => foldl (fun T x => insert_at x b T) T (nth [::] (t_rem T) b)) T (iota 0 n))
  (ops ++ by_blocks blk (iota 0 n) rem) rem add by apply.
elim=> [|n IH] hn; first by rewrite cats0.
rewrite foldl_iotaS; set T1 := foldl _ T _ in IH *; have t1 := IH (ltnW hn).
have -> : nth [::] (t_rem T1) n = inb n rem by case: t1 => _ _ _ ->.
rewrite by_blocksS catA; apply: insert_sec => //; last by apply/allP => x; rewrite mem_inb => /andP[].
rewrite -catA -by_blocksS map_inj_in_uniq.
  move/map_uniq: u; rewrite cat_uniq => /and3P[h0 h1 h2]; rewrite cat_uniq h0 by_blocks_uniq // andbT /=.
  by apply: contra h1 => /hasP[x]; rewrite mem_by_blocks => /andP[_ h3] h4; apply/hasP; exists x.
by move=> x y hx hy; apply: (uniq_map_inj u); rewrite mem_cat; [move: hx|move: hy]; rewrite mem_cat mem_by_blocks => /orP[->//|/andP[_ ->]]; rewrite orbT.
Qed.

Lemma nth_clear (l : seq (seq psi)) n b : nth [::] (foldl (fun l b => seq.set_nth [::] l b [::]) l (iota 0 n)) b = if (b < n)%N then [::] else nth [::] l b :> seq psi.
Proof.
elim: n => [|n IH] //; rewrite foldl_iotaS nth_set_nth /= IH ltnS [(b <= n)%N]leq_eqVlt.
by case: eqP.
Qed.
Lemma clear_ok T ops rem add : tok T ops rem add -> tok (clear_tset nb T) ops [::] [::].
Proof. by move=> [h1 h2 h3 h4 h5]; split=> //= b hb; rewrite nth_clear hb. Qed.

(** rejecting leads back to the same operators *)
Lemma reject_sets T cd rem add : uniq (map p_time cd) -> {subset rem <= cd} -> uniq rem -> all inr cd -> all inr add ->
  uniq (map p_time (kept rem cd ++ add)) -> tok T (kept rem cd ++ add) rem add ->
  tok (clear_tset nb (insert_removed nb (erase_added nb T))) cd [::] [::].
Proof.
move=> u hs ur r1 r2 u2 ht.
have a2 : {subset add <= kept rem cd ++ add} by move=> x hx; rewrite mem_cat hx orbT.
have ua : uniq add by move/map_uniq: u2; rewrite cat_uniq => /and3P[].
have t1 := erase_added_ok ht u2 a2 ua.
have e1 : kept (by_blocks blk (iota 0 nb) add) (kept rem cd ++ add) =i kept rem cd.
  move=> x; rewrite mem_filter mem_cat mem_by_blocks mem_iota add0n /=.
  case ha : (x \in add); last by rewrite andbF orbF.
  rewrite (allP r2 _ ha) /=; apply/esym/negP => hk; move/map_uniq: u2; rewrite cat_uniq => /and3P[_ /hasPn /(_ _ ha) /=].
  by rewrite hk.
have {}t1 := tok_ext e1 t1.
have p : perm_eq (kept rem cd ++ rem) cd.
  have uc := map_uniq u; apply: uniq_perm => //.
    rewrite cat_uniq filter_uniq //= ur andbT; apply/hasPn => x hx; by rewrite -[mem _ _]/(_ \in _) mem_filter hx.
  by move=> x; rewrite mem_cat mem_filter; case hx : (x \in rem) => /=; rewrite ?orbF // hs.
have u3 : uniq (map p_time (kept rem cd ++ rem)) by rewrite (perm_uniq (perm_map _ p)).
apply: (@clear_ok _ _ rem add); apply: tok_ext (insert_removed_ok t1 u3) => x.
rewrite -(perm_mem p) !mem_cat mem_by_blocks mem_iota add0n /=; case hx : (x \in rem); last by rewrite andbF.
by rewrite (allP r1) ?hs.
Qed.
End Sets.

(** ** The specification: the determinant of the time-ordered matrix of all operators; elements between flavors of different
    sectors do not enter *)
Section Main.
Variable K : numFieldType.
Variable F : psi -> psi -> K.
Variable junk : nat -> nat -> K.
Variables (lab : seq nat) (nb : nat).
Hypothesis lab_ok : all (fun b => b < nb)%N lab.
Notation dm := (dm K).
Notation pm := (pm K).
Notation blk := (blk lab nb).
Notation bk x := (blk (p_flavor x)).
Notation inb := (inb blk).
Notation xinv := (xinv blk).
Notation inr := (fun x => bk x < nb)%N.
Notation known := (flavor_known lab).
Notation at_rest := (at_rest F).
Implicit Types (cd c : seq psi) (k : call).

Definition within (x y : psi) : K := if bk x == bk y then F x y else 0.
Definition full_det cd c : K := hyb_det within cd c.

Lemma known_inr s : all known s -> all inr s.
Proof. by apply: sub_all => x hx; apply: (allP lab_ok); exact: mem_nth. Qed.
Lemma within_blk x y : bk x != bk y -> within x y = 0.
Proof. by rewrite /within => /negbTE ->. Qed.
Lemma hyb_det_within b cd c : hyb_det within (inb b cd) (inb b c) = hyb_det F (inb b cd) (inb b c).
Proof.
rewrite /hyb_det; case: eqP => // e; rewrite /detL; congr (\det _); apply/matrixP => i j; rewrite !mxE /within.
have hi : nth psi0 (tsort (inb b c)) i \in inb b c by rewrite (perm_mem (perm_tsort _)) mem_nth // size_sort.
have hj : nth psi0 (tsort (inb b cd)) j \in inb b cd by rewrite (perm_mem (perm_tsort _)) mem_nth // size_sort -e.
by move: hi hj; rewrite !mem_inb => /andP[/eqP -> _] /andP[/eqP -> _]; rewrite eqxx.
Qed.

Lemma sign_intr n : ((sign_of n)%:~R : K) = (-1) ^+ n.
Proof. by rewrite /sign_of -signr_odd; case: (odd n). Qed.
Lemma order_sign s : uniq (map p_time s) -> all inr s -> exists2 k, adj k (by_blocks blk (iota 0 nb) (tsort s)) (tsort s) & odd k = odd (xinv s).
Proof.
move=> u hr; have p := perm_tsort s.
have r2 : all (fun x => bk x \in iota 0 nb) (tsort s).
  by rewrite -(perm_all _ p); apply: sub_all hr => x; rewrite mem_iota add0n.
have q := perm_by_blocks (iota_uniq 0 nb) r2.
have e : tsort (by_blocks blk (iota 0 nb) (tsort s)) = tsort s.
  by apply: tsort_ext; apply: perm_trans q _; rewrite perm_sym.
have ub : uniq (map p_time (by_blocks blk (iota 0 nb) (tsort s))).
  by rewrite (perm_uniq (perm_map _ q)) -(perm_uniq (perm_map _ p)).
have [k hk ok] := adj_tsort ub; rewrite e in hk; exists k => //.
rewrite ok (@ninv_before blk); last exact: blocks_before.
by congr odd; apply: xinv_perm; apply: perm_trans q _; rewrite perm_sym.
Qed.

Theorem full_det_blocks cd c : uniq (map p_time cd) -> uniq (map p_time c) -> all inr cd -> all inr c ->
  full_det cd c = (sign_of (xinv cd) * sign_of (xinv c))%:~R * \prod_(b <- iota 0 nb) hyb_det F (inb b cd) (inb b c).
Proof.
move=> u1 u2 r1 r2; case hb : (all (fun b => size (inb b c) == size (inb b cd)) (iota 0 nb)); last first.
  have [b hbi ne] : exists2 b, b \in iota 0 nb & size (inb b cd) != size (inb b c).
    by have /allPn [b h1 h2] := negbT hb; exists b => //; rewrite eq_sym.
  rewrite /full_det (hyb_det_unbalanced within_blk ne).
  rewrite (bigD1_seq b) ?iota_uniq //= /hyb_det eq_sym (negbTE ne) mul0r mulr0 //.
have [k1 h1 o1] := order_sign u1 r1; have [k2 h2 o2] := order_sign u2 r2.
have sb s : all inr s -> perm_eq (by_blocks blk (iota 0 nb) (tsort s)) s.
  move=> hr; have p := perm_tsort s; apply: (perm_trans (y := tsort s)); last by rewrite perm_sym.
  by apply: perm_by_blocks (iota_uniq 0 nb) _; rewrite -(perm_all _ p); apply: sub_all hr => x; rewrite mem_iota add0n.
set xs := by_blocks blk (iota 0 nb) (tsort c) in h2; set ys := by_blocks blk (iota 0 nb) (tsort cd) in h1.
have hb' : all (fun b => size (inb b (tsort c)) == size (inb b (tsort cd))) (iota 0 nb).
  by apply: sub_all hb => b; rewrite !inb_tsort !size_sort.
have szs : size xs = size ys.
  rewrite !size_flatten /shape -!map_comp; congr sumn; apply/eq_in_map => b0 h0 /=; exact/eqP/(allP hb').
have t1 : tsort xs = tsort c by apply: tsort_ext; exact: sb.
have t2 : tsort ys = tsort cd by apply: tsort_ext; exact: sb.
rewrite /full_det (hyb_det_ext within (cd' := ys) (c' := xs)); try by rewrite perm_sym sb.
rewrite (hyb_det_adj within szs (k1 := k2) (k2 := k1)) ?t1 ?t2 // (detL_blocks within_blk (iota_uniq _ _) hb').
rewrite rmorphM /= !sign_intr -![(-1) ^+ xinv _]signr_odd -o1 -o2 !signr_odd [_ ^+ k2 * _]mulrC; congr (_ * _).
apply: eq_big_seq => b hbi; rewrite -hyb_det_within /hyb_det (allP hb _ hbi) !inb_tsort !size_sort //.
Qed.

(** ** The invariant *)
Definition sign2 cd c : int := sign_of (xinv cd) * sign_of (xinv c).
Definition mats_ok (ms : seq dm) cd c : Prop :=
  size ms = nb /\ forall d0 b, (b < nb)%N -> at_rest (nth d0 ms b) (inb b cd) (inb b c).
Definition p_rest (M : pm) cd c : Prop :=
  [/\ mats_ok (pm_mats M) cd c, tok lab nb (pm_cd M) cd [::] [::] /\ tok lab nb (pm_c M) c [::] [::], pm_perm M = sign2 cd c,
      pm_cd_order M = flatten [seq s_ops (d_cdagg m) | m <- pm_mats M] /\ pm_c_order M = flatten [seq s_ops (d_c m) | m <- pm_mats M] &
      uniq (map p_time (cd ++ c)) /\ all known (cd ++ c)].

Lemma run_blocks_ok A (f : nat -> dm -> res K A) (P : nat -> A -> dm -> Prop) b ms :
  (forall i d0, (i < size ms)%N -> exists a m', f (b + i)%N (nth d0 ms i) = Ok a m' /\ P (b + i)%N a m') ->
  exists l ms', [/\ run_blocks f b ms = BOk l ms', size l = size ms, size ms' = size ms &
    forall i d0 a0, (i < size ms)%N -> P (b + i)%N (nth a0 l i) (nth d0 ms' i)].
Proof.
elim: ms b => [|m ms IH] b h /=; first by exists [::], [::].
have [a [m' [e hP]]] := h 0%N m isT; rewrite addn0 /= in e hP.
have [|l [ms' [e2 s1 s2 h2]]] := IH b.+1.
  by move=> i d0 hi; have := h i.+1 d0 hi; rewrite addnS.
rewrite e e2; exists (a :: l), (m' :: ms'); split=> //=; rewrite ?s1 ?s2 //.
by case=> [|i] d0 a0 hi; rewrite ?addn0 //= addnS; exact: h2.
Qed.

Lemma foldl_prod (l : seq K) : foldl (fun r x => r * x) 1 l = \prod_(i < size l) nth 0 l i.
Proof.
rewrite -(big_mkord xpredT) -(big_nth 0 xpredT id) /=.
suff : forall a, foldl (fun r x => r * x) a l = a * \prod_(x <- l) x by move=> ->; rewrite mul1r.
elim: l => [|x l IH] a /=; first by rewrite big_nil mulr1.
by rewrite IH big_cons mulrA.
Qed.
Lemma prod_iota (f : nat -> K) : \prod_(b <- iota 0 nb) f b = \prod_(b < nb) f b.
Proof. by rewrite -(big_mkord xpredT) /index_iota subn0. Qed.

(** C34. The product of the determinants of the blocks times the sign is the determinant of the time-ordered matrix *)
Lemma p_rest_det M cd c : p_rest M cd c -> compute_determinant M = full_det cd c.
Proof.
move=> [[sz hm] _ hp _ [u kn]].
have [u1 u2] : uniq (map p_time cd) /\ uniq (map p_time c) by move: u; rewrite map_cat cat_uniq => /and3P[].
have [r1 r2] : all inr cd /\ all inr c by move/known_inr: kn; rewrite all_cat => /andP[].
rewrite full_det_blocks // /compute_determinant hp -/(sign2 cd c) foldl_prod size_map sz prod_iota; congr (_ * _).
apply: eq_bigr => -[b hb] _ /=.
have [d0 _] : exists d0 : dm, True by case: (pm_mats M) sz => [|m _ _]; [move=> e; rewrite -e in hb|exists m].
rewrite (nth_map d0) ?sz //.
have [hst hw p1 p2] := hm d0 _ hb.
rewrite -(hyb_det_ext F p1 p2) (wf_det hw) /DetMatrix.compute_determinant /dsize; have [_ _ h3 [m1 _ _] _] := hw; rewrite m1.
by have [uG ->] := wf_unit hw; rewrite det_inv invrK.
Qed.

(** ** Calls *)
Definition bcall b k : call := Call (inb b (cd_rem k)) (inb b (c_rem k)) (inb b (cd_add k)) (inb b (c_add k)).
Definition known_call k : bool := all known (cd_rem k ++ c_rem k ++ cd_add k ++ c_add k).
Definition paired_blocks k : Prop := forall b, (b < nb)%N -> paired (bcall b k).
(** operators are removed and added in one block, and what stays in that block has determinant 0 *)
Definition singular_between k cd c : bool :=
  has (fun b => both (bcall b k) && (kept_det F (bcall b k) (inb b cd) (inb b c) == 0)) (iota 0 nb).
Definition ptry k (M : pm) := try_update F lab nb (cd_rem k) (c_rem k) (cd_add k) (c_add k) M.

Lemma new_inb b xs ys cd : after (inb b xs) (inb b ys) (inb b cd) = inb b (after xs ys cd).
Proof. by rewrite /after inb_cat inb_kept. Qed.
Lemma uniq_inb2 b cd c : uniq (map p_time (cd ++ c)) -> uniq (map p_time (inb b cd ++ inb b c)).
Proof. by rewrite -inb_cat => /inb_uniq; exact. Qed.
Lemma valid_inb b cd c k : valid cd c k -> valid (inb b cd) (inb b c) (bcall b k).
Proof.
move=> [h1 h2 h3 h4 h5]; split=> //=; try exact: filter_uniq.
- by move=> x; rewrite !mem_inb => /andP[-> /h1].
- by move=> x; rewrite !mem_inb => /andP[-> /h2].
- by rewrite /new_cd /new_c /= !new_inb; exact: uniq_inb2.
Qed.

Lemma C34_step M cd c k : p_rest M cd c -> valid cd c k -> known_call k -> paired_blocks k ->
  exists x M1, [/\ ptry k M = POk x M1,
    x = (if singular_between k cd c then 0 else full_det (new_cd k cd) (new_c k c) / full_det cd c),
    x != 0 -> exists2 M2, perform_update junk nb M1 = POk tt M2 & p_rest M2 (new_cd k cd) (new_c k c) &
    exists2 M2, reject_update nb M1 = POk tt M2 & p_rest M2 cd c].
Proof.
move=> hr hv hk hp; have [[sz hm] [t1 t2] hpm [o1 o2] [u kn]] := hr.
have [v1 v2 v3 v4 v5] := hv.
have [u1 u2] : uniq (map p_time cd) /\ uniq (map p_time c) by move: u; rewrite map_cat cat_uniq => /and3P[].
have [w1 w2] : uniq (map p_time (new_cd k cd)) /\ uniq (map p_time (new_c k c)) by move: v5; rewrite map_cat cat_uniq => /and3P[].
have [k1 k2] : all known cd /\ all known c by move: kn; rewrite all_cat => /andP[].
have [k3 k4] : all known (cd_add k) /\ all known (c_add k) by move: hk; rewrite /known_call !all_cat => /and4P[].
have kk xs s : all known s -> all known (kept xs s) by move=> h; apply/allP => x; rewrite mem_filter => /andP[_ /(allP h)].
have nk1 : all known (new_cd k cd) by rewrite all_cat kk.
have nk2 : all known (new_c k c) by rewrite all_cat kk.
rewrite /ptry /try_update -/(known_call k) hk /=.
have [T1 [e1 g1]] := rem_fold 1 t1 u1 (known_inr k1) v1 v3; rewrite e1.
have [T2 [e2 g2]] := rem_fold (1 * (sign_of (xinv cd) * sign_of (xinv (kept (cd_rem k) cd)))) t2 u2 (known_inr k2) v2 v4; rewrite e2.
set s2 := _ * (_ * sign_of (xinv (kept _ c))).
have [T3 [e3 g3]] := add_fold s2 g1 w1 (known_inr nk1); rewrite e3 -/(new_cd k cd) in g3 *.
set s3 := s2 * _.
have [T4 [e4 g4]] := add_fold s3 g2 w2 (known_inr nk2); rewrite e4 -/(new_c k c) in g4 *.
set s4 := s3 * _; rewrite !cat0s in g3 g4.
have es : s4 = sign2 cd c * sign2 (new_cd k cd) (new_c k c).
  rewrite /s4 /s3 /s2 /sign2 -![xinv (after _ _ _)]/(xinv (_ ++ _)) /sign_of.
  by do 6! case: odd.
pose P b (x : K) m1 := [/\ ratio_ok F (bcall b k) (inb b cd) (inb b c) x,
    x != 0 -> exists2 m2, DetMatrix.perform_update junk m1 = Ok tt m2 & at_rest m2 (inb b (new_cd k cd)) (inb b (new_c k c)) &
    exists2 m2, DetMatrix.reject_update m1 = Ok tt m2 & at_rest m2 (inb b cd) (inb b c)].
set f := fun b m => DetMatrix.try_update _ _ _ _ _ m.
have [|l [ms [er sl sm hP]]] := @run_blocks_ok _ f P 0 (pm_mats M).
  move=> b d0; rewrite sz add0n => hb.
  have hb0 := hm d0 _ hb; have [x [d1 [h1 h2 h3 h4]]] := C32_step junk hb0 (uniq_inb2 b u) (valid_inb b hv) (hp _ hb).
  exists x, d1; split; last by split=> //; rewrite -!new_inb.
  have [_ _ _ q1 q2] := g3; have [_ _ _ q3 q4] := g4.
  by rewrite /f q1 // q2 // q3 // q4.
rewrite er.
have {}hP b d0 a0 : (b < nb)%N -> P b (nth a0 l b) (nth d0 ms b) by move=> hb; apply: (hP b d0 a0); rewrite sz.
rewrite sz in sl sm.
have hpr : foldl (fun r x => r * x) 1 l * s4%:~R = if singular_between k cd c then 0 else full_det (new_cd k cd) (new_c k c) / full_det cd c.
  have [ms0|[d0 _]] : nb = 0%N \/ exists d0 : dm, True.
    by case: (ms) sm => [<-|m]; [left|right; exists m].
    move: sl; rewrite /singular_between ms0 => /size0nil -> /=.
    rewrite !full_det_blocks -?/(sign2 _ _) ?known_inr // ms0 !big_nil !mulr1 mul1r es rmorphM /= mulrC.
    congr (_ * _); apply/esym; rewrite /sign2 /sign_of; by do 2! case: odd; rewrite /= ?invrN ?invr1.
  rewrite foldl_prod sl; case: ifP => [/hasP[b]|/hasPn hn].
    rewrite mem_iota add0n /= => hb /andP[hb1 hb2]; have [q _ _] := hP b d0 0 hb; move: q; rewrite /ratio_ok hb1 hb2 /= => q.
    by rewrite (bigD1 (Ordinal hb)) //= q !mul0r.
  rewrite !full_det_blocks -?/(sign2 _ _) ?known_inr // !prod_iota es rmorphM /=.
  have -> : \prod_(i < nb) nth 0 l i = \prod_(i < nb) (hyb_det F (inb i (new_cd k cd)) (inb i (new_c k c)) / hyb_det F (inb i cd) (inb i c)).
    apply: eq_bigr => -[b hb] _ /=; have [q _ _] := hP b d0 0 hb; move: q; rewrite /ratio_ok.
    have -> : both (bcall b k) && (kept_det F (bcall b k) (inb b cd) (inb b c) == 0) = false.
      by apply/negbTE/hn; rewrite mem_iota.
    by rewrite /new_det /new_cd /new_c /= !new_inb.
  rewrite prodf_div invfM; set A := \prod_(i < nb) _; set B := (\prod_(i < nb) _)^-1.
  have -> : ((sign2 cd c)%:~R : K)^-1 = (sign2 cd c)%:~R by rewrite /sign2 /sign_of; do 2! case: odd; rewrite /= ?invrN ?invr1.
  by rewrite [_%:~R * _%:~R]mulrC mulrACA [A * _]mulrC [B * _]mulrC.
do 2 eexists; split; [by []|exact: hpr| |].
- move=> nx.
  have nz b : (b < nb)%N -> nth 0 l b != 0.
    move=> hb; apply: contraNneq nx; rewrite foldl_prod sl (bigD1 (Ordinal hb)) //= => ->; by rewrite !mul0r.
  have [|l2 [ms2 [er2 sl2 sm2 hP2]]] := @run_blocks_ok _ (fun _ m => DetMatrix.perform_update junk m)
     (fun b _ m => at_rest m (inb b (new_cd k cd)) (inb b (new_c k c))) 0 ms.
    move=> b d0; rewrite sm add0n => hb; have [_ q _] := hP b d0 0 hb; have [m2 e m3] := q (nz _ hb).
    by exists tt, m2.
  rewrite /perform_update /= er2 /=; eexists; first by [].
  rewrite sm in sm2 hP2.
  split=> //=.
  + by split=> //= d0 b hb; exact: (hP2 b d0 tt hb).
  + by split; apply: clear_ok; [exact: g3|exact: g4].
  + by rewrite es hpm [LHS]mulrC mulrA /sign2 /sign_of; do 4! case: odd.
  + by rewrite all_cat nk1.
- have [|l2 [ms2 [er2 sl2 sm2 hP2]]] := @run_blocks_ok _ (fun _ m => DetMatrix.reject_update m)
     (fun b _ m => at_rest m (inb b cd) (inb b c)) 0 ms.
    move=> b d0; rewrite sm add0n => hb; have [_ _ [m2 e m3]] := hP b d0 0 hb.
    by exists tt, m2.
  rewrite /reject_update /= er2 /=; eexists; first by [].
  rewrite sm in sm2 hP2.
  split=> //=.
  + by split=> //= d0 b hb; exact: (hP2 b d0 tt hb).
  + split; [apply: (reject_sets u1 v1 v3 (known_inr k1) (known_inr k3) w1 g3)|exact: (reject_sets u2 v2 v4 (known_inr k2) (known_inr k4) w2 g4)].
Qed.

Lemma map_nth_eq (T : Type) (g : dm -> T) ms ms' : size ms = size ms' -> (forall d0 b, (b < size ms)%N -> g (nth d0 ms b) = g (nth d0 ms' b)) ->
  map g ms = map g ms'.
Proof.
elim: ms ms' => [|m ms IH] [|m' ms'] //= [sz] h; congr (_ :: _); first exact: (h m 0%N isT).
by apply: IH => // d0 b hb; exact: (h d0 b.+1).
Qed.
Lemma C34_rebuild M cd c : p_rest M cd c -> exists2 M2, rebuild_inverse_matrix F M = POk tt M2 & p_rest M2 cd c.
Proof.
move=> [[sz hm] ht hpm [o1 o2] hu].
have [|l2 [ms2 [er2 sl2 sm2 hP2]]] := @run_blocks_ok _ (fun _ m => DetMatrix.rebuild_inverse_matrix F m)
   (fun b _ m => forall d0, at_rest m (inb b cd) (inb b c) /\ s_ops (d_cdagg m) = s_ops (d_cdagg (nth d0 (pm_mats M) b)) /\ s_ops (d_c m) = s_ops (d_c (nth d0 (pm_mats M) b))) 0 (pm_mats M).
  move=> b d0; rewrite sz add0n => hb; have hb0 := hm d0 _ hb; have [m2 e a2] := rebuild_ok hb0.
  exists tt, m2; split=> // d1; split=> //.
  rewrite (set_nth_default d0) ?sz //.
  by move: e; rewrite /DetMatrix.rebuild_inverse_matrix; case: ifP => // _; case: ifP => // _ [<-].
rewrite sz in sm2 hP2.
rewrite /rebuild_inverse_matrix er2; eexists; first by [].
have e : (flatten [seq s_ops (d_cdagg m) | m <- pm_mats M] = flatten [seq s_ops (d_cdagg m) | m <- ms2]) /\
  (flatten [seq s_ops (d_c m) | m <- pm_mats M] = flatten [seq s_ops (d_c m) | m <- ms2]).
  by split; congr flatten; apply: map_nth_eq; rewrite ?sz ?sm2 // => d0 b hb; have [_ []] := hP2 b d0 tt hb d0.
by split=> //=; [split=> // d0 b hb; have [] := hP2 b d0 tt hb d0|rewrite o1 o2].
Qed.

Lemma C34_empty np mo w : p_rest (pm0 junk lab nb np mo w) [::] [::].
Proof.
have t : tok lab nb (tset0 (size lab) nb) [::] [::] [::].
  have s0 : set_ok [::] [::] by split=> //; constructor.
  split=> //=; first by rewrite size_nseq.
  - by move=> b hb; rewrite nth_nseq hb.
  - by move=> b _; rewrite nth_nseq; case: ifP.
  - by move=> b _; rewrite nth_nseq; case: ifP.
split=> //; first by rewrite /mats_ok /= size_nseq; split=> // d0 b hb; rewrite nth_nseq hb; exact: at_rest0.
by rewrite /=; elim: (nb) => //= n [<- <-].
Qed.

(** ** C34. Histories *)
Inductive phist : pm -> seq psi -> seq psi -> Prop :=
| phist0 np mo w : phist (pm0 junk lab nb np mo w) [::] [::]
| phist_perform M cd c k x M1 M2 : phist M cd c -> valid cd c k -> known_call k -> paired_blocks k -> ptry k M = POk x M1 -> x != 0 ->
    perform_update junk nb M1 = POk tt M2 -> phist M2 (new_cd k cd) (new_c k c)
| phist_reject M cd c k x M1 M2 : phist M cd c -> valid cd c k -> known_call k -> paired_blocks k -> ptry k M = POk x M1 ->
    reject_update nb M1 = POk tt M2 -> phist M2 cd c
| phist_rebuild M cd c M2 : phist M cd c -> rebuild_inverse_matrix F M = POk tt M2 -> phist M2 cd c.

Lemma phist_ok M cd c : phist M cd c -> p_rest M cd c.
Proof.
elim=> {M cd c} [np mo w|M cd c k x M1 M2 _ IH hv hk hp e nx ep|M cd c k x M1 M2 _ IH hv hk hp e er|M cd c M2 _ IH e].
- exact: C34_empty.
- have [x' [M1' [e' _ h _]]] := C34_step IH hv hk hp; move: e'; rewrite e => -[ex eM]; rewrite -eM -ex in h.
  by have [M2' E A] := h nx; move: E; rewrite ep => -[->].
- have [x' [M1' [e' _ _ [M2' E A]]]] := C34_step IH hv hk hp; move: e'; rewrite e => -[_ eM]; rewrite -eM in E.
  by move: E; rewrite er => -[->].
- by have [M2' E A] := C34_rebuild IH; move: E; rewrite e => -[->].
Qed.

Lemma tok_all T ops rem add : tok lab nb T ops rem add -> uniq (map p_time ops) -> t_all T = tsort ops.
Proof. by move=> [h _ _ _ _] u; exact: set_tsort. Qed.
Lemma order_perm (ms : seq dm) (g : dm -> seq psi) cd : size ms = nb -> all inr cd -> (forall d0 b, (b < nb)%N -> perm_eq (g (nth d0 ms b)) (inb b cd)) ->
  perm_eq (flatten (map g ms)) cd.
Proof.
move=> sz hr h; have r2 : all (fun x => bk x \in iota 0 nb) cd by apply: sub_all hr => x; rewrite mem_iota add0n.
apply: (perm_trans _ (perm_by_blocks (iota_uniq 0 nb) r2)); rewrite /by_blocks -[iota 0 nb]/(iota 0 (id nb)) -[X in iota 0 (id X)]sz /=.
have {}h d0 i : (i < size ms)%N -> perm_eq (g (nth d0 ms i)) (inb (0 + i)%N cd) by move=> hi; apply: h; rewrite -sz.
elim: ms 0%N h {sz} => [|m ms IH] b h //=; apply: perm_cat; first by have := h m 0%N isT; rewrite addn0.
by apply: IH => d0 i hi; have := h d0 i.+1 hi; rewrite addnS.
Qed.

(** C34. In every reachable state: the determinant computed from the blocks and the maintained sign is the determinant of the
    matrix of all operators in time order; the sets and the list of operators hold the operators that the performed
    updates say *)
Theorem C34_history M cd c : phist M cd c ->
  [/\ DetPartitioned.compute_determinant M = full_det cd c, full_det cd c != 0, t_all (pm_cd M) = tsort cd /\ t_all (pm_c M) = tsort c,
      perm_eq (pm_cd_order M) cd /\ perm_eq (pm_c_order M) c & psize M = size cd /\ size cd = size c].
Proof.
move=> /phist_ok hr; have [[sz hm] [t1 t2] hpm [o1 o2] [u kn]] := hr.
have [u1 u2] : uniq (map p_time cd) /\ uniq (map p_time c) by move: u; rewrite map_cat cat_uniq => /and3P[].
have [r1 r2] : all inr cd /\ all inr c by move/known_inr: kn; rewrite all_cat => /andP[].
have q1 : perm_eq (pm_cd_order M) cd by rewrite o1; apply: order_perm => // d0 b hb; have [] := hm d0 _ hb.
have q2 : perm_eq (pm_c_order M) c by rewrite o2; apply: order_perm => // d0 b hb; have [] := hm d0 _ hb.
have [e1 e2] := (tok_all t1 u1, tok_all t2 u2).
split=> //; first exact: p_rest_det.
  rewrite full_det_blocks // -/(sign2 cd c) mulf_neq0 //; first by rewrite intr_eq0 /sign2 /sign_of; do 2! case: odd.
  rewrite prod_iota prodf_seq_neq0; apply/allP => -[b hb] _ /=.
  have [d0 _] : exists d0 : dm, True by case: (pm_mats M) sz => [|m _ _]; [move=> e; rewrite -e in hb|exists m].
  exact: (at_rest_nz (hm d0 _ hb)).
rewrite /psize e1 size_sort; split=> //.
rewrite -(perm_size q1) -(perm_size q2) o1 o2 !size_flatten /shape -!map_comp; congr sumn.
case: (pm_mats M) sz hm => // m ms sz hm.
apply: (@eq_from_nth _ 0%N); rewrite !size_map // => b hb; rewrite !(nth_map m) //=.
by rewrite -sz in hm; have [_ [_ _ h3 _ _] _ _] := hm m _ hb.
Qed.

(** C34. In every reachable state a valid call goes through, returns the ratio of the determinants of the time-ordered
    matrices (0 if operators are both removed and added in one block and what stays there has determinant 0, see C31), and
    can be performed (unless it returned 0) or rejected *)
Theorem C34_ratio M cd c k : phist M cd c -> valid cd c k -> known_call k -> paired_blocks k ->
  exists x M1, [/\ ptry k M = POk x M1,
    ~~ singular_between k cd c -> x = full_det (new_cd k cd) (new_c k c) / full_det cd c,
    singular_between k cd c -> x = 0,
    x != 0 -> exists2 M2, perform_update junk nb M1 = POk tt M2 & phist M2 (new_cd k cd) (new_c k c) &
    exists2 M2, reject_update nb M1 = POk tt M2 & phist M2 cd c].
Proof.
move=> hh hv hk hp; have [x [M1 [e ex h1 [M2 e2 _]]]] := C34_step (phist_ok hh) hv hk hp; exists x, M1; split=> //.
- by move=> /negbTE hs; rewrite ex hs.
- by move=> hs; rewrite ex hs.
- by move=> nx; have [M3 e3 _] := h1 nx; exists M3 => //; exact: phist_perform hh hv hk hp e nx e3.
- by exists M2 => //; exact: phist_reject hh hv hk hp e e2.
Qed.

(** C34. The constructor that takes a list of pairs, for operators whose determinant is not 0 *)
Theorem C34_build np mo w cd c : size cd = size c -> uniq (map p_time (cd ++ c)) -> all known (cd ++ c) -> full_det cd c != 0 ->
  exists2 M, build F junk lab nb np mo w (zip cd c) = POk tt M & phist M cd c.
Proof.
move=> sz u kn nz; set k := Call [::] [::] cd c.
have [u1 u2] : uniq (map p_time cd) /\ uniq (map p_time c) by move: u; rewrite map_cat cat_uniq => /and3P[].
have [r1 r2] : all inr cd /\ all inr c by move/known_inr: kn; rewrite all_cat => /andP[].
have hv : valid [::] [::] k by split=> //; rewrite /new_cd /new_c /after /= kept_nil.
have hb b : (b < nb)%N -> size (inb b cd) = size (inb b c).
  by move=> hb; apply/eqP; apply: contraNT nz => ne; rewrite /full_det (hyb_det_unbalanced within_blk ne).
have hp : paired_blocks k by move=> b /hb e; rewrite /paired /= e eqxx.
have [x [M1 [e h1 _ h3 _]]] := C34_ratio (phist0 np mo w) hv kn hp.
have sg : ~~ singular_between k [::] [::].
  by apply/hasPn => b _; rewrite negb_and /both /= !andbF.
have {}h1 := h1 sg; rewrite -[new_cd k [::]]/cd -[new_c k [::]]/c in h1 h3.
have d0 : full_det [::] [::] = 1 by rewrite /full_det /hyb_det /= /detL det_mx00.
have nx : x != 0 by rewrite h1 d0 divr1.
have [M2 e2 hh] := h3 nx; exists M2 => //; rewrite /build.
by move: e; rewrite /ptry /= (zip_fst sz) (zip_snd sz) => ->.
Qed.

(** ** The inverse matrix *)
Fixpoint bdiag (ms : seq dm) (i j : nat) : K :=
  if ms is m :: ms' then
    let n := dsize m in
    if (i < n)%N && (j < n)%N then me (d_inv m) i j else if (n <= i)%N && (n <= j)%N then bdiag ms' (i - n) (j - n) else 0
  else 0.
Lemma diag_blocksE ms off (g : mat K) : (forall i j, (off <= i)%N || (off <= j)%N -> me g i j = 0) ->
  forall i j, me (diag_blocks off ms g) i j = if (off <= i)%N && (off <= j)%N then bdiag ms (i - off) (j - off) else me g i j.
Proof.
elim: ms off g => [|m ms IH] off g hg i j /=; first by case: ifP => // /andP[h _]; rewrite hg // h.
rewrite IH; last first.
  move=> i' j' h; rewrite set_block_out; first by apply: hg; move: h; clear; lia.
  by move: h; clear; lia.
case: (leqP off i) => hi; last first.
  rewrite [(off + _ <= i)%N]leqNgt (leq_trans hi (leq_addr _ _)) andFb set_block_out //; by rewrite [(off <= i)%N]leqNgt hi.
case: (leqP off j) => hj; last first.
  rewrite [(off + _ <= j)%N]leqNgt (leq_trans hj (leq_addr _ _)) !andbF set_block_out //; by rewrite [(off <= j)%N]leqNgt hj andbF.
rewrite andTb !ltn_subLR // !leq_subRL // !subnDA.
case: (ifP ((off + dsize m <= i) && _)%N) => [/andP[h1 h2]|h1]; first by rewrite ltnNge h1.
case: ifP => [/andP[h2 h3]|h2]; first by rewrite set_block_in // ?hi ?hj.
by rewrite set_block_out ?hi ?hj /= ?h2 // hg // hi.
Qed.

Lemma all_flatten_map (p : pred psi) (g : dm -> seq psi) ms : (forall d0 i, (i < size ms)%N -> all p (g (nth d0 ms i))) -> all p (flatten (map g ms)).
Proof.
elim: ms => [|m ms IH] //= h; rewrite all_cat (h m 0%N isT) /=; apply: IH => d0 i hi; exact: (h d0 i.+1 hi).
Qed.
Lemma eq_map_nth (T : Type) (g g' : dm -> T) ms : (forall d0 b, (b < size ms)%N -> g (nth d0 ms b) = g' (nth d0 ms b)) -> map g ms = map g' ms.
Proof.
elim: ms => [|m ms IH] //= h; congr (_ :: _); first exact: (h m 0%N isT).
by apply: IH => d0 b hb; exact: (h d0 b.+1).
Qed.
Lemma bdiag_inv ms b : (forall d0 i, (i < size ms)%N -> exists cd c, at_rest (nth d0 ms i) (inb (b + i)%N cd) (inb (b + i)%N c)) ->
  forall N, N = size (flatten [seq s_ops (d_c m) | m <- ms]) ->
  matL psi0 psi0 within N (flatten [seq s_ops (d_c m) | m <- ms]) (flatten [seq s_ops (d_cdagg m) | m <- ms]) *m (\matrix_(i < N, j < N) bdiag ms i j) = 1%:M.
Proof.
elim: ms b => [|m ms IH] b h N /=; first by move=> -> ; apply/matrixP => -[].
have [cd [c [_ hw p1 p2]]] := h m 0%N isT; rewrite addn0 /= in p1 p2; have [_ _ h3 [m1 m2 hm] _] := hw.
have {}IH := IH b.+1 (fun d0 i hi => let: ex_intro cd (ex_intro c q) := h d0 i.+1 hi in ex_intro _ cd (ex_intro _ c (eq_ind_r (fun z => at_rest _ (inb z _) (inb z _)) q (addSnnS b i)))).
set xs := s_ops (d_c m) in h3 m1 m2 hm p2 *; set ys := s_ops (d_cdagg m) in h3 hm p1 *.
set xs' := flatten _ in IH *; set ys' := flatten _ in IH *; rewrite size_cat; set n := size xs in m1 m2 hm *; set N' := size xs' => ->.
have {}IH := IH N' erefl.
have bxs i : (i < n)%N -> bk (nth psi0 xs i) = b.
  by move=> hi; have := mem_nth psi0 hi; rewrite (perm_mem p2) mem_inb => /andP[/eqP].
have bys i : (i < n)%N -> bk (nth psi0 ys i) = b.
  by move=> hi; have := mem_nth psi0 (s := ys) (n := i); rewrite h3 => /(_ hi); rewrite (perm_mem p1) mem_inb => /andP[/eqP].
have lx i : (i < N')%N -> (b < bk (nth psi0 xs' i))%N.
  move=> hi; apply: (allP (all_flatten_map (p := fun x => (b < bk x)%N) (g := fun m => s_ops (d_c m)) (ms := ms) _)); last exact: mem_nth.
  move=> d0 j hj; have [cd' [c' [_ _ _ q]]] := h d0 j.+1 hj; rewrite (perm_all _ q); apply/allP => x; rewrite mem_inb => /andP[/eqP -> _].
  by rewrite addnS ltnS leq_addr.
have szy : size ys' = N'.
  rewrite /N' !size_flatten /shape -!map_comp; congr sumn; apply: eq_map_nth => d0 j hj.
  by have [cd' [c' [_ [_ _ e _ _] _ _]]] := h d0 j.+1 hj; rewrite /= e.
have ly i : (i < N')%N -> (b < bk (nth psi0 ys' i))%N.
  move=> hi; apply: (allP (all_flatten_map (p := fun x => (b < bk x)%N) (g := fun m => s_ops (d_cdagg m)) (ms := ms) _)); last by apply: mem_nth; rewrite szy.
  move=> d0 j hj; have [cd' [c' [_ _ q _]]] := h d0 j.+1 hj; rewrite (perm_all _ q); apply/allP => x; rewrite mem_inb => /andP[/eqP -> _].
  by rewrite addnS ltnS leq_addr.
have e1 : matL psi0 psi0 within (n + N') (xs ++ xs') (ys ++ ys') =
  block_mx (matL psi0 psi0 F n xs ys) 0 0 (matL psi0 psi0 within N' xs' ys').
  apply/matrixP=> i j; rewrite !mxE; case: (splitP i) => i' hi; rewrite !mxE; case: (splitP j) => j' hj; rewrite !mxE hi hj.
  - by rewrite !nth_cat h3 !ltn_ord /within bxs // bys // eqxx.
  - by rewrite !nth_cat ltn_ord h3 [X in if X then _ else nth _ ys' _]ltnNge leq_addr /= addKn within_blk // bxs // neq_ltn ly.
  - by rewrite !nth_cat h3 ltn_ord ltnNge leq_addr /= addKn within_blk // bys // neq_ltn lx // orbT.
  - by rewrite !nth_cat h3 !ltnNge !leq_addr /= !addKn.
have e2 : (\matrix_(i < n + N', j < n + N') (if (i < dsize m)%N && (j < dsize m)%N then me (d_inv m) i j else if (dsize m <= i)%N && (dsize m <= j)%N then bdiag ms (i - dsize m) (j - dsize m) else 0)) =
  block_mx (toM n n (d_inv m)) 0 0 (\matrix_(i < N', j < N') bdiag ms i j).
  apply/matrixP=> i j; rewrite !mxE /dsize m1; case: (splitP i) => i' hi; rewrite !mxE; case: (splitP j) => j' hj; rewrite !mxE hi hj.
  - by [].
  - by rewrite [(n <= i')%N]leqNgt ltn_ord.
  - by rewrite [(n <= j')%N]leqNgt ltn_ord andbF.
  - by rewrite !leq_addr !addKn.
rewrite e1 e2 mulmx_block !mul0mx !mulmx0 addr0 !add0r IH hm.
by apply/matrixP => i j; rewrite !mxE; case: (splitP i) => i' hi; rewrite !mxE; case: (splitP j) => j' hj; rewrite !mxE -!val_eqE /= hi hj ?eqn_add2l //;
  rewrite ?(ltn_eqF (leq_trans (ltn_ord _) (leq_addr _ _))) // eq_sym (ltn_eqF (leq_trans (ltn_ord _) (leq_addr _ _))).
Qed.

(** C34. The inverse matrix that is handed out belongs to the operators in the order that is handed out *)
Theorem C34_inverse M cd c : phist M cd c -> let n := size c in
  [/\ mr (compute_inverse_matrix M) = n, mc (compute_inverse_matrix M) = n, size (pm_c_order M) = n, size (pm_cd_order M) = n &
      (\matrix_(i < n, j < n) within (nth psi0 (pm_c_order M) i) (nth psi0 (pm_cd_order M) j)) *m toM n n (compute_inverse_matrix M) = 1%:M].
Proof.
move=> hh n; have [_ _ _ [q1 q2] [s1 s2]] := C34_history hh; have [[sz hm] _ _ [o1 o2] _] := phist_ok hh.
have dim ms off (g : mat K) : mr (diag_blocks off ms g) = mr g /\ mc (diag_blocks off ms g) = mc g.
  by elim: ms off g => //= m ms IH off g; have [-> ->] := IH (off + dsize m)%N (set_block off off (dsize m) (dsize m) (d_inv m) g).
have [d1 d2] := dim (pm_mats M) 0%N (Mat (psize M) (psize M) (fun _ _ => 0)).
have eI : toM n n (compute_inverse_matrix M) = \matrix_(i < n, j < n) bdiag (pm_mats M) i j.
  by apply/matrixP => i j; rewrite !mxE diag_blocksE // !subn0.
split; rewrite ?(perm_size q1) ?(perm_size q2) //; first by rewrite d1 /= s1.
  by rewrite d2 /= s1.
rewrite eI.
rewrite o1 o2; apply: (@bdiag_inv (pm_mats M) 0%N).
  by move=> d0 i hi; exists cd, c; apply: hm; rewrite -sz.
by rewrite -o2 (perm_size q2).
Qed.
End Main.

(** ** C34. The sectors *)
Theorem C34_sectors nf (conn : nat -> nat -> bool) : (forall i j, conn i j = conn j i) ->
  exists lab members, [/\ sectors_of nf conn = Some (lab, members), size lab = nf, all (fun b => b < size members)%N lab &
    forall i j, (i < nf)%N -> (j < nf)%N -> conn i j -> nth (size members) lab i = nth (size members) lab j].
Proof.
move=> cs; have he : all (fun e => (e.1 < nf) && (e.2 < nf))%N (connections nf conn).
  apply/allP => -[a b] /flattenP[l /mapP[f]]; rewrite mem_iota add0n => /andP[_ hf] -> /mapP[f2].
  by rewrite mem_filter mem_iota add0n => /and3P[_ _ h2] [-> ->] /=; rewrite hf (ltn_trans h2 hf).
have [lab [members [e sz hl [h1 _ _] _]]] := C27_components he.
exists lab, members; split=> //.
  by apply/(all_nthP 0%N) => i; rewrite sz; exact: h1.
move=> i j hi hj hc; rewrite !(set_nth_default 0%N) ?sz //; apply/(hl i j hi hj).
have edge a b : (b < a)%N -> (a < nf)%N -> conn a b -> linked (connections nf conn) a b.
  move=> hab ha hcab; apply: l_edge; apply/flattenP; exists [seq (a, f2) | f2 <- iota 0 a & conn a f2].
    by apply/mapP; exists a => //; rewrite mem_iota.
  by apply/mapP; exists b => //; rewrite mem_filter hcab mem_iota.
case: (ltngtP i j) => [h|h|->]; last exact: l_refl.
- by apply: l_sym; apply: edge => //; rewrite cs.
- exact: edge.
Qed.

(** C34. If the hybridization function vanishes between flavors that are not connected, nothing is lost: the determinant is
    that of the whole matrix *)
Theorem C34_whole_matrix (K : numFieldType) (F : psi -> psi -> K) nf (conn : nat -> nat -> bool) lab members cd c :
  (forall i j, conn i j = conn j i) -> sectors_of nf conn = Some (lab, members) ->
  (forall x y, ~~ conn (p_flavor x) (p_flavor y) -> p_flavor x != p_flavor y -> F x y = 0) ->
  all (fun x => p_flavor x < nf)%N (cd ++ c) -> full_det F lab (size members) cd c = hyb_det F cd c.
Proof.
move=> cs e hF hk; have [lab' [members' [e' sz _ hc]]] := C34_sectors nf cs; move: e'; rewrite e => -[e1 e2]; rewrite -e1 -e2 in sz hc.
rewrite /full_det /hyb_det; case: eqP => // es; rewrite /detL; congr (\det _); apply/matrixP => i j; rewrite !mxE /within.
set x := nth psi0 _ i; set y := nth psi0 _ j.
have hx : (p_flavor x < nf)%N.
  by apply: (allP hk); rewrite mem_cat (perm_mem (perm_tsort c)) mem_nth ?size_sort // orbT.
have hy : (p_flavor y < nf)%N.
  by apply: (allP hk); rewrite mem_cat (perm_mem (perm_tsort cd)) mem_nth // size_sort -es.
case: eqP => // ne; apply/esym; apply: hF; last by apply: contra_notN ne => /eqP ->.
by apply: contra_notN ne => /(hc _ _ hx hy).
Qed.

(** ** A concrete history: two flavors that are not connected; the creation operators are ordered in time as the flavors are,
    the annihilation operators the other way round *)
Section Example.
Definition px1 := Psi (OT 1%coqZ 0%coqZ) CREATION_OP 0%nat.
Definition px2 := Psi (OT 2%coqZ 0%coqZ) CREATION_OP 1%nat.
Definition py1 := Psi (OT 4%coqZ 0%coqZ) ANNIHILATION_OP 0%nat.
Definition py2 := Psi (OT 3%coqZ 0%coqZ) ANNIHILATION_OP 1%nat.
Definition Fp (c cd : psi) : rat_numFieldType := if p_flavor c == p_flavor cd then 2%:R + (p_flavor c)%:R else 0.
Definition no_conn (i j : nat) : bool := false.
Definition padd1 := Call [::] [::] [:: px1] [:: py1].
Definition padd2 := Call [::] [::] [:: px2] [:: py2].
Definition pshift := Call [:: px1] [::] [:: Psi (OT 5%coqZ 0%coqZ) CREATION_OP 0%nat] [::].

Lemma ex_sectors : sectors_of 2 no_conn = Some ([:: 0%N; 1%N], [:: [:: 0%N]; [:: 1%N]]). Proof. by []. Qed.
Notation fd := (full_det Fp [:: 0%N; 1%N] 2).
Lemma ex_fd0 : fd [::] [::] = 1. Proof. by rewrite /full_det /hyb_det /= /detL det_mx00. Qed.
Lemma ex_fd1 : fd [:: px1] [:: py1] = 2%:R. Proof. by rewrite /full_det /hyb_det /= /detL det_mx11 !mxE. Qed.
(** the time-ordered matrix is [[0,3],[2,0]]; the product of the block determinants is 6 *)
Lemma ex_fd2 : fd [:: px1; px2] [:: py1; py2] = - 6%:R. Proof. by rewrite /full_det /hyb_det /= detL2. Qed.

Example C34_instance junk (np : int) (mo : umode) (w : work rat_numFieldType) : exists M, [/\ phist Fp junk [:: 0%N; 1%N] 2 M [:: px1; px2] [:: py1; py2],
  DetPartitioned.compute_determinant M = - 6%:R & exists x M1 M2, [/\ ptry Fp [:: 0%N; 1%N] 2 pshift M = POk x M1,
    reject_update 2 M1 = POk tt M2 & phist Fp junk [:: 0%N; 1%N] 2 M2 [:: px1; px2] [:: py1; py2]]].
Proof.
have lo : all (fun b => b < 2)%N [:: 0%N; 1%N] by [].
have h0 := phist0 Fp junk [:: 0%N; 1%N] 2 np mo w.
have v1 : valid [::] [::] padd1 by split.
have p1 : paired_blocks [:: 0%N; 1%N] 2 padd1 by case=> [|[]].
have [x1 [M1 [e1 q1 _ g1 _]]] := C34_ratio lo h0 v1 isT p1.
have {q1} ex1 : x1 = 2%:R.
  by rewrite (q1 _) // -[new_cd _ _]/[:: px1] -[new_c _ _]/[:: py1] ex_fd1 ex_fd0 divr1.
have [M2 _ h2] : exists2 M2, perform_update junk 2 M1 = POk tt M2 & phist Fp junk [:: 0%N; 1%N] 2 M2 [:: px1] [:: py1] by apply: g1; rewrite ex1.
have v2 : valid [:: px1] [:: py1] padd2 by split.
have p2 : paired_blocks [:: 0%N; 1%N] 2 padd2 by case=> [|[]].
have [x2 [M3 [e2 q2 _ g2 _]]] := C34_ratio lo h2 v2 isT p2.
have {q2} ex2 : x2 != 0.
  by rewrite (q2 _) // -[new_cd _ _]/[:: px1; px2] -[new_c _ _]/[:: py1; py2] ex_fd2 ex_fd1.
have [M4 _ h4] : exists2 M4, perform_update junk 2 M3 = POk tt M4 & phist Fp junk [:: 0%N; 1%N] 2 M4 [:: px1; px2] [:: py1; py2] by exact: g2.
exists M4; split=> //; first by have [-> _ _ _ _] := C34_history lo h4; exact: ex_fd2.
have v3 : valid [:: px1; px2] [:: py1; py2] pshift by split=> // z; rewrite !inE => ->.
have p3 : paired_blocks [:: 0%N; 1%N] 2 pshift by case=> [|[]].
have [x3 [M5 [e5 _ _ _ [M6 e6 h6]]]] := C34_ratio lo h4 v3 isT p3.
by exists x3, M5, M6.
Qed.
End Example.

(** ** Where rejecting does not restore *)
Section Refuted.
Variable K : numFieldType.
Variable F : psi -> psi -> K.
Variable junk : nat -> nat -> K.
Hypothesis F0 : F oy1 ox1 != 0.
Notation phist := (phist F junk [:: 0%N; 0%N] 1).

(** A try to insert a creation operator whose time is already there returns 0 (so it will be rejected); rejecting erases the
    operator that was there from the sets: they are empty although the matrix still has one row *)
Definition dup := Call [::] [::] [:: ox1] [:: oy2].
Theorem C34_refuted_duplicate (np : int) (mo : umode) (w : work K) : exists M M1 M2, [/\ phist M [:: ox1] [:: oy1],
  ptry F [:: 0%N; 0%N] 1 dup M = POk 0 M1, reject_update 1 M1 = POk tt M2 &
  [/\ psize M = 1%N, psize M2 = 0%N, size (pm_cd_order M2) = 1%N & pm_perm M2 = pm_perm M]].
Proof.
have lo : all (fun b => b < 1)%N [:: 0%N; 0%N] by [].
have h0 := phist0 F junk [:: 0%N; 0%N] 1 np mo w.
have v1 : valid [::] [::] add1 by split.
have p1 : paired_blocks [:: 0%N; 0%N] 1 add1 by case.
have [x1 [M1 [e1 q1 _ g1 _]]] := C34_ratio lo h0 v1 isT p1.
have ex1 : x1 != 0.
  rewrite (q1 _) // -[new_cd _ _]/[:: ox1] -[new_c _ _]/[:: oy1] /full_det /hyb_det /= /detL det_mx00 det_mx11 !mxE /= divr1 //.
have [M e2 h2] : exists2 M2, perform_update junk 1 M1 = POk tt M2 & phist M2 [:: ox1] [:: oy1] by exact: g1.
have [hd _ [t1 t2] _ [s1 _]] := C34_history lo h2.
have hr := phist_ok lo h2; have [[sz hm] [T1 T2] _ [o1 o2] _] := hr.
clear hd hr t1 t2; case: M e2 h2 s1 sz hm T1 T2 o1 o2 => ms T1 T2 pe npe co1 co2 /= e2 h2 s1 sz hm T1ok T2ok o1 o2.
case: ms e2 h2 s1 sz hm o1 o2 => [|m []] // e2 h2 s1 _ /(_ m 0%N isT) /= hm o1 o2.
have nu : ~~ uniq (map p_time (([:: ox1] ++ [:: oy1]) ++ (cd_add dup ++ c_add dup))) by [].
have [m1 [m2 [et er _ hm2]]] := @impossible_insertion K F m [:: ox1] [:: oy1] dup hm isT erefl erefl erefl isT nu.
have sets T x : tok [:: 0%N; 0%N] 1 T [:: x] [::] [::] -> (p_flavor x < 2)%N ->
    [/\ t_all T = [:: x], t_sec T = [:: [:: x]], nth [::] (t_rem T) 0 = [::] & nth [::] (t_add T) 0 = [::]].
  move=> tk hx; have [s1' s2' s3' s4' s5'] := tk; have e := set_tsort (ops := [:: x]) isT s1'.
  split=> //; rewrite ?(s4' 0%N isT) ?(s5' 0%N isT) //.
  have hi : HybDet.inb (DetPartitioned.blk [:: 0%N; 0%N] 1) 0 [:: x] = [:: x].
    by rewrite /HybDet.inb /DetPartitioned.blk /=; case: (p_flavor x) hx => [|[]].
  have h3 := s3' 0%N isT; rewrite hi in h3; have e3 := set_tsort (ops := [:: x]) isT h3.
  by case: (t_sec T) s2' e3 => [|l []] // _ /= ->.
have [a1 a2 a3 a4] := sets _ _ T1ok isT; have [b1 b2 b3 b4] := sets _ _ T2ok isT.
case: T1 T2 a1 a2 a3 a4 b1 b2 b3 b4 e2 h2 s1 {T1ok T2ok sets} => al1 sec1 rem1 ad1 [al2 sec2 rem2 ad2] /= -> -> a3 a4 -> -> b3 b4 e2 h2 s1.
do 3 eexists; split; first exact: h2.
- rewrite /ptry /try_update /= nth_set_nth /= nth_set_nth /= a3 a4 b3 b4 /= .
  rewrite /try_call /= in et; rewrite et /= mulr0 mul0r; reflexivity.
- by rewrite /DetPartitioned.reject_update /run_blocks /= er /=; reflexivity.
split=> //=.
- by rewrite /psize /insert_removed /erase_added /insert_at /push_add /= nth_set_nth /= a4 /= a3 /=.
- by rewrite cats0; have [_ _ /perm_size -> _] := hm2.
Qed.
End Refuted.

Print Assumptions C34_history.
Print Assumptions C34_ratio.
Print Assumptions C34_build.
Print Assumptions C34_inverse.
Print Assumptions C34_sectors.
Print Assumptions C34_whole_matrix.
Print Assumptions C34_instance.
Print Assumptions C34_refuted_duplicate.
