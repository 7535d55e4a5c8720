(** * C44, C45: equal-time operators *)
From Coq Require Import ZArith.
From mathcomp Require Import all_ssreflect all_algebra zify ssrZ.
From Verif Require Import OpContainer EigenBasis T_EigenBasis T_Braket EqualTime.
Import Order.Theory GRing.Theory Num.Theory.
Set Implicit Arguments.
Unset Strict Implicit.
Unset Printing Implicit Defensive.
Local Close Scope Z_scope.
Local Open Scope nat_scope.
Delimit Scope Z_scope with coqZ.

(** ** Specification: the operator product written from left to right *)
Fixpoint word (flavors : seq nat) : seq (optype * nat) :=
  if flavors is f :: g :: r then (CREATION_OP, f) :: (ANNIHILATION_OP, g) :: word r else [::].

Section C44.
Local Open Scope ring_scope.
Variables (E : realDomainType) (K : numFieldType) (cj : K -> K) (big inner : E).
Variables (evals : seq (seq E)) (evecs : seq (mat K)) (conn rev : conn_t) (ops : optype -> nat -> nat -> mat K).
Notation B := (build_basis cj big inner evals evecs conn rev ops).
Hypothesis dims : forall s, mc (nth (mat0 K) evecs s) = size (nth [::] evals s).
Hypothesis inv_tables : forall o f s d, conn o f s = Some d <-> rev o f d = Some s.
Hypothesis ops_dims : forall o f s d, conn o f s = Some d ->
  mc (ops o f s) = mr (nth (mat0 K) evecs s) /\ mr (ops o f s) = mr (nth (mat0 K) evecs d).

(** The ket reached when the operators of a word act one after the other, the rightmost first *)
Definition act (w : seq (optype * nat)) (k : braket K) : braket K := foldr (fun p k => apply_ket 0 B p.1 p.2 k) k w.
Definition act_bra (w : seq (optype * nat)) (b : braket K) : braket K := foldl (fun b p => apply_bra 0 B p.1 p.2 b) b w.

Lemma act_adjoint w b k : wf_bra B b -> wf_ket B k -> product (act_bra w b) k = product b (act w k).
Proof.
elim: w b => //= -[o f] w ih b wb wk /=.
have D o f s d := @built_op_dims _ _ cj big inner _ _ _ rev _ dims ops_dims o f s d.
have I o f s d := @built_inverse _ _ cj big inner _ _ _ _ ops dims inv_tables o f s d.
have Ds o f s d := @built_src _ _ cj big inner _ _ conn rev ops dims o f s d.
have Dd o f s d := @built_dst _ _ cj big inner _ _ conn rev ops dims o f s d.
rewrite ih //; last exact: (wf_abra I D Ds).
apply: (apply_adjoint I D Dd) => //; rewrite /act.
by elim: w {ih} => //= -[o' f'] w ih /=; apply: (wf_aket D).
Qed.

Lemma word_nth (N : nat) fl : size fl = (2 * N)%N ->
  word fl = flatten [seq [:: (CREATION_OP, nth 0%N fl (2 * i)); (ANNIHILATION_OP, nth 0%N fl (2 * i + 1))] | i <- iota 0 N].
Proof.
elim: N fl => [|N ih] [|f [|g fl]] //=; rewrite ?muln0 ?mulnS //= => -[e].
rewrite ih //; congr [:: _, _ & flatten _]; rewrite (iotaDl 1 0) -map_comp; apply: eq_map => i; rewrite [in RHS]/comp.
have -> : (2 * (1 + i) = (2 * i).+2)%N by lia.
by rewrite addSn.
Qed.

Lemma foldl_pairs (g h : nat -> optype * nat) l b :
  foldl (fun b p => apply_bra 0 B p.1 p.2 b) b (flatten [seq [:: g i; h i] | i <- l]) =
  foldl (fun b i => apply_bra 0 B (h i).1 (h i).2 (apply_bra 0 B (g i).1 (g i).2 b)) b l.
Proof. by elim: l b => //= i l ih b; rewrite ih. Qed.
Lemma foldr_pairs (g h : nat -> optype * nat) l k :
  foldr (fun p k => apply_ket 0 B p.1 p.2 k) k (flatten [seq [:: g i; h i] | i <- l]) =
  foldl (fun k i => apply_ket 0 B (g i).1 (g i).2 (apply_ket 0 B (h i).1 (h i).2 k)) k (seq.rev l).
Proof. by elim: l => //= i l ih; rewrite ih rev_cons -cats1 foldl_cat. Qed.
Lemma rev_iota N : seq.rev (iota 0 N) = [seq (N - 1 - i)%N | i <- iota 0 N].
Proof.
apply: (@eq_from_nth _ 0%N); rewrite ?size_rev ?size_map // size_iota => i hi.
rewrite nth_rev ?size_iota // (nth_map 0%N) ?size_iota // !nth_iota //; lia.
Qed.

Lemma foldl_in (T : Type) (F G : T -> nat -> T) (h : nat -> nat) l k :
  (forall k i, i \in l -> F k i = G k (h i)) -> foldl F k l = foldl G k [seq h i | i <- l].
Proof.
elim: l k => //= i l ih k H; rewrite H ?mem_head //; apply: ih => k' j hj; apply: H; by rewrite inE hj orbT.
Qed.

(** C44. Acting on the bra, acting on the ket, and the operator product read from left to right all give the same matrix
    element, for every number of pairs and all flavors *)
Theorem C44_bra_ket (N : nat) (op : eqtop) (b k : braket K) : wf_op N op -> wf_bra B b -> wf_ket B k ->
  product (apply_op_bra 0 B N op b) k = product b (act (word (et_flavors op)) k) /\
  product b (apply_op_ket 0 B N op k) = product b (act (word (et_flavors op)) k) /\
  product (apply_op_bra 0 B N op b) k = product b (apply_op_ket 0 B N op k).
Proof.
move=> /eqP sz wb wk.
have h1 : apply_op_bra 0 B N op b = act_bra (word (et_flavors op)) b.
  by rewrite /act_bra (word_nth sz) (foldl_pairs (fun i => (_, _)) (fun i => (_, _))).
have h2 : apply_op_ket 0 B N op k = act (word (et_flavors op)) k.
  rewrite /act (word_nth sz) (foldr_pairs (fun i => (_, _)) (fun i => (_, _))) rev_iota /apply_op_ket.
  apply: foldl_in => k0 i; rewrite mem_iota /= add0n /flavor => hi.
  have -> : (2 * (N - 1 - i) = 2 * N - 2 - 2 * i)%N by lia.
  by have -> : (2 * N - 2 - 2 * i + 1 = 2 * N - 1 - 2 * i)%N by lia.
by rewrite h1 h2 act_adjoint.
Qed.
End C44.
Print Assumptions C44_bra_ket.

(** ** C45 *)
(** Two elements of a std::set are the same element when neither is less than the other *)
Definition same_element (N : nat) (a b : eqtop) : bool := ~~ op_lt N a b && ~~ op_lt N b a.

Lemma lt_fromP a b l : reflect (exists2 n, n < size l & flavor a (nth 0 l n) < flavor b (nth 0 l n) /\
    forall m, m < n -> flavor a (nth 0 l m) = flavor b (nth 0 l m)) (lt_from a b l).
Proof.
elim: l => [|i l ih] /=; first by apply: ReflectF => -[].
case h1 : (flavor a i < flavor b i); first by apply: ReflectT; exists 0.
case h2 : (flavor b i < flavor a i).
  by apply: ReflectF => -[[|n] hn [/= h3 h4]]; [rewrite h1 in h3|move: (h4 0 isT) h2 => /= ->; rewrite ltnn].
have e : flavor a i = flavor b i by lia.
apply: (iffP ih) => [[n hn [h3 h4]]|[[|n] hn [h3 h4]]].
- by exists n.+1 => //; split=> // -[|m] //=; apply: h4.
- by rewrite /= h1 in h3.
- by exists n => //; split=> // m hm; apply: (h4 m.+1).
Qed.
Lemma op_ltP N a b : reflect (exists2 n, n < N & flavor a n < flavor b n /\ forall m, m < n -> flavor a m = flavor b m) (op_lt N a b).
Proof.
apply: (iffP (lt_fromP _ _ _)); rewrite size_iota => -[n hn [h1 h2]]; exists n => //.
  by move: h1; rewrite nth_iota // add0n => h1; split=> // m hm; move: (h2 m hm); rewrite nth_iota //; lia.
rewrite nth_iota // add0n; split=> // m hm; rewrite nth_iota //; first exact: h2. by lia.
Qed.

(** The comparison orders by the first N of the 2N flavors: it is a strict weak order, and elements are the same exactly when
    these N agree *)
Theorem C45_order (N : nat) (a b c : eqtop) :
  [/\ ~~ op_lt N a a, op_lt N a b -> op_lt N b c -> op_lt N a c,
      same_element N a b -> same_element N b c -> same_element N a c &
      same_element N a b <-> forall i, i < N -> flavor a i = flavor b i].
Proof.
have E x y : same_element N x y <-> forall i, i < N -> flavor x i = flavor y i.
  split=> [/andP[/op_ltP h1 /op_ltP h2] i|h].
    elim/ltn_ind: i => i ih hi; case: (ltngtP (flavor x i) (flavor y i)) => // h.
      by case: h1; exists i => //; split=> // m hm; apply: ih => //; exact: ltn_trans hi.
    by case: h2; exists i => //; split=> // m hm; apply/esym/ih => //; exact: ltn_trans hi.
  by apply/andP; split; apply/op_ltP => -[n hn [h1 _]]; rewrite h // ltnn in h1.
split=> //.
- by apply/op_ltP => -[n _]; rewrite ltnn => -[].
- move=> /op_ltP[n hn [h1 h2]] /op_ltP[m hm [h3 h4]]; apply/op_ltP; exists (minn n m); first by lia.
  case: (ltngtP n m) => h.
  + rewrite -(h4 n h); split=> // j hj; rewrite h2 // h4 //; lia.
  + rewrite (h2 m h); split=> // j hj; rewrite h2 ?h4 //; lia.
  + subst m; split; first exact: ltn_trans h3. by move=> j hj; rewrite h2 ?h4.
- by rewrite !E => h1 h2 i hi; rewrite h1 ?h2.
Qed.

(** C45, as far as it holds: operators that differ in one of the first N flavors are different elements; in particular the
    density operators c^+_f c_f, the only ones the program builds such sets from (impurity_init.ipp:446-467) *)
Theorem C45_first_half_partial (N : nat) (a b : eqtop) : (exists2 i, i < N & flavor a i <> flavor b i) -> ~~ same_element N a b.
Proof. by move=> [i hi ne]; have [_ _ _ [e _]] := C45_order N a b a; apply/negP => /e h; apply: ne; exact: h. Qed.
Theorem C45_density (f g : nat) t t' : same_element 1 (EqTimeOp [:: f; f] t) (EqTimeOp [:: g; g] t') = (f == g).
Proof.
apply/idP/eqP => [h|->].
  by have [_ _ _ [h1 _]] := C45_order 1 (EqTimeOp [:: f; f] t) (EqTimeOp [:: g; g] t') (EqTimeOp [:: f; f] t); move: (h1 h) => /(_ 0 isT).
by rewrite /same_element /op_lt /= /flavor /= ltnn.
Qed.
(** Refuted: for every N > 0 there are operators with different flavors that a set does not keep apart: c^+_f c_f and
    c^+_f c_g become one element, and the second is not inserted *)
Theorem C45_refuted (N : nat) : 0 < N -> exists a b, [/\ wf_op N a, wf_op N b, exists2 i, i < 2 * N & flavor a i <> flavor b i,
  same_element N a b & set_of N [:: a; b] = [:: a]].
Proof.
move=> hN; pose a := EqTimeOp (nseq (2 * N) 0) 0%coqZ; pose b := EqTimeOp (nseq N 0 ++ nseq N 1) 0%coqZ.
have e : same_element N a b.
  have [_ _ _ [_ h]] := C45_order N a b a; apply: h => i hi; rewrite /flavor /= nth_nseq nth_cat size_nseq hi nth_nseq hi.
  by case: ifP.
exists a, b; split=> //; rewrite /wf_op /= ?size_cat ?size_nseq ?mul2n ?addnn //.
- exists N; first by lia. by rewrite /flavor /= nth_nseq nth_cat size_nseq ltnn subnn nth_nseq hN; case: ifP.
- by move: e => /andP[/negbTE e1 /negbTE e2]; rewrite /set_of /= e1 e2.
Qed.

(** The lists built for the correlation measurement: both lists are strictly increasing, and each recorded position points to
    an element that is the same element as the correlator's operator *)
Section Collect.
Variable N : nat.
Notation lt := (op_lt N).
Notation same := (same_element N).
Lemma lt_trans' : transitive lt.
Proof. by move=> b a c; have [_ h _ _] := C45_order N a b c. Qed.
Lemma same_refl a : same a a.
Proof. by have [h _ _ _] := C45_order N a a a; rewrite /same_element h. Qed.
Lemma insert_path x z s : path lt z s -> lt z x -> path lt z (set_insert N x s).
Proof.
elim: s z => [|y s ih] z /=; first by move=> _ ->.
move=> /andP[h1 h2] h3; case h4 : (lt x y); first by rewrite /= h3 h4 h2.
by case h5 : (lt y x) => /=; rewrite h1 //= ih.
Qed.
Lemma insert_sorted x s : sorted lt s -> sorted lt (set_insert N x s).
Proof.
case: s => //= y s h; case h4 : (lt x y); first by rewrite /= h4.
by case h5 : (lt y x) => //=; rewrite insert_path.
Qed.
Lemma insert_has x y s : has (same y) s -> has (same y) (set_insert N x s).
Proof.
elim: s => //= z s ih; case: (lt x z) => /=; first by move=> ->; rewrite orbT.
by case: (lt z x) => //= /orP[->//|/ih ->]; rewrite orbT.
Qed.
Lemma insert_self x s : has (same x) (set_insert N x s).
Proof.
elim: s => [|y s ih] /=; first by rewrite same_refl.
case h1 : (lt x y) => /=; first by rewrite same_refl.
case h2 : (lt y x) => /=; first by rewrite ih orbT.
by rewrite {1}/same_element h1 h2.
Qed.
Lemma find_ok x s d : sorted lt s -> has (same x) s -> set_find N x s < size s /\ same (nth d s (set_find N x s)) x.
Proof.
elim: s => //= y s ih hs; case h1 : (lt y x) => /=.
  rewrite {1}/same_element h1 andbF /= => hh; have [h2 h3] := ih (path_sorted hs) hh; split=> //.
case h2 : (lt x y) => /=; last by move=> _; rewrite /same_element h1 h2.
rewrite {1}/same_element h2 /= => hh; exfalso; move: hh (order_path_min lt_trans' hs).
elim: s {ih hs} => //= z s ih /orP[h|h] /andP[h3 h4]; last exact: ih.
by move: h; rewrite /same_element (lt_trans' h2 h3).
Qed.
Lemma set_of_ok l : sorted lt (set_of N l) /\ forall i d, i < size l -> has (same (nth d l i)) (set_of N l).
Proof.
rewrite /set_of; have [] : sorted lt [::] /\ True by [].
elim: l [::] => [|x l ih] s hs _ /=; first by split.
have [h1 h2] := ih _ (insert_sorted x hs) I; split=> // -[|i] d hi; last exact: h2.
have k : forall l s, has (same x) s -> has (same x) (foldl (fun s x => set_insert N x s) s l).
  by elim=> //= y l' ih' s' h; apply: ih'; exact: insert_has.
by apply: k; exact: insert_self.
Qed.
End Collect.
Theorem C45_collect (N : nat) (cs : seq (eqtop * eqtop)) d : let u := collect_obs N cs in
  [/\ sorted (op_lt N) (left_obs u), sorted (op_lt N) (right_obs u), size (obs_pos u) = size cs &
      forall i, i < size cs -> let p := nth (0, 0) (obs_pos u) i in
        [/\ p.1 < size (left_obs u), p.2 < size (right_obs u),
            same_element N (nth d (left_obs u) p.1) (nth (d, d) cs i).1 & same_element N (nth d (right_obs u) p.2) (nth (d, d) cs i).2]].
Proof.
have [l1 l2] := set_of_ok N [seq c.1 | c <- cs]; have [r1 r2] := set_of_ok N [seq c.2 | c <- cs].
split=> //=; first by rewrite size_map.
move=> i hi; rewrite (nth_map (d, d)) //=.
have := l2 i d; rewrite size_map (nth_map (d, d)) // => /(_ hi) hl.
have := r2 i d; rewrite size_map (nth_map (d, d)) // => /(_ hi) hr.
have [? ?] := find_ok d l1 hl; have [? ?] := find_ok d r1 hr; by split.
Qed.
(** With density operators the element found has the very flavors asked for *)
Theorem C45_collect_density (fs : seq (nat * nat)) d : let dens f := EqTimeOp [:: f; f] (-1)%coqZ in
  let u := collect_obs 1 [seq (dens p.1, dens p.2) | p <- fs] in
  forall i, i < size fs -> let p := nth (0, 0) (obs_pos u) i in
    nth d (left_obs u) p.1 = dens (nth (0, 0) fs i).1 /\ nth d (right_obs u) p.2 = dens (nth (0, 0) fs i).2.
Proof.
move=> dens u i hi p.
have [_ _ _] := C45_collect 1 [seq (dens p.1, dens p.2) | p <- fs] d; rewrite size_map => /(_ i hi); rewrite -/u -/p.
rewrite (nth_map (0, 0)) //= => -[h1 h2 h3 h4].
have D0 : forall l s, (forall j, j < size s -> exists f, nth d s j = dens f) -> (forall j, j < size l -> exists f, nth d l j = dens f) ->
    let s' := foldl (fun s x => set_insert 1 x s) s l in forall j, j < size s' -> exists f, nth d s' j = dens f.
  elim=> [|x l ih] s hs hl //=; apply: ih; last by move=> j hj; apply: (hl j.+1).
  have [f0 e0] := hl 0 isT; rewrite /= in e0; elim: s hs => [|y s ih2] hs /=.
    by move=> [|j] // _; exists f0.
  case: (op_lt 1 x y) => /=; first by move=> [|j] hj; [exists f0|apply: hs].
  case: (op_lt 1 y x) => //=; move=> [|j] hj; first exact: (hs 0).
  by apply: ih2 => // m hm; apply: (hs m.+1).
have D l : (forall j, j < size l -> exists f, nth d l j = dens f) -> forall j, j < size (set_of 1 l) -> exists f, nth d (set_of 1 l) j = dens f.
  by move=> hl j; apply: D0.
have [f ef] : exists f, nth d (left_obs u) p.1 = dens f.
  apply: D h1 => j; rewrite !size_map => hj; exists (nth (0, 0) fs j).1.
  by rewrite (nth_map (dens 0, dens 0)) ?size_map // (nth_map (0, 0)).
have [g eg] : exists f, nth d (right_obs u) p.2 = dens f.
  apply: D h2 => j; rewrite !size_map => hj; exists (nth (0, 0) fs j).2.
  by rewrite (nth_map (dens 0, dens 0)) ?size_map // (nth_map (0, 0)).
by move: h3 h4; rewrite ef eg !C45_density => /eqP -> /eqP ->.
Qed.

(** Concrete cases *)
Example C45_instance :
  let a := EqTimeOp [:: 2; 2] (-1)%coqZ in let b := EqTimeOp [:: 0; 0] (-1)%coqZ in
  collect_obs 1 [:: (a, b); (b, b); (a, a)] = Unique [:: b; a] [:: b; a] [:: (1, 0); (0, 0); (1, 1)] /\
  (let c := EqTimeOp [:: 2; 0] (-1)%coqZ in collect_obs 1 [:: (a, b); (c, b)] = Unique [:: a] [:: b] [:: (0, 0); (0, 0)]).
Proof. by []. Qed.

(** c^+_0 c_0 on the basis of [C30_instance]: the hypotheses of C44 hold there *)
Example C44_instance : let b0 := Braket (Some 1%N) (ex_one 1) 1%R in let op := EqTimeOp [:: 0; 0] 0%coqZ in
  product (apply_op_bra 0%R ex_basis 1 op b0) b0 = product b0 (apply_op_ket 0%R ex_basis 1 op b0) /\
  product (apply_op_bra 0%R ex_basis 1 op b0) b0 = 9%:R%R.
Proof.
move=> b0 op.
have w0 : wf_ket ex_basis b0 by vm_compute.
have w1 : wf_bra ex_basis b0 by vm_compute.
have [_ [_ h]] := @C44_bra_ket _ _ id 100%:Z%R 2%:Z%R _ _ _ ex_rev _ ex_dims ex_inv ex_ops_dims 1 op _ _ isT w1 w0.
split=> //.
have D o f s d := @built_op_dims _ _ id 100%:Z%R 2%:Z%R _ _ _ ex_rev _ ex_dims ex_ops_dims o f s d.
have I o f s d := @built_inverse _ _ id 100%:Z%R 2%:Z%R _ _ _ _ ex_ops ex_dims ex_inv o f s d.
have Dd := @built_dst _ _ id 100%:Z%R 2%:Z%R _ _ ex_conn ex_rev ex_ops ex_dims.
have Ds := @built_src _ _ id 100%:Z%R 2%:Z%R _ _ ex_conn ex_rev ex_ops ex_dims.
rewrite /apply_op_bra /= (apply_adjoint I D Dd) //; last exact: (wf_abra I D Ds).
have -> : apply_bra 0%R ex_basis CREATION_OP (flavor op (2 * 0)) b0 = replaced b0 (mmul (obj b0) (b_ops ex_basis CREATION_OP 0 0)) 0 by [].
have [_ [_ ->]] := @replacedE _ b0 (mmul (obj b0) (b_ops ex_basis CREATION_OP 0 0)) 0 erefl erefl.
have -> : apply_ket 0%R ex_basis ANNIHILATION_OP (flavor op (2 * 0 + 1)) b0 = replaced b0 (mmul (b_ops ex_basis ANNIHILATION_OP 0 1) (obj b0)) 0 by [].
have [_ [-> _]] := @replacedE _ b0 (mmul (b_ops ex_basis ANNIHILATION_OP 0 1) (obj b0)) 0 erefl erefl.
rewrite productE; have -> : fits (Braket (Some 0) (mmul (obj b0) (b_ops ex_basis CREATION_OP 0 0)) (coeff b0)) (Braket (Some 0) (mmul (b_ops ex_basis ANNIHILATION_OP 0 1) (obj b0)) (coeff b0)) = true by vm_compute.
by rewrite /= !big_ord_recl !big_ord0 /=; vm_compute.
Qed.

Print Assumptions C45_order.
Print Assumptions C45_first_half_partial.
Print Assumptions C45_density.
Print Assumptions C45_refuted.
Print Assumptions C45_collect.
Print Assumptions C45_collect_density.
