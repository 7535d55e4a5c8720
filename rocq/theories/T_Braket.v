(** * C46: the bras and kets of the eigenbasis satisfy what the sliding window requires of them *)
From Coq Require Import ZArith.
From mathcomp Require Import all_ssreflect all_algebra zify ssrZ.
From Verif Require Import OpContainer EigenBasis T_EigenBasis Window T_WindowTrace.
Import Order.Theory GRing.Theory Num.Theory.
Set Implicit Arguments.
Unset Strict Implicit.
Unset Printing Implicit Defensive.
Local Close Scope Z_scope.
Local Open Scope nat_scope.
Local Open Scope ring_scope.
Delimit Scope Z_scope with coqZ.

Section Contract.
Variables (E : realDomainType) (K : numFieldType) (expf : E -> K) (tick : Z -> E) (B : basis E K).
Hypothesis expD : forall x y, expf (x + y) = expf x * expf y.
Hypothesis exp_pos : forall x, 0 < expf x.
Hypothesis exp0 : expf 0 = 1.
Hypothesis tickD : forall s t, tick (s + t)%coqZ = tick s + tick t.
Hypothesis tick0 : tick 0%coqZ = 0.
Definition dim (s : nat) : nat := size (nth [::] (b_evals B) s).
(** Tables and matrices fit together: what [C30_operator] and [C30_connection] give for the restricted basis. *)
Hypothesis inverse : forall o f s d, (0 < dim s)%N -> (0 < dim d)%N -> (b_conn B o f s = Some d <-> b_rev B o f d = Some s).
Hypothesis op_dims : forall o f s d, b_conn B o f s = Some d -> (0 < dim s)%N ->
  mr (b_ops B o f s) = dim d /\ mc (b_ops B o f s) = dim s.
Hypothesis dst_active : forall o f s d, b_conn B o f s = Some d -> (0 < dim d)%N.
Hypothesis src_active : forall o f s d, b_rev B o f d = Some s -> (0 < dim s)%N.

(** Kets have as many rows, bras as many columns as their sector has states; coefficients are positive. *)
Definition wf_ket (k : braket K) : bool := invalid k || (if sector k is Some s then mr (obj k) == dim s else false) && (0 < coeff k).
Definition wf_bra (b : braket K) : bool := invalid b || (if sector b is Some s then mc (obj b) == dim s else false) && (0 < coeff b).
Record ket := Ket { kb :> braket K; kwf : wf_ket kb }.
Record bra := Bra { bb :> braket K; bwf : wf_bra bb }.

Implicit Types (b k : braket K).
Notation norm := (@normalize K 0).
Notation aket := (apply_ket 0 B).
Notation abra := (apply_bra 0 B).
Notation pket := (prop_ket expf None tick B).
Notation pbra := (prop_bra expf None tick B).

Lemma norm_cases (b : braket K) : [\/ invalid b /\ norm b = b,
  [/\ ~~ invalid b, maxabs (obj b) = 0 & norm b = set_invalid b] |
  [/\ ~~ invalid b, maxabs (obj b) != 0, 0 < maxabs (obj b) &
    norm b = Braket (sector b) (Mat (mr (obj b)) (mc (obj b)) (fun i j => if `|me (obj b) i j| < maxabs (obj b) * 0 then 0 else me (obj b) i j * (1 / maxabs (obj b)))) (coeff b * maxabs (obj b))]].
Proof.
rewrite /normalize; case: ifP => hv; first by constructor 1.
case: eqP => [e|/eqP ne]; [constructor 2|constructor 3] => //; split=> //.
have [h _ _] := maxabs_ok (obj b); by rewrite lt_neqAle eq_sym ne.
Qed.
Lemma wf_norm_ket k : wf_ket k -> wf_ket (norm k).
Proof.
case: (norm_cases k) => [[_ -> //]|[hv e ->] _|[hv ne hp ->]]; first by rewrite /wf_ket /invalid.
rewrite /wf_ket /invalid /= => /orP[->//|/andP[h1 h2]]; apply/orP; right; by rewrite h1 mulr_gt0.
Qed.
Lemma wf_norm_bra k : wf_bra k -> wf_bra (norm k).
Proof.
case: (norm_cases k) => [[_ -> //]|[hv e ->] _|[hv ne hp ->]]; first by rewrite /wf_bra /invalid.
rewrite /wf_bra /invalid /= => /orP[->//|/andP[h1 h2]]; apply/orP; right; by rewrite h1 mulr_gt0.
Qed.

(** Products as double sums *)
Definition fits (b k : braket K) : bool :=
  [&& ~~ invalid b, ~~ invalid k, sector b == sector k, mc (obj b) == mr (obj k) & mr (obj b) == mc (obj k)].
Lemma productE b k : product b k = if fits b k then
  coeff b * coeff k * \sum_(i < mr (obj b)) \sum_(j < mc (obj b)) me (obj b) i j * me (obj k) j i else 0.
Proof.
rewrite /product /fits; case: (invalid b) => //=; case: (invalid k) => //=; case: (_ == _) => //=.
by case: (_ == _) => //=; case: (_ == _).
Qed.
Lemma norm_val (b : braket K) i j : ~~ invalid b -> maxabs (obj b) != 0 -> 0 < maxabs (obj b) ->
  (if `|me (obj b) i j| < maxabs (obj b) * 0 then 0 else me (obj b) i j * (1 / maxabs (obj b))) = me (obj b) i j / maxabs (obj b).
Proof. by move=> _ _ _; rewrite mulr0 normr_lt0 div1r. Qed.
Lemma max0_entries (b : braket K) i j : maxabs (obj b) = 0 -> (i < mr (obj b))%N -> (j < mc (obj b))%N -> me (obj b) i j = 0.
Proof.
move=> e hi hj; have [_ h _] := maxabs_ok (obj b); have := h i j hi hj; rewrite e => h1.
by apply/eqP; rewrite -normr_eq0 eq_le h1 normr_ge0.
Qed.
Lemma product_norm_ket b k : product b (norm k) = product b k.
Proof.
case: (norm_cases k) => [[_ -> //]|[hv e ->]|[hv ne hp ->]].
  rewrite !productE {1}/fits /invalid /= !andbF; case: ifP => // /and5P[_ _ _ /eqP d1 /eqP d2].
  rewrite big1 ?mulr0 // => i _; rewrite big1 // => j _; by rewrite (max0_entries e) ?mulr0 // -?d1 -?d2.
rewrite !productE /fits /= {2}/invalid /= -/(invalid k); case: ifP => // _.
rewrite mulrA -[in LHS]mulrA; congr (_ * _); rewrite mulr_sumr; apply: eq_bigr => i _; rewrite mulr_sumr; apply: eq_bigr => j _.
by rewrite norm_val // mulrCA [maxabs _ * (_ / _)]mulrCA divff // mulr1.
Qed.
Lemma product_norm_bra b k : product (norm b) k = product b k.
Proof.
case: (norm_cases b) => [[_ -> //]|[hv e ->]|[hv ne hp ->]].
  rewrite !productE {1}/fits /invalid /=; case: ifP => // /and5P[_ _ _ /eqP d1 /eqP d2].
  rewrite big1 ?mulr0 // => i _; rewrite big1 // => j _; rewrite max0_entries ?mul0r //.
rewrite !productE /fits /= {1}/invalid /= -/(invalid b); case: ifP => // _.
rewrite [coeff b * _ * coeff k]mulrAC -(mulrA (coeff b * coeff k)); congr (_ * _); rewrite mulr_sumr; apply: eq_bigr => i _; rewrite mulr_sumr; apply: eq_bigr => j _.
by rewrite norm_val // mulrA [maxabs _ * (_ / _)]mulrCA divff // mulr1.
Qed.

Notation bk_norm := (@EigenBasis.max_norm K).
Lemma norm_ge0_ k : invalid k || (0 < coeff k) -> 0 <= bk_norm k.
Proof.
rewrite /EigenBasis.max_norm; case: (invalid k) => //= h; have [h1 _ _] := maxabs_ok (obj k).
by rewrite mulr_ge0 // ltW.
Qed.
Lemma not_lt0 (x y : K) : 0 <= x -> 0 <= y -> (x / y < 0) = false.
Proof. by move=> hx hy; apply: le_gtF; rewrite divr_ge0. Qed.

(** Replacing the matrix, setting the new sector and testing the norm *)
Definition replaced (k : braket K) (m : mat K) (d : nat) : braket K :=
  let k1 := swap_obj 0 k m in
  let k2 := Braket (Some d) (obj k1) (coeff k1) in
  if bk_norm k2 / bk_norm k < 0 then set_invalid k2 else k2.
Lemma replacedE k m d : ~~ invalid k -> 0 < coeff k ->
  (invalid (replaced k m d) \/ [/\ sector (replaced k m d) = Some d, mr (obj (replaced k m d)) = mr m, mc (obj (replaced k m d)) = mc m & 0 < coeff (replaced k m d)]) /\
  (forall b, product b (replaced k m d) = product b (Braket (Some d) m (coeff k))) /\
  (forall b, product (replaced k m d) b = product (Braket (Some d) m (coeff k)) b).
Proof.
move=> hv hc; rewrite /replaced /swap_obj.
have hk : 0 <= bk_norm k by apply: norm_ge0_; rewrite hc orbT.
have [s hs] : exists s, sector k = Some s by move: hv; rewrite /invalid; case: (sector k) => // s _; exists s.
rewrite hs.
case: (norm_cases (Braket (Some s) m (coeff k))) => [[hi ->]|[hi e ->]|[hi ne hp ->]] /=.
- have hi2 : invalid (Braket (Some d) m (coeff k)) by [].
  by rewrite not_lt0 // ?norm_ge0_ ?hi2 //; split; [left|].
- rewrite not_lt0 // ?norm_ge0_ //; split; first by left.
  have e2 : norm (Braket (Some d) m (coeff k)) = set_invalid (Braket (Some d) m (coeff k)).
    by case: (norm_cases (Braket (Some d) m (coeff k))) => [[h _]|[_ _ ->//]|[_ h _ _]]; [rewrite /invalid /= in h; rewrite /invalid /= h in hi|rewrite /= in e h; rewrite e eqxx in h].
  by split=> b; [rewrite -[RHS]product_norm_ket e2|rewrite -[RHS]product_norm_bra e2]; rewrite !productE /fits /= /invalid /= ?andbF.
- rewrite not_lt0 // ?norm_ge0_ //=; last by rewrite mulr_gt0 ?orbT.
  split; first by right; rewrite mulr_gt0.
  have e2 : norm (Braket (Some d) m (coeff k)) = Braket (Some d) (Mat (mr m) (mc m) (fun i j => if `|me m i j| < maxabs m * 0 then 0 else me m i j * (1 / maxabs m))) (coeff k * maxabs m).
    by case: (norm_cases (Braket (Some d) m (coeff k))) => [[h _]|[_ h _]|[_ _ _ ->//]]; [rewrite /invalid /= in h; rewrite /invalid /= h in hi|rewrite /= in ne h; rewrite h eqxx in ne].
  by split=> b; [rewrite -[RHS]product_norm_ket e2|rewrite -[RHS]product_norm_bra e2].
Qed.
Lemma aketE o f k : aket o f k = if invalid k then k else if sector k is Some s then
  (if b_conn B o f s is Some d then replaced k (mmul (b_ops B o f s) (obj k)) d else set_invalid k) else k.
Proof. by []. Qed.
Lemma abraE o f b : abra o f b = if invalid b then b else if sector b is Some d then
  (if b_rev B o f d is Some s then replaced b (mmul (obj b) (b_ops B o f s)) s else set_invalid b) else b.
Proof. by []. Qed.

Lemma valid_ket k : ~~ invalid k -> wf_ket k -> exists s, [/\ sector k = Some s, mr (obj k) = dim s, (0 < dim s)%N & 0 < coeff k].
Proof.
move=> hv; rewrite /wf_ket (negbTE hv) /=; move: hv; rewrite /invalid; case: (sector k) => // s /=.
rewrite negb_or => /andP[h1 _] /andP[/eqP h2 h3]; exists s; split=> //; by rewrite lt0n -h2.
Qed.
Lemma valid_bra b : ~~ invalid b -> wf_bra b -> exists s, [/\ sector b = Some s, mc (obj b) = dim s, (0 < dim s)%N & 0 < coeff b].
Proof.
move=> hv; rewrite /wf_bra (negbTE hv) /=; move: hv; rewrite /invalid; case: (sector b) => // s /=.
rewrite negb_or => /andP[_ h1] /andP[/eqP h2 h3]; exists s; split=> //; by rewrite lt0n -h2.
Qed.

Lemma wf_aket o f k : wf_ket k -> wf_ket (aket o f k).
Proof.
move=> hw; rewrite aketE; case hv : (invalid k) => //; have [s [hs h1 h2 h3]] := valid_ket (negbT hv) hw.
rewrite hs; case hc : (b_conn B o f s) => [d|//].
have [[hi|[h4 h5 h6 h7]] _] := @replacedE k (mmul (b_ops B o f s) (obj k)) d (negbT hv) h3; first by rewrite /wf_ket hi.
by apply/orP; right; rewrite h4 h5 h7 andbT /= (op_dims hc h2).1.
Qed.
Lemma wf_abra o f b : wf_bra b -> wf_bra (abra o f b).
Proof.
move=> hw; rewrite abraE; case hv : (invalid b) => //; have [d [hs h1 h2 h3]] := valid_bra (negbT hv) hw.
rewrite hs; case hc : (b_rev B o f d) => [s|//].
have [[hi|[h4 h5 h6 h7]] _] := @replacedE b (mmul (obj b) (b_ops B o f s)) s (negbT hv) h3; first by rewrite /wf_bra hi.
have hs2 := src_active hc; have hc2 := (inverse o f hs2 h2).2 hc.
by apply/orP; right; rewrite h4 h6 h7 andbT /= (op_dims hc2 hs2).2.
Qed.

Lemma apply_adjoint o f b k : wf_bra b -> wf_ket k -> product (abra o f b) k = product b (aket o f k).
Proof.
move=> wb wk; rewrite abraE aketE; case ib : (invalid b); first by rewrite !productE /fits ib.
case ik : (invalid k); first by rewrite !productE /fits ik !andbF.
have [d [hd b1 b2 b3]] := valid_bra (negbT ib) wb; have [s [hs k1 k2 k3]] := valid_ket (negbT ik) wk.
rewrite hd hs; case hc : (b_conn B o f s) => [d'|]; last first.
  case hr : (b_rev B o f d) => [s'|]; last by rewrite !productE /fits /= /invalid /= !andbF.
  have [_ [_ ->]] := @replacedE b (mmul (obj b) (b_ops B o f s')) s' (negbT ib) b3.
  have -> : product b (set_invalid k) = 0 by rewrite productE /fits /= /invalid /= ?andbF.
  rewrite productE /fits hs /=; case: ifP => // /and5P[_ _ /eqP[es] _ _].
  by subst s'; have := (inverse o f k2 b2).2 hr; rewrite hc.
have [_ [-> _]] := @replacedE k (mmul (b_ops B o f s) (obj k)) d' (negbT ik) k3.
have hd' := dst_active hc.
case: (eqVneq d d') => [ed|nd]; last first.
  have -> : product b (Braket (Some d') (mmul (b_ops B o f s) (obj k)) (coeff k)) = 0.
    by rewrite productE /fits hd /= (_ : (Some d == Some d') = false) ?andbF //; apply/eqP => -[e]; rewrite e eqxx in nd.
  case hr : (b_rev B o f d) => [s'|]; last by rewrite productE /fits /= /invalid.
  have [_ [_ ->]] := @replacedE b (mmul (obj b) (b_ops B o f s')) s' (negbT ib) b3.
  rewrite productE /fits hs /=; case: ifP => // /and5P[_ _ /eqP[es] _ _].
  by subst s'; have := (inverse o f k2 b2).2 hr; rewrite hc => -[e]; rewrite e eqxx in nd.
subst d'; have hr := (inverse o f k2 b2).1 hc; rewrite hr.
have [_ [_ ->]] := @replacedE b (mmul (obj b) (b_ops B o f s)) s (negbT ib) b3.
have [o1 o2] := op_dims hc k2.
rewrite !productE /fits /= /invalid /= hd hs /= !eqxx /= o1 o2 k1 b1 !eqxx /=.
have -> : (dim s == 0%N) = false by apply/negbTE; rewrite -lt0n.
have -> : (dim d == 0%N) = false by apply/negbTE; rewrite -lt0n.
rewrite !orbF /=.
have mb : (mr (obj b) == 0%N) = false by move: ib; rewrite /invalid; case: (mr (obj b) == 0%N); rewrite ?orbT.
have mk : (mc (obj k) == 0%N) = false by move: ik; rewrite /invalid; case: (mc (obj k) == 0%N); rewrite ?orbT.
rewrite mb mk /=; case: ifP => // _; congr (_ * _); apply: eq_bigr => i _.
under eq_bigr do rewrite mulr_suml; rewrite exchange_big /=; apply: eq_bigr => j _.
by rewrite mulr_sumr; apply: eq_bigr => l _; rewrite mulrA.
Qed.

(** Propagation *)
Lemma pketE t k s : ~~ invalid k -> sector k = Some s -> exists c v, compute_exp_vector_safe expf None (tick t) (nth [::] (b_evals B) s) = (c, v) /\
  pket t k = Braket (Some s) (Mat (mr (obj k)) (mc (obj k)) (fun i j => me (obj k) i j * nth 0 v i)) (coeff k * c).
Proof. by move=> hv hs; rewrite /prop_ket (negbTE hv) hs; case: compute_exp_vector_safe => c v; exists c, v. Qed.
Lemma pbraE t k s : ~~ invalid k -> sector k = Some s -> exists c v, compute_exp_vector_safe expf None (tick t) (nth [::] (b_evals B) s) = (c, v) /\
  pbra t k = Braket (Some s) (Mat (mr (obj k)) (mc (obj k)) (fun i j => me (obj k) i j * nth 0 v j)) (coeff k * c).
Proof. by move=> hv hs; rewrite /prop_bra (negbTE hv) hs; case: compute_exp_vector_safe => c v; exists c, v. Qed.
Lemma c_pos t s c v : compute_exp_vector_safe expf None (tick t) (nth [::] (b_evals B) s) = (c, v) -> 0 < c.
Proof. by case=> <- _; exact: exp_pos. Qed.
Lemma pket_invalid t k : invalid (pket t k) = invalid k.
Proof.
case hv : (invalid k); first by rewrite /prop_ket hv.
move: (hv); rewrite {1}/invalid; case hs : (sector k) => [s|//] _.
have [c [v [_ ->]]] := pketE t (negbT hv) hs; by rewrite /invalid /=; move: hv; rewrite /invalid hs.
Qed.
Lemma wf_pket t k : wf_ket k -> wf_ket (pket t k).
Proof.
move=> hw; case hv : (invalid k); first by rewrite /prop_ket hv.
have [s [hs h1 h2 h3]] := valid_ket (negbT hv) hw; have [c [v [e ->]]] := pketE t (negbT hv) hs.
by apply/orP; right; rewrite /= h1 eqxx mulr_gt0 // (c_pos e).
Qed.
Lemma wf_pbra t k : wf_bra k -> wf_bra (pbra t k).
Proof.
move=> hw; case hv : (invalid k); first by rewrite /prop_bra hv.
have [s [hs h1 h2 h3]] := valid_bra (negbT hv) hw; have [c [v [e ->]]] := pbraE t (negbT hv) hs.
by apply/orP; right; rewrite /= h1 eqxx mulr_gt0 // (c_pos e).
Qed.
Lemma prop_adjoint t b k : wf_bra b -> wf_ket k -> product (pbra t b) k = product b (pket t k).
Proof.
move=> wb wk; case ib : (invalid b); first by rewrite /prop_bra ib !productE /fits ib.
case ik : (invalid k); first by rewrite /prop_ket ik !productE /fits ik !andbF.
have [d [hd b1 b2 b3]] := valid_bra (negbT ib) wb; have [s [hs k1 k2 k3]] := valid_ket (negbT ik) wk.
have [c [v [e ->]]] := pketE t (negbT ik) hs; have [c' [v' [e' ->]]] := pbraE t (negbT ib) hd.
rewrite !productE /fits /= /invalid /= hd hs /=; case: (eqVneq d s) => [ds|nd]; last first.
  by rewrite (_ : (Some d == Some s) = false) ?andbF //; apply/eqP => -[h]; rewrite h eqxx in nd.
move: e'; rewrite ds e => -[<- <-]; case: ifP => // _.
rewrite -(mulrA (coeff b)) [c * coeff k]mulrC; congr (_ * _); apply: eq_bigr => i _; apply: eq_bigr => j _.
by rewrite -mulrA [nth 0 v j * _]mulrC mulrA.
Qed.
Lemma prop_product t b k : wf_ket k -> product b (pket t k) = if fits b k then
  coeff b * coeff k * \sum_(i < mr (obj b)) \sum_(j < mc (obj b)) me (obj b) i j * (me (obj k) j i * expf (- tick t * nth 0 (nth [::] (b_evals B) (odflt 0%N (sector k))) j)) else 0.
Proof.
move=> wk; case ik : (invalid k); first by rewrite /prop_ket ik !productE /fits ik !andbF.
have [s [hs k1 k2 k3]] := valid_ket (negbT ik) wk; have [c [v [e ->]]] := pketE t (negbT ik) hs.
rewrite productE /fits /= /invalid /= hs /=; case: ifP => // /and5P[_ _ _ /eqP d1 _].
rewrite mulrA -[in LHS]mulrA; congr (_ * _); rewrite mulr_sumr; apply: eq_bigr => i _; rewrite mulr_sumr; apply: eq_bigr => j _.
have hj : (j < size (nth [::] (b_evals B) s))%N by rewrite -/(dim s) -k1 -d1.
have := exp_vector_exact expD (tick t) hj; rewrite e /= => <-.
by rewrite mulrCA [c * (_ * _)]mulrCA.
Qed.
Lemma prop_add s t b k : wf_ket k -> product b (pket t (pket s k)) = product b (pket (s + t)%coqZ k).
Proof.
move=> wk; case ik : (invalid k); first by rewrite !productE /fits !pket_invalid ik !andbF.
rewrite !prop_product ?wf_pket //.
have [d [hs k1 k2 k3]] := valid_ket (negbT ik) wk; have [c [v [e ->]]] := pketE s (negbT ik) hs.
rewrite /fits /= /invalid /= hs /=; case: ifP => // /and5P[_ _ _ /eqP d1 _].
rewrite mulrA -[in LHS]mulrA; congr (_ * _); rewrite mulr_sumr; apply: eq_bigr => i _; rewrite mulr_sumr; apply: eq_bigr => j _.
have hj : (j < size (nth [::] (b_evals B) d))%N by rewrite -/(dim d) -k1 -d1.
have := exp_vector_exact expD (tick s) hj; rewrite e /= => e2.
rewrite tickD opprD mulrDl expD -e2 mulrCA; congr (_ * _).
by rewrite -!mulrA mulrCA; congr (_ * _); rewrite mulrCA.
Qed.
Lemma prop_zero b k : wf_ket k -> product b (pket 0%coqZ k) = product b k.
Proof.
move=> wk; rewrite prop_product // productE; case: ifP => // _; congr (_ * _).
by apply: eq_bigr => i _; apply: eq_bigr => j _; rewrite tick0 oppr0 mul0r exp0 mulr1.
Qed.

Definition sec_of (b : braket K) : nat := if sector b is Some s then s.+1 else 0%N.
Lemma wf_ket_nil : wf_ket (Braket None (mat0 K) 1). Proof. by []. Qed.
Lemma wf_bra_nil : wf_bra (Braket None (mat0 K) 1). Proof. by []. Qed.
Definition ket_inv (k : ket) : bool := invalid k.
Definition bra_inv (b : bra) : bool := invalid b.
Definition ket_apply o f (k : ket) : ket := Ket (wf_aket o f (kwf k)).
Definition bra_apply o f (b : bra) : bra := Bra (wf_abra o f (bwf b)).
Definition ket_prop t (k : ket) : ket := Ket (wf_pket t (kwf k)).
Definition bra_prop t (b : bra) : bra := Bra (wf_pbra t (bwf b)).
Definition ket_norm (k : ket) : ket := Ket (wf_norm_ket (kwf k)).
Definition bra_norm (b : bra) : bra := Bra (wf_norm_bra (bwf b)).
Definition bk_product (b : bra) (k : ket) : K := product b k.

Lemma contract : braket_ok ket_inv bra_inv (Ket wf_ket_nil) (Bra wf_bra_nil) ket_apply bra_apply ket_prop bra_prop
  ket_norm bra_norm (fun k : ket => sec_of k) (fun b : bra => sec_of b) bk_product.
Proof.
constructor; rewrite /bk_product /ket_inv /bra_inv /=.
- by move=> o f b k; apply: apply_adjoint; [exact: bwf|exact: kwf].
- by move=> t b k _; apply: prop_adjoint; [exact: bwf|exact: kwf].
- by move=> s t b k _ _; apply: prop_add; exact: kwf.
- by move=> b k; apply: prop_zero; exact: kwf.
- by move=> b k; apply: product_norm_ket.
- by move=> b k; apply: product_norm_bra.
- by move=> b k h; rewrite productE /fits h andbF.
- by move=> b k h; rewrite productE /fits h.
- by move=> k h; case: (norm_cases k) => [[_ ->]//|[h1 _ _]|[h1 _ _ _]]; rewrite h in h1.
- by move=> k h; case: (norm_cases k) => [[_ ->]//|[h1 _ _]|[h1 _ _ _]]; rewrite h in h1.
- by [].
- by [].
- move=> b k; rewrite productE /fits; case: ifP => // /and5P[_ _ /eqP e _ _]; by rewrite /sec_of e eqxx.
Qed.
End Contract.

(** ** The restricted basis *)
Section Built.
Variables (E : realDomainType) (K : numFieldType) (cj : K -> K) (big inner : E).
Variables (evals : seq (seq E)) (evecs : seq (mat K)) (conn rev : conn_t) (ops : optype -> nat -> nat -> mat K).
Notation B := (build_basis cj big inner evals evecs conn rev ops).
Variables (expf : E -> K) (tick : Z -> E).
Hypothesis expD : forall x y, expf (x + y) = expf x * expf y.
Hypothesis exp_pos : forall x, 0 < expf x.
Hypothesis tickD : forall s t, tick (s + t)%coqZ = tick s + tick t.
Hypothesis dims : forall s, mc (nth (mat0 K) evecs s) = size (nth [::] evals s).
Hypothesis sizes : size evecs = size evals.
(** Each table is the inverse of the other, and the operator matrices have the dimensions of the sectors they join. *)
Hypothesis inv_tables : forall o f s d, conn o f s = Some d <-> rev o f d = Some s.
Hypothesis ops_dims : forall o f s d, conn o f s = Some d ->
  mc (ops o f s) = mr (nth (mat0 K) evecs s) /\ mr (ops o f s) = mr (nth (mat0 K) evecs d).

Lemma built_dim s : dim B s = size (kept (eigenvalue_min big evals + inner) (nth [::] evals s)).
Proof. by rewrite /dim b_evals_nth // size_map size_filter count_kept. Qed.
Lemma built_pos s : (0 < dim B s)%N = (kept (eigenvalue_min big evals + inner) (nth [::] evals s) != [::]).
Proof. by rewrite built_dim lt0n size_eq0. Qed.
Lemma built_inverse o f s d : (0 < dim B s)%N -> (0 < dim B d)%N -> (b_conn B o f s = Some d <-> b_rev B o f d = Some s).
Proof. by rewrite !built_pos => h1 h2; rewrite b_conn_some // b_rev_some // inv_tables; split=> -[]. Qed.
Lemma built_op_dims o f s d : b_conn B o f s = Some d -> (0 < dim B s)%N ->
  mr (b_ops B o f s) = dim B d /\ mc (b_ops B o f s) = dim B s.
Proof.
rewrite built_pos => /(b_conn_some cj big inner conn rev ops dims) [hc hd] hs; have [d1 d2] := ops_dims hc.
by have [h1 h2 _] := C30_operator cj rev dims hc hs hd d1 d2; rewrite !built_dim h1 h2.
Qed.
Lemma built_dst o f s d : b_conn B o f s = Some d -> (0 < dim B d)%N.
Proof. by move=> /(b_conn_some cj big inner conn rev ops dims) [_ hd]; rewrite built_pos. Qed.
Lemma built_src o f s d : b_rev B o f d = Some s -> (0 < dim B s)%N.
Proof. by move=> /(b_rev_some cj big inner conn rev ops dims) [_ hd]; rewrite built_pos. Qed.
Lemma expf0 : expf 0 = 1.
Proof. by apply: (mulIf (lt0r_neq0 (exp_pos 0))); rewrite mul1r -expD addr0. Qed.
Lemma tick0 : tick 0%coqZ = 0.
Proof. by apply: (addIr (tick 0%coqZ)); rewrite add0r -tickD. Qed.

(** C46, C22, C30. With the cutoffs 0 and without the exp(-60) test the bras and kets of the restricted basis provide
    everything the sliding window needs ([braket_ok]): operators and propagation may be moved between bra and ket,
    propagations compose, normalization changes no product. *)
Theorem C46_contract : let B' := B in
  braket_ok (@ket_inv _ _ B') (@bra_inv _ _ B') (Ket (wf_ket_nil B')) (Bra (wf_bra_nil B'))
  (ket_apply built_op_dims) (bra_apply built_inverse built_op_dims built_src)
  (ket_prop tick exp_pos) (bra_prop tick exp_pos) (@ket_norm _ _ B') (@bra_norm _ _ B')
  (fun k : ket B' => sec_of k) (fun b : bra B' => sec_of b) (@bk_product _ _ B').
Proof. by apply: contract => //; [exact: expf0|exact: tick0|exact: built_dst]. Qed.
End Built.
Print Assumptions C46_contract.

(** ** A concrete case: two sectors with energies 0, 3 and 1; the inner cutoff 2 removes the state with energy 3. The
    creation operator leads from sector 0 to sector 1. *)
Definition ex_evals : seq (seq int) := [:: [:: 0; 3%:Z]; [:: 1]].
Definition ex_one (n : nat) : mat rat_numFieldType := Mat n n (fun i j => if i == j then 1 else 0).
Definition ex_evecs : seq (mat rat_numFieldType) := [:: ex_one 2; ex_one 1].
Definition ex_conn : conn_t := fun o _ s => match o, s with CREATION_OP, 0%N => Some 1%N | ANNIHILATION_OP, 1%N => Some 0%N | _, _ => None end.
Definition ex_rev : conn_t := fun o _ s => match o, s with CREATION_OP, 1%N => Some 0%N | ANNIHILATION_OP, 0%N => Some 1%N | _, _ => None end.
Definition ex_ops (o : optype) (_ s : nat) : mat rat_numFieldType :=
  match o with
  | CREATION_OP => Mat 1 2 (fun _ j => if j == 0%N then 3%:Q else 5%:Q)
  | ANNIHILATION_OP => Mat 2 1 (fun i _ => if i == 0%N then 3%:Q else 5%:Q)
  end.
Definition ex_exp (z : int) : rat := 2%:Q ^ z.
Definition ex_basis := build_basis (K := rat_numFieldType) id 100%:Z 2%:Z ex_evals ex_evecs ex_conn ex_rev ex_ops.
Lemma ex_expD (x y : int) : ex_exp (x + y) = ex_exp x * ex_exp y.
Proof. by rewrite /ex_exp expfzDr. Qed.
Lemma ex_exp_pos (x : int) : 0 < ex_exp x.
Proof. by rewrite /ex_exp exprz_gt0. Qed.
Lemma ex_tickD (s t : Z) : int_of_Z (s + t)%coqZ = int_of_Z s + int_of_Z t.
Proof. lia. Qed.
Lemma ex_dims s : mc (nth (mat0 rat_numFieldType) ex_evecs s) = size (nth [::] ex_evals s).
Proof. by case: s => [|[|s]] //=; rewrite !nth_nil. Qed.
Lemma ex_inv o (f : nat) s d : ex_conn o f s = Some d <-> ex_rev o f d = Some s.
Proof. by case: o; case: s => [|[|s]]; case: d => [|[|d]]. Qed.
Lemma ex_ops_dims o f s d : ex_conn o f s = Some d ->
  mc (ex_ops o f s) = mr (nth (mat0 rat_numFieldType) ex_evecs s) /\ mr (ex_ops o f s) = mr (nth (mat0 rat_numFieldType) ex_evecs d).
Proof. by case: o; case: s => [|[|s]] //= [<-]. Qed.
Definition C46_contract_instance := C46_contract id 100%:Z 2%:Z (rev := ex_rev) ex_expD ex_exp_pos ex_tickD
  ex_dims ex_inv ex_ops_dims.

(** C30 at this basis: sector 0 keeps one state, the operator is the corresponding entry, propagation by two ticks from
    sector 1 gives 2^(-2); the ket reaching sector 0 with an operator that joins only the removed state would vanish. *)
Example C30_instance :
  [/\ b_evals ex_basis = [:: [:: 0]; [:: 1]],
      mr (b_ops ex_basis CREATION_OP 0 0) = 1%N, mc (b_ops ex_basis CREATION_OP 0 0) = 1%N, me (b_ops ex_basis CREATION_OP 0 0) 0 0 = 3%:Q &
      let k0 := Braket (Some 0%N) (ex_one 1) 1 in
      let k1 := prop_ket ex_exp None int_of_Z ex_basis 2%coqZ (apply_ket 0 ex_basis CREATION_OP 0 k0) in
      product (Braket (Some 1%N) (ex_one 1) 1) k1 = 3%:Q / 4%:Q /\
      product (apply_bra 0 ex_basis CREATION_OP 0 (prop_bra ex_exp None int_of_Z ex_basis 2%coqZ (Braket (Some 1%N) (ex_one 1) 1))) k0 = 3%:Q / 4%:Q].
Proof.
have e1 : b_evals ex_basis = [:: [:: 0]; [:: 1]] by vm_compute.
have m1 : maxabs (ex_one 1) = 1 by vm_compute.
split=> //.
  by rewrite /= !big_ord_recl !big_ord0 /=.
cbv zeta; set b0 := Braket (Some 1%N) _ _; set k0 := Braket (Some 0%N) _ _.
have w0 : wf_ket ex_basis k0 by vm_compute.
have w1 : wf_bra ex_basis b0 by vm_compute.
have D o f s d := @built_op_dims _ _ id 100%:Z 2%:Z _ _ _ ex_rev _ ex_dims ex_ops_dims o f s d.
have I o f s d := @built_inverse _ _ id 100%:Z 2%:Z _ _ _ _ ex_ops ex_dims ex_inv o f s d.
have w2 : wf_ket ex_basis (apply_ket 0 ex_basis CREATION_OP 0 k0) by exact: (wf_aket D).
have e : product b0 (prop_ket ex_exp None int_of_Z ex_basis 2%coqZ (apply_ket 0 ex_basis CREATION_OP 0 k0)) = 3%:Q / 4%:Q.
  rewrite -prop_adjoint //.
  have -> : apply_ket 0 ex_basis CREATION_OP 0 k0 = replaced k0 (mmul (b_ops ex_basis CREATION_OP 0 0) (obj k0)) 1 by [].
  have [_ [-> _]] := @replacedE _ k0 (mmul (b_ops ex_basis CREATION_OP 0 0) (obj k0)) 1 erefl erefl.
  rewrite productE; have -> : fits (prop_bra ex_exp None int_of_Z ex_basis 2%coqZ b0) (Braket (Some 1%N) (mmul (b_ops ex_basis CREATION_OP 0 0) (obj k0)) (coeff k0)) = true by vm_compute.
  rewrite /= !big_ord_recl !big_ord0 /=.
  by vm_compute.
split=> //; rewrite -e (apply_adjoint I D (@built_dst _ _ id 100%:Z 2%:Z _ _ ex_conn ex_rev ex_ops ex_dims)) ?prop_adjoint //.
Qed.

(** C46 with a cutoff 1/10 that zeroes one entry, and the exponential with the test enabled. *)
Example C46_instance :
  let b : braket rat_numFieldType := Braket (Some 0%N) (Mat 1 2 (fun _ j => if j == 0%N then 4%:Q else 1 / 5%:Q)) 3%:Q in
  [/\ maxabs (obj b) = 4%:Q, coeff (normalize (1 / 10%:Q) b) = 12%:Q,
      me (obj (normalize (1 / 10%:Q) b)) 0 0 = 1, me (obj (normalize (1 / 10%:Q) b)) 0 1 = 0 &
      compute_exp_vector_safe ex_exp (Some 60%:Z) 2%:Z [:: 1; 3%:Z; 100%:Z] = (1 / 4%:Q, [:: 1; 1 / 16%:Q; 0])].
Proof. by split; vm_compute. Qed.
