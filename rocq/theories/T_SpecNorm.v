(** * C65: the bounds of the lazily evaluated trace hold for the bras and kets of the eigenbasis *)
From Coq Require Import ZArith.
From mathcomp Require Import all_ssreflect all_algebra zify ssrZ.
From Verif Require Import OpContainer EigenBasis T_EigenBasis Window T_Window T_WindowTrace LazyTrace T_LazyTrace T_Braket OpNorm SpecNorm.
Import Order.Theory GRing.Theory Num.Theory.
Set Implicit Arguments.
Unset Strict Implicit.
Unset Printing Implicit Defensive.
Local Close Scope Z_scope.
Local Open Scope nat_scope.
Local Open Scope ring_scope.
Delimit Scope Z_scope with coqZ.

(** ** Specification: the operator norm of a matrix is the smallest factor by which it stretches vectors *)
Section Spec.
Variables (K : numFieldType) (cj : {rmorphism K -> K}).
Definition opnorm m n (M : 'M[K]_(m, n)) (c : K) : Prop := bounded cj M c /\ forall c', bounded cj M c' -> c <= c'.
(** The elements of a matrix of the program *)
Definition tomx (m n : nat) (a : mat K) : 'M[K]_(m, n) := \matrix_(i, j) me a i j.
(** SelfAdjointEigenSolver: a unitary matrix diagonalizes the argument *)
Definition eig_ok (h : mat K) (ev : seq K) : Prop := size ev = mr h /\
  exists U : 'M[K]_(mr h), adj cj U *m U = 1%:M /\ tomx (mr h) (mr h) h = U *m diag_mx (\row_i nth 0 ev i) *m adj cj U.
Definition esolv_ok (esolv : mat K -> seq K) : Prop :=
  forall h : mat K, mr h = mc h -> adj cj (tomx (mr h) (mr h) h) = tomx (mr h) (mr h) h -> eig_ok h (esolv h).
Definition sqrt_ok (sqrtf : K -> K) : Prop := forall x, 0 <= x -> 0 <= sqrtf x /\ sqrtf x ^+ 2 = x.
End Spec.

Section Norm.
Variables (K : numFieldType) (cj : {rmorphism K -> K}).
Hypothesis cjE : forall x, x * cj x = `|x| ^+ 2.
Notation opnorm := (opnorm cj).
Notation bounded := (bounded cj).
Notation adj := (adj cj).
Notation sq := (sq cj).
Notation dot := (dot cj).

Lemma opnorm_adj m n (M : 'M[K]_(m, n)) c : opnorm (adj M) c -> opnorm M c.
Proof.
move=> [h1 h2]; split; first by rewrite -[M](adjK cjE); apply: bounded_adj.
by move=> c' h; apply: h2; apply: bounded_adj.
Qed.
Lemma opnorm_scale m n (M : 'M[K]_(m, n)) c a : a != 0 -> opnorm M c -> opnorm (a *: M) (`|a| * c).
Proof.
move=> na [h1 h2]; split; first exact: bounded_scale.
move=> c' h; have p : 0 < `|a| by rewrite normr_gt0.
rewrite mulrC -ler_pdivl_mulr // mulrC; apply: h2.
by have := bounded_scale cjE a^-1 h; rewrite scalerA mulVf // scale1r normfV.
Qed.
Lemma opnorm0 m n : opnorm (0 : 'M[K]_(m, n)) 0.
Proof.
split; last by move=> c' [].
by split=> // v; rewrite mul0mx expr0n mul0r; have /eqP -> : sq (0 : 'cV[K]_m) == 0 by rewrite (sq_eq0 cjE).
Qed.
Lemma opnorm_uniq m n (M : 'M[K]_(m, n)) c c' : opnorm M c -> opnorm M c' -> c = c'.
Proof. by move=> [h1 h2] [h3 h4]; apply/eqP; rewrite eq_le h2 // h4. Qed.

Lemma vmaxabs_ok (v : seq K) : [/\ 0 <= vmaxabs v, forall x, x \in v -> `|x| <= vmaxabs v & vmaxabs v = 0 \/ exists2 x, x \in v & vmaxabs v = `|x|].
Proof. by have [h1 h2 h3] := @maxfold_ge K v 0 (lexx 0). Qed.

(** the largest eigenvalue of A^* A is the square of the norm of A *)
Lemma gram_norm m n (A : 'M[K]_(m, n)) (U : 'M[K]_n) (ev : seq K) s : size ev = n -> adj U *m U = 1%:M ->
  adj A *m A = U *m diag_mx (\row_i nth 0 ev i) *m adj U -> 0 <= s -> s ^+ 2 = vmaxabs ev -> opnorm A s.
Proof.
move=> sz uu e s0 s2; have uu' : U *m adj U = 1%:M by exact: mulmx1C.
have sqA v : sq (A *m v) = \sum_(i < n) nth 0 ev i * `|(adj U *m v) i 0| ^+ 2.
  have -> : sq (A *m v) = dot (adj U *m v) (diag_mx (\row_i nth 0 ev i) *m (adj U *m v)).
    by rewrite /OpNorm.sq /OpNorm.dot !adjM (adjK cjE) -!mulmxA [adj A *m (A *m v)]mulmxA e !mulmxA.
  rewrite dotE; apply: eq_bigr => i _; rewrite mul_diag_mx !mxE mulrCA [cj _ * _]mulrC cjE //.
have isoU v : sq (adj U *m v) = sq v.
  by rewrite /OpNorm.sq /OpNorm.dot adjM (adjK cjE) -mulmxA [U *m (adj U *m v)]mulmxA uu' mul1mx.
have [m0 m1 m2] := vmaxabs_ok ev.
(* the i-th eigenvector *)
have eigv (i : 'I_n) : sq (A *m col i U) = nth 0 ev i /\ sq (col i U) = 1.
  have ui : adj U *m col i U = delta_mx i 0 by rewrite colE mulmxA uu mul1mx.
  have d1 : sq (delta_mx i 0 : 'cV[K]_n) = 1.
    rewrite (sqE cjE) (bigD1 i) //= mxE !eqxx normr1 expr1n big1 ?addr0 // => j ji.
    by rewrite mxE (negbTE ji) normr0 expr0n.
  split; last by rewrite -isoU ui.
  rewrite sqA ui (bigD1 i) //= mxE !eqxx normr1 expr1n mulr1 big1 ?addr0 // => j ji.
  by rewrite mxE (negbTE ji) normr0 expr0n mulr0.
have ev0 (i : 'I_n) : 0 <= nth 0 ev i by have [<- _] := eigv i; exact: sq_ge0.
split.
  split=> // v; rewrite sqA s2 -isoU (sqE cjE) mulr_sumr; apply: ler_sum => i _.
  apply: ler_wpmul2r; first exact: exprn_ge0.
  by apply: le_trans (m1 _ (mem_nth 0 _)); rewrite ?sz // ger0_norm.
move=> c [c0 hc]; apply: le_of_sq => //; rewrite s2.
case: m2 => [->|[x hx ->]]; first exact: exprn_ge0.
have hi : (index x ev < n)%N by rewrite -sz index_mem.
have [e1 e2] := eigv (Ordinal hi); rewrite /= nth_index // in e1.
have x0 : 0 <= x by rewrite -e1; exact: sq_ge0.
by rewrite ger0_norm // -e1; apply: le_trans (hc _) _; rewrite e2 mulr1.
Qed.

(** The function computes the operator norm. *)
Variables (esolv : mat K -> seq K) (sqrtf : K -> K) (tiny : K).
Hypothesis esolvP : esolv_ok cj esolv.
Hypothesis sqrtP : sqrt_ok sqrtf.

Lemma tomx_mul m n p (a b : mat K) : mc a = n -> tomx m p (mmul a b) = tomx m n a *m tomx n p b.
Proof. by move=> <-; apply/matrixP => i j; rewrite !mxE; apply: eq_bigr => k _; rewrite !mxE. Qed.
Lemma tomx_adj m n (a : mat K) : tomx n m (madj cj a) = adj (tomx m n a).
Proof. by apply/matrixP => i j; rewrite !mxE. Qed.
Lemma tomx_chop m n (a : mat K) : tomx m n (chop 0 a) = tomx m n a.
Proof. by apply/matrixP => i j; rewrite !mxE /= normr_lt0. Qed.
Lemma tomx_scale m n x (a : mat K) : tomx m n (mscale x a) = x *: tomx m n a.
Proof. by apply/matrixP => i j; rewrite !mxE mulrC. Qed.

Theorem C65_spectral_norm (m : mat K) : 0 < tiny -> tiny <= maxabs m -> opnorm (tomx (mr m) (mc m) m) (spectral_norm_diag cj esolv sqrtf 0 tiny m).
Proof.
move=> t0 ht; have M0 : 0 < maxabs m by exact: lt_le_trans ht.
rewrite /spectral_norm_diag; case: eqP => [z|/eqP nr] /=.
  by exfalso; move: M0; rewrite /maxabs /entries z; elim: (iota 0 (mc m)) => /= [|_ l]; rewrite ?ltxx.
case: eqP => [z|/eqP nc] /=; first by exfalso; move: M0; rewrite /maxabs /entries z /= ltxx.
rewrite ger0_norm ?(ltW M0) // (le_gtF ht).
set h := chop 0 _; set a := 1 / maxabs m.
have a0 : 0 < a by rewrite /a div1r invr_gt0.
have na : a != 0 by rewrite gt_eqF.
set A := tomx (mr m) (mc m) m.
suff : opnorm (a *: A) (sqrtf (vmaxabs (esolv h))).
  move/(opnorm_scale (a := a^-1)); rewrite invr_eq0 => /(_ na); rewrite scalerA mulVf // scale1r normfV ger0_norm ?ltW //.
  by rewrite mulrC.
have [p0 _ _] := vmaxabs_ok (esolv h); have [q0 q2] := sqrtP p0.
have tA : tomx (mr m) (mc m) (chop 0 (mscale a m)) = a *: A by rewrite tomx_chop tomx_scale.
clear p0; move: @h q0 q2; case: ifP => hc h q0 q2.
  have eh : tomx (mc m) (mc m) h = adj (a *: A) *m (a *: A).
    by rewrite /h tomx_chop (tomx_mul _ _ _ (n := mr m)) // tomx_adj tA.
  have [||sz [U [uu e]]] := esolvP (h := h) => //; first by rewrite eh adjM (adjK cjE).
  by rewrite eh in e; exact: (gram_norm sz uu e q0 q2).
apply: opnorm_adj.
have eh : tomx (mr m) (mr m) h = (a *: A) *m adj (a *: A).
  by rewrite /h tomx_chop (tomx_mul _ _ _ (n := mc m)) // tomx_adj tA.
have [||sz [U [uu e]]] := esolvP (h := h) => //; first by rewrite eh adjM (adjK cjE).
by rewrite eh -{1}[a *: A](adjK cjE) in e; exact: (gram_norm sz uu e q0 q2).
Qed.
End Norm.
Print Assumptions C65_spectral_norm.

(** ** The contract of the bounds *)
Section Bound.
Variables (E : realDomainType) (K : numFieldType) (cj : {rmorphism K -> K}) (expf : E -> K) (tick : Z -> E) (B : basis E K).
Hypothesis cjE : forall x, x * cj x = `|x| ^+ 2.
Hypothesis expD : forall x y, expf (x + y) = expf x * expf y.
Hypothesis exp_pos : forall x, 0 < expf x.
Hypothesis exp_mono : forall x y, x <= y -> expf x <= expf y.
Hypothesis tick_ge0 : forall t, (0 <= t)%coqZ -> 0 <= tick t.
Hypothesis inverse : forall o f s d, (0 < dim B s)%N -> (0 < dim B d)%N -> (b_conn B o f s = Some d <-> b_rev B o f d = Some s).
Hypothesis op_dims : forall o f s d, b_conn B o f s = Some d -> (0 < dim B s)%N ->
  mr (b_ops B o f s) = dim B d /\ mc (b_ops B o f s) = dim B s.
(** operators do not lengthen vectors *)
Hypothesis op_contract : forall o f s d, b_conn B o f s = Some d -> (0 < dim B s)%N -> bounded cj (tomx (dim B d) (dim B s) (b_ops B o f s)) 1.
Variable emin : nat -> E.
Hypothesis emin_le : forall s e, e \in nth [::] (b_evals B) s -> emin s <= e.
Variables (esolv : mat K -> seq K) (sqrtf : K -> K) (tiny : K).
Hypothesis esolvP : esolv_ok cj esolv.
Hypothesis sqrtP : sqrt_ok sqrtf.
Hypothesis tiny0 : 0 < tiny.
Hypothesis tiny1 : tiny <= 1.
Notation opnorm := (opnorm cj).
Notation bounded := (bounded cj).
Notation csn := (compute_spectral_norm cj esolv sqrtf 0 tiny 0).
Notation norm := (@normalize K 0).
Implicit Types (b k : braket K).

(** the matrix a ket stands for *)
Definition val m n k : 'M[K]_(m, n) := coeff k *: tomx m n (obj k).
Lemma norm_dims k : ~~ invalid (norm k) -> mr (obj (norm k)) = mr (obj k) /\ mc (obj (norm k)) = mc (obj k).
Proof. by case: (norm_cases k) => [[_ -> //]|[_ _ ->] //|[_ _ _ ->]]. Qed.
Lemma val_norm m n k : ~~ invalid (norm k) -> val m n (norm k) = val m n k.
Proof.
case: (norm_cases k) => [[_ -> //]|[_ _ ->] //|[hv ne hp ->] _].
by apply/matrixP => i j; rewrite !mxE /= norm_val // -mulrA [maxabs _ * _]mulrC divfK.
Qed.
Lemma csn_ok k : ~~ invalid k -> 0 < coeff k -> opnorm (val (mr (obj k)) (mc (obj k)) k) (csn k).
Proof.
move=> hv hc; rewrite /compute_spectral_norm.
case: (norm_cases k) => [[h _]|[_ e ->]|[_ ne hp e]]; first by rewrite h in hv.
  rewrite /=; have -> : val (mr (obj k)) (mc (obj k)) k = 0.
    by apply/matrixP => i j; rewrite !mxE (max0_entries e) ?mulr0.
  exact: opnorm0.
have hn : ~~ invalid (norm k) by rewrite e.
have [d1 d2] := norm_dims hn; rewrite (negbTE hn) -(val_norm _ _ hn) /val.
have cp : 0 < coeff (norm k) by rewrite e mulr_gt0.
rewrite -{2}(ger0_norm (ltW cp)); apply: opnorm_scale; rewrite ?gt_eqF //.
rewrite -d1 -d2; apply: C65_spectral_norm => //.
apply: le_trans tiny1 _; have [_ _ [z|[i [j [hi hj ez]]]]] := maxabs_ok (obj k); first by rewrite z eqxx in ne.
rewrite e; have [_ h _] := maxabs_ok (obj (norm k)); rewrite e in h.
apply: (le_trans _ (h i j hi hj)); rewrite [me _ _ _]norm_val //.
by rewrite normf_div -ez ger0_norm ?divff // ltW.
Qed.
Lemma csn_invalid k : invalid k -> csn k = 0.
Proof. by move=> h; rewrite /compute_spectral_norm; case: (norm_cases k) => [[_ ->]|[h' _ _]|[h' _ _ _]]; [rewrite h|rewrite h in h'|rewrite h in h']. Qed.
Lemma csn_ge0 k : invalid k || (0 < coeff k) -> 0 <= csn k.
Proof. by case hv : (invalid k) => /= h; [rewrite csn_invalid|have [[]] := csn_ok (negbT hv) h]. Qed.

Definition rk k : nat := if invalid k then 0%N else \rank (val (mr (obj k)) (mc (obj k)) k).
Lemma rk_min k : (rk k <= min_dim k)%N.
Proof. by rewrite /rk /min_dim; case: ifP => // _; rewrite leq_min rank_leq_row rank_leq_col. Qed.

Lemma replaced_val k m d : ~~ invalid k -> 0 < coeff k -> let k' := replaced k m d in ~~ invalid k' ->
  [/\ sector k' = Some d, mr (obj k') = mr m, mc (obj k') = mc m, 0 < coeff k' & forall r c, val r c k' = coeff k *: tomx r c m].
Proof.
move=> hv hc k' hk.
have [[hi|[h1 h2 h3 h4]] _] := replacedE m d hv hc; first by rewrite /k' hi in hk.
split=> // r c; move: hk; rewrite /k' /replaced; case: ifP => // _.
have [s hs] : exists s, sector k = Some s by move: hv; rewrite /invalid; case: (sector k) => // s _; exists s.
rewrite /swap_obj hs; set b := Braket (Some s) m (coeff k) => hk.
have hn : ~~ invalid (norm b).
  move: hk; case: (norm_cases b) => [[hi ->]|[_ _ ->] //|[hi _ _ ->]]; last by [].
  by move: hi; rewrite /invalid /= => ->.
exact: (val_norm r c hn).
Qed.

Definition dst (o : optype) (f s : nat) : option nat := if s is s'.+1 then omap S (b_conn B o f s') else None.
Definition dims (s : nat) : nat := dim B s.-1.
Definition cexp (s : nat) (t : Z) : K := exp_min expf emin s.-1 (tick t).

Theorem C65_bounds : norm_ok (@ket_inv _ _ B) (ket_apply op_dims) (ket_prop tick exp_pos)
  (fun k : ket B => csn k) (fun b : bra B => csn b) (fun k : ket B => sec_of k) (@bk_product _ _ B)
  (fun k : ket B => min_dim k) dst dims cexp (fun k : ket B => rk k).
Proof.
constructor.
- move=> k; apply: csn_ge0; by have := kwf k; rewrite /wf_ket; case: (invalid k) => //= /andP[].
- move=> k; apply: csn_ge0; by have := bwf k; rewrite /wf_bra; case: (invalid k) => //= /andP[].
- by move=> s t; apply/ltW/exp_pos.
- by move=> k; exact: rk_min.
- move=> o f k hv; rewrite /ket_inv /= in hv *; have [s [hs k1 k2 k3]] := valid_ket hv (kwf k).
  by rewrite /sec_of hs /= aketE (negbTE hv) hs; case: (b_conn B o f s).
- move=> o f k s' hv; rewrite /ket_inv /= in hv *; have [s [hs k1 k2 k3]] := valid_ket hv (kwf k).
  rewrite /sec_of hs /= aketE (negbTE hv) hs; case hc : (b_conn B o f s) => [d|] //= [<-].
  set m := mmul _ _; case iv : (invalid (replaced k m d)); [by left|right].
  have [h1 h2 h3 h4 h5] := replaced_val hv k3 (negbT iv).
  have [o1 o2] := op_dims hc k2.
  have e : val (dim B d) (mc (obj k)) (replaced k m d) = tomx (dim B d) (dim B s) (b_ops B o f s) *m val (dim B s) (mc (obj k)) k.
    by rewrite h5 /m (tomx_mul _ _ _ o2) /val scalemxAr.
  have [b1 l1] := csn_ok (negbT iv) h4; have [b2 l2] := csn_ok hv k3.
  rewrite h2 h3 /= o1 in b1 l1; rewrite k1 in b2 l2; rewrite e in b1 l1.
  have rkE : rk (replaced k m d) = \rank (tomx (dim B d) (dim B s) (b_ops B o f s) *m val (dim B s) (mc (obj k)) k).
    by rewrite /rk iv h2 h3 /= o1 e.
  rewrite rkE /rk (negbTE hv) k1; split.
  + by rewrite h1.
  + by apply: l1; rewrite -[csn k]mul1r; apply: bounded_mul (op_contract hc k2) b2.
  + exact: mxrankM_maxr.
  + exact: rank_leq_row.
- move=> t k t0 hv; rewrite /ket_inv /= in hv *; have [s [hs k1 k2 k3]] := valid_ket hv (kwf k).
  right; have [c [v [ev ek]]] := pketE expf tick B t hv hs.
  have iv : ~~ invalid (prop_ket expf None tick B t k) by rewrite pket_invalid.
  have c0 := c_pos exp_pos ev.
  have e : val (dim B s) (mc (obj k)) (prop_ket expf None tick B t k) =
      diag_mx (\row_i expf (- tick t * nth 0 (nth [::] (b_evals B) s) i)) *m val (dim B s) (mc (obj k)) k.
    rewrite ek; apply/matrixP => i j; rewrite mul_diag_mx !mxE /=.
    have := exp_vector_exact expD (tick t) (ltn_ord i : (i < size (nth [::] (b_evals B) s))%N); rewrite ev => <-.
    by rewrite mulrACA mulrC.
  have cp : 0 < coeff (prop_ket expf None tick B t k) by rewrite ek mulr_gt0.
  have [b1 l1] := csn_ok iv cp; have [b2 l2] := csn_ok hv k3.
  have [d1 d2] : mr (obj (prop_ket expf None tick B t k)) = dim B s /\ mc (obj (prop_ket expf None tick B t k)) = mc (obj k) by rewrite ek.
  rewrite d1 d2 e in b1 l1; rewrite k1 in b2 l2; split.
  + by rewrite /sec_of ek hs.
  + apply: l1; rewrite /sec_of hs /cexp /exp_min /=; apply: bounded_diag b2 => // [|i]; first exact/ltW.
    rewrite mxE (ger0_norm (ltW (exp_pos _))) exp_mono // !mulNr ler_oppl opprK ler_wpmul2l ?tick_ge0 //.
    by apply: emin_le; apply: mem_nth; exact: (ltn_ord i).
  + rewrite /rk (negbTE iv) (negbTE hv) d1 d2 k1 e; exact: mxrankM_maxr.
- move=> b k; rewrite /bk_product productE; case: ifP => [/and5P[hb hk _ /eqP d1 /eqP d2]|_]; last first.
    rewrite normr0 !mulr_ge0 // ?ler0n //; apply: csn_ge0.
      by have := bwf b; rewrite /wf_bra; case: (invalid b) => //= /andP[].
    by have := kwf k; rewrite /wf_ket; case: (invalid k) => //= /andP[].
  have [sb [_ _ _ b3]] := valid_bra hb (bwf b); have [sk [_ _ _ k3]] := valid_ket hk (kwf k).
  have [ob _] := csn_ok hb b3; have [ok _] := csn_ok hk k3.
  rewrite /rk (negbTE hk) -d1 -d2 in ok *.
  have := trace_rank cjE ob ok; congr (`|_| <= _); rewrite /mxtrace mulr_sumr; apply: eq_bigr => i _.
  rewrite mxE mulr_sumr; apply: eq_bigr => j _; rewrite !mxE; by rewrite mulrACA.
Qed.
End Bound.
Print Assumptions C65_bounds.

(** ** Operators of the restricted eigenbasis *)
Section Contraction.
Variables (K : numFieldType) (cj : {rmorphism K -> K}).
Hypothesis cjE : forall x, x * cj x = `|x| ^+ 2.
Notation bounded := (bounded cj).
Notation adj := (adj cj).

Lemma bounded_iso m n (V : 'M[K]_(m, n)) : adj V *m V = 1%:M -> bounded V 1.
Proof.
move=> h; split=> [|v]; first exact: ler01.
by rewrite expr1n mul1r /OpNorm.sq /OpNorm.dot adjM -mulmxA [adj V *m (V *m v)]mulmxA h mul1mx.
Qed.
(** C65, C28. A matrix with A A^* + A^* A = 1 and all its blocks lengthen no vector. *)
Theorem C65_anticommuting n (A : 'M[K]_n) p q (f : 'I_p -> 'I_n) (g : 'I_q -> 'I_n) : A *m adj A + adj A *m A = 1%:M ->
  injective f -> injective g -> bounded (\matrix_(i, j) A (f i) (g j)) 1.
Proof.
move=> h hf hg.
have bA : bounded A 1.
  split=> [|v]; first exact: ler01.
  rewrite expr1n mul1r.
  have -> : sq cj v = sq cj (adj A *m v) + sq cj (A *m v).
    rewrite /OpNorm.sq /OpNorm.dot; have -> : adj v *m v = adj v *m (1%:M *m v) by rewrite mul1mx.
    by rewrite -h mulmxDl mulmxDr mxE !adjM (adjK cjE) !mulmxA.
  by rewrite ler_addr (sq_ge0 cjE).
pose S r (k : 'I_r -> 'I_n) : 'M[K]_(n, r) := \matrix_(i, j) (i == k j)%:R.
have isoS r (k : 'I_r -> 'I_n) : injective k -> bounded (S r k) 1.
  move=> hk; apply: bounded_iso; apply/matrixP => i j; rewrite !mxE (bigD1 (k j)) //= big1 => [|l nl].
    by rewrite !mxE eqxx mulr1 addr0 rmorph_nat (inj_eq hk) eq_sym.
  by rewrite !mxE (negbTE nl) mulr0.
have -> : \matrix_(i, j) A (f i) (g j) = adj (S _ f) *m (A *m S _ g).
  apply/matrixP => i j; rewrite mxE [RHS]mxE (bigD1 (f i)) //= big1 => [|l nl].
    rewrite !mxE eqxx rmorph1 mul1r addr0 (bigD1 (g j)) //= big1 => [|l nl]; first by rewrite !mxE eqxx mulr1 addr0.
    by rewrite !mxE (negbTE nl) mulr0.
  by rewrite !mxE (negbTE nl) rmorph0 mul0r.
rewrite -[1]mulr1; apply: bounded_mul; first by apply: bounded_adj => //; exact: isoS.
by rewrite -[1]mulr1; apply: bounded_mul (isoS _ _ hg).
Qed.
End Contraction.
Print Assumptions C65_anticommuting.

Section Built.
Variables (E : realDomainType) (K : numFieldType) (cj : {rmorphism K -> K}) (big inner : E).
Hypothesis cjE : forall x, x * cj x = `|x| ^+ 2.
Variables (evals : seq (seq E)) (evecs : seq (mat K)) (conn rev : conn_t) (ops : optype -> nat -> nat -> mat K).
Notation B := (build_basis cj big inner evals evecs conn rev ops).
Notation U := (nth (mat0 K) evecs).
Variables (expf : E -> K) (tick : Z -> E).
Hypothesis expD : forall x y, expf (x + y) = expf x * expf y.
Hypothesis exp_pos : forall x, 0 < expf x.
Hypothesis exp_mono : forall x y, x <= y -> expf x <= expf y.
Hypothesis tickD : forall s t, tick (s + t)%coqZ = tick s + tick t.
Hypothesis tick_ge0 : forall t, (0 <= t)%coqZ -> 0 <= tick t.
Hypothesis dims : forall s, mc (U s) = size (nth [::] evals s).
Hypothesis sizes : size evecs = size evals.
Hypothesis inv_tables : forall o f s d, conn o f s = Some d <-> rev o f d = Some s.
Hypothesis ops_dims : forall o f s d, conn o f s = Some d -> mc (ops o f s) = mr (U s) /\ mr (ops o f s) = mr (U d).
(** the eigenvectors of a sector are orthonormal; the operators in the occupation basis lengthen no vector (C65_anticommuting) *)
Hypothesis orthonormal : forall s, adj cj (tomx (mr (U s)) (mc (U s)) (U s)) *m tomx (mr (U s)) (mc (U s)) (U s) = 1%:M.
Hypothesis ops_contract : forall o f s d, conn o f s = Some d -> bounded cj (tomx (mr (U d)) (mr (U s)) (ops o f s)) 1.
Notation keep s := (kept (eigenvalue_min big evals + inner) (nth [::] evals s)).

Lemma keep_lt s l : (l < size (keep s))%N -> (nth 0%N (keep s) l < mc (U s))%N.
Proof. by move=> h; have := mem_nth 0%N h; rewrite mem_filter mem_iota dims => /andP[_]. Qed.
Definition restricted s : 'M[K]_(mr (U s), size (keep s)) := \matrix_(i, l) me (U s) i (nth 0%N (keep s) l).
Lemma restricted_iso s : adj cj (restricted s) *m restricted s = 1%:M.
Proof.
apply/matrixP => i j; have /matrixP/(_ (Ordinal (keep_lt (ltn_ord i))) (Ordinal (keep_lt (ltn_ord j)))) := orthonormal s.
rewrite !mxE -val_eqE /= nth_uniq ?filter_uniq ?iota_uniq // => <-.
by apply: eq_bigr => k _; rewrite !mxE.
Qed.
Lemma built_contract o f s d : b_conn B o f s = Some d -> (0 < dim B s)%N -> bounded cj (tomx (dim B d) (dim B s) (b_ops B o f s)) 1.
Proof.
rewrite built_pos // => /(b_conn_some cj big inner conn rev ops dims) [hc hd] hs; have [d1 d2] := ops_dims hc.
have [h1 h2 h3] := C30_operator cj rev dims hc hs hd d1 d2; rewrite !built_dim //.
have -> : tomx (size (keep d)) (size (keep s)) (b_ops B o f s) = adj cj (restricted d) *m (tomx (mr (U d)) (mr (U s)) (ops o f s) *m restricted s).
  apply/matrixP => i j; rewrite mxE h3 // mulmxA !mxE /= d1; apply: eq_bigr => k _; rewrite !mxE; congr (_ * _).
  by apply: eq_bigr => l _; rewrite !mxE.
rewrite -[1]mulr1; apply: bounded_mul; first by apply: bounded_adj => //; apply: bounded_iso; exact: restricted_iso.
by rewrite -[1]mulr1; apply: bounded_mul; [exact: ops_contract|apply: bounded_iso; exact: restricted_iso].
Qed.

Notation emin := (min_energy big inner evals evecs).
(** C65. min_energy of a sector is the lowest energy in use there *)
Theorem C65_min_energy s : (0 < dim B s)%N ->
  emin s \in nth [::] (b_evals B) s /\ forall e, e \in nth [::] (b_evals B) s -> emin s <= e.
Proof.
rewrite /dim b_evals_nth // -(ev_nth big inner dims) /min_energy /min_eigenval_sector /reference.
set ev := (remove_high_energy_states _ _ _).1 => hs.
have ss : (s < size ev)%N by rewrite ltnNge; apply/negP => h; rewrite (nth_default _ h) in hs.
rewrite (nth_map [::]) //; case: (nth [::] ev s) hs => // x l _.
have [m1 m2] := min_of_ok x l; split=> [|e /mapP[y hy ->]]; first by apply/mapP; exists (min_of x l).
by rewrite ler_sub // m2.
Qed.
Lemma emin_le s e : e \in nth [::] (b_evals B) s -> emin s <= e.
Proof. by move=> h; apply: (C65_min_energy _).2 => //; rewrite /dim; case: (nth _ _ _) h. Qed.

Variables (esolv : mat K -> seq K) (sqrtf : K -> K) (tiny : K).
Hypothesis esolvP : esolv_ok cj esolv.
Hypothesis sqrtP : sqrt_ok sqrtf.
Hypothesis tiny0 : 0 < tiny.
Hypothesis tiny1 : tiny <= 1.
Notation csn := (compute_spectral_norm cj esolv sqrtf 0 tiny 0).
Notation kapply := (@ket_apply _ _ B (built_op_dims dims ops_dims)).
Notation kprop := (ket_prop tick exp_pos).

(** C65, C24. The norms, dimensions and energies of the eigenbasis satisfy what the bounds of the trace need ([norm_ok]). *)
Theorem C65_contract : let B' := B in norm_ok (@ket_inv _ _ B') kapply kprop
  (fun k : ket B' => csn k) (fun b : bra B' => csn b) (fun k : ket B' => sec_of k) (@bk_product _ _ B')
  (fun k : ket B' => min_dim k) (dst B') (T_SpecNorm.dims B') (cexp expf tick emin) (fun k : ket B' => rk k).
Proof. by apply: C65_bounds => //; [exact: built_contract|exact: emin_le]. Qed.

(** C65, C24, C22. Hence the lazily evaluated trace of the configurations reached by the sliding window decides exactly by the trace of
    the whole configuration and returns it. *)
Theorem C65_lazy_trace (outer : seq (bra B * ket B)) (tau : nat -> nat -> Z) (beta : Z) :
  (forall n, (0 < n)%N -> tau n 0%N = 0%coqZ) -> (forall n, (0 < n)%N -> tau n (2 * n)%N = beta) ->
  (forall n p q, (p <= q)%N -> (q <= 2 * n)%N -> (tau n p <= tau n q)%coqZ) ->
  let ft := full_trace outer kapply kprop (@bk_product _ _ B) beta in
  let bounds := trace_bounds (@ket_inv _ _ B) (@bra_inv _ _ B) (fun k : ket B => sec_of k) (fun b : bra B => sec_of b)
     tau (fun k : ket B => min_dim k) (dst B) (T_SpecNorm.dims B) (cexp expf tick emin) in
  let terms := contributions (@ket_inv _ _ B) (@bra_inv _ _ B) kapply kprop (@ket_norm _ _ B) (fun k : ket B => sec_of k) (fun b : bra B => sec_of b)
     (@bk_product _ _ B) tau in
  forall (eps : K) c s order cutoff, 0 <= eps ->
  reach outer (@ket_inv _ _ B) (@bra_inv _ _ B) (Ket (wf_ket_nil B)) (Bra (wf_bra_nil B)) kapply
    (@bra_apply _ _ B (built_inverse dims inv_tables) (built_op_dims dims ops_dims) (built_src dims))
    kprop (bra_prop tick exp_pos) (@ket_norm _ _ B) (@bra_norm _ _ B) (fun k : ket B => csn k) (fun b : bra B => csn b) tau 0 c s ->
  csorted c -> times_in beta c -> descending (bounds c s) order -> no_gap eps (bounds c s) ->
  `|ft c| <= asum (bounds c s) /\
  (lazy_eval_trace eps order (bounds c s) (terms c s) cutoff).1 = (cutoff < `|ft c|) /\
  ((lazy_eval_trace eps order (bounds c s) (terms c s) cutoff).1 -> (lazy_eval_trace eps order (bounds c s) (terms c s) cutoff).2 = ft c).
Proof.
move=> t0 tb tm ft bounds terms eps c s order cutoff he hr hs ht hd hg.
have h := (C24_full_trace (C46_contract _ _ _ expD exp_pos tickD dims inv_tables ops_dims) C65_contract t0 tb tm cutoff he erefl hr hs ht hd hg).
split; first exact h.1.
split; last exact h.2.2.
exact h.2.1.
Qed.
End Built.
Print Assumptions C65_min_energy.
Print Assumptions C65_contract.
Print Assumptions C65_lazy_trace.

(** ** With the cutoff for small elements the value can be too small *)
Section Cut.
Variables (K : numFieldType) (cj : {rmorphism K -> K}).
Hypothesis cjE : forall x, x * cj x = `|x| ^+ 2.
Variables (esolv : mat K -> seq K) (sqrtf : K -> K) (tiny cut15 : K).
Hypothesis esolvP : esolv_ok cj esolv.
Hypothesis sqrtP : sqrt_ok sqrtf.
(** C65. With any positive cutoff (1E-15 in the code) there is a matrix whose computed norm is smaller than its norm: the bounds of
    the trace hold up to such terms only. *)
Theorem C65_cutoff_refuted : tiny <= 1 -> 0 < cut15 -> cut15 <= 1 ->
  exists m : mat K, ~ bounded cj (tomx (mr m) (mc m) m) (spectral_norm_diag cj esolv sqrtf cut15 tiny m).
Proof.
move=> t1 c0 c1; pose d := cut15 / 2%:R.
have d0 : 0 < d by rewrite divr_gt0 // ltr0n.
have dc : d < cut15 by rewrite ltr_pdivr_mulr ?ltr0n // ltr_pmulr // ltr1n.
have d1 : d < 1 by exact: lt_le_trans dc c1.
pose m : mat K := Mat 1 2 (fun _ j => if j == 0%N then 1 else d); exists m.
have mx1 : maxabs m = 1.
  have [h1 h2 h3] := maxabs_ok m; apply/eqP; rewrite eq_le; apply/andP; split.
    case: h3 => [->|[i [j [_ _ ->]]]]; first exact: ler01.
    by rewrite /m /=; case: eqP => _; rewrite ?normr1 // gtr0_norm // ltW.
  by have := h2 0%N 0%N isT isT; rewrite /m /= normr1.
have -> : spectral_norm_diag cj esolv sqrtf cut15 tiny m = 1.
  rewrite /spectral_norm_diag mx1 normr1 (le_gtF t1) /= divr1; set h := chop _ _.
  have h00 : me h 0 0 = 1.
    have e0 : (if `|(1 : K) * 1| < cut15 then 0 else (1 : K) * 1) = 1 by rewrite mulr1 normr1 (le_gtF c1).
    have e1 : (if `|d * 1| < cut15 then 0 else d * 1) = 0 by rewrite mulr1 gtr0_norm // dc.
    by rewrite /h /= !big_ord_recl !big_ord0 /= e0 e1 rmorph1 rmorph0 mulr0 !addr0 mulr1 normr1 (le_gtF c1).
  have hm : tomx 1 1 h = 1%:M by apply/matrixP => i j; rewrite !ord1 mxE h00 mxE eqxx.
  have ha : adj cj (tomx 1 1 h) = tomx 1 1 h by rewrite hm adj1.
  have [sz [U [uu e]]] := esolvP (erefl : mr h = mc h) ha.
  case ev : (esolv h) sz e => [|x [|y l]] // _; rewrite [tomx _ _ _]hm => e.
  have x1 : x = 1.
    have := congr1 (fun M : 'M_1 => (adj cj U *m M *m U) 0 0) e.
    rewrite mulmx1 uu !mulmxA uu mul1mx -mulmxA uu mulmx1 !mxE eqxx /= => h1; by rewrite mulr1n in h1.
  have [s0 s2] := sqrtP (ler01 : 0 <= (1 : K)); have [_ hb hv] := vmaxabs_ok [:: x].
  have -> : vmaxabs [:: x] = 1.
    case: hv => [z|[y]]; last by rewrite mem_seq1 x1 => /eqP -> ->; rewrite normr1.
    by have := hb x (mem_head _ _); rewrite z x1 normr1 ler10.
  by apply/eqP; rewrite divr1; have := eqr_expn2 (isT : (0 < 2)%N) s0 (ler01 : 0 <= (1 : K)); rewrite s2 expr1n eqxx => <-.
move=> [_ /(_ (\col_j (if (j : nat) == 0%N then 1 else d)))].
rewrite expr1n mul1r !(sqE cjE) !big_ord_recl !big_ord0 !mxE !big_ord_recl !big_ord0 !mxE /= !addr0 normr1 !mulr1 expr1n.
have p : 0 < 1 + d ^+ 2 by rewrite addr_gt0 ?ltr01 ?exprn_gt0.
rewrite (gtr0_norm d0) -expr2 (gtr0_norm p).
by rewrite expr2 -[X in _ <= X]mulr1 ler_pmul2l // ger_addl lt_geF // exprn_gt0.
Qed.
End Cut.
Print Assumptions C65_cutoff_refuted.
