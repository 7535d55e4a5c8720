(** Operator norms of matrices over a field with conjugation, without square roots and without completeness: [bounded M c] says that
    [M] stretches no vector by more than the factor [c]. No code is modelled here; used by T_SpecNorm. *)
From mathcomp Require Import all_ssreflect all_algebra.
From Verif Require Import KField.
Import Order.Theory GRing.Theory Num.Theory.
Set Implicit Arguments.
Unset Strict Implicit.
Unset Printing Implicit Defensive.
Local Open Scope ring_scope.

Section OpNorm.
Variables (K : numFieldType) (cj : {rmorphism K -> K}).
Hypothesis cjE : forall x, x * cj x = `|x| ^+ 2.
Add Field Kf : (kfield_theory K).

Lemma cj_norm x : `|cj x| = `|x|.
Proof.
case: (eqVneq x 0) => [->|nx]; first by rewrite rmorph0.
have : `|x| * `|cj x| = `|x| * `|x| by rewrite -normrM cjE normrX normr_id.
by move/(mulfI _); apply; rewrite normr_eq0.
Qed.
Lemma cjK x : cj (cj x) = x.
Proof.
case: (eqVneq x 0) => [->|nx]; first by rewrite !rmorph0.
have nc : cj x != 0 by rewrite fmorph_eq0.
by apply: (mulfI nc); rewrite cjE cj_norm -cjE mulrC.
Qed.
Lemma cj_ge0 x : 0 <= x -> cj x = x.
Proof.
case: (eqVneq x 0) => [-> _|nx x0]; first by rewrite rmorph0.
by apply: (mulfI nx); rewrite cjE ger0_norm.
Qed.

(** ** Adjoint and scalar product *)
Definition adj m n (M : 'M[K]_(m, n)) : 'M[K]_(n, m) := map_mx cj M^T.
Definition dot n (u v : 'cV[K]_n) : K := (adj u *m v) 0 0.
Definition sq n (u : 'cV[K]_n) : K := dot u u.

Lemma adjM m n p (A : 'M[K]_(m, n)) (B : 'M[K]_(n, p)) : adj (A *m B) = adj B *m adj A.
Proof. by rewrite /adj trmx_mul map_mxM. Qed.
Lemma adjK m n (A : 'M[K]_(m, n)) : adj (adj A) = A.
Proof. by apply/matrixP => i j; rewrite !mxE cjK. Qed.
Lemma adj1 n : adj (1%:M : 'M[K]_n) = 1%:M.
Proof. by apply/matrixP => i j; rewrite !mxE rmorph_nat eq_sym. Qed.
Lemma dotE n (u v : 'cV[K]_n) : dot u v = \sum_i cj (u i 0) * v i 0.
Proof. by rewrite /dot mxE; apply: eq_bigr => i _; rewrite !mxE. Qed.
Lemma sqE n (u : 'cV[K]_n) : sq u = \sum_i `|u i 0| ^+ 2.
Proof. by rewrite /sq dotE; apply: eq_bigr => i _; rewrite mulrC cjE. Qed.
Lemma sq_ge0 n (u : 'cV[K]_n) : 0 <= sq u.
Proof. by rewrite sqE; apply: sumr_ge0 => i _; rewrite exprn_ge0. Qed.
Lemma sq_eq0 n (u : 'cV[K]_n) : (sq u == 0) = (u == 0).
Proof.
apply/eqP/eqP => [|->]; last by rewrite sqE big1 // => i _; rewrite mxE normr0 expr0n.
rewrite sqE => /eqP; rewrite psumr_eq0 => [/allP h|i _]; last by rewrite exprn_ge0.
apply/colP => i; rewrite mxE; have := h i (mem_index_enum i); rewrite expf_eq0 normr_eq0 => /andP[_ /eqP //].
Qed.
Lemma dot_adj m n (A : 'M[K]_(m, n)) u v : dot u (A *m v) = dot (adj A *m u) v.
Proof. by rewrite /dot adjM adjK mulmxA. Qed.
Lemma dot_cj n (u v : 'cV[K]_n) : cj (dot u v) = dot v u.
Proof. by rewrite !dotE rmorph_sum; apply: eq_bigr => i _; rewrite rmorphM cjK mulrC. Qed.
Lemma dotDr n (u v w : 'cV[K]_n) : dot u (v + w) = dot u v + dot u w.
Proof. by rewrite /dot mulmxDr mxE. Qed.
Lemma dotZr n (u v : 'cV[K]_n) a : dot u (a *: v) = a * dot u v.
Proof. by rewrite /dot -scalemxAr mxE. Qed.
Lemma dotNr n (u v : 'cV[K]_n) : dot u (- v) = - dot u v.
Proof. by rewrite /dot mulmxN mxE. Qed.
Lemma dot0r n (u : 'cV[K]_n) : dot u 0 = 0.
Proof. by rewrite /dot mulmx0 mxE. Qed.
Lemma dot_sumr n (u : 'cV[K]_n) (I : Type) (s : seq I) (F : I -> 'cV[K]_n) : dot u (\sum_(i <- s) F i) = \sum_(i <- s) dot u (F i).
Proof. by elim: s => [|i s IH]; rewrite ?big_nil ?dot0r // !big_cons dotDr IH. Qed.
Lemma dotDl n (u v w : 'cV[K]_n) : dot (u + v) w = dot u w + dot v w.
Proof. by rewrite -dot_cj dotDr rmorphD !dot_cj. Qed.
Lemma dotZl n (u v : 'cV[K]_n) a : dot (a *: u) v = cj a * dot u v.
Proof. by rewrite -dot_cj dotZr rmorphM dot_cj. Qed.
Lemma sqZ n (u : 'cV[K]_n) a : sq (a *: u) = `|a| ^+ 2 * sq u.
Proof. by rewrite /sq dotZl dotZr mulrA [cj a * a]mulrC cjE. Qed.

Lemma cauchy n (u v : 'cV[K]_n) : `|dot u v| ^+ 2 <= sq u * sq v.
Proof.
case: (eqVneq u 0) => [->|nu]; first by rewrite -dot_cj dot0r rmorph0 normr0 expr0n mulr_ge0 ?sq_ge0.
have a0 : 0 < sq u by rewrite lt_neqAle eq_sym sq_eq0 nu sq_ge0.
have := sq_ge0 (sq u *: v - dot u v *: u).
have -> : sq (sq u *: v - dot u v *: u) = sq u * (sq u * sq v - `|dot u v| ^+ 2).
  rewrite -cjE dot_cj {1}/sq -[- (_ *: u)]scaleNr !dotDl !dotDr !dotZl !dotZr !rmorphN !dot_cj -/(sq u) -/(sq v).
  by kring K.
by rewrite pmulr_rge0 // subr_ge0.
Qed.

(** ** Bounds *)
Definition bounded m n (M : 'M[K]_(m, n)) (c : K) : Prop := 0 <= c /\ forall v : 'cV[K]_n, sq (M *m v) <= c ^+ 2 * sq v.

Lemma le_of_sq (x y : K) : 0 <= x -> 0 <= y -> x ^+ 2 <= y ^+ 2 -> x <= y.
Proof. by move=> x0 y0; rewrite ler_pexpn2r. Qed.
Lemma bounded_mul m n p (A : 'M[K]_(m, n)) (B : 'M[K]_(n, p)) a b : bounded A a -> bounded B b -> bounded (A *m B) (a * b).
Proof.
move=> [a0 ha] [b0 hb]; split; first exact: mulr_ge0.
move=> v; rewrite -mulmxA; apply: le_trans (ha _) _; rewrite exprMn -[X in _ <= X]mulrA.
apply: ler_wpmul2l; [exact: exprn_ge0|exact: hb].
Qed.
Lemma bounded_adj m n (A : 'M[K]_(m, n)) a : bounded A a -> bounded (adj A) a.
Proof.
move=> [a0 ha]; split=> // w; set v := adj A *m w.
case: (eqVneq (sq v) 0) => [->|nv]; first by rewrite mulr_ge0 ?exprn_ge0 ?sq_ge0.
have v0 : 0 < sq v by rewrite lt_neqAle eq_sym nv sq_ge0.
rewrite -(ler_pmul2l v0).
have e : sq v = dot w (A *m v) by rewrite dot_adj.
have : sq v * sq v <= sq w * sq (A *m v).
  have := cauchy w (A *m v); rewrite -e => h; apply: le_trans h; by rewrite ger0_norm ?sq_ge0 ?expr2.
move=> h; apply: le_trans h _; apply: le_trans (ler_wpmul2l (sq_ge0 w) (ha v)) _.
by rewrite (_ : sq w * _ = sq v * (a ^+ 2 * sq w)) //; kring K.
Qed.
Lemma bounded_quad n (M : 'M[K]_n) c (u : 'cV[K]_n) : bounded M c -> `|dot u (M *m u)| <= c * sq u.
Proof.
move=> [c0 h]; apply: le_of_sq; rewrite ?normr_ge0 ?mulr_ge0 ?sq_ge0 //.
apply: le_trans (cauchy _ _) _; rewrite exprMn [sq u ^+ 2]expr2 mulrCA ler_wpmul2l ?sq_ge0 //.
Qed.
Lemma bounded_scale m n (M : 'M[K]_(m, n)) c a : bounded M c -> bounded (a *: M) (`|a| * c).
Proof.
move=> [c0 h]; split=> [|v]; first by rewrite mulr_ge0.
by rewrite -scalemxAl sqZ exprMn -[X in _ <= X]mulrA; apply: ler_wpmul2l; [exact: exprn_ge0|exact: h].
Qed.
Lemma bounded_diag m n (d : 'rV[K]_m) (M : 'M[K]_(m, n)) c a : 0 <= a -> (forall i, `|d 0 i| <= a) -> bounded M c -> bounded (diag_mx d *m M) (a * c).
Proof.
move=> a0 hd; apply: bounded_mul; split=> // v; rewrite !sqE mulr_sumr; apply: ler_sum => i _.
by rewrite mul_diag_mx !mxE normrM exprMn ler_wpmul2r ?exprn_ge0 // ler_pexpn2r.
Qed.

(** ** Orthogonal vectors (Gram-Schmidt without normalization) *)
Definition proj n (s : seq 'cV[K]_n) (x : 'cV[K]_n) : 'cV[K]_n := \sum_(q <- s) (dot q x / sq q) *: q.
Fixpoint orth n (s : seq 'cV[K]_n) : Prop :=
  if s is q :: r then [/\ q != 0, forall p, p \in r -> dot q p = 0 & orth r] else True.

Lemma projD n s (x y : 'cV[K]_n) : proj s (x + y) = proj s x + proj s y.
Proof. by rewrite /proj -big_split; apply: eq_bigr => q _ /=; rewrite dotDr mulrDl scalerDl. Qed.
Lemma projZ n s a (x : 'cV[K]_n) : proj s (a *: x) = a *: proj s x.
Proof. by rewrite /proj scaler_sumr; apply: eq_bigr => q _; rewrite dotZr scalerA mulrA. Qed.
Lemma proj_sum n s (I : finType) (F : I -> 'cV[K]_n) : proj s (\sum_i F i) = \sum_i proj s (F i).
Proof.
apply: (big_morph (proj s)); first by move=> *; rewrite projD.
by rewrite /proj big1 // => q _; rewrite dot0r mul0r scale0r.
Qed.
Lemma dot_proj n s (x p : 'cV[K]_n) : orth s -> p \in s -> dot p (proj s x) = dot p x.
Proof.
rewrite /proj; elim: s => // q s IH [nq h1 h2]; rewrite inE big_cons dotDr dotZr => /orP[/eqP ->|hp].
  rewrite -/(sq q) divfK ?sq_eq0 // dot_sumr big_seq big1 ?addr0 // => r hr.
  by rewrite dotZr h1 ?mulr0.
by rewrite -[dot p q]dot_cj (h1 p hp) rmorph0 mulr0 add0r IH.
Qed.
Lemma schmidt n (g : seq 'cV[K]_n) : exists s, [/\ orth s, (size s <= size g)%N & forall x, x \in g -> proj s x = x].
Proof.
elim: g => [|c g [s [os zs hs]]]; first by exists [::].
set d := c - proj s c.
have od p : p \in s -> dot p d = 0 by move=> hp; rewrite dotDr dotNr dot_proj // subrr.
have od' p : p \in s -> dot d p = 0 by move=> hp; rewrite -dot_cj od // rmorph0.
have cE : c = d + proj s c by rewrite subrK.
case: (eqVneq d 0) => [d0|nd].
  exists s; split=> //; first exact: leqW.
  by move=> x; rewrite inE => /orP[/eqP ->|/hs //]; rewrite {2}cE d0 add0r.
have pd x : dot d (proj s x) = 0.
  by rewrite dot_sumr big_seq big1 // => q hq; rewrite dotZr od' ?mulr0.
exists (d :: s); split=> //= x; rewrite /proj big_cons -/(proj s x) inE => /orP[/eqP ->|hx].
  by rewrite {1}cE dotDr pd addr0 -/(sq d) divff ?sq_eq0 // scale1r -cE.
by rewrite -{1}(hs x hx) pd mul0r scale0r add0r hs.
Qed.

(** ** The trace of a product is bounded by norms and rank *)
Theorem trace_rank m n (B : 'M[K]_(m, n)) (M : 'M[K]_(n, m)) b k : bounded B b -> bounded M k ->
  `|\tr (B *m M)| <= b * k * (\rank M)%:R.
Proof.
move=> hb hk; pose C := col_base M; pose Rr := row_base M.
have [s [os zs hs]] := schmidt [seq col j C | j <- enum 'I_(\rank M)].
rewrite size_map size_enum_ord in zs.
have pM : M = \sum_(q <- s) (sq q)^-1 *: (q *m (adj q *m M)).
  have pc : C = \sum_(q <- s) (sq q)^-1 *: (q *m (adj q *m C)).
    apply/matrixP => i j; have := hs (col j C) (map_f _ (mem_enum _ j)) => /colP/(_ i); rewrite [col j C i 0]mxE => <-.
    rewrite /proj !summxE; apply: eq_bigr => q _; have -> : dot q (col j C) = (adj q *m C) 0 j by rewrite /dot colE mulmxA -colE mxE.
    rewrite mxE [RHS]mxE [(q *m _) i j]mxE big_ord1; move: (_ 0 j) (_ i 0) (_^-1) => x y z; kring K.
  rewrite -[LHS](mulmx_base M) -/C {1}pc mulmx_suml; apply: eq_bigr => q _.
  by rewrite -scalemxAl -[q *m _ *m _]mulmxA -[adj q *m C *m _]mulmxA /C (mulmx_base M).
rewrite {1}pM mulmx_sumr raddf_sum; apply: le_trans (ler_norm_sum _ _ _) _.
have step q : q \in s -> `|\tr (B *m ((sq q)^-1 *: (q *m (adj q *m M))))| <= b * k.
  move=> hq; have q0 : 0 < sq q.
    rewrite lt_neqAle eq_sym sq_ge0 andbT sq_eq0; elim: (s) os hq => // x r IH [nx _ /IH h]; rewrite inE => /orP[/eqP ->|] //.
  rewrite -scalemxAr mxtraceZ normrM normfV ger0_norm ?sq_ge0 //.
  rewrite [B *m (q *m _)]mulmxA mxtrace_mulC -[adj q *m M *m _]mulmxA [M *m (B *m q)]mulmxA {1}/mxtrace big_ord1 -/(dot q (M *m B *m q)).
  rewrite ler_pdivr_mull // mulrC; rewrite [b * k]mulrC; apply: bounded_quad; exact: bounded_mul.
rewrite big_seq; apply: le_trans (ler_sum _ step) _; rewrite -big_seq big_const_seq count_predT iter_addr_0 -[_ *+ _]mulr_natr.
have [b0 _] := hb; have [k0 _] := hk; by rewrite ler_wpmul2l ?mulr_ge0 // ler_nat.
Qed.
End OpNorm.
