(** * C31: fast-update formulas *)
From mathcomp Require Import all_ssreflect all_algebra zify.
From Verif Require Import Dist T_PermSign HybDet EigenBasis T_EigenBasis FastUpdate.
Import Order.Theory GRing.Theory Num.Theory.
Set Implicit Arguments.
Unset Strict Implicit.
Unset Printing Implicit Defensive.
Local Open Scope ring_scope.

(** ** Block matrices over a field *)
Section Schur.
Variables (K : fieldType) (n m : nat).
Implicit Types (A : 'M[K]_n) (B : 'M[K]_(n, m)) (C : 'M[K]_(m, n)) (D : 'M[K]_m).

Lemma right_inverse k (A B : 'M[K]_k) : A *m B = 1%:M -> A \in unitmx /\ B = invmx A.
Proof. by move=> h; have [u _] := mulmx1_unit h; split=> //; rewrite -[B]mul1mx -(mulVmx u) -mulmxA h mulmx1. Qed.
Lemma left_inverse k (A B : 'M[K]_k) : B *m A = 1%:M -> A \in unitmx /\ B = invmx A.
Proof. by move=> h; have [_ u] := mulmx1_unit h; split=> //; rewrite -[B]mulmx1 -(mulmxV u) mulmxA h mul1mx. Qed.

Lemma schur_det A B C D : A \in unitmx -> \det (block_mx A B C D) = \det A * \det (D - C *m invmx A *m B).
Proof.
move=> u; have -> : block_mx A B C D = block_mx 1%:M 0 (C *m invmx A) 1%:M *m block_mx A B 0 (D - C *m invmx A *m B).
  by rewrite mulmx_block !mul1mx !mul0mx !addr0 -mulmxA mulVmx // mulmx1 addrC subrK.
by rewrite det_mulmx det_lblock det_ublock !det1 !mul1r.
Qed.
Lemma schur_inv A B C D : A \in unitmx -> let S := D - C *m invmx A *m B in S \in unitmx ->
  block_mx A B C D \in unitmx /\
  invmx (block_mx A B C D) = block_mx (invmx A + invmx A *m B *m invmx S *m C *m invmx A) (- (invmx A *m B *m invmx S))
    (- (invmx S *m C *m invmx A)) (invmx S).
Proof.
move=> u S uS; set X := block_mx (_ + _) _ _ _.
have h : X *m block_mx A B C D = 1%:M.
  rewrite mulmx_block scalar_mx_block; congr block_mx.
  - rewrite mulmxDl mulVmx // -!mulmxA mulVmx // mulmx1 mulNmx !mulmxA -addrA subrr addr0 //.
  - have e : invmx A *m B *m invmx S *m S = invmx A *m B by rewrite -mulmxA mulVmx // mulmx1.
    rewrite mulmxDl mulNmx -addrA; have -> : invmx A *m B *m invmx S *m C *m invmx A *m B = invmx A *m B *m invmx S *m (C *m invmx A *m B) by rewrite !mulmxA.
    by rewrite -mulmxBr -opprB mulmxN e subrr.
  - by rewrite mulNmx -!mulmxA mulVmx // mulmx1 addNr.
  - by rewrite mulNmx -!mulmxA -mulmxN -mulmxDr addrC mulmxA mulVmx.
by have [h1 h2] := left_inverse h.
Qed.
(** The complementary statement *)
Lemma compl_det A B C D E F G H : block_mx A B C D *m block_mx E F G H = 1%:M ->
  \det (block_mx A B C D) * \det H = \det A.
Proof.
move=> h; have := h; rewrite mulmx_block scalar_mx_block => /eq_block_mx[_ e2 _ e4].
have e : block_mx A B C D *m block_mx 1%:M F 0 H = block_mx A 0 C 1%:M.
  by rewrite mulmx_block !mulmx1 !mulmx0 !addr0 e2 e4.
by have := congr1 determinant e; rewrite det_mulmx det_ublock det_lblock !det1 mul1r mulr1.
Qed.
Lemma compl_inv A B C D E F G H : block_mx A B C D *m block_mx E F G H = 1%:M -> H \in unitmx ->
  A \in unitmx /\ invmx A = E - F *m invmx H *m G.
Proof.
move=> h u; have [_ e] := right_inverse h; have [u2 _] := right_inverse h.
have : block_mx E F G H *m block_mx A B C D = 1%:M by rewrite e mulVmx.
rewrite mulmx_block scalar_mx_block => /eq_block_mx[e1 _ e3 _].
have h2 : (E - F *m invmx H *m G) *m A = 1%:M.
  rewrite mulmxBl -!mulmxA; have -> : G *m A = - (H *m C) by apply/eqP; rewrite -addr_eq0 e3.
  by rewrite !mulmxN opprK !mulmxA -(mulmxA F) mulVmx // mulmx1.
by have [h3 <-] := left_inverse h2.
Qed.
End Schur.

Section Read.
Variable K : numFieldType.
Implicit Types (a b c d : mat K).

Lemma toM_mul n k m a b : mc a = k -> toM n m (mmul a b) = toM n k a *m toM k m b.
Proof. by move=> <-; apply/matrixP => i j; rewrite !mxE; apply: eq_bigr => l _; rewrite !mxE. Qed.
Lemma toM_sub n m a b : toM n m (msub a b) = toM n m a - toM n m b.
Proof. by apply/matrixP => i j; rewrite !mxE. Qed.
Lemma toM_opp n m a : toM n m (mopp a) = - toM n m a.
Proof. by apply/matrixP => i j; rewrite !mxE. Qed.
Lemma toM_scale n m x a : toM n m (mscale x a) = x *: toM n m a.
Proof. by apply/matrixP => i j; rewrite !mxE. Qed.
Lemma toM_ofM n m (A : 'M[K]_(n, m)) : toM n m (ofM A) = A.
Proof. by apply/matrixP => i j; rewrite !mxE /= !valK. Qed.
Lemma toM_ext n m a b : (forall i j, (i < n)%N -> (j < m)%N -> me a i j = me b i j) -> toM n m a = toM n m b.
Proof. by move=> h; apply/matrixP => i j; rewrite !mxE h. Qed.

Lemma maxabs0 n a : mr a = n -> mc a = n -> maxabs a = 0 -> toM n n a = 0.
Proof.
move=> h1 h2 e; apply/matrixP => i j; rewrite !mxE; have [_ h _] := maxabs_ok a.
have := h i j; rewrite h1 h2 e => /(_ (ltn_ord i) (ltn_ord j)) h3.
by apply/eqP; rewrite -normr_eq0 eq_le h3 normr_ge0.
Qed.
(** util.hpp: the scaled determinant and inverse are the determinant and the inverse *)
Lemma safe_detE n a : mr a = n -> mc a = n -> safe_determinant a = \det (toM n n a).
Proof.
move=> h1 h2; rewrite /safe_determinant h1; case: n h1 h2 => [|n] h1 h2; first by rewrite eqxx det_mx00.
case: eqP => // _; case: eqP => [e|/eqP ne]; first by rewrite (maxabs0 h1 h2 e) det0.
by rewrite toM_scale detZ mulrAC -exprMn mulVf // expr1n mul1r.
Qed.
Lemma safe_invE n a : mr a = n -> mc a = n -> toM n n a \in unitmx -> toM n n (safe_inverse a) = invmx (toM n n a).
Proof.
move=> h1 h2 u; rewrite /safe_inverse h1; case: n h1 h2 u => [|n] h1 h2 u; first by rewrite [LHS]flatmx0 [RHS]flatmx0.
have ne : maxabs a != 0 by apply: contraTneq u => /(maxabs0 h1 h2) ->; rewrite unitmxE det0 unitr0.
rewrite toM_scale toM_ofM toM_scale invmxZ ?scalerA ?invrK ?mulVf ?scale1r //.
by rewrite unitmxZ ?unitfE ?invr_eq0.
Qed.
Lemma safe_inv_dim a : mr (safe_inverse a) = mr a /\ mc (safe_inverse a) = mr a.
Proof. by []. Qed.
Lemma rm_safe_detE n a : mr a = n -> mc a = n -> rm_safe_determinant a = \det (toM n n a).
Proof.
move=> h1 h2; rewrite /rm_safe_determinant h1; case: n h1 h2 => [|[|[|n]]] h1 h2; last exact: safe_detE.
- by rewrite det_mx00.
- by rewrite det_mx11 mxE.
- rewrite (expand_det_row _ ord0) !big_ord_recl big_ord0 addr0 /cofactor !det_mx11 !mxE /= !addn0 expr0 mul1r expr1.
  by rewrite mulN1r mulrN.
Qed.

Lemma toM_blocks n m a : toM (n + m) (n + m) a =
  block_mx (toM n n a) (toM n m (mblock 0 n n m a)) (toM m n (mblock n 0 m n a)) (toM m m (mblock n n m m a)).
Proof.
apply/matrixP => i j; rewrite -(splitK i) -(splitK j); case: (split i) => i'; case: (split j) => j' /=;
  by rewrite ?block_mxEul ?block_mxEur ?block_mxEdl ?block_mxEdr !mxE.
Qed.
End Read.

(** ** C31: adding, removing and replacing rows and columns at the end *)
Section Last.
Variable K : numFieldType.
Implicit Types (a b c d e f g h x : mat K).

Lemma four_blocks n m x e f g h :
  (forall i j, (i < n)%N -> (j < n)%N -> me x i j = me e i j) -> (forall i j, (i < n)%N -> (j < m)%N -> me x i (n + j)%N = me f i j) ->
  (forall i j, (i < m)%N -> (j < n)%N -> me x (n + i)%N j = me g i j) -> (forall i j, (i < m)%N -> (j < m)%N -> me x (n + i)%N (n + j)%N = me h i j) ->
  toM (n + m) (n + m) x = block_mx (toM n n e) (toM n m f) (toM m n g) (toM m m h).
Proof. by move=> h1 h2 h3 h4; rewrite toM_blocks; congr block_mx; apply: toM_ext => i j hi hj /=; rewrite ?addn0 ?add0n; auto. Qed.
Lemma set_block_in r cc nr nc b a i j : (r <= i < r + nr)%N -> (cc <= j < cc + nc)%N -> me (set_block r cc nr nc b a) i j = me b (i - r)%N (j - cc)%N.
Proof. by rewrite /= => -> ->. Qed.
Lemma set_block_out r cc nr nc b a i j : ~~ ((r <= i < r + nr)%N && (cc <= j < cc + nc)%N) -> me (set_block r cc nr nc b a) i j = me a i j.
Proof. by rewrite /= => /negbTE ->. Qed.

Lemma sb_in r cc nr nc b a i j : (i < nr)%N -> (j < nc)%N -> me (set_block r cc nr nc b a) (r + i)%N (cc + j)%N = me b i j.
Proof. by move=> hi hj; rewrite set_block_in ?addKn // leq_addr ltn_add2l. Qed.
Lemma sb_in00 nr nc b a i j : (i < nr)%N -> (j < nc)%N -> me (set_block 0 0 nr nc b a) i j = me b i j.
Proof. exact: (@sb_in 0 0). Qed.
Lemma sb_in0 r nr nc b a i j : (i < nr)%N -> (j < nc)%N -> me (set_block r 0 nr nc b a) (r + i)%N j = me b i j.
Proof. exact: (@sb_in r 0). Qed.
Lemma sb_in1 cc nr nc b a i j : (i < nr)%N -> (j < nc)%N -> me (set_block 0 cc nr nc b a) i (cc + j)%N = me b i j.
Proof. exact: (@sb_in 0 cc). Qed.
Lemma sb_above r cc nr nc b a i j : (i < r)%N -> me (set_block r cc nr nc b a) i j = me a i j.
Proof. by move=> h; rewrite set_block_out // [(r <= i)%N]leqNgt h. Qed.
Lemma sb_left r cc nr nc b a i j : (j < cc)%N -> me (set_block r cc nr nc b a) i j = me a i j.
Proof. by move=> h; rewrite set_block_out // [(cc <= j)%N]leqNgt h andbF. Qed.
Lemma sb_below r cc nr nc b a i j : (r + nr <= i)%N -> me (set_block r cc nr nc b a) i j = me a i j.
Proof. by move=> h; rewrite set_block_out // [(i < _)%N]ltnNge h andbF. Qed.
Lemma sb_right r cc nr nc b a i j : (cc + nc <= j)%N -> me (set_block r cc nr nc b a) i j = me a i j.
Proof. by move=> h; rewrite set_block_out // [(j < _)%N]ltnNge h !andbF. Qed.
Lemma block_mx00 m (A : 'M[K]_0) B C (D : 'M[K]_m) : block_mx A B C D = D.
Proof.
apply/matrixP => i j; rewrite -[in LHS](splitK i) -[in LHS](splitK j).
case: splitP => [[]//|i' hi]; case: splitP => [[]//|j' hj] /=; rewrite block_mxEdr; congr (D _ _); exact: val_inj.
Qed.

Lemma block_inv0 n m (A : 'M[K]_n) B C (D : 'M[K]_m) x : n = 0%N -> toM m m x = invmx D ->
  toM (n + m) (n + m) x = invmx (block_mx A B C D).
Proof. by move=> e; subst n => h; rewrite block_mx00. Qed.

(** C31. Adding m rows and columns to an n x n matrix A of which the inverse is stored. *)
Theorem C31_up n m (A : 'M[K]_n) b c d invA : (0 < m)%N ->
  mr invA = n -> mc invA = n -> mr b = n -> mc b = m -> mr c = m -> mc c = n -> mr d = m -> mc d = m ->
  A \in unitmx -> toM n n invA = invmx A ->
  let new := block_mx A (toM n m b) (toM m n c) (toM m m d) in
  compute_det_ratio_up b c d invA = \det new / \det A /\
  (\det new != 0 ->
   let: (r, x) := compute_inverse_matrix_up b c d invA in
   [/\ r = \det new / \det A, mr x = (n + m)%N, mc x = (n + m)%N & toM (n + m) (n + m) x = invmx new]).
Proof.
move=> m0 a1 a2 b1 b2 c1 c2 d1 d2 uA eA new.
have dA : \det A != 0 by rewrite -unitfE -unitmxE.
set S := toM m m d - toM m n c *m invmx A *m toM n m b.
have dnew : \det new = \det A * \det S by rewrite /new schur_det.
have dS : \det new / \det A = \det S by rewrite dnew mulrAC mulfV // mul1r.
have h1 : toM m m (msub d (mmul (mmul c invA) b)) = S.
  by rewrite toM_sub (toM_mul _ _ _ (k := n)) // (toM_mul _ _ _ (k := n)) // eA.
have h2 : safe_determinant (msub d (mmul (mmul c invA) b)) = \det S by rewrite (@safe_detE _ m (msub d _)) // h1.
have n0 : n = 0%N -> S = toM m m d.
  by rewrite /S; move: (toM m n c) (toM n m b) (invmx A); clear => C B A e; subst n; rewrite (thinmx0 C) !mul0mx subr0.
split; first by rewrite /compute_det_ratio_up a1 dS; case: eqP => [/n0 e|_] //; rewrite (safe_detE d1 d2) e.
move=> hn; have nS : \det S != 0 by move: hn; rewrite dnew mulf_eq0 negb_or => /andP[].
have uS : S \in unitmx by rewrite unitmxE unitfE.
have [_ einv] := schur_inv uA uS.
rewrite /compute_inverse_matrix_up a1 d1 dS; case: eqP => [e|_].
  split; [by rewrite (safe_detE d1 d2) (n0 e)|by rewrite e|by rewrite e /= d1|].
  by apply: block_inv0 => //; rewrite (safe_invE d1 d2) // -(n0 e).
set hh := safe_inverse (msub d _).
have hd : mr hh = m /\ mc hh = m by rewrite /hh /= d1.
have eh : toM m m hh = invmx S by rewrite safe_invE // h1.
split=> //.
  by rewrite (safe_detE hd.1 hd.2) eh det_inv div1r invrK.
rewrite /new einv.
set g := mmul (mopp hh) (mmul c invA); set a2' := set_block n 0 m n g _.
have tmpE : toM n n (mmul (mmul invA b) (mblock n 0 m n a2')) = - (invmx A *m toM n m b *m invmx S *m toM m n c *m invmx A).
  rewrite (toM_mul _ _ _ (k := m)) // (toM_mul _ _ _ (k := n)) // eA.
  have -> : toM m n (mblock n 0 m n a2') = toM m n g.
    apply: toM_ext => i j hi hj; by rewrite -[me _ i j]/(me a2' (n + i) (0 + j)) /a2' sb_in.
  by rewrite /g (toM_mul _ _ _ (k := m)) ?toM_opp ?eh ?(toM_mul _ _ _ (k := n)) ?eA ?mulNmx ?mulmxN ?mulmxA //=; apply: hd.2.
have -> : invmx A + invmx A *m toM n m b *m invmx S *m toM m n c *m invmx A = toM n n (msub invA (mmul (mmul invA b) (mblock n 0 m n a2'))).
  by rewrite toM_sub tmpE eA opprK.
have -> : - (invmx A *m toM n m b *m invmx S) = toM n m (mmul (mopp (mmul invA b)) hh).
  by rewrite (toM_mul _ _ _ (k := m)) // toM_opp (toM_mul _ _ _ (k := n)) // eA eh mulNmx.
have -> : - (invmx S *m toM m n c *m invmx A) = toM m n g.
  rewrite /g (toM_mul _ _ _ (k := m)) ?toM_opp ?eh ?(toM_mul _ _ _ (k := n)) ?eA ?mulNmx ?mulmxA //=; exact: hd.2.
rewrite -eh; apply: four_blocks => i j hi hj.
- rewrite sb_above // sb_left // sb_in00 //.
  by rewrite -[me (msub _ _) i j]/(me a2' (0 + i) (0 + j) - _) !add0n /a2' sb_above.
- by rewrite sb_above // sb_in1.
- by rewrite sb_left // sb_left // sb_below ?leq_addr // sb_in0.
- by rewrite sb_in.
Qed.

Lemma mx_dim0 n (A B : 'M[K]_n) : n = 0%N -> A = B.
Proof. by move=> e; subst n; rewrite [LHS]flatmx0 [RHS]flatmx0. Qed.
(** C31. Removing the last m rows and columns. *)
Lemma shrinkE n m A (B : 'M[K]_(n, m)) C D g : let G := block_mx A B C D in
  G \in unitmx -> toM (n + m) (n + m) g = invmx G -> \det A != 0 ->
  mr (shrink n m g) = n /\ mc (shrink n m g) = n /\ toM n n (shrink n m g) = invmx A.
Proof.
move=> G uG eG nA; split=> //; split=> //.
have h : G *m toM (n + m) (n + m) g = 1%:M by rewrite eG mulmxV.
rewrite toM_blocks in h; have hd := compl_det h.
have uH : toM m m (mblock n n m m g) \in unitmx.
  by rewrite unitmxE unitfE; apply: contraNneq nA => e; rewrite -hd e mulr0.
have [_ ->] := compl_inv h uH; rewrite /shrink; case: posnP => n0.
  by move: (toM n n _) (_ - _); rewrite n0 => X Y; rewrite [LHS]flatmx0 [RHS]flatmx0.
set z := msub _ _.
have -> : toM n n (conservative_resize n n (set_block 0 0 n n z g)) = toM n n z.
  by apply: toM_ext => i j hi hj; rewrite [me _ _ _](sb_in00 _ _).
rewrite toM_sub (toM_mul _ _ _ (k := m)) // (toM_mul _ _ _ (k := m)) // safe_invE //.
Qed.
Theorem C31_down_last n m A (B : 'M[K]_(n, m)) C D g : let G := block_mx A B C D in
  (0 < m)%N -> mr g = (n + m)%N -> mc g = (n + m)%N -> G \in unitmx -> toM (n + m) (n + m) g = invmx G ->
  compute_det_ratio_down_last m g = \det A / \det G /\
  (\det A != 0 -> exists2 x, compute_inverse_matrix_down_last m g = Some x &
     [/\ mr x = n, mc x = n & toM n n x = invmx A]).
Proof.
move=> G m0 g1 g2 uG eG; have h : G *m toM (n + m) (n + m) g = 1%:M by rewrite eG mulmxV.
have dG : \det G != 0 by rewrite -unitfE -unitmxE.
rewrite toM_blocks in h; have hd := compl_det h.
split.
  rewrite /compute_det_ratio_down_last g1 addnK (@safe_detE _ m) // -hd -/G mulrAC mulfV // mul1r.
  by congr (\det _); apply: toM_ext.
move=> nA; rewrite /compute_inverse_matrix_down_last g1 ltnNge leq_addl /= ifF ?addnK; last by lia.
by have [h1 [h2 h3]] := shrinkE uG eG nA; eexists.
Qed.

(** C31. Replacing the last m_old rows and columns by m new ones. The result is exact if the part that stays is not
    singular on its own. *)
Theorem C31_replace n mo m (P : 'M[K]_n) Q0 R0 (S0 : 'M[K]_mo) q r s g junk :
  let G := block_mx P Q0 R0 S0 in
  mr g = (n + mo)%N -> mc g = (n + mo)%N -> mr q = n -> mc q = m -> mr r = m -> mc r = n -> mr s = m -> mc s = m ->
  G \in unitmx -> toM (n + mo) (n + mo) g = invmx G -> \det P != 0 ->
  let new := block_mx P (toM n m q) (toM m n r) (toM m m s) in
  let: (ratio, helper) := replace_det_ratio g q r s in
  ratio = \det new / \det G /\
  (\det new != 0 -> exists x, (helper = None -> n = 0%N) /\ x = replace_inverse junk (odflt (mat0 K, mat0 K) helper) q r s /\
     [/\ mr x = (n + m)%N, mc x = (n + m)%N & toM (n + m) (n + m) x = invmx new]).
Proof.
move=> G g1 g2 q1 q2 r1 r2 s1 s2 uG eG nP new.
have h : G *m toM (n + mo) (n + mo) g = 1%:M by rewrite eG mulmxV.
have dG : \det G != 0 by rewrite -unitfE -unitmxE.
rewrite toM_blocks in h; have hd := compl_det h.
have uP : P \in unitmx by rewrite unitmxE unitfE.
have uH : toM mo mo (mblock n n mo mo g) \in unitmx.
  by rewrite unitmxE unitfE; apply: contraNneq nP => e; rewrite -hd e mulr0.
have [_ eP] := compl_inv h uH.
set T := toM m m s - toM m n r *m invmx P *m toM n m q.
have dnew : \det new = \det P * \det T by rewrite /new schur_det.
have dS : \det new / \det G = \det (toM mo mo (mblock n n mo mo g)) * \det T.
  by rewrite dnew -hd -/G mulrC !mulrA mulVf // mul1r.
rewrite /replace_det_ratio /replace_inverse r1 r2 g2 addKn; case: (posnP n) => n0 /=.
  have T0 : T = toM m m s.
    by rewrite /T; move: (toM m n r) (toM n m q) (invmx P); clear -n0 => C B A; subst n; rewrite (thinmx0 C) !mul0mx subr0.
  have eg : \det (toM (n + mo) (n + mo) g) = \det (toM mo mo (mblock n n mo mo g)).
    clear -n0; subst n; congr (\det _); apply: toM_ext => i j hi hj; by [].
  split.
    rewrite dS (safe_detE s1 s2) (rm_safe_detE g1) ?g2 ?eg //.
    by rewrite T0 mulrC.
  move=> hn; have uT : T \in unitmx by rewrite unitmxE unitfE; apply: contraNneq hn => e; rewrite dnew e mulr0.
  eexists; split=> //; split; first by [].
  split; [by rewrite n0 add0n; case: (0 < m)%N|by rewrite n0 add0n; case: (0 < m)%N|].
  apply: block_inv0 => //; case: posnP => m0; first exact: mx_dim0.
  rewrite -(safe_invE s1 s2) -?T0 //; apply: toM_ext => i j hi hj.
  by rewrite set_block_in ?subn0 // add0n.
rewrite (@safe_detE _ mo) // ifF; last by apply/negbTE; rewrite -unitfE -unitmxE.
set mm := if (0 < mo)%N then _ else _.
have [mm1 mm2] : mr mm = n /\ mc mm = n by rewrite /mm; case: (0 < mo)%N.
have emm : toM n n mm = invmx P.
  rewrite eP /mm; case: posnP => mo0.
    have z (X : 'M[K]_(n, mo)) (Y : 'M[K]_(mo, n)) : X *m Y = 0 by clear -mo0; subst mo; rewrite (thinmx0 X) mul0mx.
    by rewrite z subr0; apply: toM_ext => i j _ _ /=; rewrite !add0n.
  rewrite toM_sub (toM_mul _ _ _ (k := mo)) // (toM_mul _ _ _ (k := mo)) // safe_invE //.
set tp := msub s _.
have etp : toM m m tp = T.
  by rewrite toM_sub (toM_mul _ _ _ (k := n)) // (toM_mul _ _ _ (k := n)) // emm /T mulmxA.
rewrite dS (@safe_detE _ m) // etp; split=> // hn.
have uT : T \in unitmx by rewrite unitmxE unitfE; apply: contraNneq hn => e; rewrite dnew e mulr0.
have [_ einv] := schur_inv uP uT; rewrite -/new in einv.
eexists; split=> //; split; first by []; rewrite /=.
case: posnP => m0.
  split=> //; rewrite einv toM_blocks; congr block_mx; try by apply/matrixP => -[i hi] [j hj]; exfalso; move: (hi) (hj); rewrite m0 ltn0.
  have z k (X : 'M[K]_(n, m)) (Y : 'M[K]_(m, k)) : X *m Y = 0 by clear -m0; subst m; rewrite (thinmx0 X) mul0mx.
  rewrite z !mul0mx addr0 -emm; apply: toM_ext => i j hi hj; by rewrite set_block_in ?subn0.
split=> //; rewrite einv.
set ts := mblock n n m m _.
have ets : toM m m ts = invmx T.
  rewrite -etp -safe_invE // ?etp //; apply: toM_ext => i j hi hj.
  transitivity (me (set_block n n m m (safe_inverse tp) (destructive_resize junk (n + m) (n + m))) (n + i) (n + j)); first by [].
  by rewrite sb_in.
set x1 := mmul (mopp mm) _; set x2 := mmul (mopp _) mm.
set g2' := set_block 0 0 n n mm _.
have ex1 : toM n m x1 = - (invmx P *m toM n m q *m invmx T).
  by rewrite (toM_mul _ _ _ (k := n)) // toM_opp (toM_mul _ _ _ (k := m)) // emm ets mulNmx mulmxA.
have ex2 : toM m n x2 = - (invmx T *m toM m n r *m invmx P).
  by rewrite (toM_mul _ _ _ (k := n)) // toM_opp (toM_mul _ _ _ (k := m)) // emm ets mulNmx.
have ex3 : toM m n (mblock n 0 m n g2') = toM m n x2.
  apply: toM_ext => i j hi hj; by rewrite -[me _ i j]/(me g2' (n + i) (0 + j)) /g2' sb_below ?leq_addr // sb_in.
have ex4 : toM n n (msub (mblock 0 0 n n g2') (mmul (mmul mm q) (mblock n 0 m n g2'))) = invmx P + invmx P *m toM n m q *m invmx T *m toM m n r *m invmx P.
  rewrite toM_sub (toM_mul _ _ _ (k := m)) // (toM_mul _ _ _ (k := n)) // ex3 ex2 emm mulmxN opprK !mulmxA; congr (_ + _).
  by rewrite -emm; apply: toM_ext => i j hi hj; rewrite -[me _ i j]/(me g2' (0 + i) (0 + j)) /g2' sb_in.
rewrite -ex1 -ex2 -ex4 -ets; apply: four_blocks => i j hi hj.
- by rewrite sb_in00.
- by rewrite sb_right ?leq_addr // /g2' sb_right ?leq_addr // sb_above // sb_in1.
- by rewrite sb_below ?leq_addr // /g2' sb_below ?leq_addr // sb_in0.
- by rewrite sb_below ?leq_addr // /g2' sb_below ?leq_addr // sb_right ?leq_addr // sb_below ?leq_addr.
Qed.

(** If the part that stays is singular the ratio returned is 0, whatever the true ratio is. *)
Theorem C31_replace_singular n mo m (P : 'M[K]_n) Q0 R0 (S0 : 'M[K]_mo) q r s g :
  let G := block_mx P Q0 R0 S0 in
  mr g = (n + mo)%N -> mc g = (n + mo)%N -> mr r = m -> mc r = n -> (0 < n)%N ->
  G \in unitmx -> toM (n + mo) (n + mo) g = invmx G -> \det P = 0 -> replace_det_ratio g q r s = (0, None).
Proof.
move=> G g1 g2 r1 r2 n0 uG eG nP.
have h : G *m toM (n + mo) (n + mo) g = 1%:M by rewrite eG mulmxV.
have dG : \det G != 0 by rewrite -unitfE -unitmxE.
rewrite toM_blocks in h; have hd := compl_det h.
rewrite /replace_det_ratio r2 g2 addKn ifF ?(gtn_eqF n0) // (@safe_detE _ mo) // ifT //.
by have := hd; rewrite nP => /eqP; rewrite mulf_eq0 (negbTE dG).
Qed.

(** C31. Replacing the last row. *)
Definition with_last_row n (G : 'M[K]_n.+1) row : 'M[K]_n.+1 := \matrix_(i, j) if i == ord_max then me row 0 j else G i j.
Definition with_last_col n (G : 'M[K]_n.+1) col : 'M[K]_n.+1 := \matrix_(i, j) if j == ord_max then me col i 0 else G i j.
Theorem C31_last_row n (G : 'M[K]_n.+1) g row : mr g = n.+1 -> mc g = n.+1 -> mr row = 1%N -> mc row = n.+1 ->
  G \in unitmx -> toM n.+1 n.+1 g = invmx G ->
  let new := with_last_row G row in
  let r := ratio_replace_last_row g row in
  r = \det new / \det G /\
  (\det new != 0 -> let x := inverse_replace_last_row g row r in
     [/\ mr x = n.+1, mc x = n.+1 & toM n.+1 n.+1 x = invmx new]).
Proof.
move=> g1 g2 r1 r2 uG eG new r.
have dG : \det G != 0 by rewrite -unitfE -unitmxE.
have gE i j : (i < n.+1)%N -> (j < n.+1)%N -> me g i j = invmx G (inord i) (inord j).
  by move=> hi hj; rewrite -eG mxE !inordK.
have rE : r = \sum_(k < n.+1) me row 0 k * me g k n by rewrite /r /ratio_replace_last_row r2 g2 subn1.
have hdet : \det new = r * \det G.
  rewrite (expand_det_row _ ord_max) rE mulr_suml; apply: eq_bigr => k _; rewrite mxE eqxx -mulrA; congr (_ * _).
  have -> : cofactor new ord_max k = cofactor G ord_max k.
    rewrite /cofactor; congr (_ * \det _); apply/matrixP => i j; rewrite !mxE ifF //.
    by apply/negbTE; rewrite eq_sym neq_lift.
  have := congr1 (fun M : 'M[K]_n.+1 => M k ord_max) (eG); rewrite mxE /= => ->.
  by rewrite /invmx uG !mxE mulrC mulrA mulfV // mul1r.
have e : r = \det new / \det G by rewrite hdet mulfK.
split=> // hn x; split=> //.
have nr : r != 0 by rewrite e mulf_neq0 // invr_neq0.
have GI (i j : 'I_n.+1) : \sum_k G i k * me g k j = (i == j)%:R.
  have := congr1 (fun M : 'M[K]_n.+1 => M i j) (mulmxV uG); rewrite -eG !mxE => <-.
  by apply: eq_bigr => k _; rewrite mxE.
suff h : new *m toM n.+1 n.+1 x = 1%:M by have [_ h2] := right_inverse h.
apply/matrixP => i j; rewrite !mxE.
have xE k : me x k j = if (j < n)%N && (k < n.+1)%N then me g k j - me g k n * (\sum_(l < n.+1) me row 0 l * me g l j) / r
     else if (j == n :> nat) then me g k n / r else me g k j.
  rewrite /x /inverse_replace_last_row /= g1 r2 subn1 /= !div1r.
  by case: (ltnP j n) => hj /=; [case: ifP => hk; rewrite ?ifF ?(ltn_eqF hj)|].
under eq_bigr => k _ do rewrite !mxE xE ltn_ord andbT.
case: (ltnP j n) => hj.
  have hji : (ord_max == j) = false by apply/eqP => h; move: hj; rewrite -h ltnn.
  have -> : (i == j)%:R = \sum_(k < n.+1) (if i == ord_max then me row 0 k else G i k) * me g k j - (\sum_(k < n.+1) (if i == ord_max then me row 0 k else G i k) * me g k n) * (\sum_(l < n.+1) me row 0 l * me g l j) / r.
    case: (eqVneq i ord_max) => [->|ni].
      by rewrite -rE hji [r * _]mulrC mulfK // subrr.
    by rewrite (GI i j) (GI i ord_max) (negbTE ni) !mul0r subr0.
  rewrite !mulr_suml -sumrB; apply: eq_bigr => k _.
  by rewrite mulrBr; congr (_ - _); rewrite !mulrA.
have ej : j = ord_max by apply/val_inj/eqP; rewrite eqn_leq /= hj -ltnS ltn_ord.
rewrite ej eqxx /=; case: (eqVneq i ord_max) => [ei|ni].
  by under eq_bigr do rewrite mulrA; rewrite -mulr_suml -rE mulfV.
by under eq_bigr do rewrite mulrA; rewrite -mulr_suml (GI i ord_max) (negbTE ni) mul0r.
Qed.

Definition tr (a : mat K) : mat K := Mat (mc a) (mr a) (fun i j => me a j i).
Theorem C31_last_col n (G : 'M[K]_n.+1) g col : mr g = n.+1 -> mc g = n.+1 -> mr col = n.+1 -> mc col = 1%N ->
  G \in unitmx -> toM n.+1 n.+1 g = invmx G ->
  let new := with_last_col G col in
  let r := ratio_replace_last_col g col in
  r = \det new / \det G /\
  (\det new != 0 -> let x := inverse_replace_last_col g col r in
     [/\ mr x = n.+1, mc x = n.+1 & toM n.+1 n.+1 x = invmx new]).
Proof.
move=> g1 g2 c1 c2 uG eG new r.
have e1 : toM n.+1 n.+1 (tr g) = invmx G^T by rewrite -trmx_inv -eG; apply/matrixP => i j; rewrite !mxE.
have e2 : with_last_row G^T (tr col) = new^T by apply/matrixP => i j; rewrite !mxE.
have uT : G^T \in unitmx by rewrite unitmx_tr.
have e3 : ratio_replace_last_row (tr g) (tr col) = r.
  by rewrite /r /ratio_replace_last_row /ratio_replace_last_col /= g1 g2; apply: eq_bigr => k _; rewrite mulrC.
have [h1 h2] := @C31_last_row n G^T (tr g) (tr col) g2 g1 c2 c1 uT e1.
rewrite e2 e3 !det_tr in h1 h2; split=> // hn x; split=> //.
have [_ _ h3] := h2 hn; rewrite -[LHS]trmxK -[RHS]trmxK; congr (_^T); rewrite trmx_inv -h3.
apply/matrixP => i j; rewrite !mxE /x /= g1 g2 subn1 /= [in RHS]andbC [(_ < _)%N && _]andbC.
have s k : \sum_(k0 < mr col) me col k0 0 * me g k k0 = \sum_(k0 < mr col) me g k k0 * me col k0 0 by apply: eq_bigr => k0 _; rewrite mulrC.
by rewrite s.
Qed.
End Last.
Print Assumptions C31_up.
Print Assumptions C31_down_last.
Print Assumptions C31_replace.
Print Assumptions C31_replace_singular.
Print Assumptions C31_last_row.
Print Assumptions C31_last_col.

(** ** C31: removing listed rows and columns *)
(** The rows (columns) that stay, in their order *)
Definition staying (n : nat) (r : seq nat) : seq nat := [seq i <- iota 0 n | i \notin r].

Lemma adj_move (T : Type) (a b : seq T) x : adj (size b) (a ++ x :: b) (a ++ rcons b x).
Proof.
elim: b a => [|y b IH] a /=; first exact: adj_refl.
have h1 : adj 1 (a ++ x :: y :: b) (a ++ y :: x :: b) by rewrite -!app_cat; apply: adj_step; exact: adj_refl.
have := IH (rcons a y); rewrite !cat_rcons => h2.
by have := adj_trans _ _ _ _ _ h1 h2.
Qed.
Lemma staying_cat n r : sorted ltn r -> all (fun i => i < n)%N r ->
  exists2 k, adj k (iota 0 n) (staying n r ++ r) & odd k = odd (\sum_(j < size r) ((n - 1 - nth 0 r j) + j)%N).
Proof.
elim/last_ind: r => [|r x IH] hs ha.
  exists 0%N; last by rewrite big_ord0.
  by rewrite cats0 (_ : staying n [::] = iota 0 n); [exact: adj_refl|exact/all_filterP/allP].
move: hs ha; rewrite sorted_pairwise ?pairwise_rcons; last exact: ltn_trans.
rewrite -sorted_pairwise; last exact: ltn_trans.
move=> /andP[hx hs]; rewrite all_rcons => /andP[hxn ha].
have [k hk ok] := IH hs ha.
have split_n : iota 0 n = iota 0 x ++ x :: iota x.+1 (n - 1 - x).
  by rewrite -[x :: _]/(iota x (n - 1 - x).+1) -[in iota x _](add0n x) -iotaD; congr iota; lia.
have xr : x \notin r by apply/negP => h; have := allP hx _ h; rewrite /= ltnn.
have hb : [seq i <- iota x.+1 (n - 1 - x) | i \notin r] = iota x.+1 (n - 1 - x).
  apply/all_filterP/allP => y; rewrite mem_iota => /andP[h1 _]; apply/negP => /(allP hx) /=; lia.
have e1 : staying n r = [seq i <- iota 0 x | i \notin r] ++ x :: iota x.+1 (n - 1 - x).
  by rewrite /staying split_n filter_cat /= xr hb.
have e2 : staying n (rcons r x) = [seq i <- iota 0 x | i \notin r] ++ iota x.+1 (n - 1 - x).
  rewrite /staying split_n filter_cat /= mem_rcons in_cons eqxx /=; congr (_ ++ _); last rewrite -[RHS]hb;
    apply: eq_in_filter => y; rewrite mem_iota mem_rcons in_cons => hy; rewrite (_ : (y == x) = false) //; lia.
exists (k + size (iota x.+1 (n - 1 - x) ++ r))%N.
  apply: adj_trans hk _; rewrite e1 e2 -!catA cat_cons -rcons_cat; exact: adj_move.
rewrite size_rcons big_ord_recr /= nth_rcons ltnn eqxx size_cat size_iota oddD ok.
rewrite [in RHS]oddD; congr (_ (+) _); congr (odd _); apply: eq_bigr => j _; by rewrite nth_rcons ltn_ord.
Qed.

Section Lists.
Variable K : numFieldType.
Implicit Types (a b c d e f g h x : mat K).
(** Rows and columns in given orders *)
Definition pick (n m : nat) (a : mat K) (xs ys : seq nat) : 'M[K]_(n, m) := \matrix_(i, j) me a (nth 0%N xs i) (nth 0%N ys j).

Lemma sum_perm n (ys : seq nat) (f : nat -> K) : perm_eq ys (iota 0 n) -> \sum_(k < n) f (nth 0%N ys k) = \sum_(k < n) f k.
Proof.
move=> h; have sz : size ys = n by rewrite (perm_size h) size_iota.
rewrite -(big_mkord xpredT (fun k => f (nth 0%N ys k))) -[in LHS]sz -(big_nth 0%N xpredT f) (perm_big _ h) /=.
by rewrite -[n in iota 0 n]subn0 -/(index_iota 0 n) big_mkord.
Qed.
Lemma pick_inverse n g h xs ys : perm_eq xs (iota 0 n) -> perm_eq ys (iota 0 n) -> toM n n g *m toM n n h = 1%:M ->
  pick n n g xs ys *m pick n n h ys xs = 1%:M.
Proof.
move=> hx hy e; apply/matrixP => i j; rewrite !mxE.
under eq_bigr do rewrite !mxE.
rewrite (sum_perm (fun k => me g (nth 0%N xs i) k * me h k (nth 0%N xs j)) hy).
have sz : size xs = n by rewrite (perm_size hx) size_iota.
have hlt k : (k < n)%N -> (nth 0%N xs k < n)%N.
  by move=> hk; have h1 : nth 0%N xs k \in iota 0 n; [rewrite -(perm_mem hx) mem_nth ?sz|move: h1; rewrite mem_iota add0n].
have := congr1 (fun M : 'M[K]_n => M (Ordinal (hlt i (ltn_ord i))) (Ordinal (hlt j (ltn_ord j)))) e; rewrite !mxE /=.
rewrite (_ : (_ == _) = (i == j)); last first.
  by rewrite -val_eqE /= nth_uniq ?sz // (perm_uniq hx) iota_uniq.
by move <-; apply: eq_bigr => k _; rewrite !mxE.
Qed.
Lemma pick_iota n m a : pick n m a (iota 0 n) (iota 0 m) = toM n m a.
Proof. by apply/matrixP => i j; rewrite !mxE !nth_iota. Qed.
Lemma pick_det k1 k2 n a xs ys : adj k1 (iota 0 n) xs -> adj k2 (iota 0 n) ys ->
  \det (pick n n a xs ys) = (-1) ^+ (k1 + k2) * \det (toM n n a).
Proof.
move=> h1 h2; rewrite -pick_iota -[LHS]/(detL 0%N 0%N (me a) n xs ys) (detL_adj _ _ _ _ h1) ?size_iota //.
by rewrite (detL_adjr _ _ _ _ h2) ?size_iota // mulrA -exprD.
Qed.
Lemma pick_blocks n m a xs1 xs2 ys1 ys2 : size xs1 = n -> size ys1 = n ->
  pick (n + m) (n + m) a (xs1 ++ xs2) (ys1 ++ ys2) = block_mx (pick n n a xs1 ys1) (pick n m a xs1 ys2) (pick m n a xs2 ys1) (pick m m a xs2 ys2).
Proof.
move=> h1 h2; apply/matrixP => i j; rewrite -(splitK i) -(splitK j); case: (split i) => i'; case: (split j) => j' /=;
  by rewrite ?block_mxEul ?block_mxEur ?block_mxEdl ?block_mxEdr !mxE /= !nth_cat ?h1 ?h2 ?ltn_ord // ?(ltnNge (n + _)) ?leq_addr //= ?addKn.
Qed.
Lemma adj_iota_perm k n xs : adj k (iota 0 n) xs -> perm_eq xs (iota 0 n).
Proof. by move=> /adj_perm /Permutation_perm_eq; rewrite perm_sym. Qed.
Lemma size_staying n r : sorted ltn r -> all (fun i => i < n)%N r -> (size (staying n r) + size r)%N = n.
Proof. by move=> hs ha; have [k /adj_iota_perm /perm_size] := staying_cat hs ha; rewrite size_cat size_iota. Qed.

Lemma perm_odd n rows cols : all (fun i => i < n)%N rows -> all (fun i => i < n)%N cols -> size cols = size rows ->
  odd (\sum_(j < size rows) ((n - 1 - nth 0 rows j) + j)%N + \sum_(j < size cols) ((n - 1 - nth 0 cols j) + j)%N) =
  odd (foldl (fun p j => p + absdiff (nth 0%N rows j) (nth 0%N cols j))%N 0%N (iota 0 (size rows))).
Proof.
move=> h1 h2 hs.
have -> : foldl (fun p j => p + absdiff (nth 0%N rows j) (nth 0%N cols j))%N 0%N (iota 0 (size rows)) =
    (\sum_(j < size rows) absdiff (nth 0 rows j) (nth 0 cols j))%N.
  elim: (size rows) => [|k IH]; first by rewrite big_ord0.
  by rewrite big_ord_recr -[in iota _ _]addn1 iotaD foldl_cat IH /= add0n.
rewrite hs -big_split /=.
suff gen k : (k <= size rows)%N -> odd (\sum_(i < k) (n - 1 - nth 0 rows i + i + (n - 1 - nth 0 cols i + i))%N) =
    odd (\sum_(i < k) absdiff (nth 0 rows i) (nth 0 cols i)) by exact: gen.
elim: k => [|k IH] hk; first by rewrite !big_ord0.
rewrite !big_ord_recr /= !oddD IH; last exact: ltnW.
congr (_ (+) _); rewrite /absdiff.
have := allP h1 _ (mem_nth 0%N hk); rewrite -hs in hk; have := allP h2 _ (mem_nth 0%N hk).
move: (nth 0%N rows k) (nth 0%N cols k) => u v /= hv hu.
by rewrite -!oddD; lia.
Qed.

(** C31. Removing listed rows and columns: the ratio is that of the matrix in which the others keep their order. *)
Section Down.
Variables (N : nat) (rows cols : seq nat) (G g : mat K).
Let m := size rows.
Let n := (N + m)%N.
Hypothesis sc : size cols = size rows.
Hypothesis sr1 : sorted ltn rows.
Hypothesis sr2 : sorted ltn cols.
Hypothesis ar : all (fun i => i < N + size rows)%N rows.
Hypothesis ac : all (fun i => i < N + size rows)%N cols.
Hypothesis uG : toM (N + size rows) (N + size rows) G \in unitmx.
Hypothesis eG : toM (N + size rows) (N + size rows) g = invmx (toM (N + size rows) (N + size rows) G).

Lemma st1 : size (staying n rows) = N.
Proof. by have := size_staying sr1 ar; rewrite -/m -/n; lia. Qed.
Lemma st2 : size (staying n cols) = N.
Proof. by have := size_staying sr2 ac; rewrite sc -/m -/n; lia. Qed.
Lemma H_det : \det (pick N N G (staying n rows) (staying n cols)) =
  (-1) ^+ (foldl (fun p j => p + absdiff (nth 0%N rows j) (nth 0%N cols j))%N 0%N (iota 0 m)) * \det (toM n n G) * \det (pick m m g cols rows).
Proof.
have [k1 a1 o1] := staying_cat sr1 ar; have [k2 a2 o2] := staying_cat sr2 ac.
have h : toM n n G *m toM n n g = 1%:M by rewrite eG mulmxV.
have h2 := pick_inverse (adj_iota_perm a1) (adj_iota_perm a2) h.
have hd := pick_det G a1 a2; rewrite !pick_blocks ?st1 ?st2 // in h2 hd.
rewrite -(compl_det h2) hd; congr (_ * _ * _).
by rewrite -signr_odd -[in RHS]signr_odd -(perm_odd ar ac sc) oddD o1 o2 -oddD.
Qed.
Theorem C31_down_ratio : (0 < size rows)%N ->
  compute_det_ratio_down (size rows) rows cols g =
  \det (pick N N G (staying (N + size rows) rows) (staying (N + size rows) cols)) / \det (toM (N + size rows) (N + size rows) G).
Proof.
move=> m0; have dG : \det (toM n n G) != 0 by rewrite -unitfE -unitmxE.
rewrite -/m -/n H_det /compute_det_ratio_down (@safe_detE _ m) //.
have -> : toM m m (Mat m m (fun i j => me g (nth 0%N cols i) (nth 0%N rows j))) = pick m m g cols rows by [].
rewrite -signr_odd; case: (odd _); rewrite ?expr0 ?expr1 ?mulN1r ?mul1r /= ?mulNr mulrAC mulfV // mul1r //.
Qed.

(** The positions after the exchanges: position i holds what was at position [sig k i] *)
Fixpoint sig (r : seq nat) (k : nat) (i : nat) : nat :=
  if k is k'.+1 then sig r k' (swapn (nth 0%N r (m - 1 - k')%N) (n - 1 - k')%N i) else i.
Definition exchange (rs cs : seq nat) (a : mat K) (k : nat) : mat K :=
  foldl (fun a idel => swap_row (nth 0%N rs (m - 1 - idel)%N) (n - 1 - idel)%N (swap_col (nth 0%N cs (m - 1 - idel)%N) (n - 1 - idel)%N a)) a (iota 0 k).
Lemma exchangeE rs cs a k : [/\ mr (exchange rs cs a k) = mr a, mc (exchange rs cs a k) = mc a &
  forall i j, me (exchange rs cs a k) i j = me a (sig rs k i) (sig cs k j)].
Proof.
elim: k => [|k [h1 h2 h3]] //; have e : exchange rs cs a k.+1 = swap_row (nth 0%N rs (m - 1 - k)%N) (n - 1 - k)%N (swap_col (nth 0%N cs (m - 1 - k)%N) (n - 1 - k)%N (exchange rs cs a k)).
  have e : iota 0 k.+1 = iota 0 k ++ [:: k] by rewrite -addn1 iotaD.
  by rewrite /exchange e foldl_cat.
by rewrite e /= h1 h2; split=> // i j; rewrite h3.
Qed.
Lemma swapnK (a b : nat) : involutive (swapn a b).
Proof. by rewrite /swapn => i; case: (eqVneq i a) => [->|h1]; [rewrite eqxx; case: eqP|case: (eqVneq i b) => [->|h2]; rewrite ?eqxx // (negbTE h1) (negbTE h2)]. Qed.
Lemma sig_inj r k : injective (sig r k).
Proof. by elim: k => [|k IH] i j //= /IH /(can_inj (@swapnK _ _)). Qed.
Lemma swapn_lt (a b i l : nat) : (a < l)%N -> (b < l)%N -> (i < l)%N -> (swapn a b i < l)%N.
Proof. by rewrite /swapn; case: eqP => // _; case: eqP. Qed.
Lemma sorted_bound (r : seq nat) : size r = m -> sorted ltn r -> all (fun i => i < n)%N r ->
  (forall k, (k < m)%N -> (nth 0 r (m - 1 - k) <= n - 1 - k)%N) /\
  (forall k l, (k < l < m)%N -> (nth 0 r (m - 1 - l) < nth 0 r (m - 1 - k))%N).
Proof.
move=> sz hs ha.
have lt k l : (k < l < m)%N -> (nth 0 r (m - 1 - l) < nth 0 r (m - 1 - k))%N.
  by move=> h; apply: (sorted_ltn_nth ltn_trans) => //; rewrite ?inE ?sz; lia.
split=> //; elim=> [|k IH] hk; last by have := IH (ltnW hk); have := lt k k.+1; lia.
have : nth 0%N r (m - 1 - 0) \in r by rewrite mem_nth // sz; lia.
by move=> /(allP ha); lia.
Qed.
Lemma sig_spec (r : seq nat) k : size r = m -> sorted ltn r -> all (fun i => i < n)%N r -> (k <= m)%N ->
  [/\ forall l, (l < k)%N -> sig r k (n - 1 - l) = nth 0%N r (m - 1 - l),
      forall l, (k <= l < m)%N -> sig r k (nth 0%N r (m - 1 - l)) = nth 0%N r (m - 1 - l) &
      forall i, (i < n)%N -> (sig r k i < n)%N].
Proof.
move=> sz hs ha; have [b1 b2] := sorted_bound sz hs ha.
elim: k => [|k IH] hk; first by split.
have [h1 h2 h3] := IH (ltnW hk); split.
- move=> l hl /=; case: (ltngtP l k) hl => [hl _||-> _]; last first.
  + rewrite {1}/swapn; case: eqP => [e|_]; last by rewrite eqxx h2 // leqnn hk.
    by rewrite e h2 ?leqnn ?hk // -e.
  + lia.
  rewrite /swapn ifF; last by apply/eqP => e; have := b1 k hk; lia.
  by rewrite ifF ?h1 //; apply/eqP; lia.
- move=> l /andP[hl hm] /=; have hlk := b2 k l; rewrite /swapn ifF; last by apply/eqP; lia.
  rewrite ifF; last by apply/eqP; have := b1 l hm; lia.
  by rewrite h2 // hm ltnW.
- move=> i hi /=; apply: h3; apply: swapn_lt => //; last by lia.
  by have := b1 k hk; lia.
Qed.
Lemma sig_perm (r : seq nat) : size r = m -> sorted ltn r -> all (fun i => i < n)%N r ->
  [/\ perm_eq (map (sig r m) (iota 0 n)) (iota 0 n), map (sig r m) (iota N m) = r & perm_eq (map (sig r m) (iota 0 N)) (staying n r)].
Proof.
move=> sz hs ha; have [h1 _ h3] := sig_spec sz hs ha (leqnn m).
have p1 : perm_eq (map (sig r m) (iota 0 n)) (iota 0 n).
  have u : uniq (map (sig r m) (iota 0 n)) by rewrite map_inj_uniq ?iota_uniq //; exact: sig_inj.
  apply: uniq_perm; rewrite ?iota_uniq //.
  have hsub : {subset map (sig r m) (iota 0 n) <= iota 0 n}.
    by move=> x /mapP[y]; rewrite !mem_iota !add0n => /andP[_ hy] ->; rewrite h3.
  by case: (uniq_min_size u hsub); rewrite ?size_map.
have p2 : map (sig r m) (iota N m) = r.
  apply: (@eq_from_nth _ 0%N); rewrite size_map size_iota ?sz // => i hi.
  rewrite (nth_map 0%N) ?size_iota // nth_iota //.
  have -> : (N + i = n - 1 - (m - 1 - i))%N by rewrite /n; lia.
  by rewrite h1; [congr nth|]; lia.
split=> //; have [k /adj_iota_perm hp _] := staying_cat hs ha.
have e : map (sig r m) (iota 0 n) = map (sig r m) (iota 0 N) ++ r by rewrite [iota 0 n]iotaD map_cat p2.
by move: p1; rewrite e -(permPr hp) perm_cat2r.
Qed.

(** C31. The matrix after removing listed rows and columns is the inverse of what the same exchanges leave of G, which is
    a rearrangement of the rows and columns that stay. *)
Theorem C31_down : (0 < size rows)%N -> mr g = (N + size rows)%N -> mc g = (N + size rows)%N ->
  \det (pick N N G (staying (N + size rows) rows) (staying (N + size rows) cols)) != 0 ->
  exists xs ys x, [/\ perm_eq xs (staying (N + size rows) rows), perm_eq ys (staying (N + size rows) cols),
    compute_inverse_matrix_down (size rows) rows cols g = Some x,
    toM N N (exchange rows cols G (size rows)) = pick N N G xs ys &
    [/\ mr x = N, mc x = N & toM N N x = invmx (pick N N G xs ys)]].
Proof.
move=> m0 g1 g2 hn; have [p1 p2 p3] := sig_perm erefl sr1 ar; have [q1 q2 q3] := sig_perm sc sr2 ac.
set xs := map (sig rows m) (iota 0 N); set ys := map (sig cols m) (iota 0 N).
have [_ _ eX] := exchangeE rows cols G m; have [e1 e2 eg] := exchangeE cols rows g m.
have hX : toM n n (exchange rows cols G m) = pick n n G (map (sig rows m) (iota 0 n)) (map (sig cols m) (iota 0 n)).
  by apply/matrixP => i j; rewrite !mxE eX !(nth_map 0%N) ?size_iota // !nth_iota.
have hg : toM n n (exchange cols rows g m) = pick n n g (map (sig cols m) (iota 0 n)) (map (sig rows m) (iota 0 n)).
  by apply/matrixP => i j; rewrite !mxE eg !(nth_map 0%N) ?size_iota // !nth_iota.
have h : toM n n G *m toM n n g = 1%:M by rewrite eG mulmxV.
have h2 := pick_inverse p1 q1 h.
have xE : toM N N (exchange rows cols G m) = pick N N G xs ys.
  by apply/matrixP => i j; rewrite !mxE eX !(nth_map 0%N) ?size_iota // !nth_iota.
exists xs, ys, (shrink N m (exchange cols rows g m)); split=> //.
  rewrite /compute_inverse_matrix_down g1 ltnNge leq_addl /= ifF ?addnK //; last by apply/negbTE; rewrite -lt0n.
have nA : \det (pick N N G xs ys) != 0.
  have h3 := h2; rewrite -hX -hg !toM_blocks in h3; rewrite -xE -(compl_det h3) -toM_blocks hX mulf_neq0 //.
    by have [u1 _] := right_inverse h2; rewrite -unitfE -unitmxE.
  have -> : toM m m (mblock N N m m (exchange cols rows g m)) = pick m m g cols rows.
    apply/matrixP => i j; rewrite !mxE -[me (mblock _ _ _ _ _) _ _]/(me (exchange cols rows g m) (N + i) (N + j)) eg.
    by rewrite -[in RHS]p2 -[in RHS]q2 !(nth_map 0%N) ?size_iota // !nth_iota.
  by apply: contraNneq hn => e; rewrite -/m -/n H_det e mulr0.
have [u1 u2] := right_inverse h2; rewrite -hX in u1 u2; rewrite -hg in u2; rewrite [in X in X \in _]toM_blocks in u1.
rewrite [X in _ = invmx X]toM_blocks in u2.
by have := @shrinkE _ N m _ _ _ _ _ u1 u2; rewrite xE; case=> // h3 [h4 h5].
Qed.
End Down.
End Lists.
Print Assumptions C31_down_ratio.
Print Assumptions C31_down.

(** ** Concrete cases *)
Definition m22 (a b c d : rat) : mat rat_numFieldType :=
  Mat 2 2 (fun i j => if i == 0%N then (if j == 0%N then a else b) else (if j == 0%N then c else d)).
Definition m11 (a : rat) : mat rat_numFieldType := Mat 1 1 (fun _ _ => a).
Lemma ord2 (P : 'I_2 -> Prop) : P ord0 -> P ord_max -> forall i, P i.
Proof. by move=> h0 h1 [[|[|//]] hi]; [rewrite (_ : Ordinal hi = ord0)|rewrite (_ : Ordinal hi = ord_max)] => //; apply: val_inj. Qed.
Lemma m22_mul a b c d a' b' c' d' : a * a' + b * c' = 1 -> a * b' + b * d' = 0 -> c * a' + d * c' = 0 -> c * b' + d * d' = 1 ->
  toM 2 2 (m22 a b c d) *m toM 2 2 (m22 a' b' c' d') = 1%:M.
Proof. by move=> h1 h2 h3 h4; apply/matrixP; apply: ord2; apply: ord2; rewrite !mxE !big_ord_recl big_ord0 !mxE /= ?addr0. Qed.
Lemma m22_det a b c d : \det (toM 2 2 (m22 a b c d)) = a * d - b * c.
Proof. by rewrite -rm_safe_detE. Qed.

Example C31_instance :
  let G := m22 2%:Q 1 1 1 in
  let g := m22 1 (- 1) (- 1) 2%:Q in
  [/\ toM 2 2 G \in unitmx, toM 2 2 g = invmx (toM 2 2 G), compute_det_ratio_down_last 1 g = 2%:Q,
      compute_det_ratio_down 1 [:: 0%N] [:: 1%N] g = 1 & 
      compute_det_ratio_up (Mat 2 1 (fun _ _ => 1)) (Mat 1 2 (fun _ _ => 1)) (m11 3%:Q) g = 2%:Q].
Proof.
have h : toM 2 2 (m22 2%:Q 1 1 1) *m toM 2 2 (m22 1 (- 1) (- 1) 2%:Q) = 1%:M by apply: m22_mul.
have [u e] := right_inverse h; split=> //.
- by rewrite /compute_det_ratio_down_last (@safe_detE _ 1) // det_mx11 mxE.
- by rewrite /compute_det_ratio_down (@safe_detE _ 1) // det_mx11 mxE.
- by rewrite /compute_det_ratio_up -[mr (m22 _ _ _ _) == 0%N]/false (@safe_detE _ 1 (msub _ _)) // det_mx11 mxE /= !big_ord_recl !big_ord0.
Qed.

(** C31 does not hold for ReplaceHelper in full: the new matrix is regular and the true ratio is 2, but the row and column
    that stay form a singular matrix, and the function returns 0. *)
Theorem C31_replace_refuted :
  exists (G g q r s : mat rat_numFieldType) (new : mat rat_numFieldType),
    toM 2 2 G \in unitmx /\ toM 2 2 g = invmx (toM 2 2 G) /\ mr g = 2%N /\ mc g = 2%N /\
    toM 2 2 new = block_mx (toM 1 1 G) (toM 1 1 q) (toM 1 1 r) (toM 1 1 s) /\
    \det (toM 2 2 new) / \det (toM 2 2 G) = 2%:Q /\ (replace_det_ratio g q r s).1 = 0.
Proof.
exists (m22 0 1 1 0), (m22 0 1 1 0), (m11 2%:Q), (m11 1), (m11 0), (m22 0 2%:Q 1 0).
have h : toM 2 2 (m22 0 1 1 0) *m toM 2 2 (m22 0 1 1 0) = 1%:M by apply: m22_mul.
have [u e] := right_inverse h; do 4 (split; first by []); split; first by apply: (@four_blocks _ 1 1) => -[|i] // [|j].
rewrite !m22_det; split=> //.
Qed.
Print Assumptions C31_replace_refuted.
