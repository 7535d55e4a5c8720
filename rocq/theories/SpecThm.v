(** The spectral theorem over algebraically closed fields with conjugation: hermitian matrices are diagonalized by unitary ones. No code is
    modelled here. It shows that the eigensolver T_SpecNorm asks for exists. *)
From mathcomp Require Import all_ssreflect all_algebra.
From Verif Require Import KField OpNorm.
Import Order.Theory GRing.Theory Num.Theory.
Set Implicit Arguments.
Unset Strict Implicit.
Unset Printing Implicit Defensive.
Local Open Scope ring_scope.

Section Spectral.
Variable C : numClosedFieldType.
Notation cj := (@conjC C).
Lemma conjE (x : C) : x * cj x = `|x| ^+ 2.
Proof. by rewrite normCK. Qed.
Notation adj := (adj cj).
Notation sq := (sq cj).

Lemma adjD m n (A B : 'M[C]_(m, n)) : adj (A + B) = adj A + adj B.
Proof. by apply/matrixP => i j; rewrite !mxE rmorphD. Qed.
Lemma adj_scale m n (A : 'M[C]_(m, n)) a : adj (a *: A) = cj a *: adj A.
Proof. by apply/matrixP => i j; rewrite !mxE rmorphM. Qed.
Lemma adj_diag n (d : 'rV[C]_n) : adj (diag_mx d) = diag_mx (map_mx cj d).
Proof. by apply/matrixP => i j; rewrite !mxE eq_sym; case: eqP => [->|_]; rewrite ?mulr1n // !mulr0n rmorph0. Qed.
Lemma adj_row m n p (A : 'M[C]_(m, n)) (B : 'M[C]_(m, p)) : adj (row_mx A B) = col_mx (adj A) (adj B).
Proof. by rewrite /OpNorm.adj tr_row_mx map_col_mx. Qed.

Definition diagonalizable n (H : 'M[C]_n) : Prop :=
  exists U : 'M[C]_n, exists d : 'rV[C]_n, adj U *m U = 1%:M /\ H = U *m diag_mx d *m adj U.

(** a positive matrix that is diagonalizable has an inverse square root *)
Lemma orthonormalize m n (W : 'M[C]_(m, n)) : diagonalizable (adj W *m W) -> row_free W^T ->
  exists T : 'M[C]_n, adj (W *m T) *m (W *m T) = 1%:M.
Proof.
move=> [U [d [uu e]]] fr.
have pos i : 0 < d 0 i.
  have x0 : W *m col i U != 0.
    apply/eqP => h; have : (col i U)^T *m W^T = 0 by rewrite -trmx_mul h trmx0.
    move/eqP; rewrite -[0](mul0mx _ W^T) => /eqP /(row_free_inj fr) /(congr1 trmx); rewrite trmxK trmx0 => h0.
    have := congr1 (fun M : 'M_n => M i i) uu; rewrite !mxE eqxx /= big1 => [/esym/eqP|k _]; first by rewrite oner_eq0.
    by have /matrixP/(_ k 0) := h0; rewrite !mxE => ->; rewrite mulr0.
  have : sq (W *m col i U) = d 0 i.
    rewrite /OpNorm.sq /OpNorm.dot adjM -mulmxA [adj W *m (W *m _)]mulmxA e.
    have -> : col i U = U *m delta_mx i 0 by rewrite -colE.
    rewrite adjM !mulmxA -(mulmxA _ (adj U) U) uu mulmx1 -(mulmxA _ (adj U) U) uu mulmx1.
    rewrite mxE (bigD1 i) //= big1 => [|k nk]; last by rewrite mul_mx_diag !mxE (negbTE nk) mulr0.
    by rewrite mul_mx_diag !mxE !eqxx rmorph1 mul1r mulr1 addr0.
  by move=> <-; rewrite lt_neqAle (sq_ge0 conjE) eq_sym (sq_eq0 conjE) x0.
pose r : 'rV[C]_n := \row_i (sqrtC (d 0 i))^-1.
have rr i : cj (r 0 i) = r 0 i by rewrite mxE (cj_ge0 conjE) // invr_ge0 sqrtC_ge0 ltW.
exists (U *m diag_mx r); rewrite !adjM -mulmxA [adj W *m (W *m _)]mulmxA e adj_diag.
rewrite !mulmxA -(mulmxA _ (adj U) U) uu mulmx1 -(mulmxA _ (adj U) U) uu mulmx1.
apply/matrixP => i j; rewrite !mul_mx_diag !mxE eq_sym; case: eqP => [->|_]; last by rewrite !mulr0n !mul0r.
rewrite mulr1n -[RHS](_ : (sqrtC (d 0 i))^-1 * sqrtC (d 0 i) ^+ 2 * (sqrtC (d 0 i))^-1 = 1).
  by have := rr i; rewrite mxE => ->; rewrite sqrtCK.
by rewrite expr2 mulrA mulVf ?mul1r ?divff // sqrtC_eq0 gt_eqF.
Qed.

Lemma complement n (x : 'cV[C]_n.+1) : x != 0 -> exists W : 'M[C]_(n.+1, n), row_free W^T /\ adj x *m W = 0.
Proof.
move=> nx; pose A := (adj x)^T; pose N := kermx A.
have rA : \rank A = 1%N.
  apply/eqP; rewrite eqn_leq rank_leq_col lt0n mxrank_eq0; apply/eqP => h; case/eqP: nx.
  by apply/colP => i; have /matrixP/(_ i 0) := h; rewrite !mxE => /eqP; rewrite fmorph_eq0 => /eqP.
have rN : \rank N = n by rewrite mxrank_ker rA subn1.
have : exists R : 'M_(\rank N, n.+1), row_free R /\ R *m A = 0.
  exists (row_base N); split; first exact: row_base_free.
  by apply/sub_kermxP; rewrite eq_row_base.
rewrite rN => -[R [h1 h2]]; exists R^T; rewrite trmxK; split=> //.
by apply: trmx_inj; rewrite trmx_mul trmxK -/A h2 trmx0.
Qed.

Theorem spectral n (H : 'M[C]_n) : adj H = H -> diagonalizable H.
Proof.
elim: n H => [|n IH] H hH; first by exists 1%:M, 0; split; apply/matrixP => -[].
have [a ha] : exists a, root (char_poly H) a by apply: closed_rootP; rewrite size_char_poly.
have /eigenvalueP[v hv nv] : eigenvalue H a by rewrite eigenvalue_root_char.
have nw : adj v != 0.
  by apply/eqP => h; case/eqP: nv; rewrite -[v](adjK conjE) h; apply/matrixP => i j; rewrite !mxE rmorph0.
have hw : H *m adj v = cj a *: adj v by rewrite -[in LHS]hH -adjM hv adj_scale.
have sp : 0 < sq (adj v) by rewrite lt_neqAle (sq_ge0 conjE) eq_sym (sq_eq0 conjE) nw.
pose x := (sqrtC (sq (adj v)))^-1 *: adj v.
have hx : H *m x = cj a *: x by rewrite -scalemxAr hw scalerA mulrC -scalerA.
have xx : adj x *m x = 1%:M.
  apply/matrixP => i j; rewrite !ord1 -[LHS]/(sq x) (sqZ conjE) mxE eqxx.
  rewrite ger0_norm ?invr_ge0 ?sqrtC_ge0 ?ltW // exprVn sqrtCK mulVf // gt_eqF //.
have nx : x != 0.
  by apply/eqP => h; have := congr1 (fun M : 'M_1 => M 0 0) xx; rewrite h mulmx0 !mxE eqxx => /esym/eqP; rewrite oner_eq0.
have [W0 [fr x0]] := complement nx.
have [T wT] := orthonormalize (IH _ (etrans (adjM _ _ _) (congr1 (mulmx _) (adjK conjE W0)))) fr.
set W := W0 *m T in wT.
have xW : adj x *m W = 0 by rewrite /W mulmxA x0 mul0mx.
clearbody W; clear x0 fr.
have Wx : adj W *m x = 0.
  by rewrite -[x](adjK conjE) -adjM xW; apply/matrixP => i j; rewrite !mxE rmorph0.
have one : x *m adj x + W *m adj W = 1%:M.
  have e1 : adj (row_mx x W) *m row_mx x W = 1%:M :> 'M_(1 + n).
    by rewrite adj_row mul_col_row xx xW Wx wT -scalar_mx_block.
  by rewrite -mul_row_col -adj_row; exact: mulmx1C e1.
have [|U' [d' [uu' e']]] := IH (adj W *m H *m W); first by rewrite -mulmxA !adjM (adjK conjE) hH mulmxA.
have u1 : adj (W *m U') *m (W *m U') = 1%:M by rewrite adjM -mulmxA [adj W *m (W *m _)]mulmxA wT mul1mx.
have p1 : adj (row_mx x (W *m U')) *m row_mx x (W *m U') = 1%:M :> 'M_(1 + n).
  by rewrite adj_row mul_col_row xx mulmxA xW mul0mx u1 adjM -mulmxA Wx mulmx0 -scalar_mx_block.
have HW : H *m W = W *m (adj W *m H *m W).
  have xHW : adj x *m H *m W = 0 by rewrite -[H in LHS]hH -adjM hx adj_scale -scalemxAl xW scaler0.
  by rewrite -[LHS]mul1mx -one mulmxDl -(mulmxA x) (mulmxA (adj x)) xHW mulmx0 add0r !mulmxA.
have p2 : H = row_mx x (W *m U') *m diag_mx (row_mx (cj a)%:M d') *m adj (row_mx x (W *m U')).
  rewrite diag_mx_row adj_row mul_row_block !mulmx0 addr0 add0r mul_row_col.
  have -> : diag_mx (cj a)%:M = (cj a)%:M :> 'M_1 by apply/matrixP => i j; rewrite !ord1 !mxE.
  by rewrite -[LHS]mulmx1 -one mulmxDr !mulmxA hx HW e' mul_mx_scalar adjM !mulmxA.
by exists (row_mx x (W *m U')), (row_mx (cj a)%:M d').
Qed.
End Spectral.
Print Assumptions spectral.
