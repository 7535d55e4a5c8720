(** * C66: the trace of a configuration is the trace of the product of matrices it stands for *)
From Coq Require Import ZArith List.
From mathcomp Require Import all_ssreflect all_algebra zify ssrZ.
From Verif Require Import OpContainer KField EigenBasis T_EigenBasis Window T_Window T_WindowTrace LazyTrace T_LazyTrace T_Braket OpNorm GlobalUpdate T_GlobalUpdate.
Import Order.Theory GRing.Theory Num.Theory.
Set Implicit Arguments.
Unset Strict Implicit.
Unset Printing Implicit Defensive.
Local Close Scope Z_scope.
Local Open Scope nat_scope.
Local Open Scope ring_scope.
Delimit Scope Z_scope with coqZ.

(** ** Specification: the time-ordered product of operators [X o f] and propagators [P t] between the times 0 and beta, the latest leftmost *)
Section Spec.
Variables (K : numFieldType) (n : nat) (X : optype -> nat -> 'M[K]_n) (P : Z -> 'M[K]_n).
Fixpoint word (t : Z) (c : seq psi) (beta : Z) : 'M[K]_n :=
  if c is x :: r then word (ptau x) r beta *m (X (p_type x) (p_flavor x) *m P (ptau x - t)%coqZ) else P (beta - t)%coqZ.
End Spec.

(** ** States in sectors: the sector and the number within the sector *)
Section Pairs.
Variables (K : numFieldType) (S : nat) (d : nat -> nat).
Hypothesis d0 : forall s, (S <= s)%N -> d s = 0%N.
Definition pairs : seq (nat * nat) := [seq (s, i) | s <- iota 0 S, i <- iota 0 (d s)].
Notation N := (size pairs).
Notation at_ x := (nth (0%N, 0%N) pairs x).
Lemma mem_pairs p : (p \in pairs) = (p.2 < d p.1)%N.
Proof.
apply/allpairsPdep/idP => [[s [i [_]]]|h]; first by rewrite mem_iota => /andP[_ h] ->.
exists p.1, p.2; rewrite !mem_iota /= h; split=> //; last by case: p h.
by rewrite add0n ltnNge; apply/negP => hs; move: h; rewrite d0.
Qed.
Lemma pairs_uniq : uniq pairs.
Proof. by apply: allpairs_uniq_dep => [||[s i] [s' i'] _ _ [-> ->] //]; [exact: iota_uniq|move=> s _; exact: iota_uniq]. Qed.
Lemma pairs_lt (x : 'I_N) : ((at_ x).2 < d (at_ x).1)%N.
Proof. by rewrite -mem_pairs mem_nth. Qed.
Lemma pairs_inj (x y : 'I_N) : at_ x = at_ y -> x = y.
Proof. by move/eqP; rewrite nth_uniq ?pairs_uniq // => /eqP /val_inj. Qed.
Lemma sum_iota n (F : nat -> K) : \sum_(i <- iota 0 n) F i = \sum_(i < n) F i.
Proof. by rewrite -{1}[n]subn0 -/(index_iota 0 n) big_mkord. Qed.
Lemma sum_pairs (F : nat * nat -> K) : \sum_(x < N) F (at_ x) = \sum_(s < S) \sum_(i < d s) F (s : nat, i : nat).
Proof.
rewrite -(big_mkord xpredT (fun x => F (at_ x))) -(big_nth _ xpredT) /pairs big_allpairs_dep.
by rewrite sum_iota; apply: eq_bigr => s _; rewrite sum_iota.
Qed.
(** sums of functions that vanish outside of one sector *)
Lemma sum_in_sector (F : nat * nat -> K) s : (forall p, p.1 != s -> F p = 0) -> \sum_(x < N) F (at_ x) = \sum_(i < d s) F (s, i : nat).
Proof.
move=> h; rewrite sum_pairs; case: (ltnP s S) => hs; last first.
  rewrite [RHS]big1; last by rewrite d0 //; case.
  rewrite big1 // => t _; rewrite big1 // => i _; apply: h => /=; apply/eqP => e; by have := ltn_ord t; rewrite e ltnNge hs.
rewrite (bigD1 (Ordinal hs)) //= [X in _ + X]big1 ?addr0 // => t nt; rewrite big1 // => i _; apply: h.
by move: nt; rewrite -val_eqE.
Qed.
End Pairs.

Section Eig.
Variables (E : realDomainType) (K : numFieldType) (expf : E -> K) (tick : Z -> E) (B : basis E K).
Hypothesis expD : forall x y, expf (x + y) = expf x * expf y.
Hypothesis exp_pos : forall x, 0 < expf x.
Hypothesis op_dims : forall o f s d, b_conn B o f s = Some d -> (0 < dim B s)%N ->
  mr (b_ops B o f s) = dim B d /\ mc (b_ops B o f s) = dim B s.
Implicit Types (b k : braket K).
Notation aket := (apply_ket 0 B).
Notation pket := (prop_ket expf None tick B).

(** The states of the basis *)
Definition states : seq (nat * nat) := pairs (size (b_evals B)) (dim B).
Notation N := (size states).
Notation at_ x := (nth (0%N, 0%N) states x).
Definition energy (p : nat * nat) : E := nth 0 (nth [::] (b_evals B) p.1) p.2.
Definition opmx (o : optype) (f : nat) : 'M[K]_N := \matrix_(x, y)
  if b_conn B o f (at_ y).1 == Some (at_ x).1 then me (b_ops B o f (at_ y).1) (at_ x).2 (at_ y).2 else 0.
Definition propmx (t : Z) : 'M[K]_N := diag_mx (\row_x expf (- tick t * energy (at_ x))).

Lemma dim0 s : (size (b_evals B) <= s)%N -> dim B s = 0%N.
Proof. by move=> h; rewrite /dim nth_default. Qed.
Lemma mem_states p : (p \in states) = (p.2 < dim B p.1)%N.
Proof. exact: (mem_pairs dim0). Qed.
Lemma states_uniq : uniq states.
Proof. exact: pairs_uniq. Qed.
Lemma at_lt (x : 'I_N) : ((at_ x).2 < dim B (at_ x).1)%N.
Proof. exact: (pairs_lt dim0). Qed.
Lemma sum_sector (F : nat * nat -> K) s : (forall p, p.1 != s -> F p = 0) -> \sum_(x < N) F (at_ x) = \sum_(i < dim B s) F (s, i : nat).
Proof. exact: (sum_in_sector dim0). Qed.

(** The matrix a ket stands for *)
Definition vec c k : 'M[K]_(N, c) := \matrix_(x, j) if ~~ invalid k && (sector k == Some (at_ x).1) then coeff k * me (obj k) (at_ x).2 j else 0.
Definition width c k : bool := invalid k || (mc (obj k) == c).
Lemma vec_invalid c k : invalid k -> vec c k = 0.
Proof. by move=> h; apply/matrixP => x j; rewrite !mxE h. Qed.

Lemma replaced_entry k m d i j : ~~ invalid k -> 0 < coeff k -> (i < mr m)%N -> (j < mc m)%N ->
  (if ~~ invalid (replaced k m d) then coeff (replaced k m d) * me (obj (replaced k m d)) i j else 0) = coeff k * me m i j.
Proof.
move=> hv hc hi hj; have hk : 0 <= EigenBasis.max_norm k by apply: norm_ge0_; rewrite hc orbT.
have [s hs] : exists s, sector k = Some s by move: hv; rewrite /invalid; case: (sector k) => // s _; exists s.
rewrite /replaced /swap_obj hs.
have vm : (mr m == 0%N) = false /\ (mc m == 0%N) = false by split; apply/negbTE; rewrite -lt0n; [case: (mr m) hi|case: (mc m) hj].
case: (norm_cases (Braket (Some s) m (coeff k))) => [[hi' ->]|[hi' e ->]|[hi' ne hp ->]] /=.
- by move: hi'; rewrite /invalid /= vm.1 vm.2.
- rewrite not_lt0 // ?norm_ge0_ //=; have := max0_entries e hi hj => /= ->; by rewrite mulr0.
- rewrite not_lt0 // ?norm_ge0_ //=; last by rewrite mulr_gt0 ?orbT.
  rewrite /invalid /= vm.1 vm.2 /=; have := norm_val i j hi' ne hp => /= ->.
  by rewrite -mulrA [EigenBasis.maxabs m * _]mulrC divfK.
Qed.

Lemma vec_apply c o f k : wf_ket B k -> width c k -> vec c (aket o f k) = opmx o f *m vec c k /\ width c (aket o f k).
Proof.
move=> wk; rewrite {1}/width aketE; case ik : (invalid k) => /= hw.
  by rewrite !(vec_invalid _ ik) mulmx0 /width ik.
have [s [hs k1 k2 k3]] := valid_ket (negbT ik) wk; rewrite hs.
have sm x j : (opmx o f *m vec c k) x j = \sum_(i < dim B s)
   (if b_conn B o f s == Some (at_ x).1 then me (b_ops B o f s) (at_ x).2 i else 0) * (coeff k * me (obj k) i j).
  pose F p := (if b_conn B o f p.1 == Some (at_ x).1 then me (b_ops B o f p.1) (at_ x).2 p.2 else 0) *
     (if Some s == Some p.1 then coeff k * me (obj k) p.2 j else 0).
  have hF p : p.1 != s -> F p = 0.
    by move=> np; rewrite /F; case: (Some s =P _) => [[e]|_]; [rewrite e eqxx in np|rewrite mulr0].
  rewrite mxE; transitivity (\sum_(y < N) F (at_ y)); first by apply: eq_bigr => y _; rewrite !mxE ik hs.
  by rewrite (sum_sector hF); apply: eq_bigr => i _; rewrite /F eqxx.
case hc : (b_conn B o f s) => [d|]; last first.
  split; last by rewrite /width.
  by apply/matrixP => x j; rewrite sm hc mxE /= big1 // => i _; rewrite mul0r.
have [o1 o2] := op_dims hc k2; set m := mmul _ _.
have [hr _] := replacedE m d (negbT ik) k3; split; last first.
  by rewrite /width; case: hr => [->//|[_ _ -> _]]; rewrite (eqP hw) eqxx orbT.
apply/matrixP => x j; rewrite sm hc mxE.
have [e|ne] := eqVneq (Some d) (Some (at_ x).1); last first.
  rewrite big1 => [|i _]; last by rewrite mul0r.
  by case: hr => [->//|[-> _ _ _]]; rewrite (negbTE ne) andbF.
have ed : (at_ x).1 = d by case: e.
have -> : (~~ invalid (replaced k m d) && (sector (replaced k m d) == Some (at_ x).1)) = ~~ invalid (replaced k m d).
  by case: hr => [->//|[-> _ _ _]]; rewrite ed eqxx andbT.
rewrite replaced_entry ?(negbT ik) //=; last first.
- by rewrite (eqP hw).
- by rewrite o1 -ed at_lt.
rewrite o2 mulr_sumr; apply: eq_bigr => i _; by rewrite mulrCA.
Qed.

Lemma vec_prop c t k : wf_ket B k -> width c k -> vec c (pket t k) = propmx t *m vec c k /\ width c (pket t k).
Proof.
move=> wk; case ik : (invalid k) => hw.
  by rewrite /prop_ket ik !(vec_invalid _ ik) mulmx0.
have [s [hs k1 k2 k3]] := valid_ket (negbT ik) wk.
have [cc [v [ev ek]]] := pketE expf tick B t (negbT ik) hs.
have iv := pket_invalid expf tick B t k; split; last by move: hw; rewrite /width iv ek.
apply/matrixP => x j; rewrite mul_diag_mx !mxE iv ik ek hs /=.
case: eqP => [[e]|_]; last by rewrite mulr0.
have hx : ((at_ x).2 < size (nth [::] (b_evals B) s))%N by have := at_lt x; rewrite -e.
have := exp_vector_exact expD (tick t) hx; rewrite ev /energy -e => <-.
by rewrite mulrACA mulrC.
Qed.

Lemma vec_steps c t l t' k : wf_ket B k -> width c k ->
  vec c (ket_steps aket pket t l t' k) = word opmx propmx t l t' *m vec c k /\ width c (ket_steps aket pket t l t' k).
Proof.
elim: l t k => [|x l IH] t k wk hw /=; first exact: vec_prop.
have [e1 w1] := vec_prop (ptau x - t)%coqZ wk hw.
have wp : wf_ket B (pket (ptau x - t)%coqZ k) by exact: wf_pket.
have [e2 w2] := vec_apply (p_type x) (p_flavor x) wp w1.
have [||e3 w3] := IH (ptau x) (aket (p_type x) (p_flavor x) (pket (ptau x - t)%coqZ k)) _ _ => //; first exact: wf_aket.
by rewrite e3 e2 e1 !mulmxA.
Qed.

(** eigenbasis.ipp:238-281 with the outer states as bras and kets of the window *)
Definition ket_of k : ket B := match @idP (wf_ket B k) with ReflectT h => Ket h | ReflectF _ => Ket (wf_ket_nil B) end.
Definition bra_of b : bra B := match @idP (wf_bra B b) with ReflectT h => Bra h | ReflectF _ => Bra (wf_bra_nil B) end.
Lemma ket_ofE k : wf_ket B k -> kb (ket_of k) = k. Proof. by move=> h; rewrite /ket_of; case: {-}_ / idP. Qed.
Lemma bra_ofE b : wf_bra B b -> bb (bra_of b) = b. Proof. by move=> h; rewrite /bra_of; case: {-}_ / idP. Qed.
Variables (outer_cutoff emin : E).
Definition outer_pairs : seq (bra B * ket B) :=
  zip [seq bra_of b | b <- EigenBasis.outer_bras K outer_cutoff emin (b_evals B)] [seq ket_of k | k <- EigenBasis.outer_kets K outer_cutoff emin (b_evals B)].
Notation cut := (outer_cutoff + emin).
Notation outer s := [seq i <- iota 0 (size (nth [::] (b_evals B) s)) | nth 0 (nth [::] (b_evals B) s) i <= cut].
Notation oket s := (Braket (Some s) (outer_obj K cut (nth [::] (b_evals B) s)) 1).
Notation obra s := (Braket (Some s) (transpose (outer_obj K cut (nth [::] (b_evals B) s))) 1).

Lemma wf_oket s : wf_ket B (oket s).
Proof. by apply/orP; right; rewrite /= eqxx ltr01. Qed.
Lemma wf_obra s : wf_bra B (obra s).
Proof. by apply/orP; right; rewrite /= eqxx ltr01. Qed.
Lemma mem_outer s i : (i \in outer s) = (i < dim B s)%N && (energy (s, i) <= cut).
Proof. by rewrite mem_filter mem_iota /= add0n andbC. Qed.

Lemma at_inj (x y : 'I_N) : at_ x = at_ y -> x = y.
Proof. by move/eqP; rewrite nth_uniq ?states_uniq // => /eqP /val_inj. Qed.

Lemma outer_term s c beta : outer s != [::] -> (0 < dim B s)%N ->
  product (obra s) (ket_steps aket pket 0%coqZ c beta (oket s)) =
  \sum_(x < N | ((at_ x).1 == s) && (energy (at_ x) <= cut)) word opmx propmx 0%coqZ c beta x x.
Proof.
move=> no ds; set k' := ket_steps _ _ _ _ _ _; set W := word _ _ _ _ _; set w := size (outer s).
have hw : width w (oket s) by rewrite /width /= eqxx orbT.
have [e wd] := vec_steps 0%coqZ c beta (wf_oket s) hw; rewrite -/k' -/W in e wd.
have wk : wf_ket B k'.
  rewrite /k'; elim: c 0%coqZ (oket s) (wf_oket s) {e wd hw k' W} => [|x c IH] t k h /=; first exact: wf_pket.
  by apply: IH; apply: wf_aket => //; exact: wf_pket.
have vk (y : 'I_N) (j : 'I_w) : vec w (oket s) y j = (at_ y == (s, nth 0%N (outer s) j))%:R.
  rewrite mxE /= {1}/invalid /= (_ : (size (nth [::] (b_evals B) s) == 0%N) = false); last by apply/negbTE; rewrite -lt0n.
  rewrite size_eq0 (negbTE no) /= mul1r ltn_ord; case: (at_ y) => s' i' /=.
  have -> : ((s', i') == (s, nth 0%N (outer s) j)) = (Some s == Some s') && (i' == nth 0%N (outer s) j).
    by rewrite -pair_eqE /=; congr (_ && _); apply/eqP/eqP => [->|[]].
  by case: (Some s == Some s') => //=; case: eqP.
have entry (x : 'I_N) (j : 'I_w) : at_ x = (s, nth 0%N (outer s) j) -> vec w k' x j = W x x.
  move=> ex; rewrite e mxE (bigD1 x) //= vk ex eqxx mulr1 big1 ?addr0 // => y ny; rewrite vk -ex.
  by case: eqP => [/at_inj ey|_]; [rewrite ey eqxx in ny|rewrite mulr0].
have prd : product (obra s) k' = \sum_(j < w) \sum_(x < N | at_ x == (s, nth 0%N (outer s) j)) vec w k' x j.
  rewrite productE; case: ifP => [/and5P[_ ik /eqP sk _ _]|nf].
    rewrite mul1r mulr_sumr; apply: eq_bigr => j _.
    have hj : nth 0%N (outer s) j \in outer s by rewrite mem_nth.
    have lj : (nth 0%N (outer s) j < dim B s)%N by move: hj; rewrite mem_outer => /andP[].
    rewrite (bigD1 (Ordinal lj)) //= [X in _ + X]big1 => [|i ni]; last first.
      by rewrite ltn_ord; case: eqP => [ei|_]; [move: ni; rewrite -val_eqE /= ei eqxx|rewrite mul0r].
    rewrite ltn_ord eqxx mul1r addr0.
    have hx : (s, nth 0%N (outer s) j) \in states by rewrite mem_states.
    have lx : (index (s, nth 0%N (outer s) j) states < N)%N by rewrite index_mem.
    rewrite (big_pred1 (Ordinal lx)) => [|x]; last first.
      apply/eqP/eqP => [ex|->]; last by rewrite /= nth_index.
      by apply: val_inj; rewrite /= -ex index_uniq ?states_uniq.
    by rewrite mxE ik -sk nth_index //= eqxx.
  rewrite big1 // => j _; rewrite big1 // => x /eqP ex; rewrite mxE; case: ifP => // /andP[ik sk]; case/negP: nf.
  move: (eqP sk) => sk'; have [s' [h1 h2 h3 h4]] := valid_ket ik wk.
  have es : s' = s by move: sk'; rewrite h1 ex => -[].
  rewrite /fits ik h1 es eqxx /= h2 es eqxx; move: wd; rewrite /width (negbTE ik) /= eq_sym => ->.
  rewrite /invalid /= size_eq0 (negbTE no) (_ : (size (nth [::] (b_evals B) s) == 0%N) = false) //.
  by apply/negbTE; rewrite -lt0n.
transitivity (\sum_(j < w) \sum_(x < N) if at_ x == (s, nth 0%N (outer s) j) then W x x else 0).
  by rewrite prd; apply: eq_bigr => j _; rewrite -big_mkcond /=; apply: eq_bigr => x /eqP ex; rewrite (entry _ _ ex).
rewrite exchange_big [RHS]big_mkcond /=; apply: eq_bigr => x _; have lx := at_lt x.
case: ifP => [/andP[/eqP e1 e2]|hx].
  have hm : (at_ x).2 \in outer s by rewrite mem_outer -e1 lx -surjective_pairing.
  have lj : (index (at_ x).2 (outer s) < w)%N by rewrite index_mem.
  have ae : (s, (at_ x).2) = at_ x by rewrite -e1 -surjective_pairing.
  rewrite (bigD1 (Ordinal lj)) //= nth_index // ae eqxx big1 ?addr0 // => j nj.
  case: eqP => // ex; move: nj; rewrite -val_eqE /= ex /= index_uniq ?eqxx // filter_uniq ?iota_uniq //.
rewrite big1 // => j _; case: eqP => // ex; move: hx; rewrite ex eqxx /=.
have : nth 0%N (outer s) j \in outer s by rewrite mem_nth.
by rewrite mem_outer => /andP[_ ->].
Qed.

(** C66. The sum over the outer states of the brackets is the sum of the diagonal elements of the product of matrices *)
Theorem C66_trace c beta :
  full_trace outer_pairs (ket_apply op_dims) (ket_prop tick exp_pos) (@bk_product _ _ B) beta c =
  \sum_(x < N | energy (at_ x) <= cut) word opmx propmx 0%coqZ c beta x x.
Proof.
have kst (k : ket B) : kb (ket_steps (ket_apply op_dims) (ket_prop tick exp_pos) 0%coqZ c beta k) = ket_steps aket pket 0%coqZ c beta k.
  by elim: c 0%coqZ k => [|x c IH] t k //=; rewrite IH.
rewrite /full_trace sumK_asum asumE /outer_pairs /EigenBasis.outer_bras /EigenBasis.outer_kets.
have zm (T U V : Type) (f : T -> U) (g : T -> V) l : zip [seq f x | x <- l] [seq g x | x <- l] = [seq (f x, g x) | x <- l] by elim: l => //= x l ->.
rewrite -!map_comp zm !big_map big_filter.
set S := size (b_evals B); set W := word _ _ _ _ _.
transitivity (\sum_(s <- iota 0 S) \sum_(x < N | ((at_ x).1 == s) && (energy (at_ x) <= cut)) W x x).
  rewrite big_mkcond; apply: eq_bigr => s _; rewrite /full_term /= /bk_product kst ket_ofE ?wf_oket // bra_ofE ?wf_obra //.
  case: ifP => [/andP[h1 h2]|hn].
    rewrite outer_term ?lt0n // -size_eq0 size_filter -lt0n -has_count.
    case/(has_nthP 0): h2 => i hi he; apply/hasP; exists i => //; by rewrite mem_iota add0n.
  rewrite big1 // => x /andP[/eqP e1 e2]; have lx := at_lt x; case/negP: hn; rewrite -e1.
  have lx' : ((at_ x).2 < size (nth [::] (b_evals B) (at_ x).1))%N by [].
  rewrite /is_sector_active -lt0n (leq_ltn_trans _ lx') //=; apply/hasP; exists (energy (at_ x)) => //; exact: mem_nth.
transitivity (\sum_(s <- iota 0 S) \sum_(x < N | energy (at_ x) <= cut) if (at_ x).1 == s then W x x else 0).
  by apply: eq_bigr => s _; rewrite -big_mkcondr /=; apply: eq_bigl => x; rewrite andbC.
rewrite exchange_big; apply: eq_bigr => x _.
have hm : (at_ x).1 \in iota 0 S.
  rewrite mem_iota add0n ltnNge; apply/negP => h; have := at_lt x; by rewrite /dim (nth_default [::] h).
rewrite (bigD1_seq _ hm (iota_uniq _ _)) /= eqxx big1 ?addr0 // => s ns; by rewrite eq_sym (negbTE ns).
Qed.
End Eig.
Print Assumptions C66_trace.

(** ** Shift of all operators *)
Section Cyclic.
Variables (K : numFieldType) (n : nat) (X : optype -> nat -> 'M[K]_n) (P : Z -> 'M[K]_n).
Hypothesis PD : forall s t, P (s + t)%coqZ = P s *m P t.
Notation word := (word X P).

Lemma word_cat u t c1 c2 t' : word t (c1 ++ c2) t' = word u c2 t' *m word t c1 u.
Proof.
elim: c1 t => [|x c1 IH] t /=; last by rewrite IH -mulmxA.
case: c2 => [|y c2] /=.
  by rewrite -PD; congr P; lia.
by rewrite -!mulmxA -PD; do 2!congr (_ *m _); congr P; lia.
Qed.
Lemma word_move g u t c t' : (forall x, In x c -> [/\ ptau (g x) = (ptau x + u)%coqZ, p_type (g x) = p_type x & p_flavor (g x) = p_flavor x]) ->
  word (t + u)%coqZ (map g c) (t' + u)%coqZ = word t c t'.
Proof.
elim: c t => [|x c IH] t h /=; first by congr P; lia.
have [-> -> ->] := h x (or_introl erefl); rewrite IH; last by move=> y hy; apply: h; right.
by do 2!congr (_ *m _); congr P; lia.
Qed.

(** C66. A shift of all operators does not change the trace of the product. *)
Theorem C66_cyclic beta s c : (0 < s < beta)%coqZ -> csorted c -> (forall x, In x c -> 0 <= ptau x <= beta)%coqZ ->
  (forall x y, In x c -> In y c -> ptau x = 0%coqZ -> ptau y <> beta) ->
  \tr (word 0%coqZ (insert_all (map (operator_shift beta s) c)) beta) = \tr (word 0%coqZ c beta).
Proof.
move=> hs so ti nb; have [l1 [l2 [e [-> [_ [h1 h2]]]]]] := C17_rotation hs so ti nb.
rewrite List.map_app (word_cat s) {}e (word_cat (beta - s)%coqZ) mxtrace_mulC; congr (\tr (_ *m _)).
- rewrite -(@word_move (operator_shift beta s) (s - beta)%coqZ (beta - s)%coqZ l2 beta).
    by congr (word _ _ _); lia.
  move=> x hx; split=> //; rewrite /ptau /operator_shift /= /shift_time.
  have := h2 x hx; case: Z.ltb_spec; lia.
- rewrite -(@word_move (operator_shift beta s) s 0%coqZ l1 (beta - s)%coqZ).
    by congr (word _ _ _); lia.
  move=> x hx; split=> //; rewrite /ptau /operator_shift /= /shift_time.
  have := h1 x hx; case: Z.ltb_spec; lia.
Qed.
End Cyclic.
Print Assumptions C66_cyclic.

(** ** The basis that is built *)
Section Built.
Variables (E : realDomainType) (K : numFieldType) (cj : {rmorphism K -> K}) (big inner : E).
Variables (evals : seq (seq E)) (evecs : seq (mat K)) (conn rev : conn_t) (ops : optype -> nat -> nat -> mat K).
Notation B := (build_basis cj big inner evals evecs conn rev ops).
Variables (expf : E -> K) (tick : Z -> E).
Hypothesis expD : forall x y, expf (x + y) = expf x * expf y.
Hypothesis exp_pos : forall x, 0 < expf x.
Hypothesis tickD : forall s t, tick (s + t)%coqZ = tick s + tick t.
Hypothesis dims : forall s, mc (nth (mat0 K) evecs s) = size (nth [::] evals s).
Hypothesis sizes : size evecs = size evals.
Hypothesis ops_dims : forall o f s d, conn o f s = Some d ->
  mc (ops o f s) = mr (nth (mat0 K) evecs s) /\ mr (ops o f s) = mr (nth (mat0 K) evecs d).
Variables (outer_cutoff emin : E) (flavors : nat).
Hypothesis total : size (flatten evals) = (2 ^ flavors)%N.
(** The code found that no state is cut away *)
Hypothesis flag : translationally_invariant (EigenBasis.outer_bras K outer_cutoff emin (b_evals B)) flavors.
Notation ft := (full_trace (outer_pairs B outer_cutoff emin) (@ket_apply _ _ B (built_op_dims dims ops_dims)) (ket_prop tick exp_pos)
  (@bk_product _ _ B)).
Notation r := (reference big inner evals evecs).
Notation cutoff := (eigenvalue_min big evals + inner).

Lemma uncut e : e \in flatten evals -> e <= cutoff /\ e - r <= outer_cutoff + emin.
Proof. by have [h _] := C30_translationally_invariant cj big inner outer_cutoff emin conn rev ops sizes dims total; apply: h. Qed.
Lemma uncut_sector s : [seq e <- nth [::] evals s | e <= cutoff] = nth [::] evals s.
Proof.
apply/all_filterP/allP => e he; have [|h _] := @uncut e => //; apply/flattenP; exists (nth [::] evals s) => //.
by apply: mem_nth; rewrite ltnNge; apply/negP => h; rewrite nth_default in he.
Qed.
Lemma uncut_kept s : T_EigenBasis.kept cutoff (nth [::] evals s) = iota 0 (size (nth [::] evals s)).
Proof.
apply/all_filterP/allP => i; rewrite mem_iota add0n => /= hi.
by have := mem_nth 0 hi; rewrite -uncut_sector mem_filter => /andP[].
Qed.
Lemma uncut_dim s : dim B s = size (nth [::] evals s).
Proof. by rewrite (built_dim _ _ _ _ _ _ dims) uncut_kept size_iota. Qed.
Notation N := (size (states B)).
Notation at_ x := (nth (0%N, 0%N) (states B) x).
Lemma uncut_energy p : (p.2 < dim B p.1)%N -> energy B p = nth 0 (nth [::] evals p.1) p.2 - r.
Proof.
rewrite uncut_dim => h; rewrite /energy (b_evals_nth _ _ _ _ _ _ dims) uncut_sector; exact: nth_map.
Qed.
Lemma energy_cut (x : 'I_N) : energy B (at_ x) <= outer_cutoff + emin.
Proof.
have h := at_lt x; rewrite uncut_energy //; rewrite uncut_dim in h; apply: (proj2 (@uncut _ _)).
apply/flattenP; exists (nth [::] evals (at_ x).1); last exact: mem_nth.
by apply: mem_nth; rewrite ltnNge; apply/negP => hh; move: h; rewrite (nth_default [::] hh).
Qed.
Notation opm := (opmx B).
Notation prm := (propmx expf tick B).

(** C66. When the code finds no state cut away, the sum is the trace of the product in the basis of all eigenstates. *)
Theorem C66_uncut c beta : ft beta c = \tr (word opm prm 0%coqZ c beta).
Proof.
rewrite (C66_trace _ expD) /mxtrace; apply: eq_bigl => x; exact: energy_cut.
Qed.
Lemma prmD s t : prm (s + t)%coqZ = prm s *m prm t.
Proof.
rewrite /propmx mulmx_diag; congr diag_mx; apply/rowP => x; rewrite !mxE -expD; congr expf.
by rewrite tickD opprD mulrDl.
Qed.
(** C66. Then a shift of all operators does not change the trace of the configuration: the global shift is not rejected for its trace. *)
Theorem C66_shift beta s c : (0 < s < beta)%coqZ -> csorted c -> (forall x, In x c -> 0 <= ptau x <= beta)%coqZ ->
  (forall x y, In x c -> In y c -> ptau x = 0%coqZ -> ptau y <> beta) ->
  ft beta (insert_all (map (operator_shift beta s) c)) = ft beta c.
Proof. by move=> h1 h2 h3 h4; rewrite !C66_uncut C66_cyclic //; exact: prmD. Qed.

(** *** The basis in which the model is given *)
(** The eigenvectors of every sector are orthonormal, as many as there are states. *)
Hypothesis square : forall s, mr (nth (mat0 K) evecs s) = size (nth [::] evals s).
Hypothesis orthonormal : forall s i j, (i < size (nth [::] evals s))%N -> (j < size (nth [::] evals s))%N ->
  \sum_(l < size (nth [::] evals s)) cj (me (nth (mat0 K) evecs s) l i) * me (nth (mat0 K) evecs s) l j = (i == j)%:R.
Definition fock : seq (nat * nat) := pairs (size evecs) (fun s => mr (nth (mat0 K) evecs s)).
Notation NF := (size fock).
Notation fat x := (nth (0%N, 0%N) fock x).
(** The operators as given *)
Definition fockmx (o : optype) (f : nat) : 'M[K]_NF := \matrix_(x, y)
  if conn o f (fat y).1 == Some (fat x).1 then me (ops o f (fat y).1) (fat x).2 (fat y).2 else 0.
(** The eigenvectors as columns *)
Definition eigenvectors : 'M[K]_(NF, N) := \matrix_(x, y)
  if (fat x).1 == (at_ y).1 then me (nth (mat0 K) evecs (fat x).1) (fat x).2 (at_ y).2 else 0.
Notation V := eigenvectors.

Lemma fock0 s : (size evecs <= s)%N -> mr (nth (mat0 K) evecs s) = 0%N.
Proof. by move=> h; rewrite nth_default. Qed.
Lemma V_columns : adj cj V *m V = 1%:M.
Proof.
apply/matrixP => x y; rewrite !mxE; set s := (at_ x).1.
have lx := at_lt x; have ly := at_lt y; rewrite !uncut_dim in lx ly.
pose F p := cj (if p.1 == s then me (nth (mat0 K) evecs p.1) p.2 (at_ x).2 else 0) *
  (if p.1 == (at_ y).1 then me (nth (mat0 K) evecs p.1) p.2 (at_ y).2 else 0).
transitivity (\sum_(z < NF) F (fat z)); first by apply: eq_bigr => z _; rewrite !mxE.
rewrite (sum_in_sector fock0 (s := s)); last by move=> p /negbTE np; rewrite /F np rmorph0 mul0r.
have [e|ne] := eqVneq s (at_ y).1; last first.
  rewrite big1; last by move=> i _; rewrite /F /= (negbTE ne) mulr0.
  by case: (x =P y) => // h; move: ne; rewrite /s h eqxx.
rewrite -(_ : ((at_ x).2 == (at_ y).2) = (x == y)); last first.
  apply/eqP/eqP => [h|-> //]; apply: pairs_inj; rewrite -/(states B).
  by rewrite [LHS]surjective_pairing [RHS]surjective_pairing h -/s e.
rewrite -(@orthonormal s _ _ lx) /=; last by rewrite e.
rewrite square; by apply: eq_bigr => i _; rewrite /F /= -e !eqxx.
Qed.
Lemma mulmx1_cast l1 l2 (A : 'M[K]_(l1, l2)) (C : 'M_(l2, l1)) : l1 = l2 -> C *m A = 1%:M -> A *m C = 1%:M.
Proof. by move=> e; case: l2 / e A C => A C; exact: mulmx1C. Qed.
Lemma size_fock : NF = N.
Proof.
rewrite /fock /states /pairs /build_basis /= !size_map size_iota sizes; congr (size (flatten _)); apply/eq_map => s.
by rewrite square -uncut_dim.
Qed.
Lemma V_rows : V *m adj cj V = 1%:M.
Proof. exact: mulmx1_cast size_fock V_columns. Qed.

Lemma opm_fock o f : opm o f = adj cj V *m (fockmx o f *m V).
Proof.
apply/matrixP => x y; rewrite !mxE; set s := (at_ y).1; set d := (at_ x).1.
have lx := at_lt x; have ly := at_lt y; rewrite -/d -/s in lx ly.
pose G z w := cj (if z.1 == d then me (nth (mat0 K) evecs z.1) z.2 (at_ x).2 else 0) *
  ((if conn o f w.1 == Some z.1 then me (ops o f w.1) z.2 w.2 else 0) *
   (if w.1 == s then me (nth (mat0 K) evecs w.1) w.2 (at_ y).2 else 0)).
transitivity (\sum_(z < NF) \sum_(w < NF) G (fat z) (fat w)); last first.
  by apply: eq_bigr => z _; rewrite !mxE mulr_sumr; apply: eq_bigr => w _; rewrite !mxE.
pose dF s := mr (nth (mat0 K) evecs s).
transitivity (\sum_(i < dF d) \sum_(j < dF s) G (d, i : nat) (s, j : nat)); last first.
  rewrite -(sum_in_sector fock0 (s := d) (F := fun z => \sum_(j < dF s) G z (s, j : nat))); last first.
    by move=> p /negbTE np; rewrite big1 // => j _; rewrite /G np rmorph0 mul0r.
  apply: eq_bigr => z _; rewrite (sum_in_sector fock0 (s := s) (F := G (fat z))) //.
  by move=> p /negbTE np; rewrite /G np !mulr0.
rewrite /G /= !eqxx; case: (conn o f s =P Some d) => [hc|nc]; last first.
  rewrite [RHS]big1 => [|i _]; last by rewrite big1 // => j _; rewrite mul0r mulr0.
  case: eqP => // /(b_conn_some cj big inner conn rev ops dims)[]//.
have ks t : (0 < dim B t)%N -> T_EigenBasis.kept cutoff (nth [::] evals t) != [::].
  by rewrite uncut_kept uncut_dim -size_eq0 size_iota -lt0n.
have kd := ks d (leq_ltn_trans (leq0n _) lx); have {}ks := ks s (leq_ltn_trans (leq0n _) ly).
have -> : b_conn B o f s == Some d by apply/eqP/(b_conn_some cj big inner conn rev ops dims).
have [o1 o2] := ops_dims hc; have [_ _ ->] := C30_operator cj rev dims hc ks kd o1 o2; rewrite ?uncut_kept ?size_iota -?uncut_dim //.
rewrite !nth_iota ?add0n //.
rewrite /mmul /madj /= o1 exchange_big; apply: eq_bigr => j _; rewrite mulr_suml; apply: eq_bigr => i _; by rewrite mulrA.
Qed.

(** C66. The Hilbert space is not enlarged or reduced: the two bases have the same number of states, which is all of them. *)
Theorem C66_states : NF = (2 ^ flavors)%N /\ N = (2 ^ flavors)%N.
Proof.
have e : NF = (2 ^ flavors)%N.
  rewrite -total /fock /pairs /= size_flatten /shape -map_comp.
  have -> : flatten evals = flatten [seq nth [::] evals s | s <- iota 0 (size evals)] by rewrite -{1}(mkseq_nth [::] evals).
  rewrite size_flatten /shape -map_comp sizes; congr sumn; apply/eq_map => s /=; by rewrite size_map size_iota square.
by rewrite -size_fock e.
Qed.
Section Hamiltonian.
(** The Hamiltonian [Hm] in the same basis, and its exponentials [X t] = exp(-t Hm): specified by their action on eigenvectors *)
Definition eigenvector s i : 'cV[K]_NF := \col_x if (fat x).1 == s then me (nth (mat0 K) evecs s) (fat x).2 i else 0.
Definition diagonalized (inE : E -> K) (Hm : 'M[K]_NF) : Prop := forall s i, (i < size (nth [::] evals s))%N ->
  Hm *m eigenvector s i = inE (nth 0 (nth [::] evals s) i) *: eigenvector s i.
Definition exponential (inE : E -> K) (Hm : 'M[K]_NF) (X : Z -> 'M[K]_NF) : Prop := forall t (v : 'cV[K]_NF) e,
  Hm *m v = inE e *: v -> X t *m v = expf (- tick t * e) *: v.
Variables (inE : E -> K) (Hm : 'M[K]_NF) (X : Z -> 'M[K]_NF).
Hypothesis eigen : diagonalized inE Hm.
Hypothesis X_exp : exponential inE Hm X.

Lemma col_V y : col y V = eigenvector (at_ y).1 (at_ y).2.
Proof. by apply/colP => x; rewrite !mxE; case: eqP => // ->. Qed.
Lemma V_prop t : V *m prm t = expf (tick t * r) *: (X t *m V).
Proof.
apply/matrixP => x y; rewrite mul_mx_diag [LHS]mxE [in RHS]mxE.
have ly := at_lt y; have ly' := ly; rewrite uncut_dim in ly'.
have -> : (X t *m V) x y = (X t *m col y V) x 0 by rewrite !mxE; apply: eq_bigr => z _; rewrite !mxE.
have e : Hm *m col y V = inE (nth 0 (nth [::] evals (at_ y).1) (at_ y).2) *: col y V by rewrite col_V eigen.
rewrite (X_exp t e) !mxE [RHS]mulrA [RHS]mulrC -expD; congr (_ * _); rewrite uncut_energy //; congr expf.
by rewrite mulrBr !mulNr opprK addrC.
Qed.
Lemma V_word t c t' : V *m word opm prm t c t' = expf (tick (t' - t)%coqZ * r) *: (word fockmx X t c t' *m V).
Proof.
elim: c t => [|x c IH] t /=; first exact: V_prop.
rewrite mulmxA IH opm_fock -scalemxAl -!mulmxA V_prop -!scalemxAr scalerA -expD -mulrDl -tickD.
congr (expf (tick _ * _) *: _); first by lia.
by rewrite [X in _ *m X]mulmxA V_rows mul1mx.
Qed.
(** C66. The trace of the configuration is the trace of the time-ordered product of the given operators and of exp(-t Hm), up to the
    factor from the energies being counted from the lowest one. *)
Theorem C66_fock c beta : ft beta c = expf (tick beta * r) * \tr (word fockmx X 0%coqZ c beta).
Proof.
rewrite C66_uncut -[word _ _ _ _ _]mul1mx -V_columns -mulmxA V_word mxtrace_mulC -scalemxAl mxtraceZ -mulmxA V_rows mulmx1.
by rewrite Z.sub_0_r.
Qed.
End Hamiltonian.

(** The matrices with given values on the eigenvectors *)
Definition spectral_mx (g : E -> K) : 'M[K]_NF := V *m diag_mx (\row_y g (nth 0 (nth [::] evals (at_ y).1) (at_ y).2)) *m adj cj V.
Lemma spectral_col g y : spectral_mx g *m col y V = g (nth 0 (nth [::] evals (at_ y).1) (at_ y).2) *: col y V.
Proof.
rewrite colE /spectral_mx -mulmxA [adj cj V *m _]mulmxA V_columns mul1mx -mulmxA scalemxAr; congr (_ *m _).
apply/colP => x; rewrite mul_diag_mx !mxE; by case: (x =P y) => [->|]; rewrite ?mulr1 ?mulr0.
Qed.
(** C66. There is a Hamiltonian with the given energies and eigenvectors, and every such Hamiltonian has exponentials. *)
Theorem C66_hamiltonian (inE : E -> K) : exists Hm, diagonalized inE Hm.
Proof.
exists (spectral_mx inE) => s i hi.
have hx : (s, i) \in states B by rewrite mem_states /= uncut_dim.
have lx : (index (s, i) (states B) < N)%N by rewrite index_mem.
by have := spectral_col inE (Ordinal lx); rewrite col_V /= nth_index.
Qed.
Theorem C66_exponential (inE : E -> K) Hm : injective inE -> diagonalized inE Hm -> exists X, exponential inE Hm X.
Proof.
move=> inj eg; exists (fun t => spectral_mx (fun e => expf (- tick t * e))) => t v e hv.
have HV : Hm *m V = V *m diag_mx (\row_y inE (nth 0 (nth [::] evals (at_ y).1) (at_ y).2)).
  apply/matrixP => x y; rewrite mul_mx_diag [RHS]mxE.
  have -> : (Hm *m V) x y = (Hm *m col y V) x 0 by rewrite !mxE; apply: eq_bigr => z _; rewrite !mxE.
  have ly := at_lt y; rewrite uncut_dim in ly.
  by rewrite col_V eg // -col_V !mxE mulrC.
have [w vE] : exists w, v = V *m w by exists (adj cj V *m v); rewrite mulmxA V_rows mul1mx.
have wE : adj cj V *m v = w by rewrite vE mulmxA V_columns mul1mx.
have hw : diag_mx (\row_y inE (nth 0 (nth [::] evals (at_ y).1) (at_ y).2)) *m w = inE e *: w.
  have h : V *m (diag_mx (\row_y inE (nth 0 (nth [::] evals (at_ y).1) (at_ y).2)) *m w) = V *m (inE e *: w).
    by rewrite mulmxA -HV -mulmxA -vE hv -scalemxAr -vE.
  by rewrite -[LHS]mul1mx -V_columns -mulmxA h mulmxA V_columns mul1mx.
rewrite /spectral_mx -mulmxA wE -mulmxA [X in _ = _ *: X]vE scalemxAr; congr (_ *m _); apply/colP => y.
have := congr1 (fun M : 'cV_N => M y 0) hw; rewrite !mul_diag_mx !mxE => h.
have [->|nz] := eqVneq (w y 0) 0; first by rewrite !mulr0.
by have /inj -> := mulIf nz h.
Qed.
End Built.
Print Assumptions C66_uncut.
Print Assumptions C66_shift.
Print Assumptions C66_fock.
Print Assumptions C66_states.
Print Assumptions C66_hamiltonian.
Print Assumptions C66_exponential.

(** ** A concrete case: two flavors that are mixed by hopping. The sectors have 0, 1 and 2 particles; in the middle one the energies
    are 0 and 25, with the eigenvectors (3/5, 4/5) and (-4/5, 3/5). The doubly occupied state has the energy 3. *)
Definition c66_evals : seq (seq int) := [:: [:: 1]; [:: 0; 25%:Z]; [:: 3%:Z]].
Definition c66_rot : mat rat_numFieldType := Mat 2 2 (fun i j =>
  match i, j with 0%N, 0%N => 3%:Q / 5%:Q | 1%N, 0%N => 4%:Q / 5%:Q | 0%N, _ => - (4%:Q / 5%:Q) | _, _ => 3%:Q / 5%:Q end).
Definition c66_evecs : seq (mat rat_numFieldType) := [:: ex_one 1; c66_rot; ex_one 1].
Definition c66_conn : conn_t := fun o f s => if (f < 2)%N then
  match o, s with CREATION_OP, 0%N => Some 1%N | CREATION_OP, 1%N => Some 2%N | ANNIHILATION_OP, 1%N => Some 0%N | ANNIHILATION_OP, 2%N => Some 1%N
  | _, _ => None end else None.
(** c_0^+ |0> = |10>, c_1^+ |0> = |01>, c_0^+ |01> = |11>, c_1^+ |10> = -|11> *)
Definition c66_ops (o : optype) (f s : nat) : mat rat_numFieldType :=
  match o, s with
  | CREATION_OP, 0%N => Mat 2 1 (fun i _ => (i == f)%:R)
  | CREATION_OP, _ => Mat 1 2 (fun _ j => if f == 0%N then (j == 1%N)%:R else - (j == 0%N)%:R)
  | ANNIHILATION_OP, 1%N => Mat 1 2 (fun _ j => (j == f)%:R)
  | ANNIHILATION_OP, _ => Mat 2 1 (fun i _ => if f == 0%N then (i == 1%N)%:R else - (i == 0%N)%:R)
  end.
Definition c66_cj : {rmorphism rat_numFieldType -> rat_numFieldType} := [rmorphism of idfun].
Notation c66_basis := (build_basis c66_cj 100%:Z 50%:Z c66_evals c66_evecs c66_conn ex_rev c66_ops).
Lemma c66_dims s : mc (nth (mat0 rat_numFieldType) c66_evecs s) = size (nth [::] c66_evals s).
Proof. by case: s => [|[|[|s]]] //=; rewrite !nth_nil. Qed.
Lemma c66_square s : mr (nth (mat0 rat_numFieldType) c66_evecs s) = size (nth [::] c66_evals s).
Proof. by case: s => [|[|[|s]]] //=; rewrite !nth_nil. Qed.
Lemma c66_ops_dims o f s d : c66_conn o f s = Some d ->
  mc (c66_ops o f s) = mr (nth (mat0 rat_numFieldType) c66_evecs s) /\ mr (c66_ops o f s) = mr (nth (mat0 rat_numFieldType) c66_evecs d).
Proof. by rewrite /c66_conn; case: (f < 2)%N => //; case: o; case: s => [|[|[|s]]] //= [<-]. Qed.
Lemma c66_orthonormal s i j : (i < size (nth [::] c66_evals s))%N -> (j < size (nth [::] c66_evals s))%N ->
  \sum_(l < size (nth [::] c66_evals s)) c66_cj (me (nth (mat0 rat_numFieldType) c66_evecs s) l i) * me (nth (mat0 rat_numFieldType) c66_evecs s) l j = (i == j)%:R.
Proof.
case: s => [|[|[|s]]] /=; last by rewrite nth_nil.
- by case: i => //; case: j => // _ _; rewrite !big_ord_recl !big_ord0.
- by case: i => [|[|i]] //; case: j => [|[|j]] // _ _; rewrite !big_ord_recl !big_ord0; vm_compute.
- by case: i => //; case: j => // _ _; rewrite !big_ord_recl !big_ord0.
Qed.
Lemma c66_flag : translationally_invariant (EigenBasis.outer_bras rat_numFieldType 50%:Z 0 (b_evals c66_basis)) 2.
Proof. by vm_compute. Qed.
Notation c66_ft := (full_trace (outer_pairs c66_basis 50%:Z 0) (@ket_apply _ _ c66_basis (built_op_dims c66_dims c66_ops_dims))
  (ket_prop int_of_Z ex_exp_pos) (@bk_product _ _ c66_basis)).
(** The hypotheses of the theorems hold; for every configuration the sum over the outer states is the trace in the given basis. *)
Example C66_fock_instance : exists Hm X,
  [/\ @diagonalized _ _ c66_evals c66_evecs intr Hm, exponential ex_exp int_of_Z intr Hm X &
      forall c beta, c66_ft beta c = ex_exp (int_of_Z beta * reference 100%:Z 50%:Z c66_evals c66_evecs) *
        \tr (word (fockmx c66_evecs c66_conn c66_ops) X 0%coqZ c beta)].
Proof.
have [Hm hH] := C66_hamiltonian c66_dims erefl (flavors := 2) erefl c66_flag c66_square c66_orthonormal intr.
have [X hX] := C66_exponential ex_exp int_of_Z c66_dims erefl (flavors := 2) erefl c66_flag c66_square c66_orthonormal (@intr_inj _) hH.
exists Hm, X; split=> // c beta.
exact: (C66_fock ex_expD ex_exp_pos ex_tickD c66_dims erefl c66_ops_dims (flavors := 2) erefl c66_flag c66_square c66_orthonormal hH hX).
Qed.
(** Two operators at the times 1 and 3 of 4, shifted by 2: the second becomes the first *)
Example C66_shift_instance :
  let c := [:: Psi (OT 1 0) CREATION_OP 0; Psi (OT 3 0) ANNIHILATION_OP 1] in
  let c' := [:: Psi (OT 1 0) ANNIHILATION_OP 1; Psi (OT 3 0) CREATION_OP 0] in
  insert_all (map (operator_shift 4 2) c) = c' /\ c66_ft 4%coqZ c' = c66_ft 4%coqZ c.
Proof.
move=> c c'; have e : insert_all (map (operator_shift 4 2) c) = c' by [].
have h := C66_shift ex_expD ex_exp_pos ex_tickD c66_dims erefl c66_ops_dims (flavors := 2) erefl c66_flag (beta := 4%coqZ) (s := 2%coqZ) (c := c).
split; [exact: e|rewrite -e; apply: h].
- lia.
- by repeat constructor.
- by move=> x [<-|[<-|[]]]; rewrite /ptau /=; split; lia.
- by move=> x y [<-|[<-|[]]].
Qed.
