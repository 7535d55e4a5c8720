(** * C30, C46: energy cutoffs, normalization and propagation of bras and kets *)
From Coq Require Import ZArith.
From mathcomp Require Import all_ssreflect all_algebra zify.
From Verif Require Import OpContainer KField EigenBasis.
Import Order.Theory GRing.Theory Num.Theory.
Set Implicit Arguments.
Unset Strict Implicit.
Unset Printing Implicit Defensive.
Local Close Scope Z_scope.
Local Open Scope nat_scope.
Local Open Scope ring_scope.
Delimit Scope Z_scope with coqZ.

Section Norm.
Variable K : numFieldType.
Implicit Types (a : mat K) (b k : braket K).

(** ** Largest modulus *)
Lemma maxfold_ge (l : seq K) m : 0 <= m -> let r := foldl (fun m x => if m < `|x| then `|x| else m) m l in
  [/\ m <= r, forall x, x \in l -> `|x| <= r & r = m \/ exists2 x, x \in l & r = `|x|].
Proof.
elim: l m => [|x l IH] m hm /=; first by split=> //; left.
have hm' : 0 <= (if m < `|x| then `|x| else m) by case: ifP => // _; exact: normr_ge0.
have [h1 h2 h3] := IH _ hm'.
have rm : m \is Num.real by exact: ger0_real.
have hx : m <= (if m < `|x| then `|x| else m) /\ `|x| <= (if m < `|x| then `|x| else m).
  by case: (real_ltP rm (normr_real x)) => h; split=> //; exact: ltW.
split; first exact: le_trans hx.1 h1.
  by move=> y; rewrite inE => /orP[/eqP ->|/h2 //]; exact: le_trans hx.2 h1.
case: h3 => [->|[y hy ->]]; last by right; exists y; rewrite // inE hy orbT.
by case: ifP => _; [right; exists x; rewrite // mem_head|left].
Qed.
Lemma mem_entries a x : reflect (exists i j, [/\ (i < mr a)%N, (j < mc a)%N & x = me a i j]) (x \in entries a).
Proof.
apply: (iffP allpairsPdep) => [[j [i []]]|[i [j [hi hj ->]]]].
  by rewrite !mem_iota => /= h1 h2 ->; exists i, j.
by exists j, i; rewrite !mem_iota.
Qed.
(** What the maximum is: attained (or zero) and an upper bound. *)
Definition is_max (a : mat K) (m : K) : Prop :=
  [/\ 0 <= m, forall i j, (i < mr a)%N -> (j < mc a)%N -> `|me a i j| <= m &
      m = 0 \/ exists i j, [/\ (i < mr a)%N, (j < mc a)%N & m = `|me a i j|]].
Lemma maxabs_ok a : is_max a (maxabs a).
Proof.
have [h1 h2 h3] := @maxfold_ge (entries a) 0 (lexx 0); rewrite -/(maxabs a) in h1 h2 h3.
split=> //; first by move=> i j hi hj; apply: h2; apply/mem_entries; exists i, j.
case: h3 => [->|[x /mem_entries[i [j [hi hj ->]]] e]]; first by left.
by right; exists i, j.
Qed.
Lemma is_max_uniq a m m' : is_max a m -> is_max a m' -> m = m'.
Proof.
move=> [p1 u1 a1] [p2 u2 a2]; apply/eqP; rewrite eq_le; apply/andP; split.
  by case: a1 => [-> //|[i [j [hi hj ->]]]]; exact: u2.
by case: a2 => [-> //|[i [j [hi hj ->]]]]; exact: u1.
Qed.

(** ** C46: normalization *)
Definition val b (i j : nat) : K := coeff b * me (obj b) i j.

(** C46. Normalizing a bra or ket that is not identically zero keeps sector and dimensions, makes the largest modulus 1,
    and leaves the represented elements coeff * obj unchanged, except elements smaller than eps times the largest one,
    which become zero. A zero matrix becomes invalid; an invalid object is not touched. *)
Theorem C46_normalize eps b : 0 <= eps -> eps <= 1 ->
  (invalid b -> normalize eps b = b) /\
  (~~ invalid b -> (forall i j, (i < mr (obj b))%N -> (j < mc (obj b))%N -> me (obj b) i j = 0) -> invalid (normalize eps b)) /\
  (forall i0 j0, ~~ invalid b -> (i0 < mr (obj b))%N -> (j0 < mc (obj b))%N -> me (obj b) i0 j0 != 0 ->
     (forall i j, (i < mr (obj b))%N -> (j < mc (obj b))%N -> `|me (obj b) i j| <= `|me (obj b) i0 j0|) ->
     let b' := normalize eps b in
     [/\ ~~ invalid b', sector b' = sector b, mr (obj b') = mr (obj b) /\ mc (obj b') = mc (obj b),
         is_max (obj b') 1 &
         forall i j, (i < mr (obj b))%N -> (j < mc (obj b))%N ->
           val b' i j = val b i j \/ val b' i j = 0 /\ `|me (obj b) i j| < eps * `|me (obj b) i0 j0|]).
Proof.
move=> he0 he1; split; first by rewrite /normalize => ->.
split=> [hv hz|i0 j0 hv hi0 hj0 nz hmax].
  rewrite /normalize (negbTE hv).
  have -> : maxabs (obj b) == 0; last by rewrite /invalid eqxx.
  by have [_ _ [->|[i [j [hi hj ->]]]]] := maxabs_ok (obj b); rewrite ?eqxx // hz // normr0.
have em : maxabs (obj b) = `|me (obj b) i0 j0|.
  by apply: is_max_uniq (maxabs_ok _) _; split=> //; right; exists i0, j0.
have nm : maxabs (obj b) != 0 by rewrite em normr_eq0.
have pm : 0 < `|me (obj b) i0 j0| by rewrite normr_gt0.
rewrite /normalize (negbTE hv) (negbTE nm) /= em div1r; split=> //.
- split=> /= [|i j hi hj|]; first exact: ler01.
    case: ifP => _; first by rewrite normr0 ler01.
    rewrite normrM normfV normr_id ler_pdivr_mulr // mul1r; exact: hmax.
  right; exists i0, j0; split=> //; rewrite ifF; last first.
    apply/negP => h; have := lt_le_trans h (ler_wpmul2l (ltW pm) he1); by rewrite mulr1 ltxx.
  by rewrite normrM normfV normr_id divff // gt_eqF.
- move=> i j hi hj; rewrite /val /=; case: ifP => h; [right|left]; first by rewrite mulr0 mulrC.
  by rewrite mulrACA divff ?mulr1 // gt_eqF.
Qed.

(** A product of a bra and a ket changes at most by the dropped elements. *)
Theorem C46_product_error eps b k : 0 <= eps -> 0 <= coeff b -> 0 <= coeff k ->
  ~~ invalid b -> mc (obj b) = mr (obj k) -> mr (obj b) = mc (obj k) -> maxabs (obj k) != 0 ->
  `|product b (normalize eps k) - product b k|
    <= coeff b * coeff k * (eps * maxabs (obj b) * maxabs (obj k)) *+ (mr (obj b) * mc (obj b)).
Proof.
move=> he hcb hck hv d1 d2 nm.
have [pb ub _] := maxabs_ok (obj b); have [pk uk _] := maxabs_ok (obj k).
have pos : 0 <= coeff b * coeff k * (eps * maxabs (obj b) * maxabs (obj k)) *+ (mr (obj b) * mc (obj b)).
  by rewrite mulrn_wge0 // !mulr_ge0.
rewrite /product (negbTE hv) /normalize; case ik : (invalid k) => /=; first by rewrite ik subrr normr0.
rewrite (negbTE nm) /= {1}/invalid /=.
have -> : [|| sector k == None, mr (obj k) == 0%N | mc (obj k) == 0%N] = false by exact: ik.
case: eqP => es /=; last by rewrite subrr normr0.
rewrite d1 d2 !eqxx /= -mulrA -[coeff k * _ * _]mulrA -[coeff b * coeff k * _]mulrA -mulrBr normrM (ger0_norm hcb).
rewrite -[coeff b * coeff k * _]mulrA -mulrnAr ler_wpmul2l // -mulrBr normrM (ger0_norm hck) -mulrnAr ler_wpmul2l //.
rewrite /mtrace /mmul /= d2 mulr_sumr -sumrB.
apply: le_trans (ler_norm_sum _ _ _) _.
have hi (i : 'I_(mc (obj k))) : `|maxabs (obj k) * (\sum_(l < mc (obj b)) me (obj b) i l *
   (if `|me (obj k) l i| < maxabs (obj k) * eps then 0 else me (obj k) l i * (1 / maxabs (obj k)))) -
   \sum_(l < mc (obj b)) me (obj b) i l * me (obj k) l i| <= eps * maxabs (obj b) * maxabs (obj k) *+ mc (obj b).
  rewrite mulr_sumr -sumrB; apply: le_trans (ler_norm_sum _ _ _) _.
  rewrite -[in X in _ <= X](card_ord (mc (obj b))) -sumr_const; apply: ler_sum => l _.
  case: ifP => h.
    rewrite mulr0 mulr0 sub0r normrN normrM -mulrA mulrCA ler_pmul //.
      by apply: ub => //; rewrite d2.
    by rewrite mulrC; exact: ltW.
  by rewrite mulrCA [maxabs _ * (_ * _)]mulrCA div1r divff // mulr1 subrr normr0 !mulr_ge0.
apply: le_trans (ler_sum _ (fun i _ => hi i)) _.
by rewrite sumr_const card_ord -mulrnA d1 mulnC.
Qed.
End Norm.
Print Assumptions C46_normalize.
Print Assumptions C46_product_error.

(** ** C46: exponentials *)
Section Exp.
Variables (E : realDomainType) (K : numFieldType) (expf : E -> K).
Hypothesis expD : forall x y, expf (x + y) = expf x * expf y.
Hypothesis exp_mono : forall x y, (expf x < expf y) = (x < y).
Hypothesis exp_pos : forall x, 0 < expf x.

Lemma max_elt_fold (l : seq E) m : let r := foldl (fun m x => if m < x then x else m) m l in
  r \in m :: l /\ forall x, x \in m :: l -> x <= r.
Proof.
elim: l m => [|y l IH] m /=; first by split; rewrite ?mem_head // => x; rewrite mem_seq1 => /eqP ->.
have [h1 h2] := IH (if m < y then y else m); split.
  by move: h1; rewrite !inE; case: (ltP m y) => _ /orP[/eqP ->|->]; rewrite ?eqxx ?orbT.
move=> x; rewrite !inE => h; have hm := h2 _ (mem_head _ _).
case: (ltP m y) h2 hm => hmy h2 hm; case/or3P: h => [/eqP ->|/eqP ->|hx] //; try by apply: h2; rewrite inE hx orbT.
  exact: le_trans (ltW hmy) hm.
exact: le_trans hmy hm.
Qed.
Lemma max_elt_ok (a : seq E) : a != [::] -> max_elt a \in a /\ forall x, x \in a -> x <= max_elt a.
Proof. by case: a => // x a _; exact: max_elt_fold. Qed.

(** C46. The returned coefficient is the largest of the factors exp(-tau E_j) and coefficient times vector is
    exp(-tau E_i), except where this is smaller than exp(-60) times the largest factor. *)
Theorem C46_exp_vector c60 tau (energies : seq E) : energies != [::] ->
  let: (c, v) := compute_exp_vector_safe expf (Some c60) tau energies in
  [/\ size v = size energies,
      exists2 j, (j < size energies)%N & c = expf (- tau * nth 0 energies j),
      forall j, (j < size energies)%N -> expf (- tau * nth 0 energies j) <= c &
      forall i, (i < size energies)%N ->
        c * nth 0 v i = expf (- tau * nth 0 energies i) \/
        nth 0 v i = 0 /\ expf (- tau * nth 0 energies i) < expf (- c60) * c].
Proof.
move=> ne; rewrite /compute_exp_vector_safe; set a := [seq - tau * e | e <- energies].
have na : a != [::] by rewrite -size_eq0 size_map size_eq0.
have sa : size a = size energies by rewrite size_map.
have nth_a i : (i < size energies)%N -> nth 0 a i = - tau * nth 0 energies i by move=> h; rewrite (nth_map 0).
have [h1 h2] := max_elt_ok na.
have emle x y : x <= y -> expf x <= expf y.
  by rewrite le_eqVlt => /orP[/eqP -> //|]; rewrite -exp_mono => /ltW.
split; first by rewrite size_map sa.
- by exists (index (max_elt a) a); rewrite -?sa ?index_mem // -nth_a -?sa ?index_mem // nth_index.
- by move=> j hj; apply: emle; rewrite -nth_a //; apply: h2; apply: mem_nth; rewrite sa.
move=> i hi; rewrite (nth_map 0) ?sa // nth_a //; case: ifP => [h|_]; [right|left].
  by split=> //; rewrite -expD exp_mono -ltr_subl_addr.
by rewrite -expD addrC subrK.
Qed.

(** Without the cutoff at 60 the factors are exact. *)
Lemma exp_vector_exact tau (energies : seq E) i : (i < size energies)%N ->
  (compute_exp_vector_safe expf None tau energies).1 * nth 0 (compute_exp_vector_safe expf None tau energies).2 i
  = expf (- tau * nth 0 energies i).
Proof.
move=> hi; rewrite /compute_exp_vector_safe /= (nth_map 0) ?size_map // (nth_map 0) //.
by rewrite -expD addrC subrK.
Qed.
End Exp.
Print Assumptions C46_exp_vector.

(** ** C30: removal of high-energy states *)
Section Remove.
Variables (E : realDomainType) (K : numFieldType).

(** Specification: positions of the kept eigenstates, in order. *)
Definition kept (cutoff : E) (evals : seq E) : seq nat := [seq i <- iota 0 (size evals) | nth 0 evals i <= cutoff].

Lemma count_kept (cutoff : E) evals : count (fun e => e <= cutoff) evals = size (kept cutoff evals).
Proof.
rewrite /kept size_filter -[in LHS](mkseq_nth 0 evals) /mkseq count_map; by apply: eq_count => i /=.
Qed.

Lemma rm_loop (cutoff : E) evals (evecs : mat K) n N r : (n <= size evals)%N ->
  let keep := [seq i <- iota 0 n | nth 0 evals i <= cutoff] in
  (size keep <= N)%N ->
  let: (act, ev, ec) := foldl (rm_step cutoff evals evecs) (0%N, nseq N 0, Mat r N (fun _ _ => 0)) (iota 0 n) in
  [/\ act = size keep, size ev = N, mr ec = r /\ mc ec = N &
      forall l, (l < act)%N -> nth 0 ev l = nth 0 evals (nth 0%N keep l) /\ forall i, me ec i l = me evecs i (nth 0%N keep l)].
Proof.
elim: n => [|n IH] hn; first by rewrite /= size_nseq.
rewrite -[n.+1]addn1 iotaD add0n foldl_cat filter_cat /= => hN.
have hN' : (size [seq i <- iota 0 n | (nth 0 evals i <= cutoff)%R] <= N)%N by apply: leq_trans hN; rewrite size_cat leq_addr.
have := IH (ltnW hn) hN'; case: (foldl _ _ _) => [[act ev] ec] [h1 h2 h3 h4] /=; rewrite ltNge.
move: hN; case hc : (nth 0 evals n <= cutoff) => /= hN; last by rewrite cats0.
rewrite cats1 size_rcons; split=> //=.
- by rewrite h1.
- by rewrite size_set_nth h2; move: hN; rewrite size_cat /= -h1; lia.
move=> l; rewrite ltnS leq_eqVlt nth_rcons -h1 nth_set_nth /= => /orP[/eqP ->|hl]; first by rewrite ltnn !eqxx.
by rewrite hl (ltn_eqF hl); exact: h4.
Qed.

(** C30. In each sector exactly the eigenstates with energy at most the cutoff are kept, in order: energies and
    eigenvectors alike. A sector without such a state becomes empty. *)
Theorem C30_kept (cutoff : E) evals (evecs : mat K) : mc evecs = size evals ->
  let: (ev, ec) := rm_sector cutoff evals evecs in
  [/\ ev = [seq e <- evals | e <= cutoff], mc ec = size (kept cutoff evals),
      kept cutoff evals != [::] -> mr ec = mr evecs &
      forall l i, (l < size (kept cutoff evals))%N -> me ec i l = me evecs i (nth 0%N (kept cutoff evals) l)].
Proof.
move=> hc; rewrite /rm_sector count_kept; case: eqP => [/eqP|] hk.
  have e0 : kept cutoff evals = [::] by apply/eqP; rewrite -size_eq0.
  rewrite e0 /=; split=> //; apply/esym/eqP; rewrite -size_eq0 size_filter count_kept; exact: hk.
have := @rm_loop cutoff evals evecs (size evals) (size (kept cutoff evals)) (mr evecs) (leqnn _) (leqnn _).
case: (foldl _ _ _) => [[act ev] ec] [h1 h2 [h3 h4] h5]; split=> //; last first.
  by move=> l i hl; rewrite (h5 l _).2 ?h1.
apply: (@eq_from_nth _ 0); first by rewrite h2 -count_kept -size_filter.
move=> l; rewrite h2 => hl; rewrite (h5 l _).1 ?h1 // -/(kept cutoff evals).
have -> : [seq e <- evals | e <= cutoff] = [seq nth 0 evals i | i <- kept cutoff evals].
  rewrite -[in LHS](mkseq_nth 0 evals) /mkseq filter_map; by congr map.
by rewrite (nth_map 0%N).
Qed.

(** All sectors. *)
Theorem C30_kept_all (cutoff : E) evals (evecs : seq (mat K)) s : (s < size evals)%N ->
  let: (ev, ec) := remove_high_energy_states evals evecs cutoff in
  size ev = size evals /\ (nth [::] ev s, nth (mat0 K) ec s) = rm_sector cutoff (nth [::] evals s) (nth (mat0 K) evecs s).
Proof.
move=> hs; rewrite /remove_high_energy_states size_map size_iota; split=> //.
by rewrite !(nth_map 0%N) ?size_iota // nth_iota // add0n -surjective_pairing.
Qed.

(** Lowest eigenvalue *)
Lemma min_of_ok (m : E) l : min_of m l \in m :: l /\ forall x, x \in m :: l -> min_of m l <= x.
Proof.
rewrite /min_of; elim: l m => [|y l IH] m /=; first by split; rewrite ?mem_head // => x; rewrite mem_seq1 => /eqP ->.
have [h1 h2] := IH (if y < m then y else m); split.
  by move: h1; rewrite !inE; case: (ltP y m) => _ /orP[/eqP ->|->]; rewrite ?eqxx ?orbT.
move=> x; rewrite !inE => h; have hm := h2 _ (mem_head _ _).
case: (ltP y m) h2 hm => hmy h2 hm; case/or3P: h => [/eqP ->|/eqP ->|hx] //; try by apply: h2; rewrite inE hx orbT.
  exact: le_trans hm (ltW hmy).
exact: le_trans hm hmy.
Qed.
Lemma eigenvalue_min_ok (big : E) evals : (forall e, e \in flatten evals -> e < big) -> flatten evals != [::] ->
  eigenvalue_min big evals \in flatten evals /\ forall e, e \in flatten evals -> eigenvalue_min big evals <= e.
Proof.
have gen (m : E) evs : let r := foldl (fun m l => if l is x :: l' then (let t := min_of x l' in if t < m then t else m) else m) m evs in
    [/\ r \in m :: flatten evs, r <= m & forall e, e \in flatten evs -> r <= e].
  elim: evs m => [|l evs IH] m /=; first by rewrite mem_head lexx.
  case: l => [|x l] /=; first exact: IH.
  have [p1 p2] := min_of_ok x l; set t := min_of x l in p1 p2 *.
  have [h1 h2 h3] := IH (if t < m then t else m); split.
  - move: h1; rewrite !inE mem_cat; case: ifP => _ /orP[/eqP ->|->]; rewrite ?eqxx ?orbT //.
    by move: p1; rewrite inE => /orP[->|->]; rewrite ?orbT.
  - by apply: le_trans h2 _; case: (ltP t m) => // /ltW.
  - have ht : (if t < m then t else m) <= t by case: (ltP t m).
    move=> e; rewrite inE mem_cat => /or3P[/eqP ->|he|/h3 //]; apply: le_trans h2 (le_trans ht (p2 _ _)).
      exact: mem_head.
    by rewrite inE he orbT.
move=> hb hn; have [h1 h2 h3] := gen big evals; split=> //.
move: h1; rewrite inE => /orP[/eqP e|//].
case e1 : (flatten evals) hn => [//|y l] _; have hy : y \in flatten evals by rewrite e1 mem_head.
by have := le_lt_trans (h3 y hy) (hb y hy); rewrite e ltxx.
Qed.

(** C30. After the transitions are restricted, an operator has a destination exactly if it had one before and the
    destination kept at least one state. *)
Theorem C30_connection (evals : seq (seq E)) conn o f s d :
  restrict evals conn o f s = Some d <-> conn o f s = Some d /\ nth [::] evals d != [::].
Proof.
rewrite /restrict /is_sector_active; case e : (conn o f s) => [d'|]; last by split=> [|[]].
rewrite size_eq0; case: ifP => h; split=> //; first by case=> <-.
  by case.
by case=> -[<-]; rewrite (negbFE h).
Qed.
End Remove.
Print Assumptions C30_kept.
Print Assumptions C30_kept_all.
Print Assumptions C30_connection.

Section Basis.
Variables (E : realDomainType) (K : numFieldType) (cj : K -> K) (big inner : E).
Variables (evals : seq (seq E)) (evecs : seq (mat K)) (conn rev : conn_t) (ops : optype -> nat -> nat -> mat K).
Notation B := (build_basis cj big inner evals evecs conn rev ops).
Notation cutoff := (eigenvalue_min big evals + inner).
Notation keep s := (kept cutoff (nth [::] evals s)).
Notation ev := (remove_high_energy_states evals evecs cutoff).1.
Notation ec := (remove_high_energy_states evals evecs cutoff).2.
Definition reference : E := eigenvalue_min big ev.

Hypothesis dims : forall s, mc (nth (mat0 K) evecs s) = size (nth [::] evals s).
Hypothesis sizes : size evecs = size evals.

Lemma ev_nth s : nth [::] ev s = [seq e <- nth [::] evals s | e <= cutoff].
Proof.
rewrite /remove_high_energy_states /=; case: (ltnP s (size evals)) => hs; last first.
  by rewrite [nth _ evals s]nth_default //= nth_default // size_map size_iota.
rewrite (nth_map 0%N) ?size_iota // nth_iota // add0n.
by have := C30_kept cutoff (dims s); case: (rm_sector _ _ _) => e c [-> _ _ _].
Qed.
Lemma ev_size s : size (nth [::] ev s) = size (keep s).
Proof. by rewrite ev_nth size_filter count_kept. Qed.
Lemma keep_nil s : (size evals <= s)%N -> keep s = [::].
Proof. by move=> h; rewrite nth_default. Qed.
Lemma ec_nth s : [/\ mc (nth (mat0 K) ec s) = size (keep s), keep s != [::] -> mr (nth (mat0 K) ec s) = mr (nth (mat0 K) evecs s) &
  forall l i, (l < size (keep s))%N -> me (nth (mat0 K) ec s) i l = me (nth (mat0 K) evecs s) i (nth 0%N (keep s) l)].
Proof.
rewrite /remove_high_energy_states /=; case: (ltnP s (size evals)) => hs; last first.
  by rewrite keep_nil // nth_default // size_map size_iota.
rewrite (nth_map 0%N) ?size_iota // nth_iota // add0n.
by have := C30_kept cutoff (dims s); case: (rm_sector _ _ _) => e c [_ h1 h2 h3].
Qed.
Lemma b_evals_nth s : nth [::] (b_evals B) s = [seq e - reference | e <- nth [::] evals s & e <= cutoff].
Proof.
rewrite /build_basis /= -ev_nth; case: (ltnP s (size ev)) => hs; first by rewrite (nth_map [::]).
have e : nth [::] ev s = [::] by rewrite nth_default.
by rewrite e nth_default // size_map.
Qed.
Lemma b_conn_some o f s d : b_conn B o f s = Some d <-> conn o f s = Some d /\ keep d != [::].
Proof. by rewrite [b_conn B]/(restrict ev conn) C30_connection -size_eq0 ev_size size_eq0. Qed.
Lemma b_rev_some o f d s : b_rev B o f d = Some s <-> rev o f d = Some s /\ keep s != [::].
Proof. by rewrite [b_rev B]/(restrict ev rev) C30_connection -size_eq0 ev_size size_eq0. Qed.

(** C30. The energies in use are those of the kept states relative to the lowest one: with a cutoff above the lowest
    energy they are nonnegative, and the lowest is 0. *)
Theorem C30_energies : (forall e, e \in flatten evals -> e < big) -> flatten evals != [::] -> 0 <= inner ->
  [/\ forall s, nth [::] (b_evals B) s = [seq e - eigenvalue_min big evals | e <- nth [::] evals s & e <= cutoff],
      forall e, e \in flatten (b_evals B) -> 0 <= e & 0 \in flatten (b_evals B)].
Proof.
move=> hb hn hi; have [m1 m2] := eigenvalue_min_ok hb hn; set m := eigenvalue_min big evals in m1 m2 *.
have mem_ev e : (e \in flatten ev) = (e \in flatten evals) && (e <= m + inner).
  apply/flattenP/andP => [[l hl he]|[/flattenP[l hl he] hc]].
    move: he; rewrite -(nth_index [::] hl) ev_nth mem_filter => /andP[hc he]; split=> //.
    apply/flattenP; exists (nth [::] evals (index l ev)) => //; apply: mem_nth.
    by move: hl; rewrite -index_mem /remove_high_energy_states /= size_map size_iota.
  exists (nth [::] ev (index l evals)); last by rewrite ev_nth nth_index // mem_filter hc.
  by apply: mem_nth; rewrite /remove_high_energy_states /= size_map size_iota index_mem.
have mev : m \in flatten ev by rewrite mem_ev m1 ler_addl.
have er : reference = m.
  have [||p1 p2] := @eigenvalue_min_ok E big ev.
  - by move=> e; rewrite mem_ev => /andP[/hb].
  - by apply/eqP => e0; rewrite e0 in mev.
  by apply/eqP; rewrite eq_le p2 //= m2 //; move: p1; rewrite mem_ev => /andP[].
split=> [s|e|]; first by rewrite b_evals_nth er.
  rewrite /build_basis /= -/reference er => /flattenP[l /mapP[l' hl' ->] /mapP[e' he' ->]].
  rewrite subr_ge0; apply: m2; have : e' \in flatten ev by apply/flattenP; exists l'.
  by rewrite mem_ev => /andP[].
case/flattenP: mev => l hl hm; apply/flattenP; exists [seq e - m | e <- l].
  by rewrite /build_basis /= -/reference er; apply/mapP; exists l.
by apply/mapP; exists m; rewrite ?subrr.
Qed.

(** C30. Between kept states the operators have exactly the elements they have in the full eigenbasis. *)
Theorem C30_operator o f s d : conn o f s = Some d -> keep s != [::] -> keep d != [::] ->
  mc (ops o f s) = mr (nth (mat0 K) evecs s) -> mr (ops o f s) = mr (nth (mat0 K) evecs d) ->
  let full := mmul (mmul (madj cj (nth (mat0 K) evecs d)) (ops o f s)) (nth (mat0 K) evecs s) in
  [/\ mr (b_ops B o f s) = size (keep d), mc (b_ops B o f s) = size (keep s) &
      forall i j, (i < size (keep d))%N -> (j < size (keep s))%N ->
        me (b_ops B o f s) i j = me full (nth 0%N (keep d) i) (nth 0%N (keep s) j)].
Proof.
move=> hc ks kd e1 e2 full.
have hb : b_conn B o f s = Some d by apply/b_conn_some.
have -> : b_ops B o f s = mmul (mmul (madj cj (nth (mat0 K) ec d)) (ops o f s)) (nth (mat0 K) ec s).
  rewrite /build_basis /= -/ev [restrict _ _ _ _ _]hb !ev_size !size_eq0 ks kd //.
have [a1 a2 a3] := ec_nth s; have [c1 c2 c3] := ec_nth d.
split=> // i j hi hj; rewrite /full /=; apply: eq_bigr => k _; rewrite a3 //; congr (_ * _).
rewrite (c2 kd); apply: eq_bigr => l _; by rewrite c3.
Qed.

Variables (eps : K) (expf : E -> K) (cut60 : option E) (tick : Z -> E).

(** C30. An operator leading to a sector without kept states gives zero with every bra and every ket. *)
Theorem C30_removed_zero o f s d k b : conn o f s = Some d -> keep d = [::] -> sector k = Some s ->
  product b (apply_ket eps B o f k) = 0.
Proof.
move=> hc kd hs; have hb : b_conn B o f s = None.
  by case e : (b_conn B o f s) => [d'|//]; move/b_conn_some: e => [e]; move: e; rewrite hc => -[<-]; rewrite kd.
rewrite /apply_ket; case: ifP => hv; first by rewrite /product hv orbT.
by rewrite hs hb /product /= /invalid /= !orbT.
Qed.
Theorem C30_removed_zero_bra o f s d k b : rev o f d = Some s -> keep s = [::] -> sector b = Some d ->
  product (apply_bra eps B o f b) k = 0.
Proof.
move=> hc ks hs; have hb : b_rev B o f d = None.
  by case e : (b_rev B o f d) => [s'|//]; move/b_rev_some: e => [e]; move: e; rewrite hc => -[<-]; rewrite ks.
rewrite /apply_bra; case: ifP => hv; first by rewrite /product hv.
by rewrite hs hb /product /= /invalid /=.
Qed.
End Basis.
Print Assumptions C30_energies.
Print Assumptions C30_operator.
Print Assumptions C30_removed_zero.
Print Assumptions C30_removed_zero_bra.

(** C30. Propagation over a nonnegative time gives the kept states the same factors as in the full spectrum, including
    the common coefficient and the elements dropped at exp(-60). *)
Theorem C30_propagation (E : realDomainType) (K : numFieldType) (expf : E -> K) cut60 (cutoff tau : E) (energies : seq E) :
  0 <= tau -> kept cutoff energies != [::] ->
  let: (c, v) := compute_exp_vector_safe expf cut60 tau energies in
  let: (c', v') := compute_exp_vector_safe expf cut60 tau [seq e <- energies | e <= cutoff] in
  c' = c /\ forall l, (l < size (kept cutoff energies))%N -> nth 0 v' l = nth 0 v (nth 0%N (kept cutoff energies) l).
Proof.
move=> ht hk; rewrite /compute_exp_vector_safe.
have ek : [seq e <- energies | e <= cutoff] = [seq nth 0 energies i | i <- kept cutoff energies].
  rewrite -[in LHS](mkseq_nth 0 energies) /mkseq filter_map; by congr map.
have ne : [seq - tau * e | e <- energies] != [::].
  by rewrite -size_eq0 size_map; move: hk; rewrite /kept; case: (energies).
have nk : [seq - tau * e | e <- energies & e <= cutoff] != [::] by rewrite -size_eq0 size_map ek size_map size_eq0.
have [m1 m2] := max_elt_ok ne; have [n1 n2] := max_elt_ok nk.
have em : max_elt [seq - tau * e | e <- energies & e <= cutoff] = max_elt [seq - tau * e | e <- energies].
  apply/eqP; rewrite eq_le; apply/andP; split.
    apply: m2; case/mapP: n1 => e; rewrite mem_filter => /andP[_ he] ->; exact: map_f.
  case/mapP: m1 => e0 he0 ->; case: (lerP e0 cutoff) => h0.
    by apply: n2; apply: map_f; rewrite mem_filter h0.
  case/mapP: n1 => e1; rewrite mem_filter => /andP[h1 he1] e1m.
  have hm : - tau * e1 \in [seq - tau * e | e <- energies & e <= cutoff] by apply: map_f; rewrite mem_filter h1.
  apply: le_trans (n2 _ hm).
  by rewrite !mulNr ler_opp2 ler_wpmul2l // (le_trans h1 (ltW h0)).
rewrite em; split=> // l hl.
have hkl : (nth 0%N (kept cutoff energies) l < size energies)%N.
  by have := mem_nth 0%N hl; rewrite mem_filter mem_iota => /andP[_ /andP[]].
rewrite ek -!map_comp !(nth_map 0%N) ?(nth_map 0) ?size_map //.
Qed.
Print Assumptions C30_propagation.

(** ** Translational invariance *)
Section Invariance.
Variables (E : realDomainType) (K : numFieldType).

Lemma count_outer (c : E) (l : seq E) : size [seq i <- iota 0 (size l) | nth 0 l i <= c] = count (fun e => e <= c) l.
Proof. by rewrite count_kept. Qed.

(** C30. The flag enabling rejection-free global shifts is set exactly if no eigenstate at all was cut away. *)
Theorem C30_translationally_invariant (cj : K -> K) (big inner outer emin : E) evals (evecs : seq (mat K)) conn rev ops flavors :
  size evecs = size evals -> (forall s, mc (nth (mat0 K) evecs s) = size (nth [::] evals s)) ->
  size (flatten evals) = (2 ^ flavors)%N ->
  let B := build_basis cj big inner evals evecs conn rev ops in
  translationally_invariant (outer_bras K outer emin (b_evals B)) flavors <->
  forall e, e \in flatten evals -> e <= eigenvalue_min big evals + inner /\ e - reference big inner evals evecs <= outer + emin.
Proof.
move=> hsz dims tot B; rewrite /translationally_invariant -tot.
set m := eigenvalue_min big evals; set r := reference big inner evals evecs.
set p := fun e : E => (e <= m + inner) && (e - r <= outer + emin).
have sB : size (b_evals B) = size evals by rewrite /B /build_basis /= !size_map size_iota.
have -> : sumn [seq min_dim b | b <- outer_bras K outer emin (b_evals B)] = count p (flatten evals).
  rewrite /outer_bras /outer_kets -!map_comp count_flatten.
  have -> : [seq count p l | l <- evals] = [seq count (fun e => e <= outer + emin) (nth [::] (b_evals B) s) | s <- iota 0 (size (b_evals B))].
    rewrite -[in LHS](mkseq_nth [::] evals) /mkseq -map_comp sB; apply/eq_in_map => s _ /=.
    rewrite /B b_evals_nth // count_map count_filter; apply: eq_count => e /=; by rewrite /p andbC.
  elim: (iota 0 _) => //= s l IH; rewrite -{}IH; case: ifP => h /=.
    congr (_ + _)%N; rewrite /min_dim /= count_outer; apply/minn_idPl; exact: count_size.
  suff -> : count (fun e => e <= outer + emin) (nth [::] (b_evals B) s) = 0%N by [].
  apply/eqP; rewrite -leqn0 leqNgt -has_count; apply/negP => h1; move: h; rewrite h1 andbT /is_sector_active size_eq0.
  by case: (nth _ _ s) h1.
split=> [h e he|h].
  have : all p (flatten evals) by rewrite all_count.
  by move/allP/(_ e he)/andP.
by rewrite -all_count; apply/allP => e /h[h1 h2]; apply/andP.
Qed.
End Invariance.
Print Assumptions C30_translationally_invariant.
