(** * C24: the lazy trace evaluation decides like the full trace *)
From Coq Require Import ZArith Lia List Bool.
From mathcomp Require Import all_ssreflect all_algebra zify.
From Verif Require Import OpContainer KField Updater Window T_Window T_WindowTrace LazyTrace.
Import Order.Theory GRing.Theory Num.Theory.
Set Implicit Arguments.
Unset Strict Implicit.
Unset Printing Implicit Defensive.
Local Close Scope Z_scope.
Local Open Scope nat_scope.
Delimit Scope Z_scope with coqZ.
Local Open Scope ring_scope.

Section Lazy.
Variable K : numFieldType.

Lemma asumE (s : seq K) : asum s = \sum_(x <- s) x.
Proof.
rewrite /asum; have h : forall a, foldl (fun a x => a + x) a s = a + \sum_(x <- s) x; last by rewrite h add0r.
by elim: s => [|x s IH] a /=; rewrite ?big_nil ?addr0 // big_cons IH addrA.
Qed.
Lemma sumK_asum (s : seq K) : sumK s = asum s.
Proof. by rewrite /sumK /asum; elim: s 0 => //=. Qed.
Lemma asum_nth n (s : seq K) : size s = n -> asum s = \sum_(i < n) nth 0 s i.
Proof. by move=> <-; rewrite asumE (big_nth 0) big_mkord. Qed.

(** ** Specification: [cs] are the contributions, [bs] bounds of their absolute values. *)
Definition total (cs : seq K) : K := \sum_(c <- cs) c.
Definition bounds (bs cs : seq K) : Prop := size bs = size cs /\ forall i, (i < size cs)%N -> `|nth 0 cs i| <= nth 0 bs i.
(** std::sort in decreasing order *)
Definition descending (bs : seq K) (order : seq nat) : Prop :=
  perm_eq order (iota 0 (size bs)) /\ sorted (fun i j => nth 0 bs j <= nth 0 bs i) order.

Variable eps : K.
Hypothesis eps_ge0 : 0 <= eps.

(** Loop invariant: the indices in [idx] are still to do. *)
Record inv (cs : seq K) (idx : seq nat) (bs0 bs : seq K) (sum : K) : Prop := Inv {
  i_size : size bs = size cs;
  i_uniq : uniq idx;
  i_lt : all (fun i => i < size cs)%N idx;
  i_todo : forall i, i \in idx -> nth 0 bs i = nth 0 bs0 i;
  i_done : forall i, (i < size cs)%N -> i \notin idx -> nth 0 bs i = `|nth 0 cs i|;
  i_sum : total cs = sum + \sum_(i <- idx) nth 0 cs i }.

Lemma asum_bound bs cs : bounds bs cs -> `|total cs| <= asum bs.
Proof.
move=> [hs hb]; rewrite (asum_nth hs) /total (big_nth 0) big_mkord.
by apply: le_trans (ler_norm_sum _ _ _) _; apply: ler_sum => i _; exact: hb.
Qed.

Lemma inv_bounds cs idx bs0 bs sum : bounds bs0 cs -> inv cs idx bs0 bs sum -> bounds bs cs.
Proof.
move=> [hs0 hb] [hs hu hl ht hd _]; split=> // i hi; case: (boolP (i \in idx)) => h; last by rewrite hd.
by rewrite ht //; exact: hb.
Qed.

Lemma inv_step cs i r bs0 bs sum : inv cs (i :: r) bs0 bs sum ->
  inv cs r bs0 (set_nth 0 bs i `|nth 0 cs i|) (sum + nth 0 cs i).
Proof.
case=> hs /= /andP[hi hu] /andP[li hl] ht hd e; split=> //.
- by rewrite size_set_nth hs; apply/maxn_idPr.
- move=> j hj; rewrite nth_set_nth /=; case: eqP => [ej|_]; first by rewrite -ej hj in hi.
  by apply: ht; rewrite inE hj orbT.
- move=> j lj hj; rewrite nth_set_nth /=; case: eqP => [->//|/eqP ne].
  by apply: hd => //; rewrite inE negb_or ne.
- by rewrite e big_cons addrA.
Qed.

Lemma bound_nneg bs cs i : bounds bs cs -> (i < size cs)%N -> 0 <= nth 0 bs i.
Proof. by move=> [_ h] hi; apply: le_trans (h i hi). Qed.

Definition geb (bs : seq K) (i j : nat) : bool := nth 0 bs j <= nth 0 bs i.
Lemma geb_trans bs : transitive (geb bs).
Proof. by move=> i j k h1 h2; exact: le_trans h2 h1. Qed.

(** What remains after a break is small. *)
Lemma rest_small cs idx bs0 bs sum i r : bounds bs0 cs -> inv cs idx bs0 bs sum -> idx = i :: r ->
  sorted (geb bs0) idx -> nth 0 bs i <= eps * `|sum| -> `|total cs - sum| <= (size idx)%:R * (eps * `|sum|).
Proof.
move=> hb hi e hsrt hlt; rewrite (i_sum hi) [sum + _]addrC addrK.
apply: le_trans (ler_norm_sum _ _ _) _.
rewrite mulr_natl -[size idx]subn0 -sumr_const_nat (big_nth 0%N) [X in X <= _]big_nat [X in _ <= X]big_nat; apply: ler_sum => j /andP[_ lj].
have mj : nth 0%N idx j \in idx by exact: mem_nth.
have lj' : (nth 0%N idx j < size cs)%N by move/allP: (i_lt hi) => /(_ _ mj).
apply: le_trans (hb.2 _ lj') _.
have ii : i \in idx by rewrite e mem_head.
apply: le_trans _ hlt; rewrite (i_todo hi ii).
move: mj hsrt; rewrite e inE => /orP[/eqP->//|mj] /= hsrt.
by move/allP: (order_path_min (@geb_trans bs0) hsrt) => /(_ _ mj).
Qed.

Lemma inv_init bs cs order : bounds bs cs -> descending bs order -> inv cs order bs bs 0.
Proof.
move=> [hs hb] [hp _]; split=> //.
- by rewrite (perm_uniq hp) iota_uniq.
- by apply/allP => i; rewrite (perm_mem hp) mem_iota hs.
- by move=> i hi; rewrite (perm_mem hp) mem_iota /= hs hi.
- by rewrite add0r (perm_big _ hp) /= /total (big_nth 0) -[iota 0 _]/(iota 0 (size bs)) hs /index_iota subn0.
Qed.

Lemma loop_spec cs cutoff idx bs0 bs sum : bounds bs0 cs -> inv cs idx bs0 bs sum -> sorted (geb bs0) idx ->
  let: (b, v) := lazy_loop eps cs cutoff idx bs sum in
  (b = false /\ v = 0 /\ `|total cs| < cutoff) \/
  (b = (cutoff < `|v|) /\ `|total cs - v| <= (size cs)%:R * (eps * `|v|)).
Proof.
move=> hb; elim: idx bs sum => [|i r IH] bs sum hi hs /=.
  right; split=> //; rewrite (i_sum hi) big_nil addr0 subrr normr0.
  by rewrite mulr_ge0 ?ler0n // mulr_ge0.
case: ifP => hbr.
  right; split=> //; apply: le_trans (rest_small hb hi erefl hs (ltW hbr)) _.
  apply: ler_wpmul2r; first by rewrite mulr_ge0.
  rewrite ler_nat; have hu := i_uniq hi; rewrite -(size_iota 0 (size cs)).
  by apply: uniq_leq_size hu _ => j hj; rewrite mem_iota; move/allP: (i_lt hi) => /(_ _ hj).
have hi' := inv_step hi.
case: ifP => hc; last by apply: IH hi' _; exact: path_sorted hs.
left; split=> //; split=> //; exact: le_lt_trans (asum_bound (inv_bounds hb hi')) hc.
Qed.

(** Any order of equal bounds, any cutoff: an early rejection is right, and otherwise the decision is made with a value
    whose error is below the number of sectors times eps. *)
Theorem C24_decision order bs cs cutoff b v : bounds bs cs -> descending bs order ->
  lazy_eval_trace eps order bs cs cutoff = (b, v) ->
  (b = false /\ v = 0 /\ `|total cs| < cutoff) \/
  (b = (cutoff < `|v|) /\ `|total cs - v| <= (size cs)%:R * (eps * `|v|)).
Proof.
move=> hb hd; have := loop_spec cutoff hb (inv_init hb hd) hd.2.
by rewrite /lazy_eval_trace => h e; rewrite e in h.
Qed.

(** No positive bound is below eps times the sum of all bounds. *)
Definition no_gap (bs : seq K) : Prop := forall i, (i < size bs)%N -> (nth 0 bs i = 0) \/ ((eps * (\sum_(x <- bs) x) <= nth 0 bs i)%R : bool).

Lemma loop_exact cs cutoff idx bs0 bs sum : bounds bs0 cs -> no_gap bs0 -> inv cs idx bs0 bs sum -> sorted (geb bs0) idx ->
  `|sum| + \sum_(i <- idx) nth 0 bs0 i <= \sum_(x <- bs0) x ->
  let: (b, v) := lazy_loop eps cs cutoff idx bs sum in b = (cutoff < `|total cs|) /\ (b -> v = total cs).
Proof.
move=> hb hg; elim: idx bs sum => [|i r IH] bs sum hi hs hn /=.
  by rewrite (i_sum hi) big_nil addr0.
have hi' := inv_step hi.
case: ifP => hbr.
  have li : (i < size bs0)%N by rewrite hb.1; move: (i_lt hi) => /= /andP[].
  have ei : nth 0 bs0 i = 0.
    case: (hg i li) => // h; move: hbr; rewrite (i_todo hi (mem_head _ _)) => hbr.
    have := le_lt_trans h hbr; rewrite lt_neqAle => /andP[hne].
    have hle : eps * `|sum| <= eps * \sum_(x <- bs0) x.
      apply: ler_wpmul2l => //; apply: le_trans _ hn; rewrite ler_addl big_seq; apply: sumr_ge0 => j hj.
      by apply: (bound_nneg hb); move/allP: (i_lt hi) => /(_ _ hj).
    by move=> h2; case/negP: hne; rewrite eq_le h2.
  have e0 : sum = total cs.
    apply/eqP; rewrite eq_sym -subr_eq0 -normr_le0.
    have := rest_small hb hi erefl hs (ltW hbr).
    rewrite (i_sum hi) [sum + _]addrC addrK => _; apply: le_trans (ler_norm_sum _ _ _) _.
    rewrite big_seq big1 // => j hj; apply/eqP; rewrite -normr_le0 normr_id.
    have lj : (j < size cs)%N by move/allP: (i_lt hi) => /(_ _ hj).
    apply: le_trans (hb.2 _ lj) _; rewrite -[X in _ <= X]ei; move: hj hs; rewrite inE => /orP[/eqP->//|hj] /= hs.
    by move/allP: (order_path_min (@geb_trans bs0) hs) => /(_ _ hj).
  by rewrite e0.
case: ifP => hc.
  split=> //; apply/esym/negbTE; have := le_lt_trans (asum_bound (inv_bounds hb hi')) hc.
  by move=> h; rewrite (lt_gtF h).
apply: IH hi' _ _; first exact: path_sorted hs.
apply: le_trans _ hn; rewrite big_cons addrA ler_add2r; apply: le_trans (ler_norm_add _ _) _.
by rewrite ler_add2l; apply: hb.2; move: (i_lt hi) => /= /andP[].
Qed.

(** Without such a gap (in particular for eps = 0) the decision is exact, and so is the value of an accepted trace. *)
Theorem C24_exact order bs cs cutoff : bounds bs cs -> descending bs order -> no_gap bs ->
  (lazy_eval_trace eps order bs cs cutoff).1 = (cutoff < `|total cs|) /\
  ((lazy_eval_trace eps order bs cs cutoff).1 -> (lazy_eval_trace eps order bs cs cutoff).2 = total cs).
Proof.
move=> hb hd hg; have := loop_exact cutoff hb hg (inv_init hb hd) hd.2.
rewrite /lazy_eval_trace; case: lazy_loop => b v; apply.
by rewrite normr0 add0r (perm_big _ hd.1) /= [X in _ <= X](big_nth 0) /index_iota subn0.
Qed.
End Lazy.

(** The statement without [no_gap] fails for every positive eps below one: two sectors contribute 1 and eps/2. *)
Theorem C24_refuted (K : numFieldType) (eps : K) : 0 < eps -> eps < 1 ->
  exists order bs cs cutoff, bounds bs cs /\ descending bs order /\
    cutoff < `|total cs| /\ (lazy_eval_trace eps order bs cs cutoff).1 = false.
Proof.
move=> h0 h1; have h2 : 0 < eps / 2%:R by rewrite divr_gt0 // ltr0n.
have h4 : 0 < eps / 4%:R by rewrite divr_gt0 // ltr0n.
have h42 : eps / 4%:R < eps / 2%:R by rewrite ltr_pmul2l // ltf_pinv ?posrE ?ltr0n // ltr_nat.
have h21 : eps / 2%:R < eps by rewrite ltr_pdivr_mulr ?ltr0n // ltr_pmulr // ltr1n.
exists [:: 0%N; 1%N], [:: 1; eps / 2%:R], [:: 1; eps / 2%:R], (1 + eps / 4%:R).
have n1 : `|1 + eps / 2%:R| = 1 + eps / 2%:R by rewrite ger0_norm // addr_ge0 ?ler01 // ltW.
split; [|split; [|split]].
- by split=> // -[|[|i]] //= _; rewrite ?normr1 // ger0_norm // ltW.
- by split=> //=; rewrite andbT; apply: ltW; exact: lt_trans h21 h1.
- by rewrite /total !big_cons big_nil addr0 n1 ltr_add2l.
- rewrite /lazy_eval_trace /= normr0 mulr0 ltr10 add0r normr1 mulr1 h21 /=.
  rewrite /asum /= add0r ltr_add2l (lt_gtF h42) /=.
  by rewrite -[X in _ < X]addr0 ltr_add2l (lt_gtF h4).
Qed.

(** ** The bounds of compute_trace_bound *)
Section Bound.
Variable K : numFieldType.
Variables (Ket Bra : Type) (outer : list (Bra * Ket)).
Variables (ket_invalid : Ket -> bool) (bra_invalid : Bra -> bool) (ket_nil : Ket) (bra_nil : Bra).
Variables (apply_ket : optype -> nat -> Ket -> Ket) (apply_bra : optype -> nat -> Bra -> Bra).
Variables (prop_ket : Z -> Ket -> Ket) (prop_bra : Z -> Bra -> Bra).
Variables (normalize_ket : Ket -> Ket) (normalize_bra : Bra -> Bra).
Variables (norm_ket : Ket -> K) (norm_bra : Bra -> K).
Variables (sec_ket : Ket -> nat) (sec_bra : Bra -> nat).
Variable product : Bra -> Ket -> K.
Variable tau : nat -> nat -> Z.
Variable cut : K.
Variable beta : Z.
Variables (min_dim : Ket -> nat) (dst : optype -> nat -> nat -> option nat) (dim_sector : nat -> nat) (cexp : nat -> Z -> K).
Variable rank : Ket -> nat.

(** What norms, ranks and sectors have to satisfy: products of matrices are bounded by products of spectral norms,
    a trace by rank times norm, the propagator of a sector by [cexp]. *)
Record norm_ok : Prop := NormOk {
  no_gek : forall k, 0 <= norm_ket k;
  no_geb : forall b, 0 <= norm_bra b;
  no_exp : forall s t, 0 <= cexp s t;
  no_rank : forall k, (rank k <= min_dim k)%N;
  no_none : forall o f k, ~~ ket_invalid k -> dst o f (sec_ket k) = None -> ket_invalid (apply_ket o f k);
  no_apply : forall o f k s, ~~ ket_invalid k -> dst o f (sec_ket k) = Some s ->
    ket_invalid (apply_ket o f k) \/
    [/\ sec_ket (apply_ket o f k) = s, norm_ket (apply_ket o f k) <= norm_ket k,
        (rank (apply_ket o f k) <= rank k)%N & (rank (apply_ket o f k) <= dim_sector s)%N];
  no_prop : forall t k, (0 <= t)%coqZ -> ~~ ket_invalid k ->
    ket_invalid (prop_ket t k) \/
    [/\ sec_ket (prop_ket t k) = sec_ket k, norm_ket (prop_ket t k) <= cexp (sec_ket k) t * norm_ket k &
        (rank (prop_ket t k) <= rank k)%N];
  no_prod : forall b k, `|product b k| <= norm_bra b * norm_ket k * (rank k)%:R }.

Notation bok := (braket_ok ket_invalid bra_invalid ket_nil bra_nil apply_ket apply_bra prop_ket prop_bra
  normalize_ket normalize_bra sec_ket sec_bra product).
Notation kst := (ket_steps apply_ket prop_ket).
Notation bsteps := (bound_steps dst dim_sector cexp).
Notation bbound := (braket_bound ket_invalid bra_invalid sec_ket sec_bra min_dim dst dim_sector cexp).
Notation tbraket := (trace_braket_checked ket_invalid bra_invalid apply_ket prop_ket normalize_ket sec_ket sec_bra product).
Notation ctrace := (compute_trace ket_invalid bra_invalid apply_ket prop_ket normalize_ket sec_ket sec_bra product tau).
Notation reach := (reach outer ket_invalid bra_invalid ket_nil bra_nil apply_ket apply_bra prop_ket prop_bra
  normalize_ket normalize_bra norm_ket norm_bra tau cut).
Notation canonR := (canonR outer ket_invalid ket_nil apply_ket prop_ket normalize_ket norm_ket tau cut).
Notation canonL := (canonL outer bra_invalid bra_nil apply_bra prop_bra normalize_bra norm_bra tau cut).

Hypothesis H : bok.
Hypothesis N : norm_ok.
Hypothesis tau_0 : forall n, (0 < n)%N -> tau n 0 = 0%coqZ.
Hypothesis tau_beta : forall n, (0 < n)%N -> tau n (2 * n) = beta.
Hypothesis tau_mono : forall n p q, (p <= q)%N -> (q <= 2 * n)%N -> (tau n p <= tau n q)%coqZ.

Definition bval (M : K) (b : Bra) (r : option (nat * K * nat)) : K :=
  match r with Some (s, np, d) => if s == sec_bra b then np * norm_bra b * M * d%:R else 0 | None => 0 end.

Lemma bval_ge0 M b s t l t' np d : 0 <= M -> 0 <= np -> 0 <= bval M b (bsteps s t l t' np d).
Proof.
move=> hM; elim: l s t np d => [|x l IH] s t np d hnp /=.
  by case: eqP => // _; rewrite !mulr_ge0 ?(no_geb N) ?(no_exp N) ?ler0n.
case: dst => // s'; apply: IH; exact: mulr_ge0 hnp (no_exp N _ _).
Qed.

Lemma steps_bound b M l : 0 <= M -> forall s t t' np d k, chain t l t' -> 0 <= np ->
  ket_invalid k \/ [/\ sec_ket k = s, norm_ket k <= np * M & (rank k <= d)%N] ->
  `|product b (kst t l t' k)| <= bval M b (bsteps s t l t' np d).
Proof.
move=> hM; elim: l => [|x l IH] s t t' np d k hc hnp hk.
  case: (boolP (ket_invalid k)) => hi.
    have -> : product b (kst t [::] t' k) = 0 by apply: (steps_zero H) => // b'; exact: (bo_invk H).
    by rewrite normr0; exact: bval_ge0.
  case: hk => [h|[es hn hd]]; first by rewrite h in hi.
  rewrite /= in hc *; have ht : (0 <= t' - t)%coqZ by lia.
  case: (no_prop N ht hi) => [h|[e2 n2 r2]].
    by rewrite (bo_invk H b h) normr0; case: eqP => // _; rewrite !mulr_ge0 ?(no_geb N) ?(no_exp N) ?ler0n.
  case: eqP => e; last first.
    by rewrite (bo_sec H) ?normr0 // e2 es; apply/eqP => e3; apply: e.
  apply: le_trans (no_prod N _ _) _; rewrite [_ * norm_bra b]mulrC -!mulrA; apply: ler_wpmul2l; first exact: (no_geb N).
  rewrite !mulrA; apply: ler_pmul; rewrite ?(no_gek N) ?ler0n //; last by rewrite ler_nat (leq_trans r2).
  apply: le_trans n2 _; rewrite es -mulrA [X in _ <= X]mulrCA; by apply: ler_wpmul2l => //; exact: (no_exp N).
case: (boolP (ket_invalid k)) => hi.
  have -> : product b (kst t (x :: l) t' k) = 0 by apply: (steps_zero H) => // b'; exact: (bo_invk H).
  by rewrite normr0; exact: bval_ge0.
case: hk => [h|[es hn hd]]; first by rewrite h in hi.
case: hc => hc1 hc2; have ht : (0 <= ptau x - t)%coqZ by lia.
have inv_case k' : ket_invalid k' -> `|product b (kst (ptau x) l t' k')| <= bval M b (bsteps s t (x :: l) t' np d).
  move=> hk'; have -> : product b (kst (ptau x) l t' k') = 0 by apply: (steps_zero H) => // b'; exact: (bo_invk H).
  by rewrite normr0; exact: bval_ge0.
set k1 := prop_ket (ptau x - t)%coqZ k.
case: (boolP (ket_invalid k1)) => hi1.
  have -> : product b (kst t (x :: l) t' k) = 0.
    rewrite /= -/k1; apply: (steps_zero H) => // b'; rewrite -(bo_apply H); exact: (bo_invk H).
  by rewrite normr0; exact: bval_ge0.
case: (no_prop N ht hi) => [h|[e2 n2 r2]]; first by rewrite -/k1 h in hi1.
rewrite [kst t _ _ _]/= -/k1; rewrite -/k1 in e2 n2 r2.
case e3 : (dst (p_type x) (p_flavor x) s) => [s'|]; last first.
  by apply: inv_case; apply: (no_none N) => //; rewrite e2 es.
rewrite [bsteps _ _ _ _ _ _]/= e3; apply: IH => //; first exact: mulr_ge0 hnp (no_exp N _ _).
have e4 : dst (p_type x) (p_flavor x) (sec_ket k1) = Some s' by rewrite e2 es.
case: (no_apply N hi1 e4) => [h|[a1 a2 a3 a4]]; first by left.
right; split=> //; last by rewrite leq_min a4 andbT (leq_trans a3) // (leq_trans r2).
apply: le_trans a2 _; apply: le_trans n2 _; rewrite es -mulrA [X in _ <= X]mulrCA.
by apply: ler_wpmul2l => //; exact: (no_exp N).
Qed.

Lemma braket_bounded win tr tl b nb k nk : chain tr win tl ->
  (nb = norm_bra b \/ bra_invalid b) -> (nk = norm_ket k \/ ket_invalid k) ->
  `|tbraket win tr tl ((b, nb), (k, nk))| <= bbound win tr tl ((b, nb), (k, nk)).
Proof.
move=> hc hb hk; rewrite /trace_braket_checked /braket_bound; case: ifP => [_|/norP[ik ib]]; first by rewrite normr0.
case: hb => [->|h]; last by rewrite h in ib.
case: hk => [->|h]; last by rewrite h in ik.
rewrite -/(bval (norm_ket k) b _).
case: ifP => _; last by rewrite normr0; apply: bval_ge0; rewrite ?(no_gek N) ?ler01.
rewrite (ek_steps H) //; apply: steps_bound => //; [exact: (no_gek N)|exact: ler01|].
by right; rewrite mul1r; split=> //; exact: (no_rank N).
Qed.

Lemma canonR_norm n ops R e : List.In e (hd [::] (canonR n ops R)) -> e.2 = norm_ket e.1 \/ ket_invalid e.1.
Proof.
case: R => [|R] /=; first by move=> /in_map_iff[x [<- _]]; left.
by move=> /in_map_iff[x [<- /in_map_iff[y [<- _]]]] /=; case: ifP => _ /=; [right; exact: (bo_nilk H)|left].
Qed.
Lemma canonL_norm n ops m e : List.In e (hd [::] (canonL n ops m)) -> e.2 = norm_bra e.1 \/ bra_invalid e.1.
Proof.
case: m => [|m] /=; first by move=> /in_map_iff[x [<- _]]; left.
by move=> /in_map_iff[x [<- /in_map_iff[y [<- _]]]] /=; case: ifP => _ /=; [right; exact: (bo_nilb H)|left].
Qed.

(** Contributions and bounds of all brakets for the operators [ops] at the present window. *)
Definition contributions (ops : container) (s : sw K Ket Bra) : seq K :=
  let tr := tau (nwin s) (posR s) in let tl := tau (nwin s) (posL s) in
  List.map (tbraket (range (rng_cc tr tl) ops) tr tl) (combine (top (left_states s)) (top (right_states s))).
Definition trace_bounds (ops : container) (s : sw K Ket Bra) : seq K :=
  let tr := tau (nwin s) (posR s) in let tl := tau (nwin s) (posL s) in
  List.map (bbound (range (rng_cc tr tl) ops) tr tl) (combine (top (left_states s)) (top (right_states s))).

(** compute_trace_bound gives bounds, at every window of every history. *)
Theorem C24_bound ops s : reach ops s -> csorted ops -> bounds (trace_bounds ops s) (contributions ops s).
Proof.
move=> hr hs; have [[w1 w2 w3 w4 wr wl] hrest] := reach_wf tau_mono hr.
have hle : (posR s <= posL s)%N by case: hrest => [[_ [-> ->]]|[_ [-> _]]] //; rewrite leq_addr.
have hc : chain (tau (nwin s) (posR s)) (range (rng_cc (tau (nwin s) (posR s)) (tau (nwin s) (posL s))) ops) (tau (nwin s) (posL s)).
  by apply: range_chain => //; [exact: tau_mono|exact: rng_cc_in].
rewrite /bounds /trace_bounds /contributions; set fr := combine _ _.
have hfr e : List.In e fr -> (e.1.2 = norm_bra e.1.1 \/ bra_invalid e.1.1) /\ (e.2.2 = norm_ket e.2.1 \/ ket_invalid e.2.1).
  case: e => [[b nb] [k nk]] h; split.
    by have := @canonL_norm (nwin s) ops (2 * nwin s - posL s)%N (b, nb); rewrite -wl; apply; exact: in_combine_l h.
  by have := @canonR_norm (nwin s) ops (posR s) (k, nk); rewrite -wr; apply; exact: in_combine_r h.
elim: fr hfr => [|e fr IH] hfr //=; have [|i1 i2] := IH; first by move=> e' h; apply: hfr; right.
split; first by rewrite i1.
case=> [|i] /= hi; last exact: i2.
have := hfr e (or_introl erefl); case: e {hfr} => [[b nb] [k nk]] [h1 h2]; exact: braket_bounded.
Qed.

(** Together: at every window of every history in which nothing was truncated, the decision of the lazy evaluation is
    that of the full trace over all operators. A zero bound means a zero trace. *)
Theorem C24_full_trace (eps : K) ops s order cutoff : 0 <= eps -> cut = 0 -> reach ops s -> csorted ops -> times_in beta ops ->
  descending (trace_bounds ops s) order -> no_gap eps (trace_bounds ops s) ->
  `|full_trace outer apply_ket prop_ket product beta ops| <= asum (trace_bounds ops s) /\
  (lazy_eval_trace eps order (trace_bounds ops s) (contributions ops s) cutoff).1
    = (cutoff < `|full_trace outer apply_ket prop_ket product beta ops|) /\
  ((lazy_eval_trace eps order (trace_bounds ops s) (contributions ops s) cutoff).1 ->
   (lazy_eval_trace eps order (trace_bounds ops s) (contributions ops s) cutoff).2 = full_trace outer apply_ket prop_ket product beta ops).
Proof.
move=> he c0 hr hs ht hd hg; have hb := C24_bound hr hs.
have e : total (contributions ops s) = full_trace outer apply_ket prop_ket product beta ops.
  rewrite -(C22_no_truncation H tau_0 tau_beta tau_mono c0 (no_gek N) (no_geb N) hr hs ht).
  by rewrite -[ctrace ops s]/(sumK (contributions ops s)) sumK_asum asumE.
rewrite -e; split; first exact: asum_bound.
exact: C24_exact.
Qed.
End Bound.

(** ** Instance: the orbital of T_WindowTrace.v *)
Section AtomBound.
Variable K : numFieldType.
Variable w : K.
Hypothesis w_gt0 : 0 < w.
Definition a_dst (o : optype) (_ s : nat) : option nat :=
  match o, s with ANNIHILATION_OP, 1%N => Some 0%N | CREATION_OP, 0%N => Some 1%N | _, _ => None end.
Definition a_exp (s : nat) (t : Z) : K := (if s == 1%N then w else 1) ^+ Z.to_nat t.
Lemma a_norm_ok : norm_ok (@a_invalid K) (fun o _ => @a_c K o) (a_prop w) (@a_norm K) (@a_norm K) (@a_sec K) (@a_prod K)
  (fun _ => 1%N) a_dst (fun _ => 1%N) a_exp (fun _ => 1%N).
Proof.
split=> //.
- by move=> [[[] a]|] //=.
- by move=> [[[] a]|] //=.
- by move=> s t; rewrite /a_exp exprn_ge0 //; case: ifP => // _; [exact: ltW|exact: ler01].
- by move=> [] f [[[] a]|].
- by move=> [] f [[[] a]|] s //= _ [<-]; right.
- move=> t [[[] a]|] //= _ _; right; split=> //; rewrite /a_exp /= mulrC normrM ?expr1n ?normr1 //.
  by rewrite [`|w ^+ _|]ger0_norm // exprn_ge0 // ltW.
- by move=> [[[] a]|] [[[] a']|] //=; rewrite ?normr0 ?mulr0 ?mul0r ?mulr1 ?normrM // mulr_ge0.
Qed.
End AtomBound.

(** The hypotheses of C24_full_trace hold at every position of two windows; a cutoff on either side of the trace. *)
Example C24_instance k : (k <= 2)%N -> exists s,
  let: bs := trace_bounds (@a_invalid _) (@a_invalid _) (@a_sec _) (@a_sec _) a_tau (fun _ => 1%N) a_dst (fun _ => 1%N) (a_exp (1 / 2%:R)) a_ops s in
  let: cs := contributions (@a_invalid _) (@a_invalid _) (fun o _ => @a_c _ o) (a_prop (1 / 2%:R)) id (@a_sec _) (@a_sec _) (@a_prod rat_numFieldType) a_tau a_ops s in
  posR s = k /\ bounds bs cs /\ no_gap 0 bs /\
  forall order, descending bs order ->
    (lazy_eval_trace 0 order bs cs 0).1 = true /\ (lazy_eval_trace 0 order bs cs 0).2 = (1 / 2%:R) ^+ 6 /\
    (lazy_eval_trace 0 order bs cs 1).1 = false.
Proof.
move=> hk; have [s [hr [_ [hp _]]]] := @a_reach rat_numFieldType (1 / 2%:R)%R 0%R 2 k erefl hk.
have w0 : (0 : rat) < 1 / 2%:R by [].
exists s; split=> //; split; first exact: (C24_bound (a_ok _) (a_norm_ok w0) a_tau_mono hr a_sorted).
have hg : no_gap 0 (trace_bounds (@a_invalid _) (@a_invalid _) (@a_sec _) (@a_sec _) a_tau (fun _ => 1%N) a_dst (fun _ => 1%N) (a_exp (1 / 2%:R)) a_ops s).
  move=> i hi; right; rewrite mul0r; apply: bound_nneg (C24_bound (a_ok _) (a_norm_ok w0) a_tau_mono hr a_sorted) _.
  by move: hi; rewrite /trace_bounds /contributions !size_map.
split=> // order hd.
have h c := C24_full_trace (a_ok _) (a_norm_ok w0) a_tau_0 a_tau_beta a_tau_mono c (lexx 0) erefl hr a_sorted a_times hd hg.
have [_ [h1 h2]] := h 0; have [_ [h3 _]] := h 1; rewrite a_full in h1 h2 h3.
have w1 : 0 < `|(1 / 2%:R : rat) ^+ 6| by rewrite normr_gt0 expf_neq0.
have w2 : `|(1 / 2%:R : rat) ^+ 6| <= 1 by rewrite normrX exprn_ile1.
move: ((1 / 2%:R) ^+ 6) w1 w2 h1 h2 h3 => x w1 w2; rewrite w1 => h1 h2 ->.
by split; [exact: h1|split; [exact: h2 h1|rewrite (le_gtF w2)]].
Qed.

(** compute_exp returns zero below exp(limit), so the bound can vanish where the trace does not: any limit, any exponential
    function. moves.ipp:162 then rejects the update without looking at the trace. *)
Theorem C24_bound_refuted (K : numFieldType) (limit : K) (ex : K -> K) : limit < 0 -> (forall x, 0 < ex x) ->
  ex 0 = 1 -> (forall x y, ex (x + y) = ex x * ex y) ->
  exists (E : K) s, let emin sec := if sec == 1%N then E else 0 in
  reach (a_outer _) (@a_invalid K) (@a_invalid _) None None (fun o _ => @a_c _ o) (fun o _ => a_c (a_flip o))
    (a_prop (ex (- E))) (a_prop (ex (- E))) id id (@a_norm _) (@a_norm _) a_tau 0 a_ops s /\
  asum (trace_bounds (@a_invalid _) (@a_invalid _) (@a_sec _) (@a_sec _) a_tau (fun _ => 1%N) a_dst (fun _ => 1%N)
     (fun sec t => compute_exp limit ex emin sec (Z.to_nat t)%:R) a_ops s) = 0 /\
  full_trace (a_outer _) (fun o _ => @a_c _ o) (a_prop (ex (- E))) (@a_prod K) 8 a_ops != 0.
Proof.
move=> hl hex e0 eD; exists (- limit).
have [s [hr [en [eR eL]]]] := @a_reach K (ex (- - limit)) 0 2 0%N erefl erefl.
exists s; split=> //; split; last by rewrite a_full expf_neq0 // gt_eqF.
have [[w1 w2 w3 w4 wr wl] _] := reach_wf a_tau_mono hr.
rewrite asumE /trace_bounds en eR eL wr wl en eR eL.
set fr := combine _ _; have hs e : List.In e fr -> braket_bound (@a_invalid K) (@a_invalid _) (@a_sec _) (@a_sec _) (fun _ => 1%N) a_dst (fun _ => 1%N)
     (fun sec t => compute_exp limit ex (fun sec => if sec == 1%N then - limit else 0) sec (Z.to_nat t)%:R)
     (range (rng_cc (a_tau 2 0) (a_tau 2 2)) a_ops) (a_tau 2 0) (a_tau 2 2) e = 0.
  move=> _; case: e => [[b nb] [k nk]]; rewrite /braket_bound; case: ifP => // _.
  rewrite [range _ _]/=; case: k => [[[] a]|] //=; rewrite /compute_exp /=.
  rewrite (_ : - ((Pos.to_nat 3)%:R * - limit) < limit); first by rewrite !mulr0 !mul0r; case: ifP.
  by rewrite mulrN opprK -[X in _ < X]mul1r ltr_nmul2r // ltr1n.
elim: fr hs => [|e fr IH] hs /=; first by rewrite big_nil.
by rewrite big_cons hs ?add0r; [apply: IH => e' h; apply: hs; right|left].
Qed.
Print Assumptions C24_decision.
Print Assumptions C24_exact.
Print Assumptions C24_refuted.
Print Assumptions C24_bound.
Print Assumptions C24_full_trace.
Print Assumptions C24_bound_refuted.
