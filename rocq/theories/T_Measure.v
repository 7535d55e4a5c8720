(** * C53, C56: the Green's function measurements and the fidelity-susceptibility estimator *)
From Coq Require Import ZArith.
From mathcomp Require Import all_ssreflect all_algebra zify ssrZ.
From Verif Require Import OpContainer Dist Proposal EigenBasis Legendre T_Legendre DetMatrix DetPartitioned Measure KField.
Import Order.Theory GRing.Theory Num.Theory.
Set Implicit Arguments.
Unset Strict Implicit.
Unset Printing Implicit Defensive.
Local Close Scope Z_scope.
Local Open Scope nat_scope.
Delimit Scope Z_scope with coqZ.

(** ** C56 *)
(** Specification: the pairs (one operator in the half period that begins at [start], the other one outside) *)
Definition in_half (half start : Z) (x : psi) : bool :=
  ot_le (OT start 0) (p_time x) && ot_lt (p_time x) (OT (start + half)%coqZ 0).
Definition separated_pairs (half start : Z) (ops : container) : seq (psi * psi) :=
  [seq p <- [seq (x, y) | x <- ops, y <- ops] | in_half half start p.1 && ~~ in_half half start p.2].
(** the configuration moved by half a period *)
Definition shift_half (half : Z) (x : psi) : psi :=
  let tt := ot_time (p_time x) in
  Psi (OT (if (tt <? half)%coqZ then tt + half else tt - half)%coqZ (ot_small (p_time x))) (p_type x) (p_flavor x).
Definition in_period (half : Z) (x : psi) : bool :=
  ((0 <=? ot_time (p_time x)) && (ot_time (p_time x) <? 2 * half))%coqZ.

Lemma count_pairs (a b : pred psi) (s1 s2 : seq psi) :
  count (fun p : psi * psi => a p.1 && b p.2) [seq (x, y) | x <- s1, y <- s2] = count a s1 * count b s2.
Proof.
elim: s1 => [|x s1 ih] //=; rewrite count_cat ih mulnDl; congr (_ + _).
by rewrite count_map; clear; elim: s2 => [|y s2 ih2] /=; [rewrite muln0|rewrite ih2 mulnDr; case: (a x); rewrite ?mul1n].
Qed.
Lemma pairs_size half start ops : size (separated_pairs half start ops) =
  count (in_half half start) ops * (size ops - count (in_half half start) ops).
Proof.
rewrite /separated_pairs size_filter (@count_pairs (in_half half start) (fun y => ~~ in_half half start y)); congr (_ * _).
by have := count_predC (in_half half start) ops; rewrite /predC /= => <-; rewrite addKn.
Qed.
Lemma prod_le (a n : nat) : a <= n -> 4 * (a * (n - a)) <= n ^ 2.
Proof. by move=> /subnKC; move: (n - a) => b <-; rewrite sqrnD; have [h _] := nat_Cauchy a b; lia. Qed.

Theorem C56_pairs (ops : container) (half start : Z) : size ops < 2 ^ 17 ->
  measure_kLkR ops half start = size (separated_pairs half start ops) /\
  4 * measure_kLkR ops half start <= size ops ^ 2.
Proof.
move=> hs; rewrite pairs_size.
have hc : count (in_half half start) ops <= size ops by apply: count_size.
have hb := prod_le hc.
have e : measure_kLkR ops half start = count (in_half half start) ops * (size ops - count (in_half half start) ops).
  rewrite /measure_kLkR -/(in_half half start); apply: modn_small.
  have : size ops ^ 2 < (2 ^ 17) ^ 2 by rewrite ltn_sqr.
  rewrite -expnM; have -> : 2 ^ (17 * 2) = 4 * 2 ^ 32 by rewrite -[4]/(2 ^ 2) -expnD.
  move=> hz; have := leq_ltn_trans hb hz; by rewrite ltn_pmul2l.
by rewrite e.
Qed.

Lemma shift_in half start x : (0 <= start < half)%coqZ -> in_period half x ->
  in_half half start (shift_half half x) = ~~ in_half half start x.
Proof.
case: x => [[tt i] o f] hs /andP [/Z.leb_le h1 /Z.ltb_lt h2].
have {}h2 : (tt < half + half)%coqZ by move: h2; rewrite -Z.add_diag.
rewrite /in_half /shift_half /ot_le /ot_lt /=; cbn [p_time ot_time] in h1.
case: (Z.ltb_spec tt half) => h; repeat (case: Z.eqb_spec => /= ?); repeat (case: Z.ltb_spec => /= ?); repeat (case: Z.leb_spec => /= ?); lia.
Qed.
(** Exchanging the two halves (moving all operators by half a period) does not change the estimator *)
Theorem C56_exchange (ops ops' : container) (half start : Z) : (0 <= start < half)%coqZ -> all (in_period half) ops ->
  perm_eq ops' [seq shift_half half x | x <- ops] ->
  measure_kLkR ops' half start = measure_kLkR ops half start.
Proof.
move=> hs ha hp; rewrite /measure_kLkR -/(in_half half start) (perm_size hp) (seq.permP hp) size_map.
have -> : count (in_half half start) [seq shift_half half x | x <- ops] = size ops - count (in_half half start) ops.
  rewrite count_map -(addKn (count (in_half half start) ops) (count _ _)); congr (_ - _).
  rewrite -(count_predC (in_half half start) ops); congr (_ + _).
  apply: eq_in_count => x hx /=; apply: shift_in => //; exact: (allP ha).
have hc : count (in_half half start) ops <= size ops by apply: count_size.
by rewrite subKn // mulnC.
Qed.

Example C56_instance :
  let x i tt := Psi (OT tt 0) CREATION_OP i in
  let ops := [:: x 0 0%coqZ; x 0 3%coqZ; x 1 4%coqZ; x 0 5%coqZ; x 1 8%coqZ] in
  measure_kLkR ops 5 2 = 6 /\ measure_kLkR [seq shift_half 5 y | y <- ops] 5 2 = 6 /\
  size (separated_pairs 5 2 ops) = 6.
Proof.
cbv zeta; split; [|split].
- by rewrite /measure_kLkR modn_small //; rewrite -[32]/(5 + 27) expnD; move: (2 ^ 27) (expn_gt0 2 27) => z /= hz; lia.
- by rewrite /measure_kLkR modn_small //; rewrite -[32]/(5 + 27) expnD; move: (2 ^ 27) (expn_gt0 2 27) => z /= hz; lia.
- by [].
Qed.

(** ** C53 *)
Local Open Scope ring_scope.

Section C53.
Variables (K : numFieldType) (sqrtf cj : K -> K) (n : nat) (t : transformer K) (tick : K) (beta : Z).
Hypothesis made : make_transformer sqrtf n = Some t.
Hypothesis beta_pos : (0 < beta)%coqZ.
Add Field Kf53 : (kfield_theory K).
Notation P := (rodrigues K).
Notation val := (val tick).
Notation sq l := (nth 0 (sqrt_2l_1 t) l).

(** *** Specification: the functions of the time difference that the coefficients are taken of.
    [anti f]: on (0, beta] the function f l is the Legendre polynomial of x = 2 tau/beta - 1, and it changes sign when beta
    is added.  [anti0 f]: the same with the interval [0, beta).  [peri f]: with period beta, given on [0, beta). *)
Definition on_x (l : nat) (tau : Z) : K := (P l).[2%:R * val tau / val beta - 1].
Definition anti (f : nat -> Z -> K) : Prop :=
  (forall l tau, f l (tau + beta)%coqZ = - f l tau) /\ (forall l tau, (0 < tau <= beta)%coqZ -> f l tau = on_x l tau).
Definition anti0 (f : nat -> Z -> K) : Prop :=
  (forall l tau, f l (tau + beta)%coqZ = - f l tau) /\ (forall l tau, (0 <= tau < beta)%coqZ -> f l tau = on_x l tau).
Definition peri (f : nat -> Z -> K) : Prop :=
  (forall l tau, f l (tau + beta)%coqZ = f l tau) /\ (forall l tau, (0 <= tau < beta)%coqZ -> f l tau = on_x l tau).
(** the time from [b] to [a] *)
Definition elapsed (a b : psi) : Z := (ot_time (p_time a) - ot_time (p_time b))%coqZ.
Definition in_beta (x : psi) : bool := ((0 <=? ot_time (p_time x)) && (ot_time (p_time x) <? beta))%coqZ.

Lemma xargE tau : xarg tick beta tau = 2%:R * val tau / val beta - 1.
Proof. by rewrite /xarg /temperature mulrA mulr1. Qed.

Lemma leg_size x pl r : compute_legendre t x pl = Some r -> size r = size pl.
Proof.
rewrite /compute_legendre; case: ltnP => // h [<-].
have : forall m, (m <= n_legendre t)%N -> size (foldl (leg_step t x) pl (iota 0 m)) = size pl.
  elim=> [|m ih] hm //; rewrite -(addn1 m) iotaD foldl_cat /= add0n.
  by rewrite /leg_step; case: eqP => _; [|case: eqP => _]; rewrite size_set_nth ih ?(ltnW hm) //; apply/maxn_idPr; rewrite (leq_trans hm).
exact.
Qed.
Lemma nleg : n_legendre t = n.
Proof. by have [_ en _ _ _] := make_ok made. Qed.

Definition delta3 (fa fc a c : nat) (x : K) : K := if (a == fa) && (c == fc) then x else 0.
Lemma add_rowE fa fc coeff pl g a c l :
  add_row t fa fc coeff pl g a c l = g a c l + (if (l < n)%N then delta3 fa fc a c (coeff * sq l * nth 0 pl l) else 0).
Proof.
rewrite /add_row nleg; elim: (n) => [|m ih]; first by rewrite ltn0 addr0.
rewrite -(addn1 m) iotaD foldl_cat /= add0n /gadd addn1 ltnS leq_eqVlt /delta3.
case: (eqVneq l m) ih => [->|ne]; rewrite ?ltnn /= ?andbT.
  by case: (a == fa); case: (c == fc); rewrite /= ?addr0 => ->; rewrite ?addr0.
by rewrite !andbF.
Qed.

(** what a pair adds *)
Definition pair_phi (sign : K) (b : mblk K) (k l : nat) (i : nat * nat * nat) : K :=
  let: (a, c, il) := i in
  let: (s, arg) := bubble K beta (tdiff (nth psi0 (mb_c b) k) (nth psi0 (mb_cd b) l)) in
  if (il < n)%N then delta3 (p_flavor (nth psi0 (mb_c b) k)) (p_flavor (nth psi0 (mb_cd b) l)) a c
     (- me (mb_inv b) l k * s * sign * temperature tick beta * sq il * (P il).[xarg tick beta arg]) else 0.
Definition good (pl : seq K) : Prop := size pl = n.
Lemma pair_stepE sign b k l st : good st.1 -> exists st', [/\ pair_step tick beta t sign b k l st = Some st', good st'.1 &
  forall a c il, st'.2 a c il = st.2 a c il + pair_phi sign b k l (a, c, il)].
Proof.
move=> hg; rewrite /pair_step /pair_phi; case: (bubble _ _ _) => s arg.
have [|r [e [h _]]] := C47_legendre made (xarg tick beta arg) (val := st.1); first by rewrite hg.
rewrite e; eexists; split; [reflexivity|by rewrite /good /= (leg_size e)|].
by move=> a c il /=; rewrite add_rowE; case: ifP => // hl; rewrite (h il hl).
Qed.
Definition fits (b : mblk K) : Prop := mr (mb_inv b) = size (mb_c b) /\ mc (mb_inv b) = size (mb_cd b).
Definition block_phi (sign : K) (b : mblk K) (i : nat * nat * nat) : K :=
  \sum_(k <- iota 0 (size (mb_c b))) \sum_(l <- iota 0 (size (mb_cd b))) pair_phi sign b k l i.

(** A loop of additions: each step is defined and adds [phi x] *)
Lemma ofold_garr (B : Type) (f : seq K * garr K -> B -> option (seq K * garr K)) (phi : B -> nat * nat * nat -> K) (s : seq B) (ok : B -> Prop) :
  (forall st x, good st.1 -> ok x -> exists st', [/\ f st x = Some st', good st'.1 & forall a c l, st'.2 a c l = st.2 a c l + phi x (a, c, l)]) ->
  (forall x, List.In x s -> ok x) ->
  forall st, good st.1 -> exists st', [/\ ofold f (Some st) s = Some st', good st'.1 & forall a c l, st'.2 a c l = st.2 a c l + \sum_(x <- s) phi x (a, c, l)].
Proof.
move=> hf; elim: s => [|x s ih] hok st hi; first by exists st; split=> // a c l; rewrite big_nil addr0.
have [st1 [e1 i1 h1]] := hf st x hi (hok x (or_introl erefl)).
have [st2 [e2 i2 h2]] := ih (fun y hy => hok y (or_intror hy)) st1 i1.
exists st2; split=> //; first by rewrite /ofold /= e1.
by move=> a c l; rewrite h2 h1 big_cons addrA.
Qed.
Lemma block_stepE sign b st : good st.1 -> fits b -> exists st', [/\ block_step tick beta t sign st b = Some st', good st'.1 &
  forall a c il, st'.2 a c il = st.2 a c il + block_phi sign b (a, c, il)].
Proof.
move=> hg [h1 h2]; rewrite /block_step h1 h2 !leqnn /=.
apply: (@ofold_garr _ _ (fun k i => \sum_(l <- iota 0 (size (mb_cd b))) pair_phi sign b k l i) _ (fun _ => True)) => // st1 k hg1 _.
apply: (@ofold_garr _ _ (fun l i => pair_phi sign b k l i) _ (fun _ => True)) => // st2 l hg2 _.
exact: pair_stepE.
Qed.
Definition step_phi (order : nat) (sign : K) (bs : seq (mblk K)) (i : nat * nat * nat) : K :=
  if order == 0%N then 0 else \sum_(b <- bs) block_phi sign b i.
Lemma measureE order sign bs g : (forall b, List.In b bs -> fits b) ->
  exists g', [/\ measure tick beta t order sign bs g = Some g', n_meas g' = (n_meas g).+1 &
    forall a c il, g_meas g' a c il = g_meas g a c il + step_phi order sign bs (a, c, il)].
Proof.
move=> hb; rewrite /measure /step_phi; case: eqP => _.
  by eexists; split; [reflexivity| |move=> a c il; rewrite addr0].
have hs st b : good st.1 -> fits b -> _ := @block_stepE sign b st.
have h0 : good (nseq (n_legendre t) 0, g_meas g).1 by rewrite /good /= size_nseq nleg.
have [st' [e _ h]] := @ofold_garr _ (block_step tick beta t sign) (block_phi sign) bs fits hs hb _ h0.
by rewrite e; eexists; split; [reflexivity| |exact: h].
Qed.

Lemma bubbleE f a b : anti f -> in_beta a -> in_beta b -> forall l,
  let: (s, arg) := bubble K beta (tdiff a b) in s * (P l).[xarg tick beta arg] = f l (tdiff a b).
Proof.
case=> h1 h2 ha hb l; rewrite /bubble; move: ha hb; rewrite /in_beta /tdiff; move: (ot_time (p_time a)) (ot_time (p_time b)) => x y hx hy.
case: Z.ltb_spec => h; rewrite xargE -/(on_x _ _).
  by rewrite mul1r h2 //; lia.
by rewrite mulN1r -(h2 l) ?h1 ?opprK //; lia.
Qed.

(** Each measurement adds, for every pair of an annihilation operator at t1 and a creation operator at t2 of one block,
    -M/beta times the sign of the configuration times sqrt(2l+1) times the antiperiodic function of t1-t2. *)
Theorem C53_green (f : nat -> Z -> K) (order : nat) (sign : K) (bs : seq (mblk K)) (g : gm K) : anti f ->
  (forall b, List.In b bs -> fits b /\ all in_beta (mb_c b) && all in_beta (mb_cd b)) ->
  order = sumn [seq size (mb_cd b) | b <- bs] ->
  exists g', [/\ measure tick beta t order sign bs g = Some g', n_meas g' = (n_meas g).+1 &
    forall a c il, (il < n)%N -> g_meas g' a c il = g_meas g a c il +
      \sum_(b <- bs) \sum_(k < size (mb_c b)) \sum_(l < size (mb_cd b))
        (if (a == p_flavor (nth psi0 (mb_c b) k)) && (c == p_flavor (nth psi0 (mb_cd b) l))
         then - (me (mb_inv b) l k * sign / val beta) * sq il * f il (elapsed (nth psi0 (mb_c b) k) (nth psi0 (mb_cd b) l)) else 0)].
Proof.
move=> hf hb ho; have [|g' [e1 e2 e3]] := @measureE order sign bs g; first by move=> b /hb [].
exists g'; split=> // a c il hil; rewrite e3; congr (_ + _).
rewrite /step_phi; case: eqP => h0.
  rewrite h0 in ho; move: hb ho; clear -il; elim: bs => [|b bs ih] hb ho; rewrite ?big_nil ?big_cons //.
  rewrite -ih; [|by move=> b' h'; apply: hb; right|by move: ho; rewrite /=; lia].
  have -> : size (mb_cd b) = 0%N by move: ho; rewrite /=; lia.
  by rewrite addr0 big1 // => k _; rewrite big_ord0.
clear ho h0 e1 e3; elim: bs hb => [|b bs ih] hb; rewrite ?big_nil ?big_cons //; congr (_ + _); last by apply: ih => b' h'; apply: hb; right.
have [[_ _] /andP [hc hcd]] := hb b (or_introl erefl).
rewrite /block_phi -{1}[size (mb_c b)]subn0 -/(index_iota _ _) big_mkord; apply: eq_bigr => k _.
rewrite -{1}[size (mb_cd b)]subn0 -/(index_iota _ _) big_mkord; apply: eq_bigr => l _.
have := @bubbleE f _ _ hf (allP hc _ (mem_nth psi0 (ltn_ord k))) (allP hcd _ (mem_nth psi0 (ltn_ord l))) il.
rewrite /pair_phi hil /delta3; case: (bubble _ _ _) => s arg <-; case: ifP => // _.
rewrite /temperature; kring K.
Qed.

(** *** Batches *)
Definition to_event (e : nat * K * seq (mblk K)) : event K := Step e.1.1 e.1.2 e.2.
Definition step_ok (e : nat * K * seq (mblk K)) : Prop := forall b, List.In b e.2 -> fits b.
Definition phi_of (e : nat * K * seq (mblk K)) (i : nat * nat * nat) : K := step_phi e.1.1 e.1.2 e.2 i.
Variables (nf : nat) (rot : mat K).
Notation estep := (event_step tick beta t cj nf rot).

Lemma ofold_cat A B (f : A -> B -> option A) st s1 s2 : ofold f st (s1 ++ s2) = ofold f (ofold f st s1) s2.
Proof. by rewrite /ofold foldl_cat. Qed.
Lemma run_steps es g ps : (forall e, List.In e es -> step_ok e) ->
  exists g', [/\ ofold estep (Some (g, ps)) (map to_event es) = Some (g', ps), n_meas g' = (n_meas g + size es)%N &
    forall a c il, g_meas g' a c il = g_meas g a c il + \sum_(e <- es) phi_of e (a, c, il)].
Proof.
elim: es g => [|e es ih] g hes; first by exists g; split=> //; [rewrite addn0|move=> a c il; rewrite big_nil addr0].
have [g1 [e1 e2 e3]] := @measureE e.1.1 e.1.2 e.2 g (hes e (or_introl erefl)).
have [g2 [f1 f2 f3]] := ih g1 (fun x hx => hes x (or_intror hx)).
exists g2; split; first by rewrite /ofold /= e1; exact: f1.
  by rewrite f2 e2 /= addSnnS.
by move=> a c il; rewrite f3 e3 big_cons addrA.
Qed.
(** rotation of an array, entry by entry *)
Definition rotated (X : nat -> nat -> K) (f1 f2 : nat) : K :=
  \sum_(k < nf) (\sum_(i < mc rot) me rot f1 i * X i k) * cj (me rot f2 k).
Lemma get_measuredE g : (0 < n_meas g)%N -> exists p, get_measured cj nf rot g = Some p /\
  forall f1 f2 il, p f1 f2 il = rotated (fun a c => g_meas g a c il / (n_meas g)%:R) f1 f2.
Proof. by rewrite /get_measured lt0n => /negbTE ->; eexists; split. Qed.
Lemma rotated_ext X Y f1 f2 : (forall a c, X a c = Y a c) -> rotated X f1 f2 = rotated Y f1 f2.
Proof. by move=> h; rewrite /rotated; apply: eq_bigr => k _; congr (_ * _); apply: eq_bigr => i _; rewrite h. Qed.
Lemma rotatedD X Y f1 f2 : rotated (fun a c => X a c + Y a c) f1 f2 = rotated X f1 f2 + rotated Y f1 f2.
Proof.
rewrite /rotated -big_split /=; apply: eq_bigr => k _; rewrite -mulrDl -big_split /=; congr (_ * _).
by apply: eq_bigr => i _; rewrite mulrDr.
Qed.
Lemma rotatedZ X x f1 f2 : rotated (fun a c => X a c * x) f1 f2 = rotated X f1 f2 * x.
Proof.
rewrite /rotated mulr_suml; apply: eq_bigr => k _; rewrite mulrAC; congr (_ * _); rewrite mulr_suml.
by apply: eq_bigr => i _; rewrite mulrA.
Qed.
Definition zeroed (g : gm K) : Prop := n_meas g = 0%N /\ forall a c il, g_meas g a c il = 0.
Lemma run_batch es g ps : (0 < size es)%N -> (forall e, List.In e es -> step_ok e) -> zeroed g ->
  exists g' p, [/\ ofold estep (Some (g, ps)) (rcons (map to_event es) (Collect K)) = Some (g', rcons ps p), zeroed g' &
    forall f1 f2 il, p f1 f2 il = rotated (fun a c => \sum_(e <- es) phi_of e (a, c, il)) f1 f2 / (size es)%:R].
Proof.
move=> hs hes [z1 z2]; have [g1 [e1 e2 e3]] := run_steps g ps hes.
rewrite z1 add0n in e2; have hn : (0 < n_meas g1)%N by rewrite e2.
have [p [e4 e5]] := get_measuredE hn.
exists (gm0 K), p; rewrite -cats1 ofold_cat e1 /ofold /= hn e4 /=; split=> // f1 f2 il.
rewrite e5 e2 -rotatedZ; apply: rotated_ext => a c; by rewrite e3 z2 add0r.
Qed.
Lemma run_batches (bss : seq (seq (nat * K * seq (mblk K)))) m g ps : (0 < m)%N -> zeroed g ->
  (forall es, List.In es bss -> size es = m /\ forall e, List.In e es -> step_ok e) ->
  exists g' qs, [/\ ofold estep (Some (g, ps)) (flatten [seq rcons (map to_event es) (Collect K) | es <- bss]) = Some (g', ps ++ qs),
    zeroed g', size qs = size bss &
    forall f1 f2 il, \sum_(q <- qs) q f1 f2 il = rotated (fun a c => \sum_(e <- flatten bss) phi_of e (a, c, il)) f1 f2 / m%:R].
Proof.
move=> hm; elim: bss g ps => [|es bss ih] g ps hz hb.
  exists g, [::]; split=> //; first by rewrite cats0.
  move=> f1 f2 il; rewrite big_nil /=.
  rewrite (@rotated_ext _ (fun _ _ => 0 * 0)) => [|a c]; last by rewrite big_nil mulr0.
  by rewrite (@rotatedZ (fun _ _ => 0)) mulr0 mul0r.
have [hs hes] := hb es (or_introl erefl).
have [g1 [p [e1 z1 h1]]] := @run_batch es g ps (eq_ind_r (fun x => (0 < x)%N) hm hs) hes hz.
have [g2 [qs [e2 z2 s2 h2]]] := ih g1 (rcons ps p) z1 (fun x hx => hb x (or_intror hx)).
exists g2, (p :: qs); split=> //; [|by rewrite /= s2|].
  by rewrite /= ofold_cat e1 e2 cat_rcons.
move=> f1 f2 il; rewrite big_cons h1 h2 hs -mulrDl -rotatedD; congr (_ / _).
by apply: rotated_ext => a c; rewrite -big_cat.
Qed.
(** Batches of one and the same size: the average of what is put into the observable equals the result of one batch *)
Theorem C53_batches_partial (bss : seq (seq (nat * K * seq (mblk K)))) (m : nat) : (0 < m)%N -> (0 < size bss)%N ->
  (forall es, List.In es bss -> size es = m /\ forall e, List.In e es -> step_ok e) ->
  exists g1 g2 ps p,
    [/\ run_events tick beta t cj nf rot (flatten [seq rcons (map to_event es) (Collect K) | es <- bss]) = Some (g1, ps),
        run_events tick beta t cj nf rot (rcons (map to_event (flatten bss)) (Collect K)) = Some (g2, [:: p]) &
        forall f1 f2 il, (\sum_(q <- ps) q f1 f2 il) / (size ps)%:R = p f1 f2 il].
Proof.
move=> hm h0 hb; have z : zeroed (gm0 K) by [].
have [g1 [ps [e1 _ s1 h1]]] := @run_batches bss m _ [::] hm z hb.
have hsz : size (flatten bss) = (size bss * m)%N.
  by clear -hb; elim: bss hb => [|es bss ih] hb //=; rewrite size_cat ih => [|x hx]; [have [-> _] := hb es (or_introl erefl); lia|apply: hb; right].

have hf e : List.In e (flatten bss) -> step_ok e.
  clear -hb; elim: bss hb => [|es bss ih] hb //= h; have := List.in_app_or es (flatten bss) e h; case=> h'.
    by have [_] := hb es (or_introl erefl); apply.
  by apply: ih => // x hx; apply: hb; right.
have hp : (0 < size (flatten bss))%N by rewrite hsz muln_gt0 h0 hm.
have [g2 [p [e2 _ h2]]] := @run_batch (flatten bss) _ [::] hp hf z.
exists g1, g2, ps, p; split=> // f1 f2 il.
by rewrite h1 h2 hsz s1 mulnC natrM invfM mulrA.
Qed.

(** *** The batches of the worm-space measurements *)
Section WormBatches.
Variables (I : Type) (m : nat).
Hypothesis m_pos : (0 < m)%N.
Lemma worm_part (es : seq (I -> K)) k d qs : (k + size es < m)%N ->
  exists d', foldl (gmeas_step m) (GMeas k d, qs) es = (GMeas (k + size es) d', qs) /\ forall i, d' i = d i + \sum_(x <- es) x i.
Proof.
elim: es k d => [|x es ih] k d h; first by exists d; rewrite /= addn0; split=> // i; rewrite big_nil addr0.
rewrite /= {2}/gmeas_step /=; case: eqP => hm; first by move: h => /=; lia.
have [|d' [e1 e2]] := ih k.+1 (fun i => d i + x i); first by move: h => /=; lia.
by exists d'; rewrite e1 addSnnS; split=> // i; rewrite e2 big_cons addrA.
Qed.
Lemma worm_chunk (es : seq (I -> K)) qs : size es = m ->
  exists q, foldl (gmeas_step m) (gmeas0 K I, qs) es = (gmeas0 K I, rcons qs q) /\ forall i, q i = (\sum_(x <- es) x i) / m%:R.
Proof.
case/lastP: es => [|es x] hs; first by move: m_pos; rewrite -hs.
rewrite size_rcons in hs; have [|d [e1 e2]] := @worm_part es 0 (fun _ => 0) qs; first by lia.
rewrite -cats1 foldl_cat e1 /= add0n /gmeas_step /= hs eqxx.
by eexists; split; [reflexivity|move=> i; rewrite /= e2 add0r big_cat big_seq1].
Qed.
Lemma worm_chunks (bs : seq (seq (I -> K))) qs : (forall es, List.In es bs -> size es = m) ->
  exists q, [/\ foldl (gmeas_step m) (gmeas0 K I, qs) (flatten bs) = (gmeas0 K I, qs ++ q), size q = size bs &
    forall j i, (j < size bs)%N -> nth (fun _ => 0) q j i = (\sum_(x <- nth [::] bs j) x i) / m%:R].
Proof.
elim: bs qs => [|es bs ih] qs hb; first by exists [::]; rewrite cats0.
have [q [e1 e2]] := @worm_chunk es qs (hb es (or_introl erefl)).
have [q' [f1 f2 f3]] := ih (rcons qs q) (fun x hx => hb x (or_intror hx)).
exists (q :: q'); split; [by rewrite /= foldl_cat e1 f1 cat_rcons|by rewrite /= f2|].
by move=> [|j] i hj /=; [rewrite e2|rewrite f3].
Qed.
(** The measurements are averaged in groups of max_num_data; an incomplete last group waits.  If there is none, the average of
    what is put into the observable is the average of all measurements. *)
Theorem C53_worm_batches (bs : seq (seq (I -> K))) (rest : seq (I -> K)) : (forall es, List.In es bs -> size es = m) ->
  (size rest < m)%N ->
  let r := gmeas_run m (flatten bs ++ rest) in
  [/\ size r.2 = size bs,
      forall j i, (j < size bs)%N -> nth (fun _ => 0) r.2 j i = (\sum_(x <- nth [::] bs j) x i) / m%:R,
      num_data r.1 = size rest /\ (forall i, data r.1 i = \sum_(x <- rest) x i) &
      rest = [::] -> (0 < size bs)%N -> forall i, mean_of r.2 i = mean_of (flatten bs) i].
Proof.
move=> hb hr; cbv zeta; rewrite /gmeas_run foldl_cat.
have [q [e1 e2 e3]] := @worm_chunks bs [::] hb; rewrite e1.
have [|d [f1 f2]] := @worm_part rest 0 (fun _ => 0) ([::] ++ q); first by rewrite add0n.
rewrite /gmeas0 f1 /= add0n; split=> //.
  by split=> // i; rewrite f2 add0r.
move=> _ h0 i; rewrite /mean_of e2.
have hsz : size (flatten bs) = (size bs * m)%N.
  by clear -hb; elim: bs hb => [|es bs ih] hb //=; rewrite size_cat ih => [|x hx]; [have -> := hb es (or_introl erefl); lia|apply: hb; right].
have -> : \sum_(x <- q) x i = (\sum_(x <- flatten bs) x i) / m%:R.
  clear -e2 e3; elim: bs q e2 e3 => [|es bs ih] [|x q] //= e2 e3; rewrite ?big_nil ?mul0r //.
  rewrite big_cons big_cat /= mulrDl -(e3 0%N i) //= (ih q) //; first by case: e2.
  by move=> j i' hj; apply: (e3 j.+1 i').
by rewrite hsz natrM invfM mulrA mulrAC.
Qed.
End WormBatches.

(** *** G1 in the worm space *)
Section G1.
Variables (sign weight_rat : K) (cd c : seq psi) (M : mat K).
Notation m := (aux M).
(** the weight of the pair (k, l): the minor of M with the auxiliary line, for entries of M that do not vanish *)
Definition weight1 (k l : nat) : K :=
  if me M l k == 0 then 0 else (me M l k * me M m m - me M l m * me M m k) * sign * weight_rat.
Definition total1 : K := \sum_(k < m) \sum_(l < m) `|weight1 k l|.

Lemma coeffsE k l : coeffs sign weight_rat cd c M k l = bubble1 K (tdiff (nth psi0 c k) (nth psi0 cd l)) * weight1 k l.
Proof. by rewrite /coeffs /weight1; case: eqP => _; [rewrite mulr0|kring K]. Qed.
Lemma bubble1_norm a : `|bubble1 K a| = 1.
Proof. by rewrite /bubble1; case: ifP => _; rewrite ?normrN normr1. Qed.
Lemma norm1E : norm1 sign weight_rat cd c M = total1.
Proof.
have L (s : seq nat) (g : nat -> K) x : foldl (fun n k => n + g k) x s = x + \sum_(k <- s) g k.
  by elim: s x => [|k s ih] x; rewrite ?big_nil ?addr0 //= ih big_cons addrA.
have Lin k x : foldl (fun n l => if me M l k == 0 then n else n + `|coeffs sign weight_rat cd c M k l|) x (iota 0 m) = x + \sum_(l < m) `|weight1 k l|.
  rewrite -(big_mkord predT (fun l => `|weight1 k l|)) /index_iota subn0 -L.
  have : forall s y, foldl (fun n l => if me M l k == 0 then n else n + `|coeffs sign weight_rat cd c M k l|) y s = foldl (fun n l => n + `|weight1 k l|) y s; last exact.
  elim=> [|l s ih] y //=; rewrite ih coeffsE normrM bubble1_norm mul1r.
  by congr foldl; rewrite /weight1; case: eqP => _ //; rewrite normr0 addr0.
rewrite /norm1 /total1 -(big_mkord predT (fun k => \sum_(l < m) `|weight1 k l|)) /index_iota subn0 -[RHS]add0r -L.
have : forall s y, foldl (fun n k => foldl (fun n l => if me M l k == 0 then n else n + `|coeffs sign weight_rat cd c M k l|) n (iota 0 m)) y s =
    foldl (fun n k => n + \sum_(l < m) `|weight1 k l|) y s; last exact.
by elim=> [|k s ih] y //=; rewrite Lin ih.
Qed.

Definition pair1_phi (scale_fact : K) (k l : nat) (i : nat * nat * nat) : K :=
  let: (a, cc, il) := i in
  if (il < n)%N then delta3 (p_flavor (nth psi0 c k)) (p_flavor (nth psi0 cd l)) a cc
     (scale_fact * coeffs sign weight_rat cd c M k l * sq il *
      (P il).[xarg tick beta (shift1 beta (tdiff (nth psi0 c k) (nth psi0 cd l)))]) else 0.
Lemma pair1E sf k l st : good st.1 -> exists st', [/\ pair1 tick beta t sign weight_rat cd c M sf k l st = Some st', good st'.1 &
  forall a cc il, st'.2 a cc il = st.2 a cc il + pair1_phi sf k l (a, cc, il)].
Proof.
move=> hg; rewrite /pair1 /pair1_phi; case: eqP => hz.
  exists st; split=> // a cc il; rewrite /coeffs hz eqxx mulr0 !mul0r /delta3.
  by case: ifP => _; rewrite ?if_same addr0.
have [|r [e [h _]]] := C47_legendre made (xarg tick beta (shift1 beta (tdiff (nth psi0 c k) (nth psi0 cd l)))) (val := st.1); first by rewrite hg.
rewrite e; eexists; split; [reflexivity|by rewrite /good /= (leg_size e)|].
by move=> a cc il /=; rewrite add_rowE; case: ifP => // hl; rewrite (h il hl).
Qed.
Lemma bubble1E f a b : anti f -> in_beta a -> in_beta b -> tdiff a b <> 0%coqZ -> forall l,
  bubble1 K (tdiff a b) * (P l).[xarg tick beta (shift1 beta (tdiff a b))] = f l (tdiff a b).
Proof.
case=> h1 h2 ha hb h0 l; rewrite /bubble1 /shift1; move: ha hb h0; rewrite /in_beta /tdiff.
move: (ot_time (p_time a)) (ot_time (p_time b)) => x y hx hy h0.
case: Z.ltb_spec => h; case: Z.ltb_spec => h'; rewrite xargE -/(on_x _ _); try lia.
  by rewrite mul1r h2 //; lia.
by rewrite mulN1r -(h2 l) ?h1 ?opprK //; lia.
Qed.
(** Each pair contributes its weight, relative to the sum of the moduli of all weights, times the antiperiodic function.
    Partial: operators at equal times are excluded, and pairs whose entry of M vanishes count as weight 0 (see below). *)
Theorem C53_g1_partial (f : nat -> Z -> K) (result : garr K) : anti f ->
  size c = m -> size cd = m -> all in_beta c -> all in_beta cd ->
  (forall x y, x \in c -> y \in cd -> elapsed x y <> 0%coqZ) -> total1 != 0 ->
  exists r, perform1 tick beta t sign weight_rat cd c M result = inl r /\
    forall a cc il, (il < n)%N -> r a cc il = result a cc il +
      \sum_(k < m) \sum_(l < m) (if (a == p_flavor (nth psi0 c k)) && (cc == p_flavor (nth psi0 cd l))
         then - (weight1 k l / (total1 * val beta)) * sq il * f il (elapsed (nth psi0 c k) (nth psi0 cd l)) else 0).
Proof.
move=> hf hc hd tc td hne ht; rewrite /perform1 hc hd leqnn /= norm1E (negbTE ht) /=.
set sf := _ / _.
have h0 : good (nseq (n_legendre t) 0, result).1 by rewrite /good /= size_nseq nleg.
have hs st k : good st.1 -> True -> exists st', [/\ ofold (fun st l => pair1 tick beta t sign weight_rat cd c M sf k l st) (Some st) (iota 0 m) = Some st', good st'.1 &
    forall a cc il, st'.2 a cc il = st.2 a cc il + \sum_(l <- iota 0 m) pair1_phi sf k l (a, cc, il)].
  move=> hg _; apply: (@ofold_garr _ _ (fun l i => pair1_phi sf k l i) _ (fun _ => True)) => // st1 l hg1 _; exact: pair1E.
have [st' [e _ h]] := @ofold_garr _ _ (fun k i => \sum_(l <- iota 0 m) pair1_phi sf k l i) (iota 0 m) (fun _ => True) hs (fun _ _ => I) _ h0.
rewrite e; exists st'.2; split=> // a cc il hil; rewrite h /=; congr (_ + _).
rewrite -{1}[m]subn0 -/(index_iota _ _) big_mkord; apply: eq_bigr => k _.
rewrite -{1}[m]subn0 -/(index_iota _ _) big_mkord; apply: eq_bigr => l _.
have mk : nth psi0 c k \in c by rewrite mem_nth ?hc.
have ml : nth psi0 cd l \in cd by rewrite mem_nth ?hd.
have := @bubble1E f _ _ hf (allP tc _ mk) (allP td _ ml) (hne _ _ mk ml) il.
rewrite /pair1_phi hil /delta3 coeffsE => <-; case: ifP => // _; rewrite /sf; kring K.
Qed.
End G1.

(** *** G2 in the worm space: the tables of polynomials *)
Theorem C53_g2_table (f : nat -> Z -> K) (a b : psi) (il : nat) : anti0 f -> in_beta a -> in_beta b -> (il < n)%N ->
  pl2 tick beta t a b il = Some (f il (elapsed a b) * sq il) /\
  pl2p tick beta t a b il = Some ((-1) ^+ il.+1 * f il (elapsed a b) * sq il).
Proof.
case=> h1 h2 ha hb hil.
have H : (shift2 K beta (tdiff a b)).1 * (P il).[xarg tick beta (shift2 K beta (tdiff a b)).2] = f il (tdiff a b).
  rewrite /shift2; move: ha hb; rewrite /in_beta /tdiff; move: (ot_time (p_time a)) (ot_time (p_time b)) => x y hx hy.
  case: Z.ltb_spec => h; cbn [fst snd]; rewrite xargE -/(on_x _ _).
    by rewrite mulN1r -(h2 il) ?h1 ?opprK //; lia.
  by rewrite mul1r h2 //; lia.
rewrite /pl2 /pl2p; case: (shift2 _ _ _) H => s arg /= <-.
have [|r [e [h _]]] := C47_legendre made (xarg tick beta arg) (val := nseq (n_legendre t) 0); first by rewrite size_nseq nleg.
rewrite e /= (h il hil); split=> //; congr Some; rewrite /sqrt_p exprS -signr_odd.
by case: (odd il); rewrite /= ?expr0 ?expr1; kring K.
Qed.

(** *** Two-time correlations: periodic, because the two operators at one time are a product of an even number *)
Theorem C53_two_time (f : nat -> Z -> K) (w : seq psi) (weight : K) (data : darr K) : peri f -> size w = 4%N -> all in_beta w ->
  same_time (nth psi0 w 0%N) (nth psi0 w 1%N) -> same_time (nth psi0 w 2%N) (nth psi0 w 3%N) ->
  exists r, measure_impl tick beta t w weight data = MOk r /\
    forall fs il, (il < n)%N -> r fs il = data fs il +
      (if fs == [seq p_flavor x | x <- w] then weight * sq il * f il (elapsed (nth psi0 w 0%N) (nth psi0 w 2%N)) else 0).
Proof.
case=> h1 h2 hw ht t1 t2; rewrite /measure_impl t1 t2 /=.
set d := tdiff _ _; set d' := if _ then _ else _.
have [|r [e [h _]]] := C47_legendre made (2%:R * val d' / val beta - 1) (val := nseq (n_legendre t) 0); first by rewrite size_nseq nleg.
rewrite e; eexists; split; first reflexivity.
move=> fs il hil.
have efl : [:: p_flavor (nth psi0 w 0%N); p_flavor (nth psi0 w 1%N); p_flavor (nth psi0 w 2%N); p_flavor (nth psi0 w 3%N)] = [seq p_flavor x | x <- w].
  by move: hw; case: (w) => [|x0 [|x1 [|x2 [|x3 [|]]]]].
rewrite efl nleg; set fl := [seq p_flavor x | x <- w].
have G k : foldl (fun (da : darr K) il => fun fs l => if (fs == fl) && (l == il) then da fs l + weight * sq il * nth 0 r il else da fs l)
   data (iota 0 k) fs il = data fs il + (if (fs == fl) && (il < k)%N then weight * sq il * nth 0 r il else 0).
  elim: k => [|k ih]; first by rewrite ltn0 andbF addr0.
  rewrite -(addn1 k) iotaD foldl_cat /= add0n addn1 ltnS leq_eqVlt; case: (fs == fl) ih => //=.
  by case: (eqVneq il k) => [->|ne]; rewrite ?ltnn ?addr0 => -> //.
rewrite G hil andbT; congr (_ + _); case: ifP => // _; rewrite (h il hil) -/(on_x _ _); congr (_ * _).
have i0 : in_beta (nth psi0 w 0%N) by apply: (allP ht); rewrite mem_nth ?hw.
have i2 : in_beta (nth psi0 w 2%N) by apply: (allP ht); rewrite mem_nth ?hw.
move: i0 i2; rewrite /d' /d /in_beta /tdiff /elapsed; move: (ot_time _) (ot_time _) => x y hx hy.
by case: Z.ltb_spec => hl; [rewrite -(h1 il)|]; rewrite h2 //; lia.
Qed.
End C53.

(** The antiperiodic function of the specification exists (and is unique: every time difference is that of (0, beta] plus a
    multiple of beta) *)
Lemma anti_exists (K : numFieldType) (tick : K) (beta : Z) : (0 < beta)%coqZ -> exists f, anti tick beta f.
Proof.
move=> hb; exists (fun l tau => let q := ((tau - 1) / beta)%coqZ in
  (if Z.odd q then -1 else 1) * on_x tick beta l (tau - beta * q)); split=> l tau; cbv zeta.
  have -> : ((tau + beta - 1) / beta = (tau - 1) / beta + 1)%coqZ.
    by rewrite -Z.div_add; [congr (_ / _)%coqZ; lia|lia].
  rewrite Z.odd_add /=; have -> : (tau + beta - beta * ((tau - 1) / beta + 1) = tau - beta * ((tau - 1) / beta))%coqZ by lia.
  by case: (Z.odd _); rewrite /= ?mulN1r ?mul1r ?opprK.
move=> h; have -> : ((tau - 1) / beta = 0)%coqZ by apply: Z.div_small; lia.
by rewrite /= Z.mul_0_r Z.sub_0_r mul1r.
Qed.
Lemma anti0_exists (K : numFieldType) (tick : K) (beta : Z) : (0 < beta)%coqZ -> exists f, anti0 tick beta f.
Proof.
move=> hb; exists (fun l tau => let q := (tau / beta)%coqZ in
  (if Z.odd q then -1 else 1) * on_x tick beta l (tau - beta * q)); split=> l tau; cbv zeta.
  have -> : ((tau + beta) / beta = tau / beta + 1)%coqZ by rewrite -Z.div_add; [congr (_ / _)%coqZ; lia|lia].
  rewrite Z.odd_add /=; have -> : (tau + beta - beta * (tau / beta + 1) = tau - beta * (tau / beta))%coqZ by lia.
  by case: (Z.odd _); rewrite /= ?mulN1r ?mul1r ?opprK.
move=> h; have -> : (tau / beta = 0)%coqZ by apply: Z.div_small; lia.
by rewrite /= Z.mul_0_r Z.sub_0_r mul1r.
Qed.
Lemma peri_exists (K : numFieldType) (tick : K) (beta : Z) : (0 < beta)%coqZ -> exists f, peri tick beta f.
Proof.
move=> hb; exists (fun l tau => on_x tick beta l (tau - beta * (tau / beta))%coqZ); split=> l tau; cbv zeta.
  have -> : ((tau + beta) / beta = tau / beta + 1)%coqZ by rewrite -Z.div_add; [congr (_ / _)%coqZ; lia|lia].
  by congr on_x; lia.
by move=> h; rewrite Z.div_small // Z.mul_0_r Z.sub_0_r.
Qed.

(** *** Concrete cases; a "square root" on rationals stands for the function sqrt *)
Definition ex_sqrt (x : rat) : rat := (x + 1) / 2%:Q.
Definition ex_t : transformer [numFieldType of rat] := LT 2 [:: 0; 1] [:: 1; 2%:Q].
Lemma ex_made : make_transformer ex_sqrt 2 = Some ex_t.
Proof. by rewrite /make_transformer /=; congr (Some (LT _ _ _)); apply/eqP; vm_compute. Qed.
Definition ex_op (tt : Z) (o : optype) (f : nat) : psi := Psi (OT tt 0) o f.
Definition ex_blk (m : rat) : mblk [numFieldType of rat] :=
  MBlk [:: ex_op 1 CREATION_OP 0] [:: ex_op 3 ANNIHILATION_OP 0] (Mat 1 1 (fun _ _ => m)).
Definition ex_blk2 : mblk [numFieldType of rat] :=
  MBlk [:: ex_op 2 CREATION_OP 1] [:: ex_op 2 ANNIHILATION_OP 1] (Mat 1 1 (fun _ _ => 1)).

(** t1 - t2 = 2 of beta = 4 (x = 0) and t1 - t2 = 0 (x = 1, sign -1) *)
Example C53_instance : exists g,
  measure (1 : rat) 4 ex_t 2 1 [:: ex_blk 3%:Q; ex_blk2] (gm0 _) = Some g /\
  [&& g_meas g 0%N 0%N 0%N == - (3%:Q / 4%:Q), g_meas g 0%N 0%N 1%N == 0, g_meas g 1%N 1%N 0%N == 1 / 4%:Q &
      g_meas g 1%N 1%N 1%N == 1 / 2%:Q].
Proof. by eexists; split; [reflexivity|vm_compute]. Qed.

(** The average over batches depends on the division into batches when their sizes differ: two Z-space measurements
    in one batch and one in the other *)
Theorem C53_batches_refuted : exists (e1 e2 : nat * rat * seq (mblk [numFieldType of rat])) g1 g2 ps p,
  [/\ step_ok e1 /\ step_ok e2,
      run_events (1 : rat) 4 ex_t id 1 (Mat 1 1 (fun _ _ => 1))
        [:: to_event e1; Collect _; to_event e2; to_event e2; Collect _] = Some (g1, ps),
      run_events (1 : rat) 4 ex_t id 1 (Mat 1 1 (fun _ _ => 1))
        [:: to_event e1; to_event e2; to_event e2; Collect _] = Some (g2, [:: p]) &
      (\sum_(q <- ps) q 0%N 0%N 0%N) / (size ps)%:R != p 0%N 0%N 0%N].
Proof.
pose e1 : nat * rat * seq (mblk [numFieldType of rat]) := (0%N, 1, [::]).
pose e2 : nat * rat * seq (mblk [numFieldType of rat]) := (1%N, 1, [:: ex_blk 1]).
pose rot := Mat 1 1 (fun _ _ : nat => 1 : rat).
have ok1 : step_ok e1 by [].
have ok2 : step_ok e2 by move=> b [<-|[]].
have ph1 i : phi_of 2 ex_t 1 4 e1 i = 0 by [].
have ph2 : phi_of 2 ex_t 1 4 e2 (0%N, 0%N, 0%N) = - (1 / 4%:Q).
  by rewrite /phi_of /step_phi /= big_seq1 /block_phi /= big_seq1 big_seq1 /pair_phi /= /delta3 /= P0 hornerC; apply/eqP; vm_compute.
have hp : (0 < 4)%coqZ by [].
have rotE X : rotated id 1 rot X 0 0 = X 0%N 0%N.
  by rewrite /rotated big_ord_recl big_ord0 addr0 big_ord_recl big_ord0 addr0 /= mul1r mulr1.
have z0 : zeroed (gm0 [numFieldType of rat]) by [].
have okA : forall e, List.In e [:: e1] -> step_ok e by move=> e [<-|[]].
have okB : forall e, List.In e [:: e2; e2] -> step_ok e by move=> e [<-|[<-|[]]].
have okC : forall e, List.In e [:: e1; e2; e2] -> step_ok e by move=> e [<-|[<-|[<-|[]]]].
have [g1 [p1 [a1 z1 h1]]] := @run_batch _ ex_sqrt id 2 ex_t 1 4 ex_made 1 rot [:: e1] _ [::] isT okA z0.
have [g2 [p2 [a2 z2 h2]]] := @run_batch _ ex_sqrt id 2 ex_t 1 4 ex_made 1 rot [:: e2; e2] _ [:: p1] isT okB z1.
have [g3 [p3 [a3 z3 h3]]] := @run_batch _ ex_sqrt id 2 ex_t 1 4 ex_made 1 rot [:: e1; e2; e2] _ [::] isT okC z0.
exists e1, e2, g2, g3, [:: p1; p2], p3; split=> //.
  by rewrite /run_events -[[:: _; _; _; _; _]]/(rcons (map (@to_event _) [:: e1]) (Collect _) ++ rcons (map (@to_event _) [:: e2; e2]) (Collect _)) ofold_cat a1 a2.
rewrite big_cons big_seq1 h1 h2 h3 !rotE !big_cons !big_nil !ph1 !ph2 !add0r !addr0; by vm_compute.
Qed.

(** Operators at equal times in the worm space: the argument 0 is used with the sign -1, i.e. the value of the function
    at 0 from above with the sign of the limit from below *)
Theorem C53_g1_equal_time_refuted : exists (c cd : seq psi) (M : mat [numFieldType of rat]) r,
  [/\ all (in_beta 4) c && all (in_beta 4) cd, perform1 (1 : rat) 4 ex_t 1 1 cd c M (@garr0 _) = inl r &
      forall f, anti (1 : rat) 4 f ->
        r 0%N 0%N 1%N != \sum_(k < aux M) \sum_(l < aux M) - (weight1 1 1 M k l / (total1 1 1 M * val 1 4)) * nth 0 (sqrt_2l_1 ex_t) 1
                           * f 1%N (elapsed (nth psi0 c k) (nth psi0 cd l))].
Proof.
pose M : mat [numFieldType of rat] := Mat 2 2 (fun i j => (i == j)%:R).
pose c := [:: ex_op 1 ANNIHILATION_OP 0]; pose cd := [:: ex_op 1 CREATION_OP 0].
have : (if perform1 (1 : rat) 4 ex_t 1 1 cd c M (@garr0 _) is inl r then r 0%N 0%N 1%N == - (1 / 2%:Q) else false) by vm_compute.
case e0 : (perform1 _ _ _ _ _ _ _ _ _) => [r|//] /eqP hr.
exists c, cd, M, r; split=> // f [h1 h2]; rewrite hr.
have w1 : weight1 1 1 M 0 0 = 1 by apply/eqP; vm_compute.
have t1 : total1 1 1 M = 1 by rewrite /total1 big_ord_recl big_ord0 big_ord_recl big_ord0 /= w1 normr1 !addr0.
rewrite big_ord_recl big_ord0 big_ord_recl big_ord0 !addr0 w1 t1.
have -> : elapsed (nth psi0 c (@ord0 0)) (nth psi0 cd (@ord0 0)) = 0%coqZ by [].
have e : f 1%N 0%coqZ = - 1.
  by have := h1 1%N 0%coqZ; rewrite /= (h2 1%N 4%coqZ) // /on_x P1 hornerX => e; rewrite -[LHS]opprK -e; apply/eqP; vm_compute.
by rewrite e; vm_compute.
Qed.
(** A pair whose entry of M vanishes is left out although its weight (the minor) does not: here it is the only pair of flavor 0 *)
Theorem C53_g1_skipped_refuted : exists (c cd : seq psi) (M N : mat [numFieldType of rat]) r,
  [/\ all (in_beta 4) c && all (in_beta 4) cd, forall i j, (i < 3)%N -> (j < 3)%N -> me (mmul M N) i j = (i == j)%:R,
      [seq p_flavor x | x <- c] = [:: 0%N; 1%N] /\ [seq p_flavor x | x <- cd] = [:: 0%N; 1%N],
      me M 0%N 0%N * me M 2%N 2%N - me M 0%N 2%N * me M 2%N 0%N != 0 &
      perform1 (1 : rat) 4 ex_t 1 1 cd c M (@garr0 _) = inl r /\ r 0%N 0%N 0%N = 0].
Proof.
pose mk (s : seq (seq rat)) : mat [numFieldType of rat] := Mat 3 3 (fun i j => nth 0 (nth [::] s i) j).
pose M := mk [:: [:: 0; 0; 1]; [:: 0; 1; 0]; [:: 1; 0; 1]].
pose N := mk [:: [:: -1; 0; 1]; [:: 0; 1; 0]; [:: 1; 0; 0]].
pose c := [:: ex_op 3 ANNIHILATION_OP 0; ex_op 3 ANNIHILATION_OP 1]; pose cd := [:: ex_op 1 CREATION_OP 0; ex_op 1 CREATION_OP 1].
have : (if perform1 (1 : rat) 4 ex_t 1 1 cd c M (@garr0 _) is inl r then r 0%N 0%N 0%N == 0 else false) by vm_compute.
case e0 : (perform1 _ _ _ _ _ _ _ _ _) => [r|//] /eqP hr.
exists c, cd, M, N, r; split=> // i j.
rewrite /mmul; cbn [mc me]; rewrite !big_ord_recl big_ord0.
by move: i j => [|[|[|i]]] // [|[|[|j]]] // _ _; apply/eqP; vm_compute.
Qed.

Print Assumptions C56_pairs.
Print Assumptions C56_exchange.
Print Assumptions C53_green.
Print Assumptions C53_batches_partial.
Print Assumptions C53_worm_batches.
Print Assumptions C53_g1_partial.
Print Assumptions C53_g2_table.
Print Assumptions C53_two_time.
Print Assumptions C53_batches_refuted.
Print Assumptions C53_g1_equal_time_refuted.
Print Assumptions C53_g1_skipped_refuted.
