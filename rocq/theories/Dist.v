(** Finite probability distributions: the random choices of a proposal are modelled as a program
    over uniform choices, and [pr] is the exact probability of an event.

    This file models no code of its own except the library routines that turn random numbers into
    choices (see Select.v: src/util.hpp:310-320 pickup_a_few_numbers, src/operator_util.ipp:49-84
    pick_up_operators); it is the vocabulary of Proposal.v and WormProposal.v. *)

From Coq Require Import ZArith List Sorting.Permutation.
From mathcomp Require Import all_ssreflect all_algebra.
From Verif Require Import OpContainer CombSort Select T_Select KField.
Local Close Scope Z_scope.

Set Implicit Arguments.
Unset Strict Implicit.
Unset Printing Implicit Defensive.

Import GRing.Theory Num.Theory.
Local Open Scope nat_scope.
Local Open Scope ring_scope.

Lemma psi_eqbP : Equality.axiom psi_eqb.
Proof. by move=> x y; apply: (iffP idP) => [/psi_eqb_spec|/psi_eqb_spec]. Qed.
Canonical psi_eqType := EqType psi (EqMixin psi_eqbP).

Section Dist.
Variable K : numFieldType.
Add Field Kf : (kfield_theory K).

Definition dist (A : Type) := seq (K * A).
Definition ret {A} (a : A) : dist A := [:: (1, a)].
Definition bind {A C} (d : dist A) (f : A -> dist C) : dist C :=
  flatten [seq [seq (p.1 * q.1, q.2) | q <- f p.2] | p <- d].
(** static_cast<int>(rng() * n) used to index a list of size n: each element has probability 1/n
    (C10_index_range). *)
Definition unif {A} (s : seq A) : dist A := [seq ((size s)%:R^-1, a) | a <- s].
Definition pr {A} (d : dist A) (P : A -> bool) : K := \sum_(p <- d | P p.2) p.1.

Lemma pr_ret A (a : A) P : pr (ret a) P = (P a)%:R.
Proof. by rewrite /pr /ret big_mkcond big_seq1 /=; case: (P a). Qed.

Lemma pr_bind A C (d : dist A) (f : A -> dist C) P :
  pr (bind d f) P = \sum_(p <- d) p.1 * pr (f p.2) P.
Proof.
rewrite /pr /bind big_mkcond big_flatten big_map; apply: eq_bigr => p _.
by rewrite big_map /= -big_mkcond /= big_distrr.
Qed.

Lemma pr_unif A C (s : seq A) (f : A -> dist C) P :
  pr (bind (unif s) f) P = (size s)%:R^-1 * \sum_(a <- s) pr (f a) P.
Proof. by rewrite pr_bind /unif big_map big_distrr. Qed.

Lemma pr_unif0 A (s : seq A) (P : A -> bool) :
  pr (unif s) P = (size s)%:R^-1 * (count P s)%:R.
Proof.
rewrite /pr /unif big_map /= big_const_seq iter_addr_0.
by rewrite mulr_natr.
Qed.

Lemma eq_pr A (d : dist A) P Q : P =1 Q -> pr d P = pr d Q.
Proof. by move=> e; apply: eq_bigl => p; exact: e. Qed.

Lemma pr_pred0 A (d : dist A) P : P =1 xpred0 -> pr d P = 0.
Proof. by move=> e; rewrite /pr big_pred0 // => p; exact: e. Qed.

Lemma pr_bind_eq A C (d : dist A) (f g : A -> dist C) P Q :
  (forall a, pr (f a) P = pr (g a) Q) -> pr (bind d f) P = pr (bind d g) Q.
Proof. by move=> e; rewrite !pr_bind; apply: eq_bigr => p _; rewrite e. Qed.

(** Support. *)
Definition supp {A} (S : A -> bool) (d : dist A) : bool := all (fun p => S p.2) d.
Lemma supp_ret A (S : A -> bool) a : S a -> supp S (ret a).
Proof. by rewrite /supp /= => ->. Qed.
Lemma supp_bind A C (S : A -> bool) (Q : C -> bool) (d : dist A) (f : A -> dist C) :
  supp S d -> (forall a, S a -> supp Q (f a)) -> supp Q (bind d f).
Proof.
move=> h hf; rewrite /supp /bind; elim: d h => [//|p d IH] /= /andP[hp /IH h].
by rewrite all_cat h andbT all_map; have := hf _ hp; rewrite /supp; apply: sub_all.
Qed.
Lemma supp_unif A (S : A -> bool) s : all S s -> supp S (unif s).
Proof. by rewrite /supp /unif all_map; apply: sub_all. Qed.
Lemma suppT A (d : dist A) : supp xpredT d.
Proof. exact: all_predT. Qed.
Lemma sum_supp A (S : A -> bool) (d : dist A) (f g : A -> K) : supp S d -> (forall a, S a -> f a = g a) ->
  \sum_(p <- d) p.1 * f p.2 = \sum_(p <- d) p.1 * g p.2.
Proof.
move=> + e; elim: d => [|p d IH] /=; first by rewrite !big_nil.
by move=> /andP[hp /IH h]; rewrite !big_cons h e.
Qed.
Lemma prE A (d : dist A) P : pr d P = \sum_(p <- d) p.1 * (P p.2)%:R.
Proof. by rewrite /pr big_mkcond; apply: eq_bigr => p _; case: (P _); rewrite ?mulr1 ?mulr0. Qed.
Lemma eq_pr_supp A (S : A -> bool) (d : dist A) P Q : supp S d -> (forall a, S a -> P a = Q a) -> pr d P = pr d Q.
Proof. by move=> h e; rewrite !prE; apply: (@sum_supp _ S _ (fun a => (P a)%:R) (fun a => (Q a)%:R)) => // a /e ->. Qed.

Lemma pr_bind_ret A C (d : dist A) (h : A -> C) P : pr (bind d (fun a => ret (h a))) P = pr d (fun a => P (h a)).
Proof. by rewrite pr_bind prE; apply: eq_bigr => p _; rewrite pr_ret. Qed.
Lemma pr_andl A (d : dist A) (b : bool) P : pr d (fun a => b && P a) = b%:R * pr d P.
Proof. by case: b => /=; [rewrite mul1r|rewrite mul0r pr_pred0]. Qed.

Lemma pr_split A (d : dist A) (P Q : A -> bool) :
  pr d P = pr d (fun a => P a && Q a) + pr d (fun a => P a && ~~ Q a).
Proof.
rewrite !prE -big_split /=; apply: eq_bigr => x _; rewrite -mulrDr; congr (_ * _).
by case: (P _) (Q _) => -[]; rewrite ?addr0 ?add0r.
Qed.

(** Independent draws. *)
Lemma pr_factor A D (d1 : dist A) (g : A -> dist D) P (P1 S1 : A -> bool) (x : K) :
  supp S1 d1 -> (forall a, S1 a -> pr (g a) P = (P1 a)%:R * x) -> pr (bind d1 g) P = pr d1 P1 * x.
Proof.
move=> h1 e; rewrite pr_bind [pr d1 P1]prE mulr_suml.
transitivity (\sum_(p <- d1) p.1 * ((P1 p.2)%:R * x)); last by apply: eq_bigr => p _; rewrite mulrA.
exact: (@sum_supp _ S1 _ (fun a => pr (g a) P) (fun a => (P1 a)%:R * x)).
Qed.

(** Total mass one. *)
Definition proper A (d : dist A) := (forall p, List.In p d -> 0 <= p.1) /\ pr d xpredT = 1.
Lemma unif_mass A (s : seq A) : (0 < size s)%N -> pr (unif s) xpredT = 1.
Proof.
by move=> h; rewrite pr_unif0 count_predT mulVf // pnatr_eq0 -lt0n.
Qed.

Lemma sum_swap_mem (T : eqType) (s1 s2 : seq T) (F : T -> K) : uniq s1 -> uniq s2 ->
  \sum_(x <- s1) (if x \in s2 then F x else 0) = \sum_(x <- s2 | x \in s1) F x.
Proof.
move=> u1 u2; rewrite -big_mkcond -big_filter -[in RHS]big_filter.
apply: perm_big; apply: uniq_perm; rewrite ?filter_uniq // => x.
by rewrite !mem_filter andbC.
Qed.

(** *** Products of factorials of multiplicities. *)
Definition facts (B : nat) (bs : seq nat) : nat := (\prod_(b < B) (count_mem (nat_of_ord b) bs)`!)%N.

Lemma facts_rem B bs b : (b < B)%N -> b \in bs -> facts B bs = (facts B (rem b bs) * count_mem b bs)%N.
Proof.
move=> hb hin; rewrite /facts (bigD1 (Ordinal hb)) //= [in RHS](bigD1 (Ordinal hb)) //=.
have e1 : (count_mem b bs).-1.+1 = count_mem b bs by rewrite prednK // -has_count has_pred1.
have e2 : count_mem b (rem b bs) = (count_mem b bs).-1.
  by have := perm_to_rem hin => /permP ->; rewrite /= eqxx.
rewrite e2; have -> : (count_mem b bs)`! = (count_mem b bs * (count_mem b bs).-1`!)%N by rewrite -{1}e1 factS e1.
have -> : (\prod_(i < B | i != Ordinal hb) (count_mem (nat_of_ord i) bs)`! =
           \prod_(i < B | i != Ordinal hb) (count_mem (nat_of_ord i) (rem b bs))`!)%N.
  apply: eq_bigr => i hi; congr factorial.
  have /permP -> := perm_to_rem hin; rewrite /= (_ : (b == i) = false) //.
  by apply/negbTE; move: hi; rewrite -val_eqE /= eq_sym.
by rewrite -mulnA mulnC.
Qed.

Lemma facts_gt0 B bs : (0 < facts B bs)%N.
Proof. by rewrite /facts; apply: prodn_gt0 => i; apply: fact_gt0. Qed.

Lemma facts_perm B bs bs' : perm_eq bs bs' -> facts B bs = facts B bs'.
Proof. by move=> h; rewrite /facts; apply: eq_bigr => i _; rewrite (permP h). Qed.

Lemma perm_cons_rem (T : eqType) (x : T) l s : perm_eq (x :: l) s = (x \in s) && perm_eq l (rem x s).
Proof.
case: (boolP (x \in s)) => /= hx.
- by rewrite (permPr (perm_to_rem hx)) perm_cons.
- by apply/negbTE; apply: contra hx => /perm_mem <-; rewrite inE eqxx.
Qed.

(** *** k uniform draws of blocks: probability of a given multiset. *)
Fixpoint draw_blocks (B k : nat) : dist (seq nat) :=
  if k is k'.+1 then bind (unif (iota 0 B)) (fun b => bind (draw_blocks B k') (fun r => ret (b :: r)))
  else ret [::].

Lemma sum_count (B : nat) bs : all (fun b => (b < B)%N) bs ->
  (\sum_(b <- iota 0 B | b \in bs) count_mem b bs = size bs)%N.
Proof.
move=> h; rewrite -sum1_size.
transitivity (\sum_(b <- iota 0 B) \sum_(x <- bs | x == b) 1)%N.
  rewrite big_mkcond; apply: eq_bigr => b _; rewrite sum1_count.
  by case: ifP => // /negbT hb; apply/esym/eqP; rewrite -leqn0 leqNgt -has_count has_pred1.
rewrite (exchange_big_dep xpredT) //= [LHS]big_seq [RHS]big_seq; apply: eq_bigr => x hx.
rewrite sum1_count (eq_count (a2 := pred1 x)); last by move=> y; rewrite /= eq_sym.
rewrite count_uniq_mem ?iota_uniq // mem_iota add0n.
by have /allP/(_ _ hx) -> := h.
Qed.

Lemma all_rem (T : eqType) (P : pred T) x s : all P s -> all P (rem x s).
Proof. by move=> /allP h; apply/allP => y /mem_rem; exact: h. Qed.

Lemma pr_draw_blocks B k bs : (0 < B)%N -> all (fun b => (b < B)%N) bs ->
  pr (draw_blocks B k) (fun r => perm_eq r bs) =
  (size bs == k)%:R * (k`!)%:R / (facts B bs)%:R / B%:R ^+ k.
Proof.
move=> hB; elim: k bs => [|k IH] bs hbs.
  rewrite /= pr_ret perm_sym; case: bs hbs => [|b bs] hbs /=.
    rewrite /facts big1 ?perm_refl; last by move=> i _; rewrite /= fact0.
    by rewrite fact0 expr0 !divr1 mulr1.
  by rewrite !mul0r; case: (boolP (perm_eq _ _)) => // /perm_size.
rewrite [draw_blocks _ _]/= pr_unif size_iota.
have -> : \sum_(a <- iota 0 B) pr (bind (draw_blocks B k) (fun r => ret (a :: r))) (fun r => perm_eq r bs)
  = \sum_(a <- iota 0 B) (if a \in bs then pr (draw_blocks B k) (fun r => perm_eq r (rem a bs)) else 0).
  apply: eq_bigr => b _; rewrite pr_bind.
  transitivity (\sum_(p <- draw_blocks B k) p.1 * ((b \in bs) && perm_eq p.2 (rem b bs))%:R).
    by apply: eq_bigr => p _; rewrite pr_ret perm_cons_rem.
  case: (b \in bs) => /=; last by rewrite big1 // => p _; rewrite mulr0.
  by rewrite /pr [RHS]big_mkcond; apply: eq_bigr => p _; case: (perm_eq _ _); rewrite ?mulr1 ?mulr0.
have -> : \sum_(a <- iota 0 B) (if a \in bs then pr (draw_blocks B k) (fun r => perm_eq r (rem a bs)) else 0)
  = \sum_(a <- iota 0 B | a \in bs) (count_mem a bs)%:R * ((size bs == k.+1)%:R * (k`!)%:R / (facts B bs)%:R / B%:R ^+ k).
  rewrite -big_mkcond /= big_seq_cond [RHS]big_seq_cond; apply: eq_bigr => b /andP[hb hin].
  rewrite mem_iota add0n /= in hb.
  rewrite IH; last exact: all_rem.
  rewrite size_rem // (facts_rem hb hin) natrM.
  have c0 : (count_mem b bs)%:R != 0 :> K by rewrite pnatr_eq0 -lt0n -has_count has_pred1.
  have f0 : (facts B (rem b bs))%:R != 0 :> K by rewrite pnatr_eq0 -lt0n facts_gt0.
  have -> : ((size bs).-1 == k) = (size bs == k.+1) by case: (bs) hin.
  have b0 : B%:R ^+ k != 0 :> K by rewrite expf_neq0 // pnatr_eq0 -lt0n.
  kfield K.
rewrite -big_distrl /= -natr_sum sum_count //.
case: eqP => [->|_]; last by rewrite !mul0r !mulr0.
rewrite factS natrM exprS.
have b0 : B%:R != 0 :> K by rewrite pnatr_eq0 -lt0n.
have b1 : B%:R ^+ k != 0 :> K by rewrite expf_neq0.
have f0 : (facts B bs)%:R != 0 :> K by rewrite pnatr_eq0 -lt0n facts_gt0.
kfield K.
Qed.

(** *** Library routines as distributions. *)

(** All random streams of std::random_shuffle on N elements: the i-th index is at most i. *)
Fixpoint streams (i len : nat) : seq (seq nat) :=
  if len is len'.+1 then [seq j :: cs | j <- iota 0 i.+1, cs <- streams i.+1 len'] else [:: [::]].
Definition pickup (N n : nat) : dist (seq nat) :=
  unif [seq pickup_a_few_numbers N n cs | cs <- streams 1 (N - 1)].

Lemma Permutation_perm_eq (T : eqType) (s t : seq T) : Permutation s t -> perm_eq s t.
Proof.
elim=> [|x s1 s2 _ IH|x y s1|s1 s2 s3 _ IH1 _ IH2].
- exact: perm_refl.
- by rewrite perm_cons.
- by apply/permP => p /=; rewrite !addnA (addnC (p y)).
- exact: perm_trans IH1 IH2.
Qed.
Lemma perm_eq_Permutation (T : eqType) (s t : seq T) : perm_eq s t -> Permutation s t.
Proof.
elim: s t => [|x s IH] t.
  by rewrite perm_sym => /perm_nilP ->; constructor.
rewrite perm_cons_rem => /andP[hx h].
apply: Permutation_trans (Permutation_cons (erefl x) (IH _ h)) _ => {h IH s}.
elim: t hx => [//|y t IH]; rewrite inE /=; case: (eqVneq y x) => [-> _|ne]; first exact: Permutation_refl.
move=> /= /IH h.
by apply: Permutation_trans (perm_swap _ _ _) _; constructor.
Qed.
Lemma seq_iota i n : List.seq i n = iota i n.
Proof. by elim: n i => //= n IH i; rewrite IH. Qed.
Lemma firstn_take A n (s : seq A) : firstn n s = take n s.
Proof. by elim: n s => [|n IH] [|x s] //=; rewrite IH. Qed.
Lemma In_mem (T : eqType) (x : T) (s : seq T) : In x s <-> x \in s.
Proof.
elim: s => [|y s IH] //=; rewrite inE; split.
- by case=> [->|/IH ->]; rewrite ?eqxx ?orbT.
- by case/orP => [/eqP ->|/IH]; [left|right].
Qed.
Lemma NoDup_uniq (T : eqType) (s : seq T) : NoDup s <-> uniq s.
Proof.
elim: s => [|x s IH] /=; first by split=> // _; constructor.
split=> [h|/andP[hx /IH h]].
- by inversion h; subst; apply/andP; split; [apply/negP => /In_mem|apply/IH].
- by constructor=> // /In_mem; apply/negP.
Qed.

Lemma mem_streams i len cs : cs \in streams i len <-> List.length cs = len /\ choices_ok i cs.
Proof.
elim: len i cs => [|len IH] i cs.
  rewrite inE; split=> [/eqP -> //|[]]; by case: cs.
change (streams i len.+1) with [seq j :: cs | j <- iota 0 i.+1, cs <- streams i.+1 len].
split.
- case/allpairsP => -[j c] [hj /IH[hl hc] ->]; split; first by rewrite /= hl.
  by split=> //; move: hj; rewrite mem_iota add0n ltnS => /andP[_] /leP.
- case: cs => [[]//|j cs] [[hl] [hj hc]].
  apply/allpairsP; exists (j, cs); split=> //.
  + by move/leP: hj => hj; rewrite mem_iota add0n ltnS.
  + by apply/IH.
Qed.

Lemma streams_uniq i len : uniq (streams i len).
Proof.
elim: len i => [//|len IH] i; rewrite [streams _ _]/=.
apply: (@allpairs_uniq _ _ _ (fun j cs => j :: cs) (iota 0 i.+1)); rewrite ?iota_uniq ?IH //.
by move=> [j c] [j' c'] _ _ /= [-> ->].
Qed.

Lemma shuffles_permutations N :
  perm_eq [seq shuffle_from 1 cs (iota 0 N) | cs <- streams 1 (N - 1)] (permutations (iota 0 N)).
Proof.
have [hinj hsurj] := C10_shuffle_bijective N.
apply: uniq_perm.
- rewrite map_inj_in_uniq ?streams_uniq // => c c' /mem_streams[h1 h2] /mem_streams[h1' h2'].
  by rewrite -seq_iota => h; apply: hinj.
- exact: permutations_uniq.
move=> s; rewrite mem_permutations; apply/mapP/idP.
- case=> cs /mem_streams[h1 h2] ->; rewrite perm_sym; apply: Permutation_perm_eq.
  by rewrite -seq_iota; apply: shuffle_seq.
- rewrite perm_sym => /perm_eq_Permutation; rewrite -seq_iota => /hsurj[cs [h1 [h2 h3]]].
  by exists cs => //; apply/mem_streams.
Qed.

Lemma count_take_perm (T : eqType) (L S : seq T) : uniq L -> uniq S -> {subset S <= L} ->
  count (fun p => perm_eq (take (size S) p) S) (permutations L) = ((size S)`! * (size L - size S)`!)%N.
Proof.
move=> uL uS sSL.
set R := [seq x <- L | x \notin S].
have pL : perm_eq L (S ++ R).
  apply: uniq_perm => //.
  - rewrite cat_uniq uS filter_uniq // andbT; apply/hasPn => x; rewrite mem_filter => /andP[] //.
  - move=> x; rewrite mem_cat mem_filter; case: (boolP (x \in S)) => //= /sSL ->//.
have uR : uniq R by rewrite filter_uniq.
have sR : size R = (size L - size S)%N.
  by rewrite (perm_size pL) size_cat addKn.
rewrite -size_filter -sR -(size_permutations uS) -(size_permutations uR) -[RHS](size_allpairs cat).
apply: perm_size; apply: uniq_perm.
- by rewrite filter_uniq // permutations_uniq.
- apply: allpairs_uniq; rewrite ?permutations_uniq //.
  move=> [a b] [a' b'] /allpairsP[[x y]] /= [hx _ [-> ->]] /allpairsP[[x' y']] /= [hx' _ [-> ->]] /eqP.
  rewrite !mem_permutations in hx hx'.
  rewrite eqseq_cat; first by case/andP => /eqP -> /eqP ->.
  by rewrite (perm_size hx) (perm_size hx').
- move=> p; rewrite mem_filter mem_permutations; apply/idP/allpairsP.
  + case/andP=> hp hL; exists (take (size S) p, drop (size S) p) => /=.
    rewrite !mem_permutations cat_take_drop hp; split=> //.
    have : perm_eq (take (size S) p ++ drop (size S) p) (S ++ R).
      by rewrite cat_take_drop; apply: perm_trans hL pL.
    move=> h; have := perm_trans h (perm_cat (s1 := S) (t1 := R) _ (perm_refl R)).
    by rewrite -(perm_cat2l (take (size S) p)); apply; rewrite perm_sym.
  + case=> [[a b]] /=; rewrite !mem_permutations => -[ha hb ->].
    rewrite -(perm_size ha) take_size_cat // ha /=.
    by rewrite perm_sym (permPl pL) perm_sym perm_cat.
Qed.

Lemma pr_pickup N n (S : seq nat) : uniq S -> {subset S <= iota 0 N} -> size S = n ->
  pr (pickup N n) (fun r => perm_eq r S) = (n`!)%:R * ((N - n)`!)%:R / (N`!)%:R.
Proof.
move=> uS sS sz.
have hn : (n <= N)%N by rewrite -sz -(size_iota 0 N); apply: uniq_leq_size.
rewrite /pickup pr_unif0 size_map.
have -> : size (streams 1 (N - 1)) = N`!.
  rewrite -(size_map (fun cs => shuffle_from 1 cs (iota 0 N))) (perm_size (shuffles_permutations N)).
  by rewrite size_permutations ?iota_uniq // size_iota.
have -> : count (fun r => perm_eq r S) [seq pickup_a_few_numbers N n cs | cs <- streams 1 (N - 1)] =
   count (fun p => perm_eq (take (size S) p) S) (permutations (iota 0 N)).
  rewrite -(permP (shuffles_permutations N)) !count_map; apply: eq_count => cs /=.
  rewrite /pickup_a_few_numbers seq_iota firstn_take sz.
  by have -> : Nat.sub n N = O by [apply/eqP; rewrite subn_eq0]; rewrite /= List.app_nil_r.
rewrite count_take_perm ?iota_uniq // size_iota sz natrM.
by rewrite mulrC.
Qed.

Lemma supp_pickup N n : (n <= N)%N ->
  supp (fun r => [&& size r == n, uniq r & all (fun i => (i < N)%N) r]) (pickup N n).
Proof.
move=> hn; apply: supp_unif; rewrite all_map; apply/allP => cs /mem_streams[h1 h2] /=.
have [e1 [e2 e3]] := C10_pickup_distinct N n cs (elimT leP hn) h1 h2.
apply/and3P; split; first by apply/eqP.
- exact/NoDup_uniq.
- by apply/allP => i /In_mem /e3 /ltP.
Qed.

(** Picking n of the N elements of a list: every n-subset has probability n!(N-n)!/N!. *)
Definition pck (N n : nat) : K := (n`!)%:R * ((N - n)`!)%:R / (N`!)%:R.

Lemma nth_pick (T : eqType) (x0 : T) l (ic : seq nat) (S : seq T) : uniq l -> {subset S <= l} ->
  all (fun i => (i < size l)%N) ic ->
  perm_eq [seq nth x0 l i | i <- ic] S = perm_eq ic [seq index x l | x <- S].
Proof.
move=> ul hS hic; apply/idP/idP => h.
- have := perm_map (fun x => index x l) h; rewrite -map_comp.
  rewrite (_ : [seq _ | i <- ic] = ic) // -[RHS]map_id; apply/eq_in_map => i /(allP hic) hi /=.
  by rewrite index_uniq.
- have := perm_map (nth x0 l) h; rewrite -map_comp.
  rewrite (_ : [seq _ | i <- S] = S) // -[RHS]map_id; apply/eq_in_map => x /hS hx /=.
  by rewrite nth_index.
Qed.

Lemma pr_pick_list (T : eqType) (x0 : T) (l S : seq T) n : uniq l -> uniq S -> {subset S <= l} -> size S = n ->
  pr (pickup (size l) n) (fun ic => perm_eq [seq nth x0 l i | i <- ic] S) = pck (size l) n.
Proof.
move=> ul uS sS sz.
have hn : (n <= size l)%N by rewrite -sz; apply: uniq_leq_size.
rewrite /pck -(@pr_pickup (size l) n [seq index x l | x <- S]).
- apply: eq_pr_supp (supp_pickup hn) _ => ic /and3P[_ _ hic]; exact: nth_pick.
- by rewrite map_inj_in_uniq // => x y /sS hx /sS hy /(congr1 (nth x0 l)); rewrite !nth_index.
- by move=> i /mapP[x /sS hx ->]; rewrite mem_iota add0n index_mem.
- by rewrite size_map.
Qed.


(** k independent uniform draws, in order. *)
Fixpoint draws {A} (l : seq A) (k : nat) : dist (seq A) :=
  if k is k'.+1 then bind (unif l) (fun a => bind (draws l k') (fun r => ret (a :: r))) else ret [::].

Lemma pr_draws (T : eqType) (l S : seq T) k : (0 < size l)%N -> uniq l -> uniq S -> {subset S <= l} ->
  pr (draws l k) (fun r => perm_eq r S) = (size S == k)%:R * (k`!)%:R / (size l)%:R ^+ k.
Proof.
move=> l0 ul; elim: k S => [|k IH] S uS sS.
  rewrite pr_ret fact0 expr0 divr1 mulr1 perm_sym; congr (_%:R); congr nat_of_bool.
  by case: S {uS sS} => //= x S; apply/negbTE/negP => /perm_nilP.
rewrite pr_unif.
transitivity ((size l)%:R^-1 * \sum_(a <- l) (if a \in S then pr (draws l k) (fun r => perm_eq r (rem a S)) else 0)).
  congr (_ * _); apply: eq_bigr => a _; rewrite pr_bind_ret.
  transitivity ((a \in S)%:R * pr (draws l k) (fun r => perm_eq r (rem a S))).
    by rewrite -pr_andl; apply: eq_pr => r; rewrite perm_cons_rem.
  by case: (a \in S); rewrite ?mul1r ?mul0r.
rewrite sum_swap_mem //.
have -> : \sum_(x <- S | x \in l) pr (draws l k) (fun r => perm_eq r (rem x S))
        = \sum_(x <- S) ((size S == k.+1)%:R * (k`!)%:R / (size l)%:R ^+ k).
  rewrite big_seq_cond [RHS]big_seq; apply: eq_big => [x|x /andP[hx _]].
    by case hx: (x \in S) => //=; rewrite sS.
  rewrite IH ?rem_uniq //; last by move=> y /mem_rem /sS.
  by rewrite size_rem //; case: (S) hx.
rewrite big_const_seq count_predT iter_addr_0.
case: eqP => [->|_]; last by rewrite !mul0r mul0rn mulr0.
have h0 : (size l)%:R != 0 :> K by rewrite pnatr_eq0 -lt0n.
have h1 : (size l)%:R ^+ k != 0 :> K by rewrite expf_neq0.
rewrite !mul1r -[_ *+ k.+1]mulr_natr factS natrM exprS; kfield K.
Qed.

(** Two interleaved sequences of independent draws. *)
Fixpoint draws2 {A} (l : seq A) (k : nat) : dist (seq (A * A)) :=
  if k is k'.+1 then
    bind (unif l) (fun a => bind (unif l) (fun b => bind (draws2 l k') (fun r => ret ((a, b) :: r))))
  else ret [::].
Lemma pr_draws2 A (l : seq A) k (P Q : seq A -> bool) :
  pr (draws2 l k) (fun o => P (unzip1 o) && Q (unzip2 o)) = pr (draws l k) P * pr (draws l k) Q.
Proof.
elim: k P Q => [|k IH] P Q.
  by rewrite !pr_ret /=; case: (P _) (Q _) => -[]; rewrite ?mulr0 ?mulr1.
rewrite [draws2 _ _]/= [draws _ _]/= !pr_unif.
transitivity ((size l)%:R^-1 * \sum_(a <- l) ((size l)%:R^-1 * \sum_(b <- l)
   (pr (draws l k) (fun r => P (a :: r)) * pr (draws l k) (fun r => Q (b :: r))))).
  congr (_ * _); apply: eq_bigr => a _; rewrite pr_unif; congr (_ * _); apply: eq_bigr => b _.
  by rewrite pr_bind_ret -IH.
transitivity ((size l)%:R^-1 * \sum_(a <- l) (pr (draws l k) (fun r => P (a :: r)) *
   ((size l)%:R^-1 * \sum_(b <- l) pr (draws l k) (fun r => Q (b :: r))))).
  congr (_ * _); apply: eq_bigr => a _; rewrite -big_distrr /= mulrCA //.
rewrite -big_distrl /= mulrA; congr (_ * _ * (_ * _)); apply: eq_bigr => a _; rewrite pr_bind_ret //.
Qed.

(** A given ordered outcome. *)
Lemma pr_draws_eq (T : eqType) (l S : seq T) k : uniq l -> {subset S <= l} ->
  pr (draws l k) (pred1 S) = (size S == k)%:R / (size l)%:R ^+ k.
Proof.
move=> ul; elim: k S => [|k IH] S sS.
  by rewrite pr_ret expr0 divr1 /= eq_sym; case: S sS.
rewrite [draws _ _]/= pr_unif; case: S sS => [|x S] sS.
  rewrite big1 ?mulr0 ?mul0r // => a _; rewrite pr_bind_ret pr_pred0 // => r.
have hx : x \in l by apply: sS; rewrite mem_head.
rewrite (perm_big _ (perm_to_rem hx)) big_cons big_seq big1 ?addr0 => [|a].
  rewrite pr_bind_ret (_ : pr _ _ = pr (draws l k) (pred1 S)); last by apply: eq_pr => r; rewrite /= eqseq_cons eqxx.
  rewrite IH => [|y hy]; last by apply: sS; rewrite inE hy orbT.
  by rewrite [size (x :: S)]/= eqSS exprS invfM [X in _ * X]addr0 [LHS]mulrCA.
rewrite mem_rem_uniq // inE => /andP[ne _]; rewrite pr_bind_ret pr_pred0 // => r.
by rewrite /= eqseq_cons (negbTE ne).
Qed.

Lemma count_take_perm_ord (T : eqType) (L S : seq T) : uniq L -> uniq S -> {subset S <= L} ->
  count (fun p => take (size S) p == S) (permutations L) = ((size L - size S)`!)%N.
Proof.
move=> uL uS sSL.
set R := [seq x <- L | x \notin S].
have pL : perm_eq L (S ++ R).
  apply: uniq_perm => //.
  - rewrite cat_uniq uS filter_uniq // andbT; apply/hasPn => x; rewrite mem_filter => /andP[] //.
  - move=> x; rewrite mem_cat mem_filter; case: (boolP (x \in S)) => //= /sSL ->//.
have uR : uniq R by rewrite filter_uniq.
have sR : size R = (size L - size S)%N by rewrite (perm_size pL) size_cat addKn.
rewrite -size_filter -sR -(size_permutations uR) -[RHS](size_map (cat S)).
apply: perm_size; apply: uniq_perm.
- by rewrite filter_uniq // permutations_uniq.
- by rewrite map_inj_in_uniq ?permutations_uniq // => a b _ _ /eqP; rewrite eqseq_cat // eqxx => /eqP.
- move=> p; rewrite mem_filter mem_permutations; apply/idP/mapP.
  + case/andP=> /eqP hp hL; exists (drop (size S) p); last by rewrite -{1}hp cat_take_drop.
    rewrite mem_permutations -(perm_cat2l S) -{1}hp cat_take_drop.
    exact: perm_trans hL pL.
  + case=> q; rewrite mem_permutations => hq ->.
    by rewrite take_size_cat // eqxx /= perm_sym (permPl pL) perm_sym perm_cat2l.
Qed.

Lemma pr_pickup_ord N n (S : seq nat) : uniq S -> {subset S <= iota 0 N} -> size S = n ->
  pr (pickup N n) (pred1 S) = (N ^_ n)%:R^-1.
Proof.
move=> uS sS sz.
have hn : (n <= N)%N by rewrite -sz -(size_iota 0 N); apply: uniq_leq_size.
rewrite /pickup pr_unif0 size_map.
have -> : size (streams 1 (N - 1)) = N`!.
  rewrite -(size_map (fun cs => shuffle_from 1 cs (iota 0 N))) (perm_size (shuffles_permutations N)).
  by rewrite size_permutations ?iota_uniq // size_iota.
have -> : count (pred1 S) [seq pickup_a_few_numbers N n cs | cs <- streams 1 (N - 1)] =
   count (fun p => take (size S) p == S) (permutations (iota 0 N)).
  rewrite -(permP (shuffles_permutations N)) !count_map; apply: eq_count => cs /=.
  rewrite /pickup_a_few_numbers seq_iota firstn_take sz.
  by have -> : Nat.sub n N = O by [apply/eqP; rewrite subn_eq0]; rewrite /= List.app_nil_r.
rewrite count_take_perm_ord ?iota_uniq // size_iota sz -(ffact_fact hn) natrM.
have h1 : (N ^_ n)%:R != 0 :> K by rewrite pnatr_eq0 -lt0n ffact_gt0.
have h2 : ((N - n)`!)%:R != 0 :> K by rewrite pnatr_eq0 -lt0n fact_gt0.
by rewrite invfM -mulrA mulVf // mulr1.
Qed.

(** Product of the factorials of the multiplicities, over a domain [dom]. *)
Definition factsD (T : eqType) (dom s : seq T) : nat := (\prod_(x <- dom) (count_mem x s)`!)%N.
Lemma factsD_rem (T : eqType) (dom s : seq T) x : uniq dom -> x \in dom -> x \in s ->
  factsD dom s = (count_mem x s * factsD dom (rem x s))%N.
Proof.
move=> ud hd hs; rewrite /factsD !(perm_big _ (perm_to_rem hd)) !big_cons /=.
have e y : count_mem y s = ((x == y) + count_mem y (rem x s))%N by rewrite (permP (perm_to_rem hs)).
rewrite e eqxx add1n factS -mulnA; congr (_ * (_ * _))%N.
rewrite big_seq [RHS]big_seq; apply: eq_bigr => y; rewrite mem_rem_uniq // inE => /andP[ne _].
by rewrite e eq_sym (negbTE ne).
Qed.
Lemma factsD_gt0 (T : eqType) (dom s : seq T) : (0 < factsD dom s)%N.
Proof. by rewrite prodn_gt0 // => x; rewrite fact_gt0. Qed.

(** Each labelled item [a] of a list draws a value [t] of [l] independently and becomes [h a t]. *)
Fixpoint label_draws {A T C} (h : A -> T -> C) (l : seq T) (ls : seq A) : dist (seq C) :=
  if ls is a :: ls' then
    bind (unif l) (fun t => bind (label_draws h l ls') (fun r => ret (h a t :: r)))
  else ret [::].

Lemma pr_label_draws (A T C : eqType) (h : A -> T -> C) (key : C -> A) (val : C -> T) (l : seq T) (dom ls : seq A) (S : seq C) :
  (0 < size l)%N -> uniq l -> uniq dom -> {subset ls <= dom} ->
  (forall a t, key (h a t) = a /\ val (h a t) = t) ->
  uniq S -> all (fun x => (val x \in l) && (x == h (key x) (val x))) S ->
  pr (label_draws h l ls) (fun r => perm_eq r S) =
  (perm_eq (map key S) ls)%:R * (factsD dom ls)%:R / (size l)%:R ^+ size ls.
Proof.
move=> l0 ul ud + kv; elim: ls S => [|a ls IH] S sd uS aS.
  rewrite pr_ret expr0 divr1 /factsD big1 ?mulr1 => [|x _] //.
  congr (_%:R); congr nat_of_bool; rewrite perm_sym; case: S {uS aS} => // x S.
  by apply/idP/idP => /perm_size.
rewrite pr_unif.
have ha : a \in dom by apply: sd; rewrite mem_head.
have sd' : {subset ls <= dom} by move=> y hy; apply: sd; rewrite inE hy orbT.
transitivity ((size l)%:R^-1 * \sum_(t <- l) ((h a t \in S)%:R * pr (label_draws h l ls) (fun r => perm_eq r (rem (h a t) S)))).
  congr (_ * _); apply: eq_bigr => t _; rewrite pr_bind_ret -pr_andl; apply: eq_pr => r.
  by rewrite perm_cons_rem.
have e1 : \sum_(t <- l) ((h a t \in S)%:R * pr (label_draws h l ls) (fun r => perm_eq r (rem (h a t) S))) =
   \sum_(x <- S | key x == a) pr (label_draws h l ls) (fun r => perm_eq r (rem x S)).
  transitivity (\sum_(x <- map (h a) l) (if x \in S then pr (label_draws h l ls) (fun r => perm_eq r (rem x S)) else 0)).
    by rewrite big_map; apply: eq_bigr => t _; case: (_ \in S); rewrite ?mul1r ?mul0r.
  rewrite sum_swap_mem //; last first.
    by rewrite map_inj_in_uniq // => t t' _ _ /(congr1 val); rewrite !(proj2 (kv _ _)).
  rewrite big_seq_cond [RHS]big_seq_cond; apply: eq_bigl => x; case hx: (x \in S) => //=.
  have /andP[hv /eqP hk] := allP aS _ hx.
  apply/mapP/eqP => [[t _ ->]|<-]; first exact: (proj1 (kv _ _)).
  by exists (val x).
rewrite e1.
transitivity ((size l)%:R^-1 * \sum_(x <- S | key x == a)
    ((perm_eq (map key S) (a :: ls))%:R * (factsD dom ls)%:R / (size l)%:R ^+ size ls : K)).
  congr (_ * _); rewrite big_seq_cond [RHS]big_seq_cond; apply: eq_bigr => x /andP[hx /eqP hk].
  rewrite IH ?rem_uniq //; last by apply: all_rem.
  congr (_%:R * _ / _); congr nat_of_bool.
  have h1 : perm_eq (map key S) (a :: map key (rem x S)) by rewrite -hk -map_cons; apply: perm_map; apply: perm_to_rem.
  by rewrite (permPl h1) perm_cons.
rewrite big_const_seq iter_addr_0 -[_ *+ count _ S]mulr_natr.
case: (boolP (perm_eq (map key S) (a :: ls))) => hp; last by rewrite !mul0r !mulr0.
have -> : count (fun x => key x == a) S = count_mem a (a :: ls).
  by rewrite -(permP hp) count_map.
rewrite (factsD_rem ud ha (mem_head a ls)).
have -> : rem a (a :: ls) = ls by rewrite /= eqxx.
rewrite natrM [size _]/= exprS.
have h0 : (size l)%:R != 0 :> K by rewrite pnatr_eq0 -lt0n.
have h1 : (size l)%:R ^+ size ls != 0 :> K by rewrite expf_neq0.
rewrite !mul1r.
move: (count_mem a (a :: ls))%:R (factsD dom ls)%:R => u v; kfield K.
Qed.
End Dist.
