(** Proposals that insert and remove hybridized operators.

    Modelled code: src/moves/moves.ipp:7-10 (pick), 16-23 (safe_falling_factorial),
    266-299 (InsertionRemovalUpdater::propose), 302-351 (propose_insertion),
    353-405 (propose_removal).

    A proposal is a distribution (Dist.v) over optional moves; [None] is "return false".
    Times are drawn uniformly from a finite grid of cells of equal width; with G cells in a window
    of width L a probability P for n times is the density P / (L/G)^n. The theorems hold for every
    grid, so nothing depends on its size. The margin 1e-10 of open_random is not modelled here.
    [cd b], [c b]: operators of block b in the closed window, in time order. *)

From Coq Require Import ZArith List Sorting.Permutation.
From mathcomp Require Import all_ssreflect all_algebra.
From Verif Require Import OpContainer CombSort Select KField Dist.
Local Close Scope Z_scope.

Set Implicit Arguments.
Unset Strict Implicit.
Unset Printing Implicit Defensive.

Import GRing.Theory Num.Theory.
Local Open Scope nat_scope.
Local Open Scope ring_scope.

Lemma optime_eqbP : Equality.axiom ot_eqb.
Proof. by move=> x y; apply: (iffP idP) => [/ot_eqb_spec|/ot_eqb_spec]. Qed.
Canonical optime_eqType := EqType optime (EqMixin optime_eqbP).
Lemma optype_eqbP : Equality.axiom optype_eqb.
Proof. by move=> x y; apply: (iffP idP) => [/optype_eqb_spec|/optype_eqb_spec]. Qed.
Canonical optype_eqType := EqType optype (EqMixin optype_eqbP).

Section Moves.
Variable K : realFieldType.
Add Field Kf : (kfield_theory K).

(** src/moves/moves.ipp:16-23 *)
Definition falling (x : K) (i : nat) : K := \prod_(j < i) (x - j%:R).

(** Operators to remove and add, and acceptance_rate_correction_ (LocalUpdater members). *)
Record move := Move { m_rem_cd : seq psi; m_rem_c : seq psi; m_add_cd : seq psi; m_add_c : seq psi; m_corr : K }.

Definition psi0 := Psi (OT 0 0) CREATION_OP 0.

Section InsRem.
Variables (F B : nat) (bl : nat -> nat) (grid : seq optime) (L : K).

(** mc_config.M.flavors(block), num_flavors(block) *)
Definition flavors (b : nat) : seq nat := [seq f <- iota 0 F | bl f == b].
Definition nf b : K := (size (flavors b))%:R.

(** moves.ipp:311-326: one entry (block, creator, annihilator) per new pair. *)
Fixpoint ins_loop (k : nat) : dist K (seq (nat * psi * psi)) :=
  if k is k'.+1 then
    bind (unif K (iota 0 B)) (fun b =>
    bind (unif K grid) (fun t1 => bind (unif K (flavors b)) (fun f1 =>
    bind (unif K grid) (fun t2 => bind (unif K (flavors b)) (fun f2 =>
    bind (ins_loop k') (fun r =>
    ret K ((b, Psi t1 CREATION_OP f1, Psi t2 ANNIHILATION_OP f2) :: r)))))))
  else ret K [::].

(** moves.ipp:328-348; [nn ib] is num_new_pairs[ib]. *)
Definition corr_ins (k : nat) (nn : nat -> nat) (cd c : nat -> seq psi) : K :=
  foldl (fun acc ib =>
    if nn ib == 0%N then acc
    else acc * nf ib ^+ (2 * nn ib)
         / falling (size (cd ib) + nn ib)%:R (nn ib) / falling (size (c ib) + nn ib)%:R (nn ib))
    (L ^+ (2 * k)) (iota 0 B).

Definition propose_insertion (k : nat) (cd c : nat -> seq psi) : dist K (option move) :=
  bind (ins_loop k) (fun o =>
    ret K (Some (Move [::] [::] [seq x.1.2 | x <- o] [seq x.2 | x <- o]
                      (corr_ins k (fun ib => count_mem ib [seq x.1.1 | x <- o]) cd c)))).

(** moves.ipp:371-389 *)
Fixpoint rem_blocks (nr : nat -> nat) (cd c : nat -> seq psi) (ibs : seq nat) : dist K (seq psi * seq psi) :=
  if ibs is ib :: ibs' then
    bind (pickup K (size (cd ib)) (nr ib)) (fun ic =>
    bind (pickup K (size (c ib)) (nr ib)) (fun ia =>
    bind (rem_blocks nr cd c ibs') (fun r =>
    ret K ([seq nth psi0 (cd ib) i | i <- ic] ++ r.1, [seq nth psi0 (c ib) i | i <- ia] ++ r.2))))
  else ret K ([::], [::]).

(** moves.ipp:391-402 *)
Definition corr_rem (k : nat) (nr : nat -> nat) (cd c : nat -> seq psi) : K :=
  foldl (fun acc ib =>
    if nr ib == 0%N then acc
    else acc / nf ib ^+ (2 * nr ib)
         * (falling (size (cd ib))%:R (nr ib) * falling (size (c ib))%:R (nr ib)))
    ((L ^+ (2 * k))^-1) (iota 0 B).

Definition propose_removal (k : nat) (cd c : nat -> seq psi) : dist K (option move) :=
  bind (draw_blocks K B k) (fun bs =>
    let nr ib := count_mem ib bs in
    if has (fun ib => (size (cd ib) < nr ib)%N || (size (c ib) < nr ib)%N) (iota 0 B) then ret K None
    else bind (rem_blocks nr cd c (iota 0 B)) (fun r =>
         ret K (Some (Move r.1 r.2 [::] [::] (corr_rem k nr cd c))))).

(** moves.ipp:267-299; rng() < 0.5 *)
Definition propose (k : nat) (cd c : nat -> seq psi) : dist K (option move) :=
  bind (unif K [:: true; false]) (fun b => if b then propose_insertion k cd c else propose_removal k cd c).

(* ------------------------------------------------------------------------- *)
(** ** Probabilities *)

Definition blk (x : psi) : nat := bl (p_flavor x).
Definition cand (ty : optype) (b : nat) : seq psi := [seq Psi t ty f | t <- grid, f <- flavors b].

Hypothesis grid_uniq : uniq grid.
Hypothesis grid_pos : (0 < size grid)%N.
Hypothesis B_pos : (0 < B)%N.
Hypothesis bl_lt : forall f, (f < F)%N -> (bl f < B)%N.
Hypothesis nf_pos : forall b, (b < B)%N -> (0 < size (flavors b))%N.

(** A set of operators that could be inserted. *)
Definition insertable (ty : optype) (s : seq psi) : bool :=
  uniq s && all (fun x => [&& p_type x == ty, p_time x \in grid & (p_flavor x < F)%N]) s.

Lemma cand_uniq ty b : uniq (cand ty b).
Proof.
apply: allpairs_uniq; rewrite ?filter_uniq ?iota_uniq //.
by move=> [t f] [t' f'] _ _ /= [-> ->].
Qed.
Lemma mem_cand ty b x : x \in cand ty b = [&& p_type x == ty, p_time x \in grid, (p_flavor x < F)%N & blk x == b].
Proof.
apply/allpairsP/idP.
- case=> -[t f] [/= ht]; rewrite mem_filter mem_iota add0n => /andP[/eqP hb /= hf] -> /=.
  by rewrite eqxx ht hf /blk /= hb eqxx.
- case/and4P => /eqP hy ht hf /eqP hb; exists (p_time x, p_flavor x) => /=; split=> //.
  + by rewrite mem_filter mem_iota hf andbT -hb eqxx.
  + by rewrite -hy; case: (x).
Qed.
Lemma size_cand ty b : size (cand ty b) = (size grid * size (flavors b))%N.
Proof. by rewrite size_allpairs. Qed.

Lemma insertable_rem ty x s : insertable ty s -> insertable ty (rem x s).
Proof. by case/andP => u a; rewrite /insertable rem_uniq // all_rem. Qed.

Definition G : K := (size grid)%:R.
(** probability weight of one pair of a block *)
Definition qb (b : nat) : K := B%:R^-1 * ((G * nf b)^-1 * (G * nf b)^-1).

Definition pairs_are (cs as_ : seq psi) (o : seq (nat * psi * psi)) : bool :=
  perm_eq [seq x.1.2 | x <- o] cs && perm_eq [seq x.2 | x <- o] as_.

Lemma ins_step k cs as_ : insertable CREATION_OP cs -> insertable ANNIHILATION_OP as_ ->
  pr (ins_loop k.+1) (pairs_are cs as_) =
  \sum_(b <- iota 0 B) qb b * \sum_(x <- cs | blk x == b) \sum_(y <- as_ | blk y == b)
     pr (ins_loop k) (pairs_are (rem x cs) (rem y as_)).
Proof.
case/andP => uc ac /andP[ua aa].
rewrite [ins_loop _]/= pr_unif size_iota mulr_sumr; apply: eq_bigr => b _.
rewrite -[qb b]/(_ * _) -mulrA; congr (_ * _).
have cand_sum ty (H : psi -> K) : \sum_(t <- grid) \sum_(f <- flavors b) H (Psi t ty f) = \sum_(x <- cand ty b) H x.
  by rewrite /cand big_allpairs_dep.
transitivity ((G * nf b)^-1 * \sum_(x <- cand CREATION_OP b) ((G * nf b)^-1 *
   \sum_(y <- cand ANNIHILATION_OP b) pr (bind (ins_loop k) (fun r => ret K ((b, x, y) :: r))) (pairs_are cs as_))).
  rewrite pr_unif -cand_sum invfM -mulrA; congr (_ * _); rewrite mulr_sumr; apply: eq_bigr => t1 _.
  rewrite pr_unif; congr (_ * _); apply: eq_bigr => f1 _.
  rewrite pr_unif -cand_sum -mulrA; congr (_ * _); rewrite mulr_sumr; apply: eq_bigr => t2 _.
  by rewrite pr_unif.
rewrite -mulr_sumr mulrA; congr (_ * _).
have step x y : pr (bind (ins_loop k) (fun r => ret K ((b, x, y) :: r))) (pairs_are cs as_) =
   if x \in cs then (if y \in as_ then pr (ins_loop k) (pairs_are (rem x cs) (rem y as_)) else 0) else 0.
  rewrite pr_bind.
  transitivity (\sum_(p <- ins_loop k) p.1 * (((x \in cs) && (y \in as_)) && pairs_are (rem x cs) (rem y as_) p.2)%:R).
    apply: eq_bigr => p _; rewrite pr_ret /pairs_are /= !perm_cons_rem.
    by rewrite -!andbA; congr (_ * _%:R); congr nat_of_bool; case: (x \in cs) => //=; rewrite andbCA.
  case: (x \in cs) => /=; last by rewrite big1 // => p _; rewrite mulr0.
  case: (y \in as_) => /=; last by rewrite big1 // => p _; rewrite mulr0.
  by rewrite /pr [RHS]big_mkcond; apply: eq_bigr => p _; case: (pairs_are _ _ _); rewrite ?mulr1 ?mulr0.
have in_cand ty s x : all (fun x => [&& p_type x == ty, p_time x \in grid & (p_flavor x < F)%N]) s ->
    x \in s -> (x \in cand ty b) = (blk x == b).
  by move=> /allP h /h /and3P[h1 h2 h3]; rewrite mem_cand h1 h2 h3.
transitivity (\sum_(x <- cand CREATION_OP b) (if x \in cs then \sum_(y <- cand ANNIHILATION_OP b)
   (if y \in as_ then pr (ins_loop k) (pairs_are (rem x cs) (rem y as_)) else 0) else 0)).
  apply: eq_bigr => x _; case: ifP => hx.
  - by apply: eq_bigr => y _; rewrite step hx.
  - by rewrite big1 // => y _; rewrite step hx.
rewrite sum_swap_mem ?cand_uniq // big_seq_cond [RHS]big_seq_cond; apply: eq_big => x.
  by case: (boolP (x \in cs)) => //= hx; rewrite (in_cand _ _ _ ac hx).
move=> _; rewrite sum_swap_mem ?cand_uniq // big_seq_cond [RHS]big_seq_cond; apply: eq_bigl => y.
by case: (boolP (y \in as_)) => //= hy; rewrite (in_cand _ _ _ aa hy).
Qed.

Lemma blk_lt ty s x : insertable ty s -> x \in s -> (blk x < B)%N.
Proof. by case/andP => _ /allP h /h /and3P[_ _ hf]; apply: bl_lt. Qed.

Lemma map_rem_perm (x : psi) s : x \in s -> perm_eq (map blk (rem x s)) (rem (blk x) (map blk s)).
Proof.
move=> hx; rewrite -(perm_cons (blk x)).
have h1 : perm_eq (blk x :: map blk (rem x s)) (map blk s).
  by rewrite -map_cons; apply: perm_map; rewrite perm_sym perm_to_rem.
by apply: perm_trans h1 _; apply: perm_to_rem; apply: map_f.
Qed.

Lemma prod_rem (x : psi) s (w : psi -> K) : x \in s -> \prod_(y <- s) w y = w x * \prod_(y <- rem x s) w y.
Proof. by move=> hx; rewrite (perm_big _ (perm_to_rem hx)) big_cons. Qed.

Lemma sum_cond_const (s : seq psi) (P : pred psi) (a : K) :
  \sum_(x <- s | P x) a = (count P s)%:R * a.
Proof. by rewrite big_const_seq iter_addr_0 mulrC mulr_natr. Qed.

Lemma count_blk b s : count (fun x => blk x == b) s = count_mem b (map blk s).
Proof. by rewrite count_map. Qed.

Lemma pr_ins_loop k cs as_ : insertable CREATION_OP cs -> insertable ANNIHILATION_OP as_ ->
  pr (ins_loop k) (pairs_are cs as_) =
  (size cs == k)%:R * (perm_eq (map blk cs) (map blk as_))%:R *
  ((k`! * facts B (map blk cs))%:R * \prod_(x <- cs) qb (blk x)).
Proof.
elim: k cs as_ => [|k IH] cs as_ ic ia.
  rewrite /= pr_ret /pairs_are /= ![perm_eq [::] _]perm_sym.
  case: cs ic => [|x cs] ic; last first.
    by rewrite /= !mul0r; case: (boolP (perm_eq _ _)) => // /perm_size.
  rewrite perm_refl /= big_nil mulr1.
  have -> : perm_eq [::] (map blk as_) = perm_eq as_ [::].
    by case: (as_) => [|y s]; rewrite ?perm_refl //; apply/idP/idP => /perm_size.
  by rewrite /facts big1 ?mulr1 ?mul1r // => i _; rewrite /= fact0.
rewrite ins_step //.
set Q := \prod_(x <- cs) qb (blk x).
set W : K := (k`! * facts B (map blk cs))%:R.
set E : K := (perm_eq (map blk cs) (map blk as_))%:R.
set S : K := (size cs == k.+1)%:R.
have main b : (b < B)%N -> (qb b * (\sum_(x <- cs | blk x == b) \sum_(y <- as_ | blk y == b)
    pr (ins_loop k) (pairs_are (rem x cs) (rem y as_))) = (count_mem b (map blk cs))%:R * (S * E * (W * Q)))%R.
  move=> hb; rewrite mulr_sumr.
  transitivity (\sum_(x <- cs | blk x == b) S * E * (W * Q)); last first.
    by rewrite sum_cond_const count_blk.
  rewrite big_seq_cond [RHS]big_seq_cond; apply: eq_bigr => x /andP[hx /eqP hbx].
  have hbin : b \in map blk cs by rewrite -hbx map_f.
  have q0 : qb b != 0.
    rewrite /qb !mulf_neq0 ?invr_eq0 ?mulf_neq0 ?pnatr_eq0 -?lt0n //; exact: nf_pos.
  transitivity (qb b * \sum_(y <- as_ | blk y == b) (S * E * ((k`! * facts B (rem b (map blk cs)))%:R * (Q / qb b)))).
    congr (_ * _); rewrite big_seq_cond [RHS]big_seq_cond; apply: eq_bigr => y /andP[hy /eqP hby].
    rewrite IH ?insertable_rem // size_rem //.
    have -> : ((size cs).-1 == k)%:R = S :> K by rewrite /S; case: (cs) hx.
    have -> : perm_eq (map blk (rem x cs)) (map blk (rem y as_)) = perm_eq (map blk cs) (map blk as_).
      rewrite (permPl (map_rem_perm hx)) (permPr (map_rem_perm hy)) hbx hby.
      rewrite -(perm_cons b) -(permPl (perm_to_rem hbin)).
      by rewrite -(permPr (perm_to_rem (_ : b \in map blk as_))) // -hby map_f.
    rewrite (facts_perm B (map_rem_perm hx)) hbx; congr (_ * (_ * _)).
    by rewrite /Q (prod_rem _ hx) hbx mulrC mulKf.
  rewrite sum_cond_const count_blk.
  rewrite /E; case: (boolP (perm_eq _ _)) => [/permP hp|_]; last by rewrite !(mul0r, mulr0).
  rewrite -hp /W (facts_rem hb hbin) !natrM.
  have c0 : (count_mem b (map blk cs))%:R != 0 :> K by rewrite pnatr_eq0 -lt0n -has_count has_pred1.
  rewrite mulr1; move: (facts B _)%:R (k`!)%:R (count_mem _ _)%:R c0 => u v w c0.
  by kfield K.
rewrite big_seq.
rewrite (eq_bigr (fun b => (count_mem b (map blk cs))%:R * (S * E * (W * Q)))); last first.
  by move=> b; rewrite mem_iota add0n => /andP[_ hb]; apply: main.
rewrite -big_seq -mulr_suml.
have -> : \sum_(b <- iota 0 B) (count_mem b (map blk cs))%:R = (size cs)%:R :> K.
  rewrite -natr_sum -(size_map blk cs) -(@sum_count B (map blk cs)); last first.
    apply/allP => b /mapP[x hx ->]; exact: (blk_lt ic hx).
  congr _%:R; rewrite [RHS]big_mkcond; apply: eq_bigr => b _.
  by case: ifP => // /negbT hb; apply/eqP; rewrite -leqn0 leqNgt -has_count has_pred1.
rewrite /S; case: eqP => [->|_]; last by rewrite !(mul0r, mulr0).
rewrite /W factS !natrM; move: (facts _ _)%:R => u; kring K.
Qed.


(** *** Removal *)
Definition rems_are (cs as_ : seq psi) (r : seq psi * seq psi) : bool := perm_eq r.1 cs && perm_eq r.2 as_.
Definition in_block (cs : seq psi) (b : nat) : seq psi := [seq x <- cs | blk x == b].

Lemma perm_split (P : pred psi) A R cs : all P A -> all (predC P) R ->
  perm_eq (A ++ R) cs = perm_eq A (filter P cs) && perm_eq R (filter (predC P) cs).
Proof.
move=> hA hR.
have eA : filter P (A ++ R) = A.
  rewrite filter_cat (all_filterP hA) (_ : filter P R = [::]) ?cats0 //.
  by apply/eqP; rewrite -(negbK (_ == _)) -has_filter -all_predC.
have eR : filter (predC P) (A ++ R) = R.
  rewrite filter_cat (all_filterP hR) (_ : filter (predC P) A = [::]) //.
  apply/eqP; rewrite -(negbK (_ == _)) -has_filter -all_predC.
  by apply: sub_all hA => x /= ->.
apply/idP/andP.
- by move=> h; rewrite -[X in perm_eq X _]eA -[X in _ /\ is_true (perm_eq X _)]eR !perm_filter.
- case=> h1 h2; apply: perm_trans (perm_cat h1 h2) _.
  by apply/permPl; apply: perm_filterC.
Qed.

(** ops of each block are distinct and of that block *)
Definition ops_ok (ops : nat -> seq psi) : Prop :=
  forall b, (b < B)%N -> uniq (ops b) /\ all (fun x => blk x == b) (ops b).

Lemma supp_rem_blocks nr cd c (ibs : seq nat) : ops_ok cd -> ops_ok c ->
  (forall b, b \in ibs -> (b < B)%N /\ (nr b <= size (cd b))%N /\ (nr b <= size (c b))%N) ->
  supp (fun r => all (fun x => blk x \in ibs) r.1 && all (fun x => blk x \in ibs) r.2) (rem_blocks nr cd c ibs).
Proof.
move=> hcd hc; elim: ibs => [|ib ibs IH] hb; first by apply: (@supp_ret K).
rewrite [rem_blocks _ _ _ _]/=.
have [hbl [h1 h2]] := hb ib (mem_head _ _).
have h' : forall b, b \in ibs -> (b < B)%N /\ (nr b <= size (cd b))%N /\ (nr b <= size (c b))%N.
  by move=> b hin; apply: hb; rewrite inE hin orbT.
have nthb ops ic : ops_ok ops -> all (fun i => (i < size (ops ib))%N) ic ->
    all (fun x => blk x == ib) [seq nth psi0 (ops ib) i | i <- ic].
  move=> ho hi; rewrite all_map; apply: sub_all hi => i /= hi.
  by have [_ /allP] := ho ib hbl; apply; rewrite mem_nth.
apply: supp_bind (supp_pickup K h1) _ => ic /and3P[_ _ hic].
apply: supp_bind (supp_pickup K h2) _ => ia /and3P[_ _ hia].
apply: supp_bind (IH h') _ => r /andP[r1 r2].
apply: supp_ret; rewrite /= !all_cat; apply/andP; split; apply/andP; split.
- by apply: sub_all (nthb _ _ hcd hic) => x /eqP ->; rewrite inE eqxx.
- by apply: sub_all r1 => x hx; rewrite inE hx orbT.
- by apply: sub_all (nthb _ _ hc hia) => x /eqP ->; rewrite inE eqxx.
- by apply: sub_all r2 => x hx; rewrite inE hx orbT.
Qed.

Lemma pr_rem_blocks nr cd c (ibs : seq nat) cs as_ : ops_ok cd -> ops_ok c -> uniq ibs -> uniq cs -> uniq as_ ->
  all (fun x => blk x \in ibs) cs -> all (fun x => blk x \in ibs) as_ ->
  (forall b, b \in ibs -> [/\ (b < B)%N, {subset in_block cs b <= cd b}, {subset in_block as_ b <= c b},
       size (in_block cs b) = nr b & size (in_block as_ b) = nr b]) ->
  pr (rem_blocks nr cd c ibs) (rems_are cs as_) =
  \prod_(b <- ibs) (pck K (size (cd b)) (nr b) * pck K (size (c b)) (nr b)).
Proof.
move=> hcd hc; elim: ibs cs as_ => [|ib ibs IH] cs as_ uib uc ua ac aa hb.
  rewrite /= pr_ret big_nil.
  have -> : cs = [::] by case: (cs) ac.
  by have -> : as_ = [::] by case: (as_) aa.
have [hbl s1 s2 z1 z2] := hb ib (mem_head _ _).
case/andP: uib => nib uib.
have hle : forall b, b \in ib :: ibs -> (b < B)%N /\ (nr b <= size (cd b))%N /\ (nr b <= size (c b))%N.
  move=> b /hb[h1 h2 h3 h4 h5]; split=> //; split.
  - by rewrite -h4; apply: uniq_leq_size => //; rewrite filter_uniq.
  - by rewrite -h5; apply: uniq_leq_size => //; rewrite filter_uniq.
have [_ [hn1 hn2]] := hle ib (mem_head _ _).
have nthb ops ic : ops_ok ops -> all (fun i => (i < size (ops ib))%N) ic ->
    all (fun x => blk x == ib) [seq nth psi0 (ops ib) i | i <- ic].
  move=> ho hi; rewrite all_map; apply: sub_all hi => i /= hi.
  by have [_ /allP] := ho ib hbl; apply; rewrite mem_nth.
pose P := fun x => blk x == ib.
have rest (s : seq psi) : all (fun x => blk x \in ib :: ibs) s ->
    all (fun x => blk x \in ibs) (filter (predC P) s).
  move=> /allP h; apply/allP => x; rewrite mem_filter /P /= => /andP[hx /h].
  by rewrite inE (negbTE hx).
have other (s : seq psi) b : b \in ibs -> in_block (filter (predC P) s) b = in_block s b.
  move=> hbin; rewrite /in_block -filter_predI; apply: eq_filter => x /=.
  by rewrite /P; case: eqP => //= ->; apply: contra nib => /eqP <-.
have IHr : pr (rem_blocks nr cd c ibs) (rems_are (filter (predC P) cs) (filter (predC P) as_)) =
    \prod_(b <- ibs) (pck K (size (cd b)) (nr b) * pck K (size (c b)) (nr b)).
  apply: IH; rewrite ?filter_uniq ?rest // => b hbin.
  by rewrite !other //; apply: hb; rewrite inE hbin orbT.
rewrite big_cons -IHr [rem_blocks _ _ _ _]/= -mulrA.
rewrite -(@pr_pick_list K psi_eqType psi0 (cd ib) (in_block cs ib)) ?filter_uniq //; last by have [] := hcd _ hbl.
rewrite -(@pr_pick_list K psi_eqType psi0 (c ib) (in_block as_ ib)) ?filter_uniq //; last by have [] := hc _ hbl.
apply: (pr_factor (supp_pickup K hn1)) => ic /and3P[_ _ hic].
rewrite mulrCA; apply: (pr_factor (supp_pickup K hn2)) => ia /and3P[_ _ hia].
have hle' b : b \in ibs -> (b < B)%N /\ (nr b <= size (cd b))%N /\ (nr b <= size (c b))%N.
  by move=> hin; apply: hle; rewrite inE hin orbT.
have notP : forall x : psi, blk x \in ibs -> predC P x.
  by move=> x hx; rewrite /P /=; apply: contra nib => /eqP <-.
rewrite pr_bind_ret -!pr_andl; apply: (eq_pr_supp (supp_rem_blocks hcd hc hle')) => r /andP[r1 r2].
rewrite /rems_are /=.
rewrite (@perm_split P) ?nthb //; last by apply: sub_all r1.
rewrite (@perm_split P _ r.2) ?nthb //; last by apply: sub_all r2.
by rewrite -!/(in_block _ _); do !case: (perm_eq _ _).
Qed.

Lemma count_rem_blocks nr cd c (ibs : seq nat) : ops_ok cd -> ops_ok c -> uniq ibs ->
  (forall b, b \in ibs -> (b < B)%N /\ (nr b <= size (cd b))%N /\ (nr b <= size (c b))%N) ->
  supp (fun r => [&& all (fun x => blk x \in ibs) r.1, all (fun x => blk x \in ibs) r.2 &
          all (fun b => size (in_block r.1 b) == nr b) ibs]) (rem_blocks nr cd c ibs).
Proof.
move=> hcd hc; elim: ibs => [|ib ibs IH] uib hb; first by apply: (@supp_ret K).
rewrite [rem_blocks _ _ _ _]/=.
have [hbl [h1 h2]] := hb ib (mem_head _ _).
case/andP: uib => nib uib.
have h' : forall b, b \in ibs -> (b < B)%N /\ (nr b <= size (cd b))%N /\ (nr b <= size (c b))%N.
  by move=> b hin; apply: hb; rewrite inE hin orbT.
have nthb ops ic : ops_ok ops -> all (fun i => (i < size (ops ib))%N) ic ->
    all (fun x => blk x == ib) [seq nth psi0 (ops ib) i | i <- ic].
  move=> ho hi; rewrite all_map; apply: sub_all hi => i /= hi.
  by have [_ /allP] := ho ib hbl; apply; rewrite mem_nth.
apply: supp_bind (supp_pickup K h1) _ => ic /and3P[/eqP zic _ hic].
apply: supp_bind (supp_pickup K h2) _ => ia /and3P[_ _ hia].
apply: supp_bind (IH uib h') _ => r /and3P[r1 r2 r3].
apply: supp_ret; rewrite /= !all_cat; apply/and3P; split; first (apply/andP; split).
- by apply: sub_all (nthb _ _ hcd hic) => x /eqP ->; rewrite inE eqxx.
- by apply: sub_all r1 => x hx; rewrite inE hx orbT.
- apply/andP; split; first by apply: sub_all (nthb _ _ hc hia) => x /eqP ->; rewrite inE eqxx.
  by apply: sub_all r2 => x hx; rewrite inE hx orbT.
rewrite /in_block filter_cat size_cat (all_filterP (nthb _ _ hcd hic)) size_map zic.
have -> : filter (fun x => blk x == ib) r.1 = [::].
  apply/eqP; rewrite -(negbK (_ == _)) -has_filter -all_predC; apply: sub_all r1 => x /= hx.
  by apply: contra nib => /eqP <-.
rewrite /= addn0 eqxx /=; apply/allP => b hin; rewrite filter_cat size_cat.
have -> : filter (fun x => blk x == b) [seq nth psi0 (cd ib) i | i <- ic] = [::].
  apply/eqP; rewrite -(negbK (_ == _)) -has_filter -all_predC.
  apply: sub_all (nthb _ _ hcd hic) => x /= /eqP ->.
  by apply: contra nib => /eqP ->.
by have /allP/(_ _ hin) := r3.
Qed.

Lemma supp_draw_blocks k : supp (fun bs => all (fun b => (b < B)%N) bs && (size bs == k)) (draw_blocks K B k).
Proof.
elim: k => [|k IH] ; first by apply: (@supp_ret K).
rewrite [draw_blocks _ _ _]/=; apply: (@supp_bind K _ _ (fun b => b < B)%N).
  by apply: supp_unif; apply/allP => b; rewrite mem_iota add0n.
move=> b hb; apply: supp_bind IH _ => r /andP[hr zr]; apply: supp_ret => /=.
by rewrite hb hr eqSS zr.
Qed.

(** events on moves *)
Definition is_ins (cs as_ : seq psi) (o : option move) : bool :=
  if o is Some m then [&& m_rem_cd m == [::], m_rem_c m == [::], perm_eq (m_add_cd m) cs & perm_eq (m_add_c m) as_]
  else false.
Definition is_rem (cs as_ : seq psi) (o : option move) : bool :=
  if o is Some m then [&& m_add_cd m == [::], m_add_c m == [::], perm_eq (m_rem_cd m) cs & perm_eq (m_rem_c m) as_]
  else false.
Definition corr_is (a : K) (o : option move) : bool := if o is Some m then m_corr m == a else false.

Lemma falling_nat n i : (i <= n)%N -> falling n%:R i = (n ^_ i)%:R.
Proof.
move=> h; rewrite /falling ffact_prod natr_prod; apply: eq_bigr => j _.
by rewrite natrB //; apply: leq_trans h; apply: ltnW.
Qed.
Lemma falling_neq0 n i : (i <= n)%N -> falling n%:R i != 0.
Proof. by move=> h; rewrite falling_nat // pnatr_eq0 -lt0n ffact_gt0. Qed.

Definition fac_ins nn (cd c : nat -> seq psi) ib : K :=
  nf ib ^+ (2 * nn ib) / falling (size (cd ib) + nn ib)%:R (nn ib) / falling (size (c ib) + nn ib)%:R (nn ib).
Lemma corr_insE k nn cd c : corr_ins k nn cd c = L ^+ (2 * k) * \prod_(ib <- iota 0 B) fac_ins nn cd c ib.
Proof.
rewrite /corr_ins; elim: (iota 0 B) (L ^+ (2 * k)) => [|ib s IH] a /=; first by rewrite big_nil mulr1.
rewrite IH big_cons /fac_ins; case: ifP => [/eqP ->|_]; last by rewrite !mulrA.
by rewrite muln0 expr0 /falling !big_ord0 !divr1 mul1r.
Qed.
Definition fac_rem nn (cd c : nat -> seq psi) ib : K :=
  (nf ib ^+ (2 * nn ib))^-1 * (falling (size (cd ib))%:R (nn ib) * falling (size (c ib))%:R (nn ib)).
Lemma corr_remE k nn cd c : corr_rem k nn cd c = (L ^+ (2 * k))^-1 * \prod_(ib <- iota 0 B) fac_rem nn cd c ib.
Proof.
rewrite /corr_rem; elim: (iota 0 B) ((L ^+ (2 * k))^-1) => [|ib s IH] a /=; first by rewrite big_nil mulr1.
rewrite IH big_cons /fac_rem; case: ifP => [/eqP ->|_]; last by rewrite !mulrA.
by rewrite muln0 expr0 /falling !big_ord0 !mulr1 invr1 mul1r.
Qed.

Lemma prod_by_block (cs : seq psi) (w : nat -> K) : all (fun x => (blk x < B)%N) cs ->
  \prod_(x <- cs) w (blk x) = \prod_(b <- iota 0 B) w b ^+ size (in_block cs b).
Proof.
elim: cs => [|x cs IH] /=; first by rewrite big_nil big1 // => b _; rewrite expr0.
case/andP=> hx /IH h; rewrite big_cons h.
have hin : blk x \in iota 0 B by rewrite mem_iota add0n.
rewrite !(perm_big _ (perm_to_rem hin)) !big_cons eqxx /= exprS mulrA; congr (_ * _).
rewrite big_seq [RHS]big_seq; apply: eq_bigr => b hb.
by rewrite (_ : (blk x == b) = false) //; apply/negbTE/eqP => e; move: hb; rewrite -e mem_rem_uniqF // iota_uniq.
Qed.

Lemma size_in_block cs b : size (in_block cs b) = count_mem b (map blk cs).
Proof. by rewrite size_filter count_map. Qed.

Lemma facts_blocks cs : (facts B (map blk cs))%:R = \prod_(b <- iota 0 B) ((size (in_block cs b))`!)%:R :> K.
Proof.
rewrite /facts natr_prod -(big_mkord xpredT (fun b => ((count_mem b (map blk cs))`!)%:R)) /index_iota subn0.
by apply: eq_bigr => b _; rewrite size_in_block.
Qed.

Lemma pr_insertion k cd c cs as_ (a : K) : insertable CREATION_OP cs -> insertable ANNIHILATION_OP as_ ->
  a = corr_ins k (fun b => size (in_block cs b)) cd c ->
  pr (propose_insertion k cd c) (is_ins cs as_) = pr (ins_loop k) (pairs_are cs as_) /\
  pr (propose_insertion k cd c) (fun o => is_ins cs as_ o && ~~ corr_is a o) = 0.
Proof.
move=> hc ha ea; split; rewrite /propose_insertion pr_bind_ret; first exact: eq_pr.
have sl : supp (fun o => all (fun x => x.1.1 == blk x.1.2) o) (ins_loop k).
  elim: k {ea} => [|k IH]; first by apply: (@supp_ret K).
  rewrite [ins_loop _]/=; apply: supp_bind (suppT _) _ => b _.
  apply: supp_bind (suppT _) _ => t1 _.
  apply: (@supp_bind K _ _ (fun f => f \in flavors b)); first by apply: supp_unif; apply/allP.
  move=> f1 hf1; apply: supp_bind (suppT _) _ => t2 _; apply: supp_bind (suppT _) _ => f2 _.
  apply: supp_bind IH _ => r hr; apply: supp_ret; rewrite /= hr andbT.
  by move: hf1; rewrite mem_filter => /andP[/eqP <- _].
rewrite -[RHS](@pr_pred0 K _ (ins_loop k) xpred0) //; apply: (eq_pr_supp sl) => o ho /=.
apply/negbTE/negP => /andP[/andP[h1 _] /negP]; apply; apply/eqP; rewrite ea.
rewrite !corr_insE; congr (_ * _); apply: eq_bigr => b _; rewrite /fac_ins.
suff -> : count_mem b [seq x.1.1 | x <- o] = size (in_block cs b) by [].
rewrite size_in_block; apply/permP.
have -> : [seq x.1.1 | x <- o] = map blk [seq x.1.2 | x <- o].
  by rewrite -map_comp; apply/eq_in_map => x /(allP ho) /eqP.
exact: perm_map.
Qed.

Lemma pr_removal k cd c cs as_ (a : K) :
  ops_ok cd -> ops_ok c -> uniq cs -> uniq as_ ->
  all (fun x => (blk x < B)%N) cs -> all (fun x => (blk x < B)%N) as_ ->
  (forall b, (b < B)%N -> {subset in_block cs b <= cd b} /\ {subset in_block as_ b <= c b}) ->
  perm_eq (map blk cs) (map blk as_) ->
  a = corr_rem k (fun b => size (in_block cs b)) cd c ->
  pr (propose_removal k cd c) (is_rem cs as_) =
    pr (draw_blocks K B k) (fun r => perm_eq r (map blk cs)) *
    \prod_(b <- iota 0 B) (pck K (size (cd b)) (size (in_block cs b)) * pck K (size (c b)) (size (in_block cs b)))
  /\ pr (propose_removal k cd c) (fun o => is_rem cs as_ o && ~~ corr_is a o) = 0.
Proof.
move=> hcd hc uc ua bc ba hsub hperm ea.
pose nr (bs : seq nat) := fun ib => count_mem ib bs.
have enough bs : perm_eq bs (map blk cs) -> (forall b, nr bs b = size (in_block cs b)).
  by move=> /permP h b; rewrite /nr h size_in_block.
have all_io s : all (fun x => (blk x < B)%N) s -> all (fun x => blk x \in iota 0 B) s.
  by apply: sub_all => x; rewrite mem_iota add0n.
have le_of bs : has (fun ib => (size (cd ib) < nr bs ib)%N || (size (c ib) < nr bs ib)%N) (iota 0 B) = false ->
   forall b, b \in iota 0 B -> (b < B)%N /\ (nr bs b <= size (cd b))%N /\ (nr bs b <= size (c b))%N.
  move=> /negbT; rewrite -all_predC => /allP h b hb; have := h b hb.
  rewrite /= negb_or -!leqNgt => /andP[h1 h2]; split=> //; by move: hb; rewrite mem_iota add0n.
have force bs : all (fun b => (b < B)%N) bs -> forall r : seq psi * seq psi,
    [&& all (fun x => blk x \in iota 0 B) r.1, all (fun x => blk x \in iota 0 B) r.2 &
          all (fun b => size (in_block r.1 b) == nr bs b) (iota 0 B)] ->
    perm_eq r.1 cs -> perm_eq bs (map blk cs).
  move=> hbs r /and3P[_ _ hcnt] hr; apply/allP => b; rewrite mem_cat => hb.
  have hb' : b \in iota 0 B.
    rewrite mem_iota add0n; case/orP: hb => [/(allP hbs) //|/mapP[x /(allP bc) hx ->] //].
  apply/eqP; have /allP/(_ _ hb') /eqP e := hcnt.
  by transitivity (nr bs b) => //; rewrite -e size_in_block (permP (perm_map blk hr)).
split.
- apply: (pr_factor (supp_draw_blocks k)) => bs /andP[hbs _] /=.
  case: (boolP (perm_eq bs (map blk cs))) => hp.
  + have nrE := enough _ hp.
    have hle b : b \in iota 0 B -> (b < B)%N /\ (nr bs b <= size (cd b))%N /\ (nr bs b <= size (c b))%N.
      rewrite mem_iota add0n => hb; have [s1 s2] := hsub b hb; split=> //; split.
      * by rewrite nrE; apply: uniq_leq_size => //; rewrite filter_uniq.
      * rewrite nrE size_in_block (permP hperm) -size_in_block.
        by apply: uniq_leq_size => //; rewrite filter_uniq.
    have -> : has (fun ib => (size (cd ib) < nr bs ib)%N || (size (c ib) < nr bs ib)%N) (iota 0 B) = false.
      apply/negbTE; rewrite -all_predC; apply/allP => b /hle[_ [h1 h2]] /=.
      by rewrite negb_or -!leqNgt h1 h2.
    rewrite mul1r pr_bind_ret.
    have -> : pr (rem_blocks (nr bs) cd c (iota 0 B)) (fun r => is_rem cs as_ (Some (Move r.1 r.2 [::] [::] (corr_rem k (nr bs) cd c))))
       = pr (rem_blocks (nr bs) cd c (iota 0 B)) (rems_are cs as_) by apply: eq_pr.
    rewrite pr_rem_blocks ?iota_uniq ?all_io //.
      by apply: eq_bigr => b _; rewrite nrE.
    move=> b hb; have [hb' _] := hle b hb; have [s1 s2] := hsub b hb'; split=> //.
    by rewrite nrE !size_in_block (permP hperm).
  + rewrite mul0r; case: ifP => hh; first by rewrite pr_ret.
    rewrite pr_bind_ret -[RHS](@pr_pred0 K _ (rem_blocks (nr bs) cd c (iota 0 B)) xpred0) //.
    apply: (eq_pr_supp (count_rem_blocks hcd hc (iota_uniq 0 B) (le_of _ hh))) => r hr.
    by apply/negbTE/negP => /= /andP[h1 _]; case/negP: hp; apply: force hr h1.
- rewrite -[RHS](mulr0 (pr (draw_blocks K B k) xpredT)).
  apply: (pr_factor (supp_draw_blocks k)) => bs /andP[hbs _]; rewrite mulr0 /=.
  case: ifP => hh; first by rewrite pr_ret.
  rewrite pr_bind_ret -[RHS](@pr_pred0 K _ (rem_blocks (nr bs) cd c (iota 0 B)) xpred0) //.
  apply: (eq_pr_supp (count_rem_blocks hcd hc (iota_uniq 0 B) (le_of _ hh))) => r hr.
  apply/negbTE/negP => /= /andP[/andP[h1 h2] /negP]; apply; apply/eqP; rewrite ea !corr_remE; congr (_ * _).
  by apply: eq_bigr => b _; rewrite /fac_rem -/(nr bs b) (enough _ (force _ hbs _ hr h1)).
Qed.

Lemma pr_coin (A : Type) (d1 d2 : dist K A) P :
  pr (bind (unif K [:: true; false]) (fun b => if b then d1 else d2)) P = 2%:R^-1 * (pr d1 P + pr d2 P).
Proof. by rewrite pr_unif !big_cons big_nil addr0. Qed.

Lemma propose_ins k cd c cs as_ (E : option move -> bool) : (0 < k)%N -> size cs = k -> (forall o, E o -> is_ins cs as_ o) ->
  pr (propose k cd c) E = 2%:R^-1 * pr (propose_insertion k cd c) E.
Proof.
move=> hk sz hE; rewrite /propose pr_coin; congr (_ * _).
suff -> : pr (propose_removal k cd c) E = 0 by rewrite addr0.
rewrite /propose_removal pr_bind big1 // => p _.
set nr := fun ib => _; case: ifP => _.
  by rewrite pr_ret; case: (boolP (E None)) => [/hE //|]; rewrite mulr0.
rewrite pr_bind_ret pr_pred0 ?mulr0 // => r; apply/negbTE/negP => /hE /= /and3P[_ _ /andP[h _]].
by move: (perm_size h); rewrite sz /= => e; rewrite -e in hk.
Qed.
Lemma propose_rem k cd c cs as_ (E : option move -> bool) : (0 < k)%N -> size cs = k -> (forall o, E o -> is_rem cs as_ o) ->
  pr (propose k cd c) E = 2%:R^-1 * pr (propose_removal k cd c) E.
Proof.
move=> hk sz hE; rewrite /propose pr_coin; congr (_ * _).
suff -> : pr (propose_insertion k cd c) E = 0 by rewrite add0r.
rewrite /propose_insertion pr_bind_ret pr_pred0 // => o; apply/negbTE/negP => /hE /= /and4P[_ _ h _].
by move: (perm_size h); rewrite sz /= => e; rewrite -e in hk.
Qed.
End InsRem.
End Moves.
