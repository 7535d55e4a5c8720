(** * C13: the diagonal insertion/removal update

    src/moves/moves.ipp:407-500, modelled in DiagProposal.v. The correction computed by the code is
    k! times (probability of the reverse removal)/(density of the insertion): right for rank 1, wrong
    for every rank above 1. *)
From Coq Require Import ZArith List.
From mathcomp Require Import all_ssreflect all_algebra.
From Verif Require Import OpContainer Select KField Dist Proposal DiagProposal T_Proposal.
Set Implicit Arguments.
Unset Strict Implicit.
Unset Printing Implicit Defensive.
Import GRing.Theory Num.Theory Order.Theory.
Local Close Scope Z_scope.
Local Open Scope nat_scope.
Local Open Scope ring_scope.

Section C13.
Variable K : realFieldType.
Add Field Kf : (kfield_theory K).
Variables (F : nat) (grid : seq optime) (L : K).

Record dexchange (k f : nat) (cd c cd' c' : nat -> seq psi) (cs as_ : seq psi) : Prop := DExchange {
  d_grid_uniq : uniq grid;
  d_grid_pos : (0 < size grid)%N;
  d_L_pos : 0 < L;
  d_k : (0 < k)%N;
  d_f : (f < F)%N;
  d_size : size cs = k /\ size as_ = k;
  d_cs : uniq cs && all (fun x => [&& p_type x == CREATION_OP, p_time x \in grid & p_flavor x == f]) cs;
  d_as : uniq as_ && all (fun x => [&& p_type x == ANNIHILATION_OP, p_time x \in grid & p_flavor x == f]) as_;
  d_cd : forall g, (g < F)%N -> perm_eq (cd' g) (cd g ++ [seq x <- cs | p_flavor x == g]);
  d_c : forall g, (g < F)%N -> perm_eq (c' g) (c g ++ [seq x <- as_ | p_flavor x == g]);
  d_ucd : forall g, (g < F)%N -> uniq (cd' g) && all (fun x => p_flavor x == g) (cd' g);
  d_uc : forall g, (g < F)%N -> uniq (c' g) && all (fun x => p_flavor x == g) (c' g) }.

Definition dcell : K := L / (size grid)%:R.

Section Thm.
Variables (k f : nat) (cd c cd' c' : nat -> seq psi) (cs as_ : seq psi).
Hypothesis hx : dexchange k f cd c cd' c' cs as_.

Let n := size (cd f).
Let m := size (c f).
Let alpha : K := L ^+ (2 * k) / ('C(n + k, k)%:R * 'C(m + k, k)%:R * (k`!)%:R).

Lemma filter_f s (h : all (fun x => p_flavor x == f) s) g :
  [seq x <- s | p_flavor x == g] = if g == f then s else [::].
Proof.
case: eqVneq => [->|ne]; first exact/all_filterP.
rewrite -(filter_pred0 s); apply: eq_in_filter => x /(allP h) /eqP ->.
by rewrite eq_sym (negbTE ne).
Qed.
Lemma cs_f : all (fun x => p_flavor x == f) cs.
Proof. by case/andP: (d_cs hx) => _; apply: sub_all => x /and3P[]. Qed.
Lemma as_f : all (fun x => p_flavor x == f) as_.
Proof. by case/andP: (d_as hx) => _; apply: sub_all => x /and3P[]. Qed.
Lemma size_cdf : size (cd' f) = (n + k)%N.
Proof. by rewrite (perm_size (d_cd hx (d_f hx))) size_cat filter_f ?cs_f // eqxx (proj1 (d_size hx)). Qed.
Lemma size_cf : size (c' f) = (m + k)%N.
Proof. by rewrite (perm_size (d_c hx (d_f hx))) size_cat filter_f ?as_f // eqxx (proj2 (d_size hx)). Qed.

(** The drawn times as operators. *)
Lemma map_time ty s r : all (fun x => [&& p_type x == ty, p_time x \in grid & p_flavor x == f]) s ->
  perm_eq [seq Psi t ty f | t <- r] s = perm_eq r [seq p_time x | x <- s].
Proof.
move=> h; have e : s = [seq Psi t ty f | t <- [seq p_time x | x <- s]].
  rewrite -map_comp -[LHS]map_id; apply/eq_in_map => x /(allP h) /and3P[/eqP e1 _ /eqP e2].
  by case: x e1 e2 => t y g /= -> ->.
apply/idP/idP => hp.
- have : perm_eq [seq p_time x | x <- [seq Psi t ty f | t <- r]] [seq p_time x | x <- s] by apply: perm_map.
  by rewrite -map_comp map_id.
- by rewrite e; apply: perm_map.
Qed.
Lemma uniq_times ty s : uniq s -> all (fun x => [&& p_type x == ty, p_time x \in grid & p_flavor x == f]) s ->
  uniq [seq p_time x | x <- s].
Proof.
move=> u h; rewrite map_inj_in_uniq // => x y /(allP h) /and3P[/eqP a1 _ /eqP a2] /(allP h) /and3P[/eqP b1 _ /eqP b2].
by case: x a1 a2 => t1 y1 f1 /= -> ->; case: y b1 b2 => t2 y2 f2 /= -> -> /= ->.
Qed.
Lemma sub_times ty s : all (fun x => [&& p_type x == ty, p_time x \in grid & p_flavor x == f]) s ->
  {subset [seq p_time x | x <- s] <= grid}.
Proof. by move=> h t /mapP[x /(allP h) /and3P[_ hx' _] ->]. Qed.

Lemma pr_times ty s : uniq s -> size s = k ->
  all (fun x => [&& p_type x == ty, p_time x \in grid & p_flavor x == f]) s ->
  pr (draws K grid k) (fun r => perm_eq [seq Psi t ty f | t <- r] s) = (k`!)%:R / (size grid)%:R ^+ k.
Proof.
move=> u sz h.
rewrite (eq_pr _ (fun r => map_time r h)) pr_draws ?size_map ?sz ?eqxx ?mul1r //.
- exact: (d_grid_pos hx).
- exact: (d_grid_uniq hx).
- exact: uniq_times h.
- exact: sub_times h.
Qed.

Lemma ins_of_flavor (E : option (move K) -> bool) g : (forall o, E o -> is_ins cs as_ o) ->
  g != f -> pr (diag_insertion grid L k g (cd g) (c g)) E = 0.
Proof.
move=> hE ne; rewrite /diag_insertion pr_bind_ret.
rewrite -[RHS](mulr0 (pr (draws2 K grid k) xpredT)).
have sz := proj1 (d_size hx); have k0 := d_k hx.
rewrite mulr0 pr_pred0 // => o; apply/negbTE/negP => /hE /= /andP[h _].
have hs : size o = k by rewrite -sz -(perm_size h) size_map.
case: o hs h => [|x o] hs h; first by rewrite -hs in k0.
have : Psi x.1 CREATION_OP g \in cs by rewrite -(perm_mem h) mem_head.
by move=> /(allP cs_f) /= e; rewrite e in ne.
Qed.
Lemma rem_no_ins (E : option (move K) -> bool) (x y : seq psi) : (forall o, E o -> is_ins cs as_ o) ->
  pr (diag_removal L k x y) E = 0.
Proof.
move=> hE; rewrite /diag_removal; case: ifP => _.
  by rewrite pr_ret; case: (boolP (E None)) => [/hE //|].
rewrite pr_bind big1 // => p _; rewrite pr_bind_ret pr_pred0 ?mulr0 // => o.
apply/negbTE/negP => /hE /= /and3P[_ _ /andP[h _]].
by move: (perm_size h) (d_k hx); rewrite (proj1 (d_size hx)) /= => <-.
Qed.
Lemma ins_no_rem (E : option (move K) -> bool) g (x y : seq psi) : (forall o, E o -> is_rem cs as_ o) ->
  pr (diag_insertion grid L k g x y) E = 0.
Proof.
move=> hE; rewrite /diag_insertion pr_bind_ret pr_pred0 // => o.
apply/negbTE/negP => /hE /= /and4P[_ _ h _].
by move: (perm_size h) (d_k hx); rewrite (proj1 (d_size hx)) /= => <-.
Qed.
Lemma rem_of_flavor (E : option (move K) -> bool) g : (forall o, E o -> is_rem cs as_ o) ->
  (g < F)%N -> g != f -> pr (diag_removal L k (cd' g) (c' g)) E = 0.
Proof.
move=> hE hg ne; rewrite /diag_removal; case: ifP => hh.
  by rewrite pr_ret; case: (boolP (E None)) => [/hE //|].
move: hh => /negbT; rewrite negb_or -!leqNgt => /andP[h1 h2].
rewrite -[RHS](mulr0 (pr (pickup K (size (cd' g)) k) xpredT)).
apply: (pr_factor (supp_pickup K h1)) => ic /and3P[/eqP s1 _ a1]; rewrite mulr0 pr_bind_ret pr_pred0 // => ia.
apply/negbTE/negP => /hE /= /andP[h _].
case: ic s1 a1 h => [|i ic] s1 a1 h; first by move: (d_k hx); rewrite -s1.
have hin : nth psi0 (cd' g) i \in cs by rewrite -(perm_mem h) mem_head.
have hin' : nth psi0 (cd' g) i \in cd' g by rewrite mem_nth //; case/andP: a1.
case/andP: (d_ucd hx hg) => _ /allP /(_ _ hin') /eqP e.
by move: ne; rewrite -e (allP cs_f _ hin).
Qed.

Lemma pick_flavor (H : nat -> dist K (option (move K))) E :
  (forall g, (g < F)%N -> g != f -> pr (H g) E = 0) ->
  pr (bind (unif K (iota 0 F)) H) E = F%:R^-1 * pr (H f) E.
Proof.
move=> h0; rewrite pr_unif size_iota; congr (_ * _).
have hin : f \in iota 0 F by rewrite mem_iota add0n; exact: (d_f hx).
rewrite (perm_big _ (perm_to_rem hin)) big_cons big_seq big1 ?[LHS]addr0 // => g.
move=> hg; have := hg; rewrite (mem_rem_uniq _ (iota_uniq 0 F)) inE => /andP[ne _].
by apply: h0 => //; move: (mem_rem hg); rewrite mem_iota add0n.
Qed.

Lemma pr_diag_fwd :
  pr (diag_propose F grid L k cd c) (@is_ins K cs as_) =
  F%:R^-1 * (2%:R^-1 * ((k`!)%:R / (size grid)%:R ^+ k * ((k`!)%:R / (size grid)%:R ^+ k))).
Proof.
rewrite /diag_propose pick_flavor => [|g hg ne]; last first.
  by rewrite pr_coin ins_of_flavor // rem_no_ins // addr0 mulr0.
rewrite pr_coin rem_no_ins // addr0; congr (_ * (_ * _)).
rewrite /diag_insertion pr_bind_ret.
case/andP: (d_cs hx) => uc ac; case/andP: (d_as hx) => ua aa.
rewrite -{1}(pr_times uc (proj1 (d_size hx)) ac) -(pr_times ua (proj2 (d_size hx)) aa) -pr_draws2.
by apply: eq_pr => o; rewrite /= /unzip1 /unzip2 -!map_comp.
Qed.

Lemma pr_diag_rev :
  pr (diag_propose F grid L k cd' c') (@is_rem K cs as_) =
  F%:R^-1 * (2%:R^-1 * (pck K (n + k) k * pck K (m + k) k)).
Proof.
rewrite /diag_propose pick_flavor => [|g hg ne]; last first.
  by rewrite pr_coin ins_no_rem // rem_of_flavor // addr0 mulr0.
rewrite pr_coin ins_no_rem // add0r; congr (_ * (_ * _)).
rewrite /diag_removal size_cdf size_cf !ltnNge !leq_addl /=.
case/andP: (d_ucd hx (d_f hx)) => ud _; case/andP: (d_uc hx (d_f hx)) => uc _.
case/andP: (d_cs hx) => ucs _; case/andP: (d_as hx) => uas _.
have [z1 z2] := d_size hx.
have sd : {subset cs <= cd' f}.
  by move=> x h; rewrite (perm_mem (d_cd hx (d_f hx))) mem_cat filter_f ?cs_f // eqxx h orbT.
have sa : {subset as_ <= c' f}.
  by move=> x h; rewrite (perm_mem (d_c hx (d_f hx))) mem_cat filter_f ?as_f // eqxx h orbT.
rewrite -size_cdf -size_cf -(pr_pick_list K psi0 ud ucs sd z1) -(pr_pick_list K psi0 uc uas sa z2).
apply: (pr_factor (suppT _)) => ic _; rewrite pr_bind_ret -pr_andl.
by apply: eq_pr => ia.
Qed.

(** The correction the code attaches to this insertion and to the reverse removal. *)
Theorem C13_corrections_reciprocal :
  0 < alpha /\
  pr (diag_propose F grid L k cd c) (fun o => @is_ins K cs as_ o && ~~ corr_is alpha o) = 0 /\
  pr (diag_propose F grid L k cd' c') (fun o => @is_rem K cs as_ o && ~~ corr_is alpha^-1 o) = 0.
Proof.
have L0 := d_L_pos hx.
split; first by rewrite divr_gt0 ?exprn_gt0 // !mulr_gt0 ?ltr0n ?bin_gt0 ?leq_addl ?fact_gt0.
have A1 : forall o, is_ins cs as_ o && ~~ @corr_is K alpha o -> is_ins cs as_ o by move=> o /andP[].
have A2 : forall o, is_rem cs as_ o && ~~ @corr_is K alpha^-1 o -> is_rem cs as_ o by move=> o /andP[].
split.
- rewrite /diag_propose pick_flavor => [|g hg ne]; last first.
    by rewrite pr_coin (ins_of_flavor A1) // (rem_no_ins _ _ A1) // addr0 mulr0.
  rewrite pr_coin (rem_no_ins _ _ A1) addr0 /diag_insertion pr_bind_ret pr_pred0 ?mulr0 // => o.
  by apply/negbTE/negP => /= /andP[_] /negP; apply.
- rewrite /diag_propose pick_flavor => [|g hg ne]; last first.
    by rewrite pr_coin (ins_no_rem _ _ _ A2) // (rem_of_flavor A2) // addr0 mulr0.
  rewrite pr_coin (ins_no_rem _ _ _ A2) add0r /diag_removal size_cdf size_cf !ltnNge !leq_addl /=.
  rewrite pr_bind big1 ?mulr0 // => p _; rewrite pr_bind_ret pr_pred0 ?mulr0 // => o.
  apply/negbTE/negP => /= /andP[_] /negP; apply; apply/eqP.
  by rewrite /alpha invf_div.
Qed.

(** The correction of the code is k! times the exact one, for every rank k. *)
Theorem C13_correction_is_factorial_times_exact :
  alpha = (k`!)%:R * (pr (diag_propose F grid L k cd' c') (@is_rem K cs as_) /
           (pr (diag_propose F grid L k cd c) (@is_ins K cs as_) / dcell ^+ (2 * k))).
Proof.
rewrite pr_diag_fwd pr_diag_rev !pck_ff /alpha /dcell.
have e x y : ('C(x + y, y))%:R * (y`!)%:R = ((x + y) ^_ y)%:R :> K by rewrite -natrM bin_ffact.
have h1 : ((n + k) ^_ k)%:R != 0 :> K by rewrite pnatr_eq0 -lt0n ffact_gt0 leq_addl.
have h2 : ((m + k) ^_ k)%:R != 0 :> K by rewrite pnatr_eq0 -lt0n ffact_gt0 leq_addl.
have h3 : (k`!)%:R != 0 :> K by rewrite pnatr_eq0 -lt0n fact_gt0.
have h4 : F%:R != 0 :> K by rewrite pnatr_eq0 -lt0n (leq_ltn_trans _ (d_f hx)).
have h5 : (size grid)%:R ^+ k != 0 :> K by rewrite expf_neq0 // pnatr_eq0 -lt0n (d_grid_pos hx).
have h6 : L ^+ k != 0 by rewrite expf_neq0 // gt_eqF // (d_L_pos hx).
have h7 : 2%:R != 0 :> K by rewrite pnatr_eq0.
rewrite expr_div_n ![(2 * k)%N]mulnC !exprM !expr2 -!e.
have h8 : 'C(n + k, k)%:R != 0 :> K by rewrite pnatr_eq0 -lt0n bin_gt0 leq_addl.
have h9 : 'C(m + k, k)%:R != 0 :> K by rewrite pnatr_eq0 -lt0n bin_gt0 leq_addl.
move: ('C(n + k, k))%:R ('C(m + k, k))%:R (k`!)%:R (F%:R : K) ((size grid)%:R ^+ k) (L ^+ k) h3 h4 h5 h6 h8 h9
  => u v w x y z h3 h4 h5 h6 h8 h9; kfield K.
Qed.

Theorem C13_rank1_partial : k = 1%N ->
  alpha = pr (diag_propose F grid L k cd' c') (@is_rem K cs as_) /
           (pr (diag_propose F grid L k cd c) (@is_ins K cs as_) / dcell ^+ (2 * k)).
Proof.
by move=> e; rewrite C13_correction_is_factorial_times_exact {1}e mul1r.
Qed.

(** Every rank above 1 violates the claim. *)
Theorem C13_rank_above1_wrong : (1 < k)%N ->
  alpha != pr (diag_propose F grid L k cd' c') (@is_rem K cs as_) /
           (pr (diag_propose F grid L k cd c) (@is_ins K cs as_) / dcell ^+ (2 * k)).
Proof.
move=> k1; rewrite C13_correction_is_factorial_times_exact.
set r := (X in _ * X != X).
have r0 : r != 0.
  have [a0 _] := C13_corrections_reciprocal.
  by move: a0; rewrite C13_correction_is_factorial_times_exact -/r; case: eqP => // ->; rewrite mulr0 ltxx.
rewrite -subr_eq0 -{2}[r]mul1r -mulrBl mulf_neq0 // subr_eq0 pnatr_eq1.
by rewrite neq_ltn (leq_trans k1 (fact_geq k)) orbT.
Qed.
End Thm.
End C13.
Print Assumptions C13_corrections_reciprocal.
Print Assumptions C13_correction_is_factorial_times_exact.
Print Assumptions C13_rank1_partial.
Print Assumptions C13_rank_above1_wrong.

(** Rank 2, one pair of the flavor already present: the claim of C13 fails. *)
Module C13_example.
Definition t (n : nat) := OT (Z.of_nat n) 0.
Definition grid := map t (iota 1 6).
Definition cd g := if g == 1%N then [:: Psi (t 1) CREATION_OP 1%N] else [::].
Definition c g := if g == 1%N then [:: Psi (t 2) ANNIHILATION_OP 1%N] else [::].
Definition cs := [:: Psi (t 3) CREATION_OP 1%N; Psi (t 4) CREATION_OP 1%N].
Definition as_ := [:: Psi (t 6) ANNIHILATION_OP 1%N; Psi (t 5) ANNIHILATION_OP 1%N].
Definition cd' g := if g == 1%N then cd 1%N ++ cs else [::].
Definition c' g := if g == 1%N then c 1%N ++ as_ else [::].
Lemma hx : @dexchange rat_realFieldType 2 grid 5%:R 2 1 cd c cd' c' cs as_.
Proof. by split=> // -[|[|b]]. Qed.
Definition cs1 := [:: Psi (t 3) CREATION_OP 1%N].
Definition as1 := [:: Psi (t 6) ANNIHILATION_OP 1%N].
Lemma hx1 : @dexchange rat_realFieldType 2 grid 5%:R 1 1 cd c
   (fun g => if g == 1%N then cd 1%N ++ cs1 else [::]) (fun g => if g == 1%N then c 1%N ++ as1 else [::]) cs1 as1.
Proof. by split=> // -[|[|b]]. Qed.
Example rank1 := C13_rank1_partial hx1 erefl.
End C13_example.
(** Every proposal of this insertion carries a correction [al] that differs from the exact ratio. *)
Theorem C13_refuted : exists (k f : nat) (cd c cd' c' : nat -> seq psi) (cs as_ : seq psi) (grid : seq optime) (al : rat),
  @dexchange rat_realFieldType 2 grid 5%:R k f cd c cd' c' cs as_ /\
  pr (@diag_propose rat_realFieldType 2 grid 5%:R k cd c) (fun o => @is_ins rat_realFieldType cs as_ o && ~~ corr_is al o) = 0 /\
  al != pr (@diag_propose rat_realFieldType 2 grid 5%:R k cd' c') (is_rem cs as_) /
        (pr (@diag_propose rat_realFieldType 2 grid 5%:R k cd c) (is_ins cs as_) / @dcell rat_realFieldType grid 5%:R ^+ (2 * k)).
Proof.
exists 2%N, 1%N, C13_example.cd, C13_example.c, C13_example.cd', C13_example.c', C13_example.cs, C13_example.as_, C13_example.grid.
have [_ [z _]] := C13_corrections_reciprocal C13_example.hx.
have ne := C13_rank_above1_wrong C13_example.hx isT.
eexists; split; first exact: C13_example.hx.
by split; [exact: z|exact: ne].
Qed.
Print Assumptions C13_refuted.
