(** * C12: insertion and removal of pairs satisfy detailed balance

    src/moves/moves.ipp:266-405 (InsertionRemovalUpdater), modelled in Proposal.v.

    Times are drawn uniformly from a finite grid of [size grid] points that
    represents an interval of length [L]; a probability divided by the volume
    (L / size grid)^(2k) of the drawn cell is the density with respect to the
    2k times.  The theorems hold for every grid. *)
From Coq Require Import ZArith List Permutation.
From mathcomp Require Import all_ssreflect all_algebra.
From Verif Require Import OpContainer Select T_Select KField Dist Proposal.
Set Implicit Arguments.
Unset Strict Implicit.
Unset Printing Implicit Defensive.

Import GRing.Theory Num.Theory Order.Theory.
Local Close Scope Z_scope.
Local Open Scope nat_scope.
Local Open Scope ring_scope.

Section C12.
Variable K : realFieldType.
Add Field Kf : (kfield_theory K).
Variables (F B : nat) (bl : nat -> nat) (grid : seq optime) (L : K).

(** The partition of the flavors into blocks, and the time grid. *)
Record setting : Prop := Setting {
  s_grid_uniq : uniq grid;
  s_grid_pos : (0 < size grid)%N;
  s_B_pos : (0 < B)%N;
  s_bl_lt : forall f, (f < F)%N -> (bl f < B)%N;
  s_nf_pos : forall b, (b < B)%N -> (0 < size [seq f <- iota 0 F | bl f == b])%N;
  s_L_pos : 0 < L }.

Definition in_blk (s : seq psi) (b : nat) : seq psi := [seq x <- s | bl (p_flavor x) == b].

(** [cd], [c]: the operators of each block inside the window before the
    insertion; [cs], [as_]: the inserted ones; [cd'], [c']: the operators after it. *)
Record exchange (k : nat) (cd c cd' c' : nat -> seq psi) (cs as_ : seq psi) : Prop := Exchange {
  x_k : (0 < k)%N;
  x_size : size cs = k;
  x_cs : uniq cs && all (fun x => [&& p_type x == CREATION_OP, p_time x \in grid & (p_flavor x < F)%N]) cs;
  x_as : uniq as_ && all (fun x => [&& p_type x == ANNIHILATION_OP, p_time x \in grid & (p_flavor x < F)%N]) as_;
  x_blocks : forall b, (b < B)%N -> size (in_blk cs b) = size (in_blk as_ b);
  x_cd : forall b, (b < B)%N -> perm_eq (cd' b) (cd b ++ in_blk cs b);
  x_c : forall b, (b < B)%N -> perm_eq (c' b) (c b ++ in_blk as_ b);
  x_ucd : forall b, (b < B)%N -> uniq (cd' b) && all (fun x => bl (p_flavor x) == b) (cd' b);
  x_uc : forall b, (b < B)%N -> uniq (c' b) && all (fun x => bl (p_flavor x) == b) (c' b) }.

Definition cell : K := L / (size grid)%:R.

Lemma pck_ff N n : pck K (N + n) n = (n`!)%:R / ((N + n) ^_ n)%:R.
Proof.
rewrite /pck addnK -(@ffact_fact (N + n) n) ?leq_addl // addnK natrM.
have h1 : (N`!)%:R != 0 :> K by rewrite pnatr_eq0 -lt0n fact_gt0.
have h2 : ((N + n) ^_ n)%:R != 0 :> K by rewrite pnatr_eq0 -lt0n ffact_gt0 leq_addl.
move: (n`!)%:R (N`!)%:R ((N + n) ^_ n)%:R h1 h2 => u v w h1 h2; kfield K.
Qed.

Section Thm.
Variables (k : nat) (cd c cd' c' : nat -> seq psi) (cs as_ : seq psi).
Hypothesis hs : setting.
Hypothesis hx : exchange k cd c cd' c' cs as_.

Let alpha := corr_ins F B bl L k (fun b => size (in_block bl cs b)) cd c.
Let kb b := size (in_block bl cs b).

Lemma cs_lt : all (fun x => (blk bl x < B)%N) cs.
Proof.
case/andP: (x_cs hx) => _; apply: sub_all => x /and3P[_ _]; exact: (s_bl_lt hs).
Qed.
Lemma as_lt : all (fun x => (blk bl x < B)%N) as_.
Proof.
case/andP: (x_as hx) => _; apply: sub_all => x /and3P[_ _]; exact: (s_bl_lt hs).
Qed.
Lemma perm_blk : perm_eq (map (blk bl) cs) (map (blk bl) as_).
Proof.
apply/allP => b; rewrite mem_cat => hb.
have {}hb : (b < B)%N by case/orP: hb => /mapP[x h ->]; [apply: (allP cs_lt)|apply: (allP as_lt)].
by apply/eqP; rewrite -!size_in_block; apply: (x_blocks hx).
Qed.
Lemma size_cd' b : (b < B)%N -> size (cd' b) = (size (cd b) + kb b)%N.
Proof. by move=> hb; rewrite (perm_size (x_cd hx hb)) size_cat. Qed.
Lemma size_c' b : (b < B)%N -> size (c' b) = (size (c b) + kb b)%N.
Proof. by move=> hb; rewrite (perm_size (x_c hx hb)) size_cat -(x_blocks hx hb). Qed.

Lemma nf_neq0 b : (b < B)%N -> nf K F bl b != 0.
Proof. by move=> hb; rewrite pnatr_eq0 -lt0n; apply: (s_nf_pos hs). Qed.

Lemma alpha_gt0 : 0 < alpha.
Proof.
rewrite /alpha corr_insE; apply: mulr_gt0; first by rewrite exprn_gt0 // (s_L_pos hs).
rewrite big_seq; apply: prodr_gt0 => b; rewrite mem_iota add0n => hb.
rewrite /fac_ins !falling_nat ?leq_addl //.
by rewrite !divr_gt0 ?exprn_gt0 // ltr0n ?ffact_gt0 ?leq_addl // ?(s_nf_pos hs).
Qed.

Lemma corr_rem_inv : corr_rem F B bl L k kb cd' c' = alpha^-1.
Proof.
rewrite /alpha corr_insE corr_remE invfM -prodfV; congr (_ * _).
rewrite big_seq [RHS]big_seq; apply: eq_bigr => b; rewrite mem_iota add0n => hb.
rewrite /fac_rem /fac_ins size_cd' // size_c' // -/(kb b).
have h1 := falling_neq0 K (leq_addl (size (cd b)) (kb b)).
have h2 := falling_neq0 K (leq_addl (size (c b)) (kb b)).
have h3 : nf K F bl b ^+ (2 * kb b) != 0 by rewrite expf_neq0 // nf_neq0.
move: (falling _ _) (falling _ _) (_ ^+ _) h1 h2 h3 => u v w h1 h2 h3; kfield K.
Qed.

Lemma pr_fwd_rev :
  alpha * pr (propose F B bl grid L k cd c) (@is_ins K cs as_) =
  pr (propose F B bl grid L k cd' c') (@is_rem K cs as_) * cell ^+ (2 * k).
Proof.
have [gu gp Bp bllt nfp Lp] := hs.
have i1 : insertable F grid CREATION_OP cs by apply: (x_cs hx).
have i2 : insertable F grid ANNIHILATION_OP as_ by apply: (x_as hx).
rewrite (@propose_ins K F B bl grid L k cd c cs as_ _ (x_k hx) (x_size hx)) //.
rewrite (@propose_rem K F B bl grid L k cd' c' cs as_ _ (x_k hx) (x_size hx)) //.
have [-> _] := @pr_insertion K F B bl grid L k cd c cs as_ _ i1 i2 erefl.
case/andP: (x_cs hx) => ucs _; case/andP: (x_as hx) => uas _.
have okd : ops_ok B bl cd' by move=> b hb; apply/andP; apply: (x_ucd hx).
have oka : ops_ok B bl c' by move=> b hb; apply/andP; apply: (x_uc hx).
have sub b : (b < B)%N -> {subset in_block bl cs b <= cd' b} /\ {subset in_block bl as_ b <= c' b}.
  move=> hb; split=> x hxx.
  + by rewrite (perm_mem (x_cd hx hb)) mem_cat [X in _ || X]hxx orbT.
  + by rewrite (perm_mem (x_c hx hb)) mem_cat [X in _ || X]hxx orbT.
have [-> _] := @pr_removal K F B bl L k cd' c' cs as_ _ okd oka ucs uas cs_lt as_lt sub perm_blk erefl.
rewrite (pr_ins_loop K gu gp Bp bllt nfp) //.
have lt' : all (fun b => (b < B)%N) (map (blk bl) cs) by rewrite all_map; apply: cs_lt.
rewrite (pr_draw_blocks K k Bp lt') size_map (x_size hx) eqxx perm_blk !mul1r.
rewrite natrM facts_blocks /alpha corr_insE /cell expr_div_n.
have hpow (w : K) : w ^+ k = \prod_(b <- iota 0 B) w ^+ kb b.
  rewrite -(prod_by_block (bl:=bl) (fun=> w) cs_lt) big_const_seq count_predT (x_size hx).
  by rewrite -Monoid.iteropE.
rewrite (prod_by_block (qb K F B bl grid) cs_lt) (hpow B%:R) (exprM _ 2 k) (exprM _ 2 k) (hpow ((size grid)%:R ^+ 2)).
have key : (\prod_(b <- iota 0 B) fac_ins K F bl kb cd c b) * (\prod_(b <- iota 0 B) ((kb b)`!)%:R) *
    (\prod_(b <- iota 0 B) qb K F B bl grid b ^+ kb b) =
    (\prod_(b <- iota 0 B) ((kb b)`!)%:R)^-1 * (\prod_(b <- iota 0 B) B%:R ^+ kb b)^-1 *
    (\prod_(b <- iota 0 B) (pck K (size (cd' b)) (kb b) * pck K (size (c' b)) (kb b))) *
    (\prod_(b <- iota 0 B) ((size grid)%:R ^+ 2) ^+ kb b)^-1.
  rewrite -!prodfV -!big_split /= big_seq [RHS]big_seq; apply: eq_bigr => b; rewrite mem_iota add0n => hb.
  rewrite /fac_ins size_cd' // size_c' // !falling_nat ?leq_addl // !pck_ff /qb /G.
  rewrite !exprMn !exprVn !exprMn mulnC exprM -!exprM.
  have h1 : ((size (cd b) + kb b) ^_ kb b)%:R != 0 :> K by rewrite pnatr_eq0 -lt0n ffact_gt0 leq_addl.
  have h2 : ((size (c b) + kb b) ^_ kb b)%:R != 0 :> K by rewrite pnatr_eq0 -lt0n ffact_gt0 leq_addl.
  have h3 : nf K F bl b ^+ kb b != 0 by rewrite expf_neq0 // nf_neq0.
  have h4 : (size grid)%:R ^+ kb b != 0 :> K by rewrite expf_neq0 // pnatr_eq0 -lt0n.
  have h5 : B%:R ^+ kb b != 0 :> K by rewrite expf_neq0 // pnatr_eq0 -lt0n.
  have h6 : ((kb b)`!)%:R != 0 :> K by rewrite pnatr_eq0 -lt0n fact_gt0.
  rewrite !exprM ?expr2.
  move: ((_ + _) ^_ _)%:R ((_ + _) ^_ _)%:R (nf K F bl b ^+ _) ((size grid)%:R ^+ _) (B%:R ^+ _) ((kb b)`!)%:R h1 h2 h3 h4 h5 h6
    => u v w x y z h1 h2 h3 h4 h5 h6; kfield K.
rewrite -/kb.
move: key.
set p1 := \prod_(b <- iota 0 B) fac_ins _ _ _ _ _ _ b; set p2 := \prod_(b <- iota 0 B) ((kb b)`!)%:R.
set p3 := \prod_(b <- iota 0 B) qb _ _ _ _ _ b ^+ _; set p4 := \prod_(b <- iota 0 B) B%:R ^+ _.
set p5 := \prod_(b <- iota 0 B) (_ * _); set p6 := \prod_(b <- iota 0 B) (_ ^+ 2) ^+ _.
set l := (L ^+ 2) ^+ k; set fk := (k`!)%:R => key.
transitivity (l * 2%:R^-1 * fk * (p1 * p2 * p3)); first by kring K.
rewrite key; kring K.
Qed.

(** The correction the code computes for the insertion of [cs], [as_], and for
    the reverse removal, whatever order the random numbers produced them in. *)
Theorem C12_correction :
  0 < alpha /\
  pr (propose F B bl grid L k cd c) (fun o => @is_ins K cs as_ o && ~~ corr_is alpha o) = 0 /\
  pr (propose F B bl grid L k cd' c') (fun o => @is_rem K cs as_ o && ~~ corr_is alpha^-1 o) = 0.
Proof.
have [gu gp Bp bllt nfp Lp] := hs.
have i1 : insertable F grid CREATION_OP cs by apply: (x_cs hx).
have i2 : insertable F grid ANNIHILATION_OP as_ by apply: (x_as hx).
split; first exact: alpha_gt0; split.
- rewrite (@propose_ins K F B bl grid L k cd c cs as_ _ (x_k hx) (x_size hx)) => [|o /andP[] //].
  by have [_ ->] := @pr_insertion K F B bl grid L k cd c cs as_ _ i1 i2 erefl; rewrite mulr0.
- rewrite (@propose_rem K F B bl grid L k cd' c' cs as_ _ (x_k hx) (x_size hx)) => [|o /andP[] //].
  case/andP: (x_cs hx) => ucs _; case/andP: (x_as hx) => uas _.
  have okd : ops_ok B bl cd' by move=> b hb; apply/andP; apply: (x_ucd hx).
  have oka : ops_ok B bl c' by move=> b hb; apply/andP; apply: (x_uc hx).
  have sub b : (b < B)%N -> {subset in_block bl cs b <= cd' b} /\ {subset in_block bl as_ b <= c' b}.
    move=> hb; split=> x hxx.
    + by rewrite (perm_mem (x_cd hx hb)) mem_cat [X in _ || X]hxx orbT.
    + by rewrite (perm_mem (x_c hx hb)) mem_cat [X in _ || X]hxx orbT.
  by have [_ ->] := @pr_removal K F B bl L k cd' c' cs as_ _ okd oka ucs uas cs_lt as_lt sub perm_blk (esym corr_rem_inv);
    rewrite mulr0.
Qed.

(** The correction is (probability of the reverse removal) / (density of the insertion). *)
Theorem C12_density_ratio :
  0 < pr (propose F B bl grid L k cd c) (@is_ins K cs as_) /\
  0 < pr (propose F B bl grid L k cd' c') (@is_rem K cs as_) /\
  alpha = pr (propose F B bl grid L k cd' c') (@is_rem K cs as_) /
          (pr (propose F B bl grid L k cd c) (@is_ins K cs as_) / cell ^+ (2 * k)).
Proof.
have [gu gp Bp bllt nfp Lp] := hs.
have i1 : insertable F grid CREATION_OP cs by apply: (x_cs hx).
have i2 : insertable F grid ANNIHILATION_OP as_ by apply: (x_as hx).
have hc : 0 < cell ^+ (2 * k) by rewrite exprn_gt0 // divr_gt0 // ltr0n.
have hf : 0 < pr (propose F B bl grid L k cd c) (@is_ins K cs as_).
  rewrite (@propose_ins K F B bl grid L k cd c cs as_ _ (x_k hx) (x_size hx)) //.
  have [-> _] := @pr_insertion K F B bl grid L k cd c cs as_ _ i1 i2 erefl.
  rewrite (pr_ins_loop K gu gp Bp bllt nfp) // (x_size hx) eqxx perm_blk !mul1r.
  rewrite !mulr_gt0 ?invr_gt0 ?ltr0n ?muln_gt0 ?fact_gt0 ?facts_gt0 //.
  rewrite big_seq; apply: prodr_gt0 => x hxx; rewrite /qb.
  have hb := allP cs_lt _ hxx.
  by rewrite !mulr_gt0 ?invr_gt0 ?mulr_gt0 ?ltr0n ?nfp.
have hr : 0 < pr (propose F B bl grid L k cd' c') (@is_rem K cs as_).
  by rewrite -(pmulr_lgt0 _ hc) -pr_fwd_rev mulr_gt0 // alpha_gt0.
split=> //; split=> //; rewrite invfM invrK mulrA -mulrA [X in _ * X]mulrC mulrA -pr_fwd_rev mulfK //.
by rewrite gt_eqF.
Qed.

(** Metropolis acceptance with this correction leaves every positive weight
    function stationary between the two configurations: [wx], [wx'] are the
    weights (per unit volume of the times of the inserted operators). *)
Theorem C12_detailed_balance (wx wx' : K) : 0 < wx -> 0 < wx' ->
  wx * (pr (propose F B bl grid L k cd c) (fun o => is_ins cs as_ o && corr_is alpha o) / cell ^+ (2 * k))
     * Num.min 1 (alpha * (wx' / wx)) =
  wx' * pr (propose F B bl grid L k cd' c') (fun o => is_rem cs as_ o && corr_is alpha^-1 o)
     * Num.min 1 (alpha^-1 * (wx / wx')).
Proof.
move=> h h'.
have [a0 [z1 z2]] := C12_correction.
have [_ [_ e]] := C12_density_ratio.
have [gu gp Bp bllt nfp Lp] := hs.
have hc : cell ^+ (2 * k) != 0 by rewrite expf_neq0 // mulf_neq0 ?invr_eq0 ?gt_eqF // ltr0n.
have split1 (d : dist K (option (move K))) (P Q : option (move K) -> bool) :
    pr d (fun o => P o && ~~ Q o) = 0 -> pr d (fun o => P o && Q o) = pr d P.
  by move=> h0; rewrite (pr_split d P Q) h0 addr0.
rewrite (split1 _ _ _ z1) (split1 _ _ _ z2).
have e2 := pr_fwd_rev.
move: e2; set pf := pr _ _; set pv := pr _ _ => e2.
have nw : wx != 0 by rewrite gt_eqF.
have nw' : wx' != 0 by rewrite gt_eqF.
have na : alpha != 0 by rewrite gt_eqF.
have ef : pf / cell ^+ (2 * k) = alpha^-1 * pv.
  by apply: (mulfI na); apply: (mulIf hc); rewrite mulrA divfK // e2 mulVKf.
rewrite ef; case: (ltrP 1 (alpha * (wx' / wx))) => hm.
- have hm' : alpha^-1 * (wx / wx') <= 1.
    have -> : alpha^-1 * (wx / wx') = (alpha * (wx' / wx))^-1 by rewrite !invfM invrK (mulrC wx'^-1).
    by rewrite invf_le1 ?(lt_trans ltr01) // ltW.
  rewrite min_r //; move: (pv) => q; move: nw nw' na; generalize wx wx' alpha => u v a; clear; move=> *; kfield K.
- have hm' : 1 <= alpha^-1 * (wx / wx').
    have -> : alpha^-1 * (wx / wx') = (alpha * (wx' / wx))^-1 by rewrite !invfM invrK (mulrC wx'^-1).
    by rewrite invf_ge1 // mulr_gt0 // divr_gt0.
  rewrite min_l //; move: (pv) => q; move: nw nw' na; generalize wx wx' alpha => u v a; clear; move=> *; kfield K.
Qed.
End Thm.
End C12.
Print Assumptions C12_correction.
Print Assumptions C12_density_ratio.
Print Assumptions C12_detailed_balance.

(** A rank-2 insertion into blocks {0,1} and {2}, with one pair present in block 0. *)
Module C12_example.
Definition bl f := if (f < 2)%N then 0%N else 1%N.
Definition t (n : nat) := OT (Z.of_nat n) 0.
Definition grid := map t (iota 1 6).
Definition cd b := if b == 0%N then [:: Psi (t 1) CREATION_OP 0] else [::].
Definition c b := if b == 0%N then [:: Psi (t 2) ANNIHILATION_OP 1] else [::].
Definition cs := [:: Psi (t 3) CREATION_OP 1; Psi (t 4) CREATION_OP 2].
Definition as_ := [:: Psi (t 6) ANNIHILATION_OP 2; Psi (t 5) ANNIHILATION_OP 0].
Definition cd' b := if b == 0%N then [:: Psi (t 1) CREATION_OP 0; Psi (t 3) CREATION_OP 1]
                    else if b == 1%N then [:: Psi (t 4) CREATION_OP 2] else [::].
Definition c' b := if b == 0%N then [:: Psi (t 2) ANNIHILATION_OP 1; Psi (t 5) ANNIHILATION_OP 0]
                    else if b == 1%N then [:: Psi (t 6) ANNIHILATION_OP 2] else [::].
Definition L : rat := 5%:R.
Lemma hs : setting 3 2 bl grid L.
Proof. by split=> // -[|[|[|f]]]. Qed.
Lemma hx : exchange 3 2 bl grid 2 cd c cd' c' cs as_.
Proof. by split=> // -[|[|b]]. Qed.
(** L^4 * (2/2)*(2/2) * (1/1)*(1/1) *)
Example alpha_value : corr_ins 3 2 bl L 2 (fun b => size (in_block bl cs b)) cd c = 625%:R.
Proof. by rewrite corr_insE /= !big_cons big_nil /fac_ins /= /falling !big_ord_recl !big_ord0; apply/eqP. Qed.
Example balance := C12_detailed_balance hs hx.
End C12_example.
