(** Instance for C64, and the counterexample for cyclic exchanges *)
From Coq Require Import ZArith Lia List Bool Sorting.Permutation Sorting.Sorted.
From mathcomp Require Import all_ssreflect all_fingroup all_algebra zify.
From Verif Require Import OpContainer CombSort PermSign T_PermSign Updater T_Updater Dist Proposal T_Proposal ShiftProposal T_ShiftProposal
  HybDet EigenBasis FastUpdate T_FastUpdate
  DetMatrix T_DetMatrix T_DetUpdate T_DetHistory DetPartitioned T_DetPartitioned GlobalUpdate T_GlobalUpdate
  Window T_Window T_WindowTrace LazyTrace T_LazyTrace Assembly T_Assembly LocalChain T_LocalChain Worm WormProposal WormChain GlobalChain T_GlobalChain ShiftParity T_ShiftWeight T_ShiftChain KField.
Import Order.Theory GRing.Theory Num.Theory.
Set Implicit Arguments.
Unset Strict Implicit.
Unset Printing Implicit Defensive.
Local Close Scope Z_scope.
Local Open Scope nat_scope.
Delimit Scope Z_scope with coqZ.
Local Open Scope ring_scope.

(** ** Instance: three flavors in one block that act on one orbital; the hybridization function of flavor f is f + 1 at
    positive differences of times and -(f + 1) at negative ones; weight [w]
    per unit of time when occupied; the window is [0, 8]. *)
Section Instance.
Variable R : realFieldType.
Let K : numFieldType := [numFieldType of R].
Variable w : K.
Hypothesis w_pos : 0 < w.
Let D (f g : nat) (d : Z) : K := if Z.ltb d 0 then - f.+1%:R else f.+1%:R.
Let F (x y : psi) : K := D (p_flavor x) (p_flavor y) (ot_time (p_time x) - ot_time (p_time y))%coqZ.
Lemma F_abs x y : `|F x y| = (p_flavor x).+1%:R. Proof. by rewrite /F /D; case: ifP => _; rewrite ?normrN normr_nat. Qed.
Lemma F_neq0 x y : F x y != 0. Proof. by rewrite -normr_eq0 F_abs pnatr_eq0. Qed.
Let lab := [:: 0%N; 0%N; 0%N].
Let order (bs : seq K) : seq nat := sort (fun i j => nth 0 bs j <= nth 0 bs i) (iota 0 (size bs)).
Lemma order_desc bs : descending bs (order bs).
Proof.
split; first by rewrite /order perm_sort.
by apply: sort_sorted => i j; exact: (@le_total _ R).
Qed.

Variables (junk : nat -> nat -> K) (np : int) (mo : umode) (wk : work K) (s0 : sw K (aket K) (aket K)).
Let types := [:: EqualTimeGWorm 1].
Let wo := w_ops types.
Let ac (o : optype) (_ : nat) := @a_c K o.
Let ab (o : optype) (_ : nat) := @a_c K (a_flip o).
Let one1 (_ : aket K) := 1%N.
Let one2 (_ : nat) := 1%N.
Let aq := a_prop w.
Let an := @a_norm K.
Let ai := @a_invalid K.
Let asc := @a_sec K.
Let ap := @a_prod K.
Let H1 : all (fun b => b < 1)%N lab := isT.
Let H2 : braket_ok ai ai None None ac ab aq aq id id asc asc ap := a_ok w.
Let H3 : norm_ok ai ac aq an an asc ap one1 a_dst one2 (a_exp w) one1 := a_norm_ok w_pos.
Notation Inv := (inv wo F junk lab 1 (a_outer K) ai ai None None ac ab aq aq id id an an ap a_tau 0 8%coqZ).
Notation Ftr := (full_trace (a_outer K) ac aq ap 8%coqZ).
Notation Worm st := (Updater.worm K wdata (ms K) (st_mc st)).
Notation Cds st := (ms_cd (mstate K wdata (ms K) (st_mc st))).
Notation Cs st := (ms_c (mstate K wdata (ms K) (st_mc st))).
Notation state := (state K wdata (aket K) (aket K)).

Let cr (t : Z) (f : nat) := Psi (OT t 0%coqZ) CREATION_OP f.
Let an_ (t : Z) (f : nat) := Psi (OT t 0%coqZ) ANNIHILATION_OP f.

Lemma ftr0 : 0 < Ftr [::].
Proof. by rewrite /full_trace /full_term /sumK /= /ap /= !add0r !mul1r expr1n addr_gt0 // ?ltr01 //; exact: (exprn_gt0 _ w_pos). Qed.
Lemma w_neq0 : w != 0. Proof. by rewrite gt_eqF. Qed.

Lemma go (st : state) u nw cd' c' l : Inv st -> (tau_low a_tau (st_sw st) = 0 /\ tau_high a_tau (st_sw st) = 8)%coqZ ->
  removable st u -> hyb_result (Cds st) (Cs st) u cd' c' -> size cd' = size c' -> ms_ok lab 1 u ->
  all (rng_cc 0 8) ((Updater.cd_rem u ++ Updater.c_rem u ++ worm_ops wdata wo (Worm st)) ++ Updater.cd_add u ++ Updater.c_add u ++ worm_ops wdata wo nw) ->
  csorted l -> Permutation l (cd' ++ c' ++ worm_ops wdata wo nw) -> ~~ ms_lossy F lab 1 (Cds st) (Cs st) u -> full_det F lab 1 cd' c' != 0 -> Ftr l != 0 ->
  exists y : state, [/\ Inv y, st_sw y = st_sw st, Permutation (Cds y) cd', Permutation (Cs y) c' & Worm y = nw].
Proof.
move=> hI [lo0 hi8] [q1 q2] hr hsz hk hin sl pl nl dn tn.
pose p := Prop_ K wdata u (Some nw) 1.
have c0 : 0 < p_corr K wdata p by exact: ltr01.
have sz : (size (Updater.cd_add u) + size (Updater.c_rem u) = size (Updater.c_add u) + size (Updater.cd_rem u))%N.
  have [[_ [_ [_ [e _]]]] _ _] := hI; have [/Permutation_perm_eq/perm_size e1 /Permutation_perm_eq/perm_size e2] := hr.
  move: e1 e2; rewrite !app_cat !size_cat; change (size (Cds st) = size (Cs st)) in e.
  by move: e hsz; do ?(move: (size _) => ?); clear; lia.
have lp : legal_prop wo lab 1 ai ai asc asc a_tau one1 a_dst one2 (a_exp w) 0 (st_sw st) (st_mc st) p.
  apply: (C60_legal_exact H1 isT H2 H3 a_tau_mono (lexx 0) erefl hI) => //.
  rewrite lo0 hi8 [p_worm_new _ _ _]/= => rem add em x hx.
  have hx' : In x ((Updater.cd_rem u ++ Updater.c_rem u ++ worm_ops wdata wo (Worm st)) ++ Updater.cd_add u ++ Updater.c_add u ++ worm_ops wdata wo nw)%list.
    have [m1 m2] := merge_diff_cnt _ _ _ _ _ _ em x; rewrite /cnt !count_occ_app in m1 m2.
    have pos (t : list psi) : In x t <-> (0 < count_occ psi_eq_dec t x)%coq_nat by exact: (count_occ_In psi_eq_dec t x).
    apply/(pos ((_ ++ _ ++ _) ++ _ ++ _ ++ _)%list); rewrite !count_occ_app [p_hyb _ _ _]/= in m1 m2 *.
    by move: m1 m2; case: hx => /pos; do ?(move: (count_occ _ _ _) => ?); clear; lia.
  by have /allP := hin; apply; apply/In_mem; rewrite -!app_cat.
have [mc2 [ct [acc [u1 i2 u2 u3 u4]]]] := C60_update H1 isT H2 H3 a_tau_0 a_tau_beta a_tau_mono (lexx 0) erefl order_desc hI (lexx 0) lp.
have ha : acc.
  apply/u2; exists cd', c', l; split=> //.
  rewrite normr_gt0 mul1r; apply: mulf_neq0; apply: mulf_neq0; rewrite ?invr_eq0 //.
    by have [] := inv_neq0 H1 hI.
  by have [] := inv_neq0 H1 hI.
have [v0 [v1 v2]] := u3 ha; exists (State mc2 (st_sw st) (st_dv st)); split=> //.
- by have [h1 _] := hr; apply: Permutation_app_inv_r (Permutation_trans v1 (Permutation_sym h1)).
- by have [_ h1] := hr; apply: Permutation_app_inv_r (Permutation_trans v2 (Permutation_sym h1)).
Qed.

Lemma blk3 f : (f < 3)%N -> blk lab 1 f = 0%N. Proof. by case: f => [|[|[]]]. Qed.
Lemma det1 x y : (p_flavor x < 3)%N -> (p_flavor y < 3)%N -> full_det F lab 1 [:: x] [:: y] = F y x.
Proof. by move=> ex ey; rewrite /full_det /hyb_det /= /detL det_mx11 mxE /= /within !blk3. Qed.
Lemma ftr_pair (t u : Z) f g : (0 <= t <= u)%coqZ -> (u <= 8)%coqZ -> Ftr [:: an_ t f; cr u g] != 0.
Proof.
rewrite /full_trace /full_term /sumK /= !add0r !mul1r expr1n mulr1 gt_eqF //.
by rewrite mulr_gt0 ?exprn_gt0.
Qed.
Lemma start : exists st : state, [/\ Inv st, (tau_low a_tau (st_sw st) = 0 /\ tau_high a_tau (st_sw st) = 8)%coqZ, Cds st = [::] /\ Cs st = [::] & Worm st = None].
Proof.
have [st0 [e0 i0]] := C60_start wo F junk lab 1 np mo wk H2 H3 a_tau_0 a_tau_beta a_tau_mono erefl s0 (isT : 0 < 1)%N ftr0.
have [s [es [_ [n0 [p0 [l0 d0]]]]]] := @initw_ok K (aket K) (aket K) (a_outer K) ai ai None None ac ab aq aq id id an an a_tau 0 [::] 1 s0 isT.
move: (e0); rewrite /Assembly.start es => -[E0]; subst st0; eexists; split; first exact: i0.
- by rewrite /tau_low /tau_high; cbn [st_sw]; rewrite n0 p0 l0.
- by [].
- by [].
Qed.

Notation Gstate := (gstate types F junk lab 1 (a_outer K) ai ai None None ac ab aq aq id id an an ap a_tau 0 8%coqZ).
Notation Exact := (exact types F lab 1 (@lup_vec K) 0 ai ai None None ac ab aq aq id id an an asc asc a_tau 0 one1 a_dst one2 (a_exp w) 0).
Notation Leads := (leads types F junk lab 1 np mo wk (@lup_vec K) 0 ai ai None None ac ab aq aq id id an an asc asc ap a_tau 0 one1 a_dst one2 (a_exp w) 0 order [rmorphism of (idfun : R -> K)]).
Notation Weight := (weight F lab 1 (a_outer K) ac aq ap 8%coqZ (fun x : K => `|x| : R)).
Notation Ops st := (operators K wdata (ms K) (st_mc st)).

Lemma rg x : (0 <= ot_time (p_time x) <= 8)%coqZ -> ot_small (p_time x) = 0%coqZ -> rng_cc 0 8 x.
Proof.
by case: x => [[t s] ty f] /= h ->; apply/andP; split; rewrite /ot_le; cbn [at_ p_time ot_time ot_small]; case: Z.eqb_spec => // _; apply/Z.leb_le; lia.
Qed.
(** one pair of operators of flavor f *)
Definition pair_state (t u : Z) (f : nat) (y : state) : Prop :=
  [/\ Gstate y, Cds y = [:: cr u f], Cs y = [:: an_ t f], Worm y = None & Ops y = [:: an_ t f; cr u f]].
Lemma pair_ex t u f : (0 <= t < u)%coqZ -> (u <= 8)%coqZ -> (f < 3)%N -> exists y, pair_state t u f y.
Proof.
move=> ht hu hf; have [st [i0 hw [e1 e2] ew]] := start.
have srt : csorted [:: an_ t f; cr u f].
  by repeat constructor; rewrite /plt /psi_lt /ot_lt /=; case: Z.eqb_spec => [|_]; [lia|apply/Z.ltb_lt; lia].
have [y [iy sy y1 y2 yw]] : exists y : state, [/\ Inv y, st_sw y = st_sw st, Permutation (Cds y) [:: cr u f], Permutation (Cs y) [:: an_ t f] & Worm y = None].
  apply: (go (u := HU [::] [::] [:: cr u f] [:: an_ t f]) (l := [:: an_ t f; cr u f])) => //.
  - by split; eexists; exact: Permutation_refl.
  - by rewrite e1 e2; split; exact: Permutation_refl.
  - split; last by case: (f) hf => [|[|[]]] // _; case.
    by rewrite /known_call /= /flavor_known /= hf.
  - by rewrite ew; cbn [worm_ops cat all Updater.cd_rem Updater.c_rem Updater.cd_add Updater.c_add]; rewrite !rg //=; lia.
  - exact: perm_swap.
  - rewrite e1 e2; by case: (f) hf => [|[|[]]].
  - by rewrite det1 // F_neq0.
  - by apply: ftr_pair => //; lia.
have c1 : Cds y = [:: cr u f] by apply: Permutation_length_1_inv; exact: Permutation_sym.
have c2 : Cs y = [:: an_ t f] by apply: Permutation_length_1_inv; exact: Permutation_sym.
exists (State (st_mc y) (st_sw y) (ms_det_vec (@lup_vec K) (mstate K wdata (ms K) (st_mc y)))); split=> //.
- split=> //; first exact: (det_vec_ok H1 isT (@lup_vec_ok K) iy).
    by rewrite /flavors_ok /= c1 c2 yw /= /flavor_known /= hf.
  by rewrite /= yw.
- have [[hs [hp _]] _ _] := iy; apply: csorted_perm_eq => //; apply: (Permutation_trans hp).
  by rewrite c1 c2 yw; exact: perm_swap.
Qed.

Lemma kept1 (luv : forall n, 'M[K]_n -> seq K) x y : (forall n (A : 'M[K]_n), is_lu_vec A (luv n A)) -> (p_flavor x < 3)%N -> (p_flavor y < 3)%N ->
  let v := block_vec (blk lab 1) 1 (lu_ops F luv) [:: x] [:: y] in all (GlobalUpdate.kept 0 (abs_sort v)) v.
Proof.
move=> ok ex ey /=; rewrite /block_vec /= /inb /= !blk3 //= cats0 /lu_ops /=.
set A := matL _ _ _ _ _ _; have h := is_lu_vec_det (ok _ A); have [_ [_ [_ [_ [_ _ _ _ [sz _]]]]]] := ok _ A.
case: (luv 1%N A) sz h => [|a []] // _; rewrite big_seq1 /A det_mx11 mxE => ->.
have := F_neq0 (nth psi0 [:: y] 0) (nth psi0 [:: x] 0); move: (F _ _) => z hz /=.
by rewrite andbT /GlobalUpdate.kept normr_gt0 mulf_neq0 // invr_neq0 // /abs_sort /GlobalUpdate.maxabs /= normr_gt0 hz normr_eq0 hz.
Qed.
Lemma exact_pair n g t u f y : (0 < n)%N -> pair_state t u f y -> (p_flavor (g.1 (cr u f)) < 3)%N -> (p_flavor (g.1 (an_ t f)) < 3)%N ->
  p_time (g.1 (cr u f)) != p_time (g.1 (an_ t f)) -> Exact n g y.
Proof.
move=> n0 [gy e1 e2 ew eo] f1 f2 ne; split; first by move=> v _; rewrite /v e1 e2; apply: kept1 (@lup_vec_ok K) _ _.
move=> s1 s2 h1 h2; have [[_ hr _] _ _ _] := gy.
apply: (no_gap0 H2 H3 a_tau_mono erefl).
  by apply: (reach_set _ _ _ h2) => //; apply: (reach_set hr _ _ h1).
rewrite /transformed e1 e2 ew; apply: (proj1 (insert_all_spec _)); apply/NoDup_uniq; rewrite /= inE.
by rewrite ne.
Qed.
Lemma w_pair t u f y : pair_state t u f y -> (f < 3)%N -> Weight y = f.+1%:R * `|Ftr [:: an_ t f; cr u f]|.
Proof. by move=> [_ e1 e2 _ eo] hf; rewrite /weight e1 e2 eo normrM det1 // F_abs. Qed.
Lemma ftr_flavor t u f : Ftr [:: an_ t f; cr u f] = Ftr [:: an_ t 0; cr u 0].
Proof. by []. Qed.
Lemma image_exchange v t u f g a b : pair_state t u f a -> pair_state t u g b ->
  image (exchange_all v) a b = (nth 0%N v f == g).
Proof.
move=> [_ a1 a2 a3 _] [_ b1 b2 b3 _]; rewrite /image a1 a2 a3 b1 b2 b3 /= eqxx andbT /exchange_flavor /=.
apply/andP/eqP => [[h _]|->]; last by [].
by have := perm_mem h (cr u g); rewrite !inE eqxx => /esym/eqP[].
Qed.

Add Field Rf : (kfield_theory R).
Let us := [:: [:: 1; 2; 0]; [:: 2; 0; 1]]%N.
(** the probability to move from i to j with the vector v *)
Definition acc (i k : nat) : R := if (i <= k)%N then 1 else k.+1%:R / i.+1%:R.
Definition cyc (v : nat) : 'M[R]_3 := \matrix_(i, j) (let k := nth 0%N (nth [::] us v) i in
  if k == j then acc i k else if i == j then 1 - acc i k else 0).
Lemma accE (i k : nat) (T : R) : 0 < T -> Num.min 1 (k.+1%:R * T / (i.+1%:R * T)) = acc i k.
Proof.
move=> t0; rewrite -mulf_div divff ?gt_eqF // mulr1 /acc.
have i0 : (0 : R) < i.+1%:R by rewrite ltr0n.
case: leqP => h; first by apply/min_idPl; rewrite ler_pdivl_mulr // mul1r ler_nat.
by apply/min_idPr; rewrite ler_pdivr_mulr // mul1r ler_nat ltnW.
Qed.
Lemma cyc_normalized v : (v < 2)%N -> normalized (cyc v).
Proof.
by case: v => [|[]] // _ i; rewrite !big_ord_recl big_ord0 !mxE; case: i => [[|[|[]]]] //= _; rewrite ?addr0 ?add0r //; rewrite ?subrK // addrC subrK.
Qed.
Lemma cyc_moves (T : R) : 0 < T -> ~ stationary (fun i : 'I_3 => i.+1%:R * T) (random_order 2 cyc).
Proof.
move=> t0 /(_ ord0).
have pe : permutations (iota 0 2) = [:: [:: 0; 1]; [:: 1; 0]]%N by vm_compute.
have q1 i : (cyc 0 *m cyc 1) i ord0 = if i == 0%N :> nat then 2%:R^-1 else 0.
  rewrite mxE !big_ord_recl big_ord0 !mxE /acc /=.
  by case: i => [[|[|[]]]] //= _; rewrite ?subrr ?mul0r ?mulr0 ?mul1r ?add0r ?addr0.
have t3 : 1 - 2%:R / 3%:R = 3%:R^-1 :> R.
  by rewrite -[X in X - _](@divff _ (3%:R : R)) ?pnatr_eq0 // -mulrBl -natrB // mul1r.
have q2 i : (cyc 1 *m cyc 0) i ord0 = if i == 0%N :> nat then 3%:R^-1 else if i == 2%N :> nat then 3%:R^-1 * 3%:R^-1 else 0.
  rewrite mxE !big_ord_recl big_ord0 !mxE /acc /=.
  by case: i => [[|[|[]]]] //= _; rewrite ?t3 ?subrr ?mul0r ?mulr0 ?mul1r ?add0r ?addr0.
rewrite (eq_bigr (fun i : 'I_3 => i.+1%:R * T * (2%:R^-1 * ((if i == 0%N :> nat then 2%:R^-1 else 0) +
    if i == 0%N :> nat then 3%:R^-1 else if i == 2%N :> nat then 3%:R^-1 * 3%:R^-1 else 0)))); last first.
  move=> i _; rewrite /random_order pe !big_cons big_nil addr0 /in_order; cbn [foldr]; rewrite !mulmx1.
  by rewrite mxE [(_ + _ : 'M_3) _ _]mxE q1 q2.
rewrite !big_ord_recl big_ord0 /= !addr0 !mulr0 add0r.
set a := 2%:R^-1; set b := 3%:R^-1; have b3 : (bump 0 (bump 0 0)).+1%:R * b = 1 :> R by rewrite divff ?pnatr_eq0.
have -> : 1 * T * (a * (a + b)) + (bump 0 (bump 0 0)).+1%:R * T * (a * (0 + b * b)) = T * (a * (a + b + (bump 0 (bump 0 0)).+1%:R * b * b)).
  by set n3 := _.+1%:R; kring R.
rewrite b3 !mul1r -[X in _ = X]mulr1 => /(mulfI (lt0r_neq0 t0)) h.
have a2 : 2%:R * a = 1 :> R by rewrite divff ?pnatr_eq0.
have : a + b + b = 2%:R by rewrite -[RHS]mulr1; apply: etrans (congr1 (fun z => 2%:R * z) h); rewrite mulrA a2 mul1r.
have ba : b < a by rewrite ltf_pinv ?posrE ?ltr0n // ltr_nat.
have a1 : a < 1 by rewrite invf_lt1 ?ltr0n // ltr1n.
apply/eqP; rewrite lt_eqF // -addrA; apply: lt_le_trans (_ : 1 + (a + a) <= _); first by apply: ltr_add => //; apply: ltr_add.
have -> : a + a = 1 by rewrite -a2 mulr_natl mulr2n.
by rewrite -(natrD _ 1 1).
Qed.

Lemma same_pair t u f g a b : pair_state t u f a -> pair_state t u g b -> (f != g)%N -> ~~ same a b.
Proof.
move=> [_ a1 _ _ _] [_ b1 _ _ _] fg; apply/negP => /and4P[_ _ + _]; rewrite a1 b1 => /perm_mem/(_ (cr u g)).
by rewrite !inE eqxx => /eqP[] e; move: fg; rewrite e eqxx.
Qed.

(** The code accepts a swap vector that is not its own inverse, adds the inverse, and calls both in a random order with a
    Metropolis test each. The weights of three configurations with one pair of operators, of flavor 0, 1 and 2, are then not
    stationary. *)
Theorem C64_cycle_refuted : swap_vectors 1 3 [:: 1; 2; 0]%coqZ = SwapOk us /\
  exists (conf : 'I_3 -> state) (P : nat -> 'M[R]_3),
    [/\ forall i, Gstate (conf i) /\ (forall v, v \in us -> Exact 10 (exchange_all v) (conf i)),
        forall i j, i != j -> ~~ same (conf i) (conf j),
        forall v i j, (v < 2)%N -> i != j -> uniform_prob (Leads 10 (conf i) (conf j) (exchange_all (nth [::] us v))) (P v i j),
        forall v, (v < 2)%N -> normalized (P v) &
        ~ stationary (fun i => Weight (conf i)) (random_order 2 P)].
Proof.
split; first by vm_compute.
have [y0 h0] := @pair_ex 3%coqZ 5%coqZ 0 ltac:(lia) ltac:(lia) isT.
have [y1 h1] := @pair_ex 3%coqZ 5%coqZ 1 ltac:(lia) ltac:(lia) isT.
have [y2 h2] := @pair_ex 3%coqZ 5%coqZ 2 ltac:(lia) ltac:(lia) isT.
pose conf (i : 'I_3) : state := nth y0 [:: y0; y1; y2] i.
have hc (i : 'I_3) : pair_state 3 5 i (conf i) by case: i => [[|[|[]]]].
have ex (i : 'I_3) v : v \in us -> Exact 10 (exchange_all v) (conf i).
  move=> hv; apply: exact_pair (hc i) _ _ _ => //.
    by move: hv; rewrite !inE => /orP[] /eqP ->; case: i => [[|[|[]]]].
  by move: hv; rewrite !inE => /orP[] /eqP ->; case: i => [[|[|[]]]].
exists conf, cyc; split.
- by move=> i; split; [case: (hc i)|exact: ex].
- by move=> i j ij; exact: same_pair (hc i) (hc j) ij.
- move=> v i j hv ij; have [gi ci _ _ _] := hc i; have [gj _ _ _ _] := hc j.
  have hu : nth [::] us v \in us by rewrite mem_nth.
  have pv : perm_eq (nth [::] us v) (iota 0 (size lab)) by case: (v) hv => [|[]].
  have := leads_prob np mo wk H1 (@lup_vec_ok K) H2 H3 a_tau_0 a_tau_beta a_tau_mono (lexx 0) erefl order_desc
    (inR := [rmorphism of (idfun : R -> K)]) (fun x y => erefl) (nrm := fun x : K => `|x| : R) (fun x => erefl)
    (gs_inv gi) (gs_inv gj) (gs_dv gi) (fun r r0 => legal_exchange gi (isT : 0 < 10)%N r0 (ex i _ hu) pv) (same_pair (hc i) (hc j) ij).
  rewrite ci (image_exchange _ (hc i) (hc j)) (w_pair (hc i)) // (w_pair (hc j)) // (ftr_flavor _ _ i) (ftr_flavor _ _ j) accE ?normr_gt0 ?ftr_pair //; try lia.
  by rewrite [cyc _ _ _]mxE (negbTE ij); cbv zeta; case: (eqVneq (nth 0%N (nth [::] us v) i) j) => [<-|_].
- exact: cyc_normalized.
- pose T : R := `|Ftr [:: an_ 3 0; cr 5 0]|.
  have t0 : 0 < T by rewrite /T normr_gt0; apply: ftr_pair; lia.
  move=> hs; apply: (cyc_moves t0) => j; have := hs j.
  have ew (i : 'I_3) : Weight (conf i) = i.+1%:R * T by rewrite (w_pair (hc i)) // ftr_flavor.
  by rewrite ew (eq_bigr (fun i : 'I_3 => i.+1%:R * T * random_order 2 cyc i j)) // => i _; rewrite ew.
Qed.

(** An exchange of two flavors and a shift: both directions have positive probability. *)
Example C64_instance_exchange : exists a b : state, [/\ Gstate a, Gstate b, ~~ same a b, Weight a != Weight b &
  exists q q' : R, [/\ uniform_prob (Leads 10 a b (exchange_all [:: 1; 0; 2]%N)) q, uniform_prob (Leads 10 b a (exchange_all [:: 1; 0; 2]%N)) q',
      0 < q, 0 < q' & Weight a * q = Weight b * q']].
Proof.
have [a ha] := @pair_ex 3%coqZ 5%coqZ 0 ltac:(lia) ltac:(lia) isT.
have [b hb] := @pair_ex 3%coqZ 5%coqZ 1 ltac:(lia) ltac:(lia) isT.
have ns := same_pair ha hb isT; have [ga c1 _ _ _] := ha; have [gb _ _ _ _] := hb.
have ea : Exact 10 (exchange_all [:: 1; 0; 2]%N) a by apply: exact_pair ha _ _ _.
have eb : Exact 10 (exchange_all [:: 1; 0; 2]%N) b by apply: exact_pair hb _ _ _.
exists a, b; split=> //.
  rewrite (w_pair ha) // (w_pair hb) // (ftr_flavor 3 5 1) mul1r -subr_eq0 -[X in X - _]mul1r -mulrBl mulf_neq0 //.
    by rewrite subr_eq0 eq_sym pnatr_eq1.
  by rewrite normr_eq0; apply: ftr_pair; lia.
have [||q [q' [h1 h2 h3 h4]]] := C64_involution np mo wk H1 (@lup_vec_ok K) H2 H3 a_tau_0 a_tau_beta a_tau_mono (lexx 0) erefl order_desc
    (inR := [rmorphism of (idfun : R -> K)]) (fun x y => erefl) (nrm := fun x : K => `|x| : R) (fun x => erefl) (v := [:: 1; 0; 2]%N) (n := 10) _ _ isT ga gb ea eb ns => //.
  by case=> [|[|[]]].
have [] := h3 _ _; first by rewrite c1.
  by rewrite (image_exchange _ ha hb).
by exists q, q'.
Qed.

Example C64_instance_shift : exists a b : state, [/\ Gstate a, Gstate b, ~~ same a b &
  exists q q' : R, [/\ flow (shift_call R 8%coqZ [:: 1; 7]%coqZ) (Leads 10 a b) q, flow (shift_call R 8%coqZ [:: 1; 7]%coqZ) (Leads 10 b a) q',
      0 < q, 0 < q' & Weight a * q = Weight b * q']].
Proof.
have [a ha] := @pair_ex 3%coqZ 5%coqZ 0 ltac:(lia) ltac:(lia) isT.
have [b hb] := @pair_ex 4%coqZ 6%coqZ 0 ltac:(lia) ltac:(lia) isT.
have [ga c1 c2 c3 c4] := ha; have [gb d1 d2 d3 d4] := hb.
have ns : ~~ same a b by rewrite /same c4 d4.
have nab s : s \in [:: 1; 7]%coqZ -> [/\ not_after 8 s a, Exact 10 (shift_all 8 s) a, not_after 8 s b & Exact 10 (shift_all 8 s) b].
  rewrite !inE => /orP[] /eqP ->; split; do ?[by apply: exact_pair ha _ _ _|by apply: exact_pair hb _ _ _];
    by rewrite /not_after ?c4 ?d4 => x; rewrite /= => -[<-|[<-|//]]; vm_compute.
exists a, b; split=> //.
have [|||q [q' [h1 h2 h3 h4]]] := C64_shift np mo wk H1 isT (@lup_vec_ok K) H2 H3 a_tau_0 a_tau_beta a_tau_mono (lexx 0) erefl order_desc
    (inR := [rmorphism of (idfun : R -> K)]) (fun x y => erefl) (nrm := fun x : K => `|x| : R) (fun x => erefl) (n := 10) (vals := [:: 1; 7]%coqZ) isT isT _ ga gb _ _ nab ns => //.
- by move=> s; rewrite !inE => /orP[] /eqP ->; split=> //; lia.
- by rewrite /inside c3 c4.
- by rewrite /inside d3 d4.
have [] := h3 _ _; first by rewrite c1.
  by exists 1%coqZ => //; rewrite /image c1 c2 c3 d1 d2 d3.
by exists q, q'.
Qed.
(** A shift by 4 of 8: the operators change their order, and the shift is accepted for every random number. *)
Example C67_run_instance r : 0 <= r < 1 -> exists a b : state, [/\ Gstate a, Inv b,
    run_cmd wo F junk lab 1 np mo wk (@lup_vec K) 0 ai ai None None ac ab aq aq id id an an asc asc ap a_tau 0 one1 a_dst one2 (a_exp w) 0 order
      a (Global 10 (shift_all 8 4).1 (shift_all 8 4).2 r) = Some b,
    Ops a = [:: an_ 3 0; cr 5 0] /\ Ops b = [:: cr 1 0; an_ 7 0] & Weight b = Weight a].
Proof.
move=> hr; have [a ha] := @pair_ex 3%coqZ 5%coqZ 0 ltac:(lia) ltac:(lia) isT; have [ga c1 c2 c3 c4] := ha.
have ex : Exact 10 (shift_all 8 4) a by apply: exact_pair ha _ _ _.
have hs : (0 < 4 < 8)%coqZ by lia.
have F_diff x y : F x y = D (p_flavor x) (p_flavor y) (ot_time (p_time x) - ot_time (p_time y))%coqZ by [].
have D_anti f g d : (0 < d < 8)%coqZ -> D f g (d - 8)%coqZ = - D f g d.
  by rewrite /D => hd; case: Z.ltb_spec => h1; case: Z.ltb_spec => h2 //; clear -hd h1 h2; lia.
have ins : inside 8 a by rewrite /inside c3 c4.
have na : not_after 8 4 a by rewrite /not_after c4 => x; rewrite /= => -[<-|[<-|//]]; vm_compute.
have el : insert_all (map (operator_shift 8 4) (Ops a)) = [:: cr 1 0; an_ 7 0] by rewrite c4; vm_compute.
have [||b [e1 [ib _] e3 e4 e5]] := C67_run np mo wk H1 isT (@lup_vec_ok K) H2 H3 a_tau_0 a_tau_beta a_tau_mono (lexx 0) erefl order_desc
    (inR := [rmorphism of (idfun : R -> K)]) (nrm := fun x : K => `|x| : R) (fun x => erefl) hs F_diff D_anti ga ins na (isT : 0 < 10)%N hr ex.
- by rewrite c1.
- rewrite el c4 /full_trace /full_term /sumK /= !add0r !addr0 !mul1r ?mulr1 ?expr1n ?mulr0 ?mul0r ?add0r ?addr0.
  by rewrite mulr1 -exprD.
by exists a, b; split=> //; rewrite e4 el.
Qed.
End Instance.
Print Assumptions C64_cycle_refuted.
