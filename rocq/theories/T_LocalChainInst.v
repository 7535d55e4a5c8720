(** Instance for C62 *)
From Coq Require Import ZArith Lia List Bool Sorting.Permutation Sorting.Sorted.
From mathcomp Require Import all_ssreflect all_fingroup all_algebra zify.
From Verif Require Import OpContainer CombSort PermSign T_PermSign Updater T_Updater Dist Proposal T_Proposal ShiftProposal T_ShiftProposal
  HybDet EigenBasis FastUpdate T_FastUpdate
  DetMatrix T_DetMatrix T_DetUpdate T_DetHistory DetPartitioned T_DetPartitioned GlobalUpdate T_GlobalUpdate
  Window T_Window T_WindowTrace LazyTrace T_LazyTrace Assembly T_Assembly LocalChain T_LocalChain.
Import Order.Theory GRing.Theory Num.Theory.
Set Implicit Arguments.
Unset Strict Implicit.
Unset Printing Implicit Defensive.
Local Close Scope Z_scope.
Local Open Scope nat_scope.
Delimit Scope Z_scope with coqZ.
Local Open Scope ring_scope.

(** ** Instance: two flavors in one block that act on one orbital; hybridization function 2 or 3; weight [w] per unit of time when
    occupied; the window is [0, 8]. *)
Section Instance.
Variable R : realFieldType.
Let K : numFieldType := [numFieldType of R].
Variable w : K.
Hypothesis w_pos : 0 < w.
Let F (x y : psi) : K := if (ot_time (p_time x) + ot_time (p_time y) =? 13)%coqZ then 3%:R else 2%:R.
Let lab := [:: 0%N; 0%N].
Let order (bs : seq K) : seq nat := sort (fun i j => nth 0 bs j <= nth 0 bs i) (iota 0 (size bs)).
Lemma order_desc bs : descending bs (order bs).
Proof.
split; first by rewrite /order perm_sort.
by apply: sort_sorted => i j; exact: (@le_total _ R).
Qed.

Variables (junk : nat -> nat -> K) (np : int) (mo : umode) (wk : work K) (s0 : sw K (aket K) (aket K)).
Let wo (_ : unit_eqType) : seq psi := [::].
Let ac (o : optype) (_ : nat) := @a_c K o.
Let ab (o : optype) (_ : nat) := @a_c K (a_flip o).
Let one1 (_ : aket K) := 1%N.
Let one2 (_ : nat) := 1%N.
Let aq := a_prop w.
Let an := @a_norm K.
Let ai := @a_invalid K.
Let asc := @a_sec K.
Let ap := @a_prod K.
Let H1 : all (fun b => b < 1)%N lab := isT.
Let H2 : braket_ok ai ai None None ac ab aq aq id id asc asc ap := a_ok w.
Let H3 : norm_ok ai ac aq an an asc ap one1 a_dst one2 (a_exp w) one1 := a_norm_ok w_pos.
Notation Inv := (inv wo F junk lab 1 (a_outer K) ai ai None None ac ab aq aq id id an an ap a_tau 0 8%coqZ).
Notation Setup := (setup wo F junk lab 1 (a_outer K) ai ai None None ac ab aq aq id id an an asc asc ap a_tau 0 one1 a_dst one2 (a_exp w) 0 8%coqZ).
Notation Ftr := (full_trace (a_outer K) ac aq ap 8%coqZ).
Notation Worm st := (Updater.worm K unit_eqType (ms K) (st_mc st)).
Notation Cds st := (ms_cd (mstate K unit_eqType (ms K) (st_mc st))).
Notation Cs st := (ms_c (mstate K unit_eqType (ms K) (st_mc st))).
Notation state := (state K unit_eqType (aket K) (aket K)).

Let cr (t : Z) (f : nat) := Psi (OT t 0%coqZ) CREATION_OP f.
Let an_ (t : Z) (f : nat) := Psi (OT t 0%coqZ) ANNIHILATION_OP f.

Lemma ftr0 : 0 < Ftr [::].
Proof. by rewrite /full_trace /full_term /sumK /= /ap /= !add0r !mul1r expr1n addr_gt0 // ?ltr01 //; exact: (exprn_gt0 _ w_pos). Qed.
Lemma w_neq0 : w != 0. Proof. by rewrite gt_eqF. Qed.

Lemma go (st : state) u cd' c' l : Inv st -> (tau_low a_tau (st_sw st) = 0 /\ tau_high a_tau (st_sw st) = 8)%coqZ ->
  removable st u -> hyb_result (Cds st) (Cs st) u cd' c' -> size cd' = size c' -> ms_ok lab 1 u ->
  all (rng_cc 0 8) (Updater.cd_rem u ++ Updater.c_rem u ++ Updater.cd_add u ++ Updater.c_add u) ->
  csorted l -> Permutation l (cd' ++ c') -> ~~ ms_lossy F lab 1 (Cds st) (Cs st) u -> full_det F lab 1 cd' c' != 0 -> Ftr l != 0 ->
  exists y : state, [/\ Inv y, st_sw y = st_sw st, Permutation (Cds y) cd', Permutation (Cs y) c' & Worm y = Worm st].
Proof.
move=> hI [lo0 hi8] [q1 q2] hr hsz hk hin sl pl nl dn tn.
pose p := Prop_ K unit_eqType u None 1.
have c0 : 0 < p_corr K unit_eqType p by exact: ltr01.
have sz : (size (Updater.cd_add u) + size (Updater.c_rem u) = size (Updater.c_add u) + size (Updater.cd_rem u))%N.
  have [[_ [_ [_ [e _]]]] _ _] := hI; have [/Permutation_perm_eq/perm_size e1 /Permutation_perm_eq/perm_size e2] := hr.
  move: e1 e2; rewrite !app_cat !size_cat; change (size (Cds st) = size (Cs st)) in e.
  by move: e hsz; do ?(move: (size _) => ?); clear; lia.
have lp : legal_prop wo lab 1 ai ai asc asc a_tau one1 a_dst one2 (a_exp w) 0 (st_sw st) (st_mc st) p.
  apply: (C60_legal_exact H1 isT H2 H3 a_tau_mono (lexx 0) erefl hI) => //.
  rewrite lo0 hi8 [p_worm_new _ _ _]/= => rem add em x hx.
  have hx' : In x (Updater.cd_rem u ++ Updater.c_rem u ++ Updater.cd_add u ++ Updater.c_add u)%list.
    have [m1 m2] := merge_diff_cnt _ _ _ _ _ _ em x; rewrite /cnt !count_occ_app in m1 m2.
    have pos (t : list psi) : In x t <-> (0 < count_occ psi_eq_dec t x)%coq_nat by exact: (count_occ_In psi_eq_dec t x).
    apply/(pos (_ ++ _ ++ _ ++ _)%list); rewrite !count_occ_app [p_hyb _ _ _]/= in m1 m2 *.
    by move: m1 m2; case: hx => /pos; do ?(move: (count_occ _ _ _) => ?); clear; lia.
  by have /allP := hin; apply; apply/In_mem; rewrite -!app_cat.
have [mc2 [ct [acc [u1 i2 u2 u3 u4]]]] := C60_update H1 isT H2 H3 a_tau_0 a_tau_beta a_tau_mono (lexx 0) erefl order_desc hI (lexx 0) lp.
have wo0 : worm_ops unit_eqType wo (Worm st) = [::] by case: (Worm st) => [[]|].
have ha : acc.
  apply/u2; exists cd', c', l; split=> //.
    by split=> //; rewrite [p_worm_new _ _ _]/= wo0 cats0.
  rewrite normr_gt0 mul1r; apply: mulf_neq0; apply: mulf_neq0; rewrite ?invr_eq0 //.
    by have [] := inv_neq0 H1 hI.
  by have [] := inv_neq0 H1 hI.
have [v0 [v1 v2]] := u3 ha; exists (State mc2 (st_sw st) (st_dv st)); split=> //.
- by have [h1 _] := hr; apply: Permutation_app_inv_r (Permutation_trans v1 (Permutation_sym h1)).
- by have [_ h1] := hr; apply: Permutation_app_inv_r (Permutation_trans v2 (Permutation_sym h1)).
Qed.

Lemma su (st y : state) : Inv st -> Inv y -> st_sw y = st_sw st -> typed st -> typed y -> Worm y = Worm st -> Setup st y.
Proof.
move=> i1 i2 es t1 t2 ew; have [[c1 _] r1 _] := i1; have [[c2 _] r2 _] := i2.
by split=> //; [exact: (no_gap0 H2 H3 a_tau_mono erefl r1 c1)|exact: (no_gap0 H2 H3 a_tau_mono erefl r2 c2)].
Qed.
Lemma typed_perm (st : state) cd c : Permutation (Cds st) cd -> Permutation (Cs st) c -> all is_cr cd -> all is_an c -> typed st.
Proof. by move=> /Permutation_perm_eq h1 /Permutation_perm_eq h2 a b; rewrite /typed (perm_all _ h1) (perm_all _ h2) a. Qed.
Lemma det1 x y : (p_flavor x < 2)%N -> (p_flavor y < 2)%N -> full_det F lab 1 [:: x] [:: y] != 0.
Proof.
move=> ex ey; rewrite /full_det /hyb_det /= /detL det_mx11 mxE /= /within.
have b f : (f < 2)%N -> blk lab 1 f = 0%N by case: f => [|[]].
by rewrite !b // eqxx /F; case: ifP => _; rewrite pnatr_eq0.
Qed.
Lemma det2 : full_det F lab 1 [:: cr 5 0; cr 7 0] [:: an_ 3 0; an_ 6 0] != 0.
Proof.
rewrite /full_det /hyb_det /= /detL (expand_det_row _ ord0) big_ord_recl big_ord1 /cofactor !det_mx11 !mxE /=.
rewrite expr0 expr1 !mul1r /F /= !mulN1r mulrN -!natrM subr_eq0 eqr_nat //.
Qed.
Lemma ftr_pair (t u : Z) f g : (0 <= t <= u)%coqZ -> (u <= 8)%coqZ -> Ftr [:: an_ t f; cr u g] != 0.
Proof.
rewrite /full_trace /full_term /sumK /= !add0r !mul1r expr1n mulr1 gt_eqF //.
by rewrite mulr_gt0 ?exprn_gt0.
Qed.
Lemma ftr_two : Ftr [:: an_ 3 0; cr 5 0; an_ 6 0; cr 7 0] != 0.
Proof.
rewrite /full_trace /full_term /sumK /= !add0r !mul1r !expr1n !mulr1 gt_eqF //.
by rewrite !mulr_gt0 ?exprn_gt0.
Qed.

Let grid := [:: OT 3%coqZ 0%coqZ; OT 5%coqZ 0%coqZ; OT 6%coqZ 0%coqZ; OT 7%coqZ 0%coqZ].
Lemma start : exists st : state, [/\ Inv st, (tau_low a_tau (st_sw st) = 0 /\ tau_high a_tau (st_sw st) = 8)%coqZ, Cds st = [::] & Cs st = [::]].
Proof.
have [st0 [e0 i0]] := C60_start wo F junk lab 1 np mo wk H2 H3 a_tau_0 a_tau_beta a_tau_mono erefl s0 (isT : 0 < 1)%N ftr0.
have [s [es [_ [n0 [p0 [l0 d0]]]]]] := @initw_ok K (aket K) (aket K) (a_outer K) ai ai None None ac ab aq aq id id an an a_tau 0 [::] 1 s0 isT.
move: (e0); rewrite /Assembly.start es => -[E0]; subst st0; eexists; split; first exact: i0.
- by rewrite /tau_low /tau_high; cbn [st_sw]; rewrite n0 p0 l0.
- by [].
- by [].
Qed.
Notation Inserted := (inserted a_tau grid).
Notation Replaced := (replaced lab 1 a_tau).
Example C62_instance : setting 2 1 (blk lab 1) grid (8%:R : R) /\ exists st y y2 v v2 : state,
  [/\ Setup st y /\ Inserted 1 st y [:: cr 5 0] [:: an_ 3 0],
      Setup st y2 /\ Inserted 2 st y2 [:: cr 5 0; cr 7 0] [:: an_ 3 0; an_ 6 0],
      Setup y v /\ Replaced y v (an_ 3 0) (an_ 4 0),
      Setup y v2 /\ Replaced y v2 (an_ 3 0) (with_flavor (an_ 3 0) 1) &
      T_ShiftProposal.valid (tau_low a_tau (st_sw y)) (tau_high a_tau (st_sw y)) (an_ 3 0) && T_ShiftProposal.valid (tau_low a_tau (st_sw y)) (tau_high a_tau (st_sw y)) (an_ 4 0)].
Proof.
split.
  split=> //; last by rewrite ltr0n.
  - by case=> [|[]].
  - by case.
have [st [i0 hw e1 e2]] := start.
have perm_e (s t : seq psi) : s = t -> Permutation s t by move=> ->.
have rm0 u : Updater.cd_rem u = [::] -> Updater.c_rem u = [::] -> removable st u.
  by move=> a b; rewrite /removable a b; split; eexists; exact: Permutation_refl.
have [y [iy sy y1 y2' yw]] : exists y : state, [/\ Inv y, st_sw y = st_sw st, Permutation (Cds y) [:: cr 5 0], Permutation (Cs y) [:: an_ 3 0] & Worm y = Worm st].
  apply: (go (u := HU [::] [::] [:: cr 5 0] [:: an_ 3 0]) (l := [:: an_ 3 0; cr 5 0])) => //.
  - exact: rm0.
  - by rewrite e1 e2; split; exact: Permutation_refl.
  - by split=> //; case.
  - by repeat constructor.
  - exact: perm_swap.
  - exact: det1.
  - exact: ftr_pair.
have [y2 [iy2 sy2 y21 y22 yw2]] : exists y : state, [/\ Inv y, st_sw y = st_sw st, Permutation (Cds y) [:: cr 5 0; cr 7 0], Permutation (Cs y) [:: an_ 3 0; an_ 6 0] & Worm y = Worm st].
  apply: (go (u := HU [::] [::] [:: cr 5 0; cr 7 0] [:: an_ 3 0; an_ 6 0]) (l := [:: an_ 3 0; cr 5 0; an_ 6 0; cr 7 0])) => //.
  - exact: rm0.
  - by rewrite e1 e2; split; exact: Permutation_refl.
  - by split=> //; case.
  - by repeat constructor.
  - by apply: perm_eq_Permutation.
  - exact: det2.
  - exact: ftr_two.
have hwy : (tau_low a_tau (st_sw y) = 0 /\ tau_high a_tau (st_sw y) = 8)%coqZ by rewrite sy.
have [v [iv sv v1 v2' vw]] : exists v : state, [/\ Inv v, st_sw v = st_sw y, Permutation (Cds v) [:: cr 5 0], Permutation (Cs v) [:: an_ 4 0] & Worm v = Worm y].
  apply: (go (u := HU [::] [:: an_ 3 0] [::] [:: an_ 4 0]) (l := [:: an_ 4 0; cr 5 0])) => //.
  - by split; [exists [:: cr 5 0]|exists [::]].
  - split; first by apply: Permutation_app => //; exact: Permutation_sym.
    by apply: (Permutation_trans (l' := [:: an_ 3 0; an_ 4 0])); [exact: perm_swap|apply: (Permutation_app (Permutation_sym y2') (Permutation_refl _))].
  - by split=> //; case.
  - by repeat constructor.
  - exact: perm_swap.
  - exact: det1.
  - exact: ftr_pair.
have [v2 [iv2 sv2 v21 v22 vw2]] : exists v : state, [/\ Inv v, st_sw v = st_sw y, Permutation (Cds v) [:: cr 5 0], Permutation (Cs v) [:: an_ 3 1] & Worm v = Worm y].
  apply: (go (u := HU [::] [:: an_ 3 0] [::] [:: an_ 3 1]) (l := [:: an_ 3 1; cr 5 0])) => //.
  - by split; [exists [:: cr 5 0]|exists [::]].
  - split; first by apply: Permutation_app => //; exact: Permutation_sym.
    by apply: (Permutation_trans (l' := [:: an_ 3 0; an_ 3 1])); [exact: perm_swap|apply: (Permutation_app (Permutation_sym y2') (Permutation_refl _))].
  - by split=> //; case.
  - by repeat constructor.
  - exact: perm_swap.
  - exact: det1.
  - exact: ftr_pair.
have t0 : typed st by rewrite /typed e1 e2.
have ty := typed_perm y1 y2' isT isT; have ty2 := typed_perm y21 y22 isT isT.
have tv := typed_perm v1 v2' isT isT; have tv2 := typed_perm v21 v22 isT isT.
have [lo0 hi8] := hw; have [lo0' hi8'] := hwy.
exists st, y, y2, v, v2; split.
- split; first exact: su.
  by split=> //; rewrite ?e1 ?e2 ?lo0 ?hi8 //; exact: Permutation_perm_eq.
- split; first exact: su.
  by split=> //; rewrite ?e1 ?e2 ?lo0 ?hi8 //; exact: Permutation_perm_eq.
- split; first exact: su.
  split=> //; rewrite ?lo0' ?hi8' //.
    rewrite !cats0 /=; apply: Permutation_perm_eq; apply: (Permutation_trans v1); exact: Permutation_sym.
  apply: Permutation_perm_eq; apply: (Permutation_trans (l' := [:: an_ 4 0; an_ 3 0])).
    exact: (Permutation_app v2' (Permutation_refl _)).
  by apply: Permutation_trans (perm_swap _ _ _) _; apply: (Permutation_app (Permutation_sym y2') (Permutation_refl _)).
- split; first exact: su.
  split=> //; rewrite ?lo0' ?hi8' //.
    rewrite !cats0 /=; apply: Permutation_perm_eq; apply: (Permutation_trans v21); exact: Permutation_sym.
  apply: Permutation_perm_eq; apply: (Permutation_trans (l' := [:: an_ 3 1; an_ 3 0])).
    exact: (Permutation_app v22 (Permutation_refl _)).
  by apply: Permutation_trans (perm_swap _ _ _) _; apply: (Permutation_app (Permutation_sym y2') (Permutation_refl _)).
by rewrite lo0' hi8'.
Qed.

(** The theorem for these states *)
Example C62_instance_balance : exists st y : state, exists q q' : R,
  [/\ 0 < q, 0 < q' & weight F lab 1 (a_outer K) ac aq ap 8%coqZ (fun x : K => `|x| : R) st * (q / (8%:R / 4%:R) ^+ 2) =
     weight F lab 1 (a_outer K) ac aq ap 8%coqZ (fun x : K => `|x| : R) y * q'].
Proof.
have [hset [st [y [_ [_ [_ [[h1 h2] _ _ _ _]]]]]]] := C62_instance.
have i1 : forall a b : R, ((idfun a : K) < (idfun b : K)) = (a < b) by [].
have i2 : forall x : K, [rmorphism of (idfun : R -> K)] (`|x| : R) = `|x| :> K by [].
have [q [q' [_ _ q0 q0' e]]] := C62_insertion_removal H1 isT H2 H3 a_tau_0 a_tau_beta a_tau_mono (lexx 0) erefl order_desc i1 i2 hset h1 h2.
by exists st, y, q, q'; split.
Qed.
End Instance.
Print Assumptions C62_instance.
Print Assumptions C62_instance_balance.
