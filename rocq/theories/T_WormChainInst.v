(** Instance for C63 *)
From Coq Require Import ZArith Lia List Bool Sorting.Permutation Sorting.Sorted.
From mathcomp Require Import all_ssreflect all_fingroup all_algebra zify.
From Verif Require Import OpContainer CombSort PermSign T_PermSign Updater T_Updater Dist Proposal T_Proposal ShiftProposal T_ShiftProposal
  HybDet EigenBasis FastUpdate T_FastUpdate
  DetMatrix T_DetMatrix T_DetUpdate T_DetHistory DetPartitioned T_DetPartitioned GlobalUpdate T_GlobalUpdate
  Window T_Window T_WindowTrace LazyTrace T_LazyTrace Assembly T_Assembly LocalChain T_LocalChain Worm WormProposal T_WormProposal WormChain T_WormChain.
Import Order.Theory GRing.Theory Num.Theory.
Set Implicit Arguments.
Unset Strict Implicit.
Unset Printing Implicit Defensive.
Local Close Scope Z_scope.
Local Open Scope nat_scope.
Delimit Scope Z_scope with coqZ.
Local Open Scope ring_scope.

(** ** Instance: two flavors in one block that act on one orbital; hybridization function 2 or 3; weight [w] per unit of time when
    occupied; the window is [0, 8]. *)
Section Instance.
Variable R : realFieldType.
Let K : numFieldType := [numFieldType of R].
Variable w : K.
Hypothesis w_pos : 0 < w.
Let F (x y : psi) : K := if (ot_time (p_time x) + ot_time (p_time y) =? 13)%coqZ then 3%:R else 2%:R.
Let lab := [:: 0%N; 0%N].
Let order (bs : seq K) : seq nat := sort (fun i j => nth 0 bs j <= nth 0 bs i) (iota 0 (size bs)).
Lemma order_desc bs : descending bs (order bs).
Proof.
split; first by rewrite /order perm_sort.
by apply: sort_sorted => i j; exact: (@le_total _ R).
Qed.

Variables (junk : nat -> nat -> K) (np : int) (mo : umode) (wk : work K) (s0 : sw K (aket K) (aket K)).
Let types := [:: EqualTimeGWorm 1; CorrelationWorm 2; GWorm 1].
Let wo := w_ops types.
Let ac (o : optype) (_ : nat) := @a_c K o.
Let ab (o : optype) (_ : nat) := @a_c K (a_flip o).
Let one1 (_ : aket K) := 1%N.
Let one2 (_ : nat) := 1%N.
Let aq := a_prop w.
Let an := @a_norm K.
Let ai := @a_invalid K.
Let asc := @a_sec K.
Let ap := @a_prod K.
Let H1 : all (fun b => b < 1)%N lab := isT.
Let H2 : braket_ok ai ai None None ac ab aq aq id id asc asc ap := a_ok w.
Let H3 : norm_ok ai ac aq an an asc ap one1 a_dst one2 (a_exp w) one1 := a_norm_ok w_pos.
Notation Inv := (inv wo F junk lab 1 (a_outer K) ai ai None None ac ab aq aq id id an an ap a_tau 0 8%coqZ).
Notation Setup := (wsetup wo F junk lab 1 (a_outer K) ai ai None None ac ab aq aq id id an an asc asc ap a_tau 0 one1 a_dst one2 (a_exp w) 0 8%coqZ).
Notation Ftr := (full_trace (a_outer K) ac aq ap 8%coqZ).
Notation Worm st := (Updater.worm K wdata (ms K) (st_mc st)).
Notation Cds st := (ms_cd (mstate K wdata (ms K) (st_mc st))).
Notation Cs st := (ms_c (mstate K wdata (ms K) (st_mc st))).
Notation state := (state K wdata (aket K) (aket K)).

Let cr (t : Z) (f : nat) := Psi (OT t 0%coqZ) CREATION_OP f.
Let an_ (t : Z) (f : nat) := Psi (OT t 0%coqZ) ANNIHILATION_OP f.

Lemma ftr0 : 0 < Ftr [::].
Proof. by rewrite /full_trace /full_term /sumK /= /ap /= !add0r !mul1r expr1n addr_gt0 // ?ltr01 //; exact: (exprn_gt0 _ w_pos). Qed.
Lemma w_neq0 : w != 0. Proof. by rewrite gt_eqF. Qed.

Lemma go (st : state) u nw cd' c' l : Inv st -> (tau_low a_tau (st_sw st) = 0 /\ tau_high a_tau (st_sw st) = 8)%coqZ ->
  removable st u -> hyb_result (Cds st) (Cs st) u cd' c' -> size cd' = size c' -> ms_ok lab 1 u ->
  all (rng_cc 0 8) ((Updater.cd_rem u ++ Updater.c_rem u ++ worm_ops wdata wo (Worm st)) ++ Updater.cd_add u ++ Updater.c_add u ++ worm_ops wdata wo nw) ->
  csorted l -> Permutation l (cd' ++ c' ++ worm_ops wdata wo nw) -> ~~ ms_lossy F lab 1 (Cds st) (Cs st) u -> full_det F lab 1 cd' c' != 0 -> Ftr l != 0 ->
  exists y : state, [/\ Inv y, st_sw y = st_sw st, Permutation (Cds y) cd', Permutation (Cs y) c' & Worm y = nw].
Proof.
move=> hI [lo0 hi8] [q1 q2] hr hsz hk hin sl pl nl dn tn.
pose p := Prop_ K wdata u (Some nw) 1.
have c0 : 0 < p_corr K wdata p by exact: ltr01.
have sz : (size (Updater.cd_add u) + size (Updater.c_rem u) = size (Updater.c_add u) + size (Updater.cd_rem u))%N.
  have [[_ [_ [_ [e _]]]] _ _] := hI; have [/Permutation_perm_eq/perm_size e1 /Permutation_perm_eq/perm_size e2] := hr.
  move: e1 e2; rewrite !app_cat !size_cat; change (size (Cds st) = size (Cs st)) in e.
  by move: e hsz; do ?(move: (size _) => ?); clear; lia.
have lp : legal_prop wo lab 1 ai ai asc asc a_tau one1 a_dst one2 (a_exp w) 0 (st_sw st) (st_mc st) p.
  apply: (C60_legal_exact H1 isT H2 H3 a_tau_mono (lexx 0) erefl hI) => //.
  rewrite lo0 hi8 [p_worm_new _ _ _]/= => rem add em x hx.
  have hx' : In x ((Updater.cd_rem u ++ Updater.c_rem u ++ worm_ops wdata wo (Worm st)) ++ Updater.cd_add u ++ Updater.c_add u ++ worm_ops wdata wo nw)%list.
    have [m1 m2] := merge_diff_cnt _ _ _ _ _ _ em x; rewrite /cnt !count_occ_app in m1 m2.
    have pos (t : list psi) : In x t <-> (0 < count_occ psi_eq_dec t x)%coq_nat by exact: (count_occ_In psi_eq_dec t x).
    apply/(pos ((_ ++ _ ++ _) ++ _ ++ _ ++ _)%list); rewrite !count_occ_app [p_hyb _ _ _]/= in m1 m2 *.
    by move: m1 m2; case: hx => /pos; do ?(move: (count_occ _ _ _) => ?); clear; lia.
  by have /allP := hin; apply; apply/In_mem; rewrite -!app_cat.
have [mc2 [ct [acc [u1 i2 u2 u3 u4]]]] := C60_update H1 isT H2 H3 a_tau_0 a_tau_beta a_tau_mono (lexx 0) erefl order_desc hI (lexx 0) lp.
have ha : acc.
  apply/u2; exists cd', c', l; split=> //.
  rewrite normr_gt0 mul1r; apply: mulf_neq0; apply: mulf_neq0; rewrite ?invr_eq0 //.
    by have [] := inv_neq0 H1 hI.
  by have [] := inv_neq0 H1 hI.
have [v0 [v1 v2]] := u3 ha; exists (State mc2 (st_sw st) (st_dv st)); split=> //.
- by have [h1 _] := hr; apply: Permutation_app_inv_r (Permutation_trans v1 (Permutation_sym h1)).
- by have [_ h1] := hr; apply: Permutation_app_inv_r (Permutation_trans v2 (Permutation_sym h1)).
Qed.

Lemma su (st y : state) : Inv st -> Inv y -> st_sw y = st_sw st -> typed st -> typed y -> Setup st y.
Proof.
move=> i1 i2 es t1 t2; have [[c1 _] r1 _] := i1; have [[c2 _] r2 _] := i2.
by split=> //; [exact: (no_gap0 H2 H3 a_tau_mono erefl r1 c1)|exact: (no_gap0 H2 H3 a_tau_mono erefl r2 c2)].
Qed.
Lemma typed_perm (st : state) cd c : Permutation (Cds st) cd -> Permutation (Cs st) c -> all is_cr cd -> all is_an c -> typed st.
Proof. by move=> /Permutation_perm_eq h1 /Permutation_perm_eq h2 a b; rewrite /typed (perm_all _ h1) (perm_all _ h2) a. Qed.
Lemma det1 x y : (p_flavor x < 2)%N -> (p_flavor y < 2)%N -> full_det F lab 1 [:: x] [:: y] != 0.
Proof.
move=> ex ey; rewrite /full_det /hyb_det /= /detL det_mx11 mxE /= /within.
have b f : (f < 2)%N -> blk lab 1 f = 0%N by case: f => [|[]].
by rewrite !b // eqxx /F; case: ifP => _; rewrite pnatr_eq0.
Qed.
Lemma ftr_pair (t u : Z) f g : (0 <= t <= u)%coqZ -> (u <= 8)%coqZ -> Ftr [:: an_ t f; cr u g] != 0.
Proof.
rewrite /full_trace /full_term /sumK /= !add0r !mul1r expr1n mulr1 gt_eqF //.
by rewrite mulr_gt0 ?exprn_gt0.
Qed.
Lemma start : exists st : state, [/\ Inv st, (tau_low a_tau (st_sw st) = 0 /\ tau_high a_tau (st_sw st) = 8)%coqZ, Cds st = [::] /\ Cs st = [::] & Worm st = None].
Proof.
have [st0 [e0 i0]] := C60_start wo F junk lab 1 np mo wk H2 H3 a_tau_0 a_tau_beta a_tau_mono erefl s0 (isT : 0 < 1)%N ftr0.
have [s [es [_ [n0 [p0 [l0 d0]]]]]] := @initw_ok K (aket K) (aket K) (a_outer K) ai ai None None ac ab aq aq id id an an a_tau 0 [::] 1 s0 isT.
move: (e0); rewrite /Assembly.start es => -[E0]; subst st0; eexists; split; first exact: i0.
- by rewrite /tau_low /tau_high; cbn [st_sw]; rewrite n0 p0 l0.
- by [].
- by [].
Qed.
Let cr1 (t : Z) (f : nat) := Psi (OT t 1%coqZ) CREATION_OP f.
Lemma ftr_equal (t : Z) f g : (0 <= t)%coqZ -> (t <= 8)%coqZ -> Ftr [:: an_ t f; cr1 t g] != 0.
Proof.
rewrite /full_trace /full_term /sumK /= !add0r !mul1r expr1n mulr1 gt_eqF //.
by rewrite mulr_gt0 ?exprn_gt0.
Qed.
Lemma ftr_two (t u : Z) : (0 <= t < u)%coqZ -> (u <= 8)%coqZ -> Ftr [:: an_ t 0; cr1 t 0; an_ u 0; cr1 u 0] != 0.
Proof.
rewrite /full_trace /full_term /sumK /= !add0r !mul1r !expr1n !mulr1 gt_eqF //.
by rewrite !mulr_gt0 ?exprn_gt0.
Qed.
Lemma det0 : full_det F lab 1 [::] [::] != 0.
Proof. by rewrite /full_det /hyb_det /= /detL det_mx00 oner_eq0. Qed.

Let grid := [:: 3; 4; 5; 6; 7]%coqZ.
Definition is_state (st y : state) (cd c : seq psi) (nw : option wdata) : Prop :=
  [/\ Inv y, st_sw y = st_sw st, Permutation (Cds y) cd, Permutation (Cs y) c & Worm y = nw].
Example C63_instance : exists st st1 yA yF yM yB yM2 yG : state,
  [/\ [/\ Setup st yA & worm_inserted types lab a_tau grid st yA 0 [:: 3%coqZ] [:: 0; 0]%N [::] [::]],
      [/\ Setup st1 yA & worm_inserted types lab a_tau grid st1 yA 0 [:: 3%coqZ] [:: 0; 0]%N [:: cr 5 0] [:: an_ 3 0]],
      [/\ Setup st1 yG & lines_cut types st1 yG 2 1 [:: cr 5 0] [:: an_ 3 0]],
      [/\ Setup yA yF & flavors_changed types lab a_tau yA yF 0 [:: 3%coqZ] [:: 0; 0]%N [:: 0; 1]%N] &
      [/\ [/\ Setup yA yM & times_changed a_tau yA yM 0 [:: 3%coqZ] [:: 4%coqZ] [:: 0; 0]%N],
          [/\ Setup yB yM2 & times_changed a_tau yB yM2 1 [:: 3%coqZ; 5%coqZ] [:: 1%coqZ; 5%coqZ] [:: 0; 0; 0; 0]%N],
          [/\ Setup yA yB & pair_added types lab a_tau grid yA yB 0 1 3 5 0 0 0 0] &
          (tau_low a_tau (st_sw yB) = 0 /\ tau_high a_tau (st_sw yB) = 8)%coqZ]].
Proof.
have [st [i0 hw [e1 e2] w0]] := start.
have mk cd c nw l : size cd = size c -> ms_ok lab 1 (HU [::] [::] cd c) -> all (rng_cc 0 8) (cd ++ c ++ worm_ops wdata wo nw) ->
    csorted l -> perm_eq l (cd ++ c ++ worm_ops wdata wo nw) -> full_det F lab 1 cd c != 0 -> Ftr l != 0 -> exists y, is_state st y cd c nw.
  move=> hs hf hr hl hp hd ht; apply: (go (u := HU [::] [::] cd c) (l := l)) => //.
  - by rewrite /removable; split; eexists; exact: Permutation_refl.
  - by rewrite e1 e2; split; rewrite /= app_nil_r; exact: Permutation_refl.
  - by rewrite w0.
  - exact: perm_eq_Permutation.
  - exact: lossy_none.
have k0 : ms_ok lab 1 (HU [::] [::] [::] [::]) by split=> //; case.
have k1 : ms_ok lab 1 (HU [::] [::] [:: cr 5 0] [:: an_ 3 0]) by split=> //; case.
have [st1 [i1 s1 c1 a1 w1]] : exists y, is_state st y [:: cr 5 0] [:: an_ 3 0] None.
  by apply: (mk _ _ _ [:: an_ 3 0; cr 5 0]) => //; [repeat constructor|exact: det1|exact: ftr_pair].
have mkA t f : all (rng_cc 0 8) [:: an_ t f; cr1 t 0] -> csorted [:: an_ t f; cr1 t 0] -> (0 <= t)%coqZ -> (t <= 8)%coqZ ->
    exists y, is_state st y [::] [::] (Some (0%N, ([:: t], [:: 0%N; f]))).
  move=> hr hl h1 h2; apply: (mk _ _ _ [:: an_ t f; cr1 t 0]) => //.
  - by rewrite (perm_all _ (_ : perm_eq _ [:: an_ t f; cr1 t 0])) //; exact: (permEl (perm_catC [:: cr1 t 0] [:: an_ t f])).
  - exact: (permEl (perm_catC [:: an_ t f] [:: cr1 t 0])).
  - exact: det0.
  - exact: ftr_equal.
have mkB t u : let l := [:: an_ t 0; cr1 t 0; an_ u 0; cr1 u 0] in
    all (rng_cc 0 8) l -> csorted l -> (0 <= t < u)%coqZ -> (u <= 8)%coqZ -> exists y, is_state st y [::] [::] (Some (1%N, ([:: t; u], [:: 0; 0; 0; 0]%N))).
  move=> l hr hl h1 h2; have hp : perm_eq l (wo (1%N, ([:: t; u], [:: 0; 0; 0; 0]%N))).
    exact: (perm_cat (permEl (perm_catC [:: an_ t 0] [:: cr1 t 0])) (permEl (perm_catC [:: an_ u 0] [:: cr1 u 0]))).
  apply: (mk _ _ _ l) => //.
  - by rewrite -(perm_all _ hp).
  - exact: det0.
  - exact: ftr_two.
have [yG [iG sG cG aG wG]] : exists y, is_state st y [::] [::] (Some (2%N, ([:: 3; 5]%coqZ, [:: 0; 0]%N))).
  by apply: (mk _ _ _ [:: an_ 3 0; cr 5 0]) => //; [repeat constructor|exact: det0|exact: ftr_pair].
have [yA [iA sA cA aA wA]] := mkA 3%coqZ 0%N isT ltac:(repeat constructor) ltac:(lia) ltac:(lia); have [yF [iF sF cF aF wF]] := mkA 3%coqZ 1%N isT ltac:(repeat constructor) ltac:(lia) ltac:(lia).
have [yM [iM sM cM aM wM]] := mkA 4%coqZ 0%N isT ltac:(repeat constructor) ltac:(lia) ltac:(lia).
have [yB [iB sB cB aB wB]] := mkB 3%coqZ 5%coqZ isT ltac:(repeat constructor) ltac:(lia) ltac:(lia); have [yN [iN sN cN aN wN]] := mkB 1%coqZ 5%coqZ isT ltac:(repeat constructor) ltac:(lia) ltac:(lia).
have t0 : typed st by rewrite /typed e1 e2.
have t1 := typed_perm c1 a1 isT isT; have tG := typed_perm cG aG isT isT; have tA := typed_perm cA aA isT isT.
have tF := typed_perm cF aF isT isT; have tM := typed_perm cM aM isT isT; have tB := typed_perm cB aB isT isT; have tN := typed_perm cN aN isT isT.
have pp (s t r : seq psi) : Permutation s r -> Permutation t r -> perm_eq s t.
  by move=> h1 h2; apply: Permutation_perm_eq; exact: Permutation_trans h1 (Permutation_sym h2).
have pr1 (s t r : seq psi) : Permutation s r -> Permutation t [::] -> perm_eq s (t ++ r).
  by move=> h1 /Permutation_sym /Permutation_nil ->; exact: Permutation_perm_eq.
have nil (s : seq psi) : Permutation s [::] -> s = [::] by move=> /Permutation_sym /Permutation_nil.
have gr (s : state) : st_sw s = st_sw st -> all (inside a_tau s) grid.
  by rewrite /inside => ->; case: hw => -> ->.
have sub3 : {subset [:: 3%coqZ] <= grid} by exact/allP.
have eA s : st_sw s = st_sw st -> st_sw yA = st_sw s by move=> ->.
exists st, st1, yA, yF, yM, yB, yN, yG; split; [..|split].
- split; first exact: su.
  by split=> //; rewrite ?e1 ?e2 ?(nil _ cA) ?(nil _ aA) //; exact: (gr st erefl).
- split; first by apply: su => //; rewrite sA.
  by split=> //; [exact: pr1|exact: pr1|exact: (gr _ s1)].
- split; first by apply: su => //; rewrite sG.
  split=> //; [exact: pr1|exact: pr1|].
  by rewrite all_cat (perm_all _ (Permutation_perm_eq c1)) (perm_all _ (Permutation_perm_eq a1)).
- split; first by apply: su => //; rewrite sA.
  split=> //; [|exact: pp cA cF|exact: pp aA aF].
  by rewrite /inside sA; case: hw => -> ->.
- split; first by apply: su => //; rewrite sA.
  split=> //; [|exact: pp cA cM|exact: pp aA aM].
  by rewrite /inside sA; case: hw => -> ->.
- split; first by apply: su => //; rewrite sB.
  split=> //; [|exact: pp cB cN|exact: pp aB aN].
  by rewrite /inside sB; case: hw => -> ->.
- split; first by apply: su => //; rewrite sA.
  by split=> //; [exact: (gr _ sA)|exact: pp cA cB|exact: pp aA aB].
by rewrite sB.
Qed.

Notation Weight := (weight F lab 1 (a_outer K) ac aq ap 8%coqZ (fun x : K => `|x| : R)).
Notation Lands := (lands wo F junk lab 1 ai ai ac aq id asc asc ap a_tau one1 a_dst one2 (a_exp w) 0 order [rmorphism of (idfun : R -> K)]).
Let inr1 : forall a b : R, ((idfun a : K) < (idfun b : K)) = (a < b). Proof. by []. Qed.
Let inr2 : forall x : K, [rmorphism of (idfun : R -> K)] (`|x| : R) = `|x| :> K. Proof. by []. Qed.

(** The theorems for these states; the weights of the worm spaces are 2, 3 and 4 *)
Let ww (i : nat) : R := (i + 2)%:R.
Example C63_instance_balance : exists st yA yG yB : state,
  [/\ exists q q' : R, [/\ 0 < q, 0 < q' & Weight st * (q / (8%:R / 5%:R)) = ww 0 * (Weight yA * (q' / (8%:R / 5%:R) ^+ 2))],
      exists q q' : R, [/\ 0 < q, 0 < q' & Weight st * q = ww 2 * (Weight yG * q')] &
      exists q q' : R, [/\ 0 < q, 0 < q' & ww 0 * Weight yA * (q / (8%:R / 5%:R)) = ww 1 * Weight yB * q']].
Proof.
have [_ [st [yA [_ [_ [yB [_ [yG [_ [h1 h2] [h3 h4] _ [_ _ [h5 h6] _]]]]]]]]]] := C63_instance.
have w0 i : 0 < ww i by rewrite ltr0n addn2.
have L0 : 0 < 8%:R :> R by rewrite ltr0n.
have gu : uniq grid by [].
have [q [q' [_ _ p e]]] := C63_insertion_removal H1 isT H2 H3 a_tau_0 a_tau_beta a_tau_mono (lexx 0) erefl order_desc inr1 inr2 gu isT isT L0 w0 h1 h2.
have [r [r' [_ _ r0 r0' e']]] := C63_gworm H1 isT H2 H3 a_tau_0 a_tau_beta a_tau_mono (lexx 0) erefl order_desc inr1 inr2 w0 h3 h4.
have [t [t' [_ _ t0 t0' e'']]] := C63_connector H1 isT H2 H3 a_tau_0 a_tau_beta a_tau_mono (lexx 0) erefl order_desc inr1 inr2 w0 gu isT isT L0 h5 h6.
have [q0 q0'] := p isT.
exists st, yA, yG, yB; split; [exists q, q'|exists r, r'|exists t, t']; split=> //.
Qed.

(** WormMover with max_distance_ = 2: moving one of two times from 3 to 1 is not balanced. *)
Theorem C63_mover_refuted : exists (st y : state) (q q' : R),
  [/\ Setup st y, flow (mover_call [rmorphism of (idfun : R -> K)] 0 8 2 (Worm st)) (Lands st y) q,
      flow (mover_call [rmorphism of (idfun : R -> K)] 0 8 2 (Worm y)) (Lands y st) q' & Weight st * q <> Weight y * q'].
Proof.
have [_ [_ [_ [_ [_ [yB [yN [_ [_ _ _ _ [_ [h5 h6] _ [lo0 hi8]]]]]]]]]]] := C63_instance.
have [||q [q' [[f1 f2] ne]]] := C63_mover_unbalanced H1 isT H2 H3 a_tau_0 a_tau_beta a_tau_mono (lexx 0) erefl order_desc inr1 inr2 (D := 2) h5 h6.
- have f0 : fail R 2 0 8 [:: 3; 5]%coqZ = 0.
    rewrite failE !big_cons big_nil.
    have -> : outside 0 8 3 = false by []. have -> : outside 0 8 5 = false by [].
    have -> : count (fun d => outside 0 8 (Z.add d 3)) (shifts 2) = 0%N by [].
    have -> : count (fun d => outside 0 8 (Z.add d 5)) (shifts 2) = 0%N by [].
    by rewrite !mulr0 !addr0 mulr0.
  have f1 : 0 < fail R 2 0 8 [:: 1; 5]%coqZ.
    rewrite failE !big_cons big_nil.
    have -> : outside 0 8 1 = false by []. have -> : outside 0 8 5 = false by [].
    have -> : count (fun d => outside 0 8 (Z.add d 1)) (shifts 2) = 1%N by [].
    have -> : count (fun d => outside 0 8 (Z.add d 5)) (shifts 2) = 0%N by [].
    by rewrite !mulr0 !addr0 mulr1 !mulr_gt0 ?invr_gt0 ?ltr0n.
  rewrite lo0 hi8 f0 !big_ord_recl !big_ord0 !expr0 !expr1 !addr0 -subr_eq0 opprD addrA subrr sub0r oppr_eq0.
  by rewrite gt_eqF.
- rewrite lo0 hi8 /mover_propose pr_try.
  rewrite (@pr_one R 2 0 8 [:: 3; 5]%coqZ 0 1%coqZ isT isT isT isT).
  apply: mulf_neq0; last first.
    rewrite gt_eqF //= big_ord_recl expr0; apply: ltr_paddr; last exact: ltr01.
    by apply: sumr_ge0 => k _; apply: exprn_ge0; exact: fail_ge0.
  apply: mulf_neq0; first by rewrite invr_eq0 pnatr_eq0.
  rewrite gt_eqF // /qdens; apply: ltr_paddr.
    by rewrite mulr_ge0 ?divr_ge0 ?invr_ge0 ?ler0n.
  by rewrite !mulr_gt0 ?invr_gt0 ?ltr0n.
have [_ _ es _ _ _ _] := h5.
by exists yB, yN, q, q'; split=> //; move: f1 f2; rewrite es lo0 hi8.
Qed.
End Instance.
Print Assumptions C63_instance.
Print Assumptions C63_instance_balance.
Print Assumptions C63_mover_refuted.
