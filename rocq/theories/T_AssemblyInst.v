(** Instance for C60 and C61 *)
From Coq Require Import ZArith Lia List Bool Sorting.Permutation Sorting.Sorted.
From mathcomp Require Import all_ssreflect all_fingroup all_algebra zify.
From Verif Require Import OpContainer CombSort PermSign T_PermSign Updater T_Updater Dist Proposal HybDet EigenBasis FastUpdate T_FastUpdate
  DetMatrix T_DetMatrix T_DetUpdate T_DetHistory DetPartitioned T_DetPartitioned GlobalUpdate T_GlobalUpdate
  Window T_Window T_WindowTrace LazyTrace T_LazyTrace Assembly T_Assembly.
Import Order.Theory GRing.Theory Num.Theory.
Set Implicit Arguments.
Unset Strict Implicit.
Unset Printing Implicit Defensive.
Local Close Scope Z_scope.
Local Open Scope nat_scope.
Delimit Scope Z_scope with coqZ.
Local Open Scope ring_scope.

(** ** Instance: one orbital, the hybridization function 2, weight [w] per unit of time when occupied; one step of the program
    with two windows, in which a pair is inserted at the second position and then shifted. *)
Lemma a_full46 (K : numFieldType) (w : K) : full_trace (a_outer K) (fun o _ => @a_c K o) (a_prop w) (@a_prod K) 8
  [:: Psi (OT 4%coqZ 0%coqZ) ANNIHILATION_OP 0; Psi (OT 6%coqZ 0%coqZ) CREATION_OP 0] = w ^+ 6.
Proof.
rewrite /full_trace /full_term /sumK /= !add0r !mul1r expr1n mulr1.
by rewrite -[Pos.to_nat 4]/(4%N) -[Pos.to_nat 2]/(2%N) -exprD.
Qed.
Section Instance.
Variable R : realFieldType.
Let K : numFieldType := [numFieldType of R].
Variable w : K.
Hypothesis w_pos : 0 < w.
Let F (_ _ : psi) : K := 2%:R.
Let lab := [:: 0%N].
Let ins : proposal K unit := Prop_ K unit (HU [::] [::] [:: Psi (OT 5%coqZ 0%coqZ) CREATION_OP 0] [:: Psi (OT 3%coqZ 0%coqZ) ANNIHILATION_OP 0]) None 1.
Let hop (x : psi) : psi := Psi (OT (ot_time (p_time x) + 1)%coqZ 0%coqZ) (p_type x) (p_flavor x).
Let order (bs : seq K) : seq nat := sort (fun i j => nth 0 bs j <= nth 0 bs i) (iota 0 (size bs)).
Lemma order_desc bs : descending bs (order bs).
Proof.
split; first by rewrite /order perm_sort.
by apply: sort_sorted => i j; exact: (@le_total _ R).
Qed.

Variables (junk : nat -> nat -> K) (np : int) (mo : umode) (wk : work K) (s0 : sw K (aket K) (aket K)).
Let wo (_ : unit) : seq psi := [::].
Let ac (o : optype) (_ : nat) := @a_c K o.
Let ab (o : optype) (_ : nat) := @a_c K (a_flip o).
Let one1 (_ : aket K) := 1%N.
Let one2 (_ : nat) := 1%N.
Let aq := a_prop w.
Let an := @a_norm K.
Let ai := @a_invalid K.
Let asc := @a_sec K.
Let ap := @a_prod K.
Let H1 : all (fun b => b < 1)%N lab := isT.
Let H2 : braket_ok ai ai None None ac ab aq aq id id asc asc ap := a_ok w.
Let H3 : norm_ok ai ac aq an an asc ap one1 a_dst one2 (a_exp w) one1 := a_norm_ok w_pos.
Notation L f := (f H1 isT (@lup_vec_ok K) H2 H3 a_tau_0 a_tau_beta a_tau_mono (lexx 0) erefl order_desc).
Notation Inv := (inv wo F junk lab 1 (a_outer K) ai ai None None ac ab aq aq id id an an ap a_tau 0 8%coqZ).
Notation Run_cmd := (Assembly.run_cmd wo F junk lab 1 np mo wk (@lup_vec K) 0 ai ai None None ac ab aq aq id id an an asc asc ap a_tau 0 one1 a_dst one2 (a_exp w) 0 order).
Notation Legal := (legal wo F lab 1 (@lup_vec K) 0 ai ai None None ac ab aq aq id id an an asc asc a_tau 0 one1 a_dst one2 (a_exp w) 0 8%coqZ).
Notation Start := (Assembly.start unit junk lab 1 np mo wk (a_outer K) ai ai None None ac ab aq aq id id an an asc asc ap a_tau 0).
Notation Ftr := (full_trace (a_outer K) ac aq ap 8%coqZ).

Let cdop := Psi (OT 5%coqZ 0%coqZ) CREATION_OP 0.
Let cop := Psi (OT 3%coqZ 0%coqZ) ANNIHILATION_OP 0.
Let inp : step_input K unit := Step 2 1 [:: [:: (None, 0)]; [:: (Some ins, 0)]] (Some ([::], [:: (hop, id, 0)])).
Notation Steps := (Assembly.mc_steps wo F junk lab 1 np mo wk (@lup_vec K) 0 ai ai None None ac ab aq aq id id an an asc asc ap a_tau 0 one1 a_dst one2 (a_exp w) 0 order).
Notation Legal_steps := (legal_steps wo F junk lab 1 np mo wk (@lup_vec K) 0 ai ai None None ac ab aq aq id id an an asc asc ap a_tau 0 one1 a_dst one2 (a_exp w) 0 order 8%coqZ).

Lemma ftr0 : 0 < Ftr [::].
Proof. by rewrite /full_trace /full_term /sumK /= /ap /= !add0r !mul1r expr1n addr_gt0 // ?ltr01 //; exact: (exprn_gt0 _ w_pos). Qed.
Lemma det1 x y : p_flavor x = 0%N -> p_flavor y = 0%N -> full_det F lab 1 [:: x] [:: y] = 2%:R.
Proof. by move=> ex ey; rewrite /full_det /hyb_det /= /detL det_mx11 mxE /= /within ex ey. Qed.
Lemma w_neq0 : w != 0. Proof. by rewrite gt_eqF. Qed.
Lemma ftr35 : Ftr [:: cop; cdop] != 0.
Proof. by rewrite (a_full w) expf_neq0 ?w_neq0. Qed.
Lemma ftr46 : Ftr [:: Psi (OT 4%coqZ 0%coqZ) ANNIHILATION_OP 0; Psi (OT 6%coqZ 0%coqZ) CREATION_OP 0] != 0.
Proof. by rewrite (a_full46 w) expf_neq0 ?w_neq0. Qed.
Lemma perm1 (x : psi) l : Permutation (l ++ [::]) ([::] ++ [:: x]) -> l = [:: x].
Proof. by rewrite cats0 /= => h; apply: Permutation_length_1_inv; exact: Permutation_sym. Qed.

Notation Step := (C60_step np mo wk (geps := 0) H1 isT (@lup_vec_ok K) H2 H3 a_tau_0 a_tau_beta a_tau_mono (lexx 0) erefl order_desc).
Lemma kept1 (luv : forall n, 'M[K]_n -> seq K) x y : (forall n (A : 'M[K]_n), is_lu_vec A (luv n A)) -> p_flavor x = 0%N -> p_flavor y = 0%N ->
  let v := block_vec (blk lab 1) 1 (lu_ops F luv) [:: x] [:: y] in all (kept 0 (abs_sort v)) v.
Proof.
move=> ok ex ey /=; rewrite /block_vec /= /inb /= ex ey /= cats0 /lu_ops /=.
set A := matL _ _ _ _ _ _; have h := is_lu_vec_det (ok _ A); have [_ [_ [_ [_ [_ _ _ _ [sz _]]]]]] := ok _ A.
case: (luv 1%N A) sz h => [|a []] // _; rewrite big_seq1 /A det_mx11 mxE => -> /=.
rewrite andbT /kept normr_gt0 mulf_neq0 ?pnatr_eq0 // invr_neq0 //= normr_gt0 pnatr_eq0 /= normr_eq0 pnatr_eq0 //.
Qed.

Notation Runs := (Assembly.run wo F junk lab 1 np mo wk (@lup_vec K) 0 ai ai None None ac ab aq aq id id an an asc asc ap a_tau 0 one1 a_dst one2 (a_exp w) 0 order).
Lemma runS k ks st st' : Run_cmd st k = Some st' -> Runs (k :: ks) st = Runs ks st'.
Proof. by move=> e; rewrite [in LHS]/Assembly.run e. Qed.

Example C60_instance : exists st st', [/\ Start 2 s0 = Some st, Legal_steps [:: inp] st, Steps [:: inp] st = Some st', Inv st' &
  operators K unit (ms K) (st_mc st') = [:: Psi (OT 4%coqZ 0%coqZ) ANNIHILATION_OP 0; Psi (OT 6%coqZ 0%coqZ) CREATION_OP 0]].
Proof.
have [st0 [e0 i0]] := C60_start wo F junk lab 1 np mo wk H2 H3 a_tau_0 a_tau_beta a_tau_mono erefl s0 (isT : 0 < 2)%N ftr0.
have [s [es [_ [n0 [p0 [_ d0]]]]]] := @initw_ok K (aket K) (aket K) (a_outer K) ai ai None None ac ab aq aq id id an an a_tau 0 [::] 2 s0 isT.
move: (e0); rewrite /Assembly.start es => -[E0]; subst st0.
set tr0 := compute_trace _ _ _ _ _ _ _ _ _ _ _ in e0 i0 *.
set mc0 := Conf _ _ _ _ _ _ _ _ _ in e0 i0 *.
(* the first position *)
have [hc0 hr0 ht0] := i0.
have [hw hr] := reach_wf a_tau_mono hr0.
have [s1 [e1 _]] := nextw_ok hw hr.
have q1 : q_up 2 1 s1.
  apply: (up_step H1 isT a_tau_mono (lexx (0 : K)) (isT : 2 <= 2)%N (isT : 0 < 2)%N hr0 _ e1).
  by split; [exact: n0|exact: p0|left].
have c1 : Run_cmd (State mc0 s [::]) (NextWindow K unit) = Some (State mc0 s1 [::]) by rewrite /Assembly.run_cmd /= e1.
have [st1 [c1' i1 _]] := Step (fresh := false) (k := NextWindow K unit) i0 (fun h => False_ind _ (notF h)) I.
move: c1'; rewrite c1 => -[E1]; subst st1.
(* the insertion *)
have lp : legal_prop wo lab 1 ai ai asc asc a_tau one1 a_dst one2 (a_exp w) 0 s1 mc0 ins.
  apply: (C60_legal_exact H1 isT H2 H3 a_tau_mono (lexx 0) erefl i1) => //=; try by exists [::].
  - exact: ltr01.
  - by split=> // -[].
  - case: q1 => en ep _; have [_ h1 _] := i1; have [_ [[]|[_ [hl _]]]] := reach_wf a_tau_mono h1; first by rewrite en.
    move=> rem add [<- <-] x; rewrite /tau_low /tau_high hl ep en => -[[]|[<-|[<-|[]]]] //.
have [mc2 [ct [acc [u1 i2 u2 u3 u4]]]] := C60_update H1 isT H2 H3 a_tau_0 a_tau_beta a_tau_mono (lexx 0) erefl order_desc i1 (lexx 0) lp.
have {u2} ha : acc.
  apply/u2; exists [:: cdop], [:: cop], [:: cop; cdop]; split.
  - by split; exact: Permutation_refl.
  - by split; [repeat constructor|exact: perm_swap].
  - by [].
  - rewrite normr_gt0 mul1r /= det1 //.
    have [[_ [_ [_ [d0' _]]]] _ _] := i1.
    apply: mulf_neq0; last by apply: mulf_neq0; [exact: ftr35|apply: invr_neq0; rewrite gt_eqF; [|exact: ftr0]].
    apply: mulf_neq0; first by rewrite pnatr_eq0.
    by apply: invr_neq0; rewrite /full_det /hyb_det /= /detL det_mx00 oner_neq0.
have [_ [v1 v2]] := u3 ha; have {v1}k1 := perm1 v1; have {v2}k2 := perm1 v2.
cbn [st_mc st_sw st_dv] in i2, u1.
have c2 : Run_cmd (State mc0 s1 [::]) (Update (Some ins) 0) = Some (State mc2 s1 [::]).
  by rewrite /Assembly.run_cmd; cbn [st_mc st_sw st_dv]; rewrite u1.
clearbody mc0; move: {u1 u3 u4} k1 k2 => k1 k2.
(* the end of the sweep *)
have [_ hr1 _] := i1; have [_ hr2 _] := i2; have [hw2 hs2] := reach_wf a_tau_mono hr2.
have [s3 [e3 _]] := nextw_ok hw2 hs2; cbn [st_mc st_sw st_dv] in e3.
have q3 : q_up 2 2 s3 by exact: (up_step H1 isT a_tau_mono (lexx (0 : K)) (isT : 2 <= 2)%N (isT : 1 < 2)%N hr2 q1 e3).
have c3 : Run_cmd (State mc2 s1 [::]) (NextWindow K unit) = Some (State mc2 s3 [::]).
  by rewrite /Assembly.run_cmd; cbn [st_mc st_sw st_dv]; rewrite e3.
have [st3 [c3' i3 _]] := Step (fresh := false) (k := NextWindow K unit) i2 (fun h => False_ind _ (notF h)) I.
move: c3'; rewrite c3 => -[E3]; subst st3.
(* the global updates *)
have [st4 [c4 i4 _]] := Step (fresh := false) (k := Resize K unit 1) i3 (fun h => False_ind _ (notF h)) isT.
have m4 : st_mc st4 = mc2.
  by move: c4; rewrite /Assembly.run_cmd; cbn [st_mc st_sw st_dv]; case: set_window_size => // s4 [<-].
have [st5 [c5 i5 d5]] := Step (fresh := false) (k := DetVec K unit) i4 (fun h => False_ind _ (notF h)) I.
have m5 : st_mc st5 = mc2 by move: c5; rewrite /Assembly.run_cmd => -[<-]; rewrite [LHS]/= m4.
have o2 : transformed wo hop id mc2 = [:: Psi (OT 4%coqZ 0%coqZ) ANNIHILATION_OP 0; Psi (OT 6%coqZ 0%coqZ) CREATION_OP 0].
  by rewrite /transformed k1 k2; case: (Updater.worm _ _ _ _).
have lg : legal_global wo F lab 1 (@lup_vec K) 0 ai ai None None ac ab aq aq id id an an asc asc a_tau 0 one1 a_dst one2 (a_exp w) 0 8%coqZ (maxn 2 10) hop id 0 st5.
  rewrite /legal_global m5 k1 k2 o2; split=> // _; split=> //=.
  - by case: (Updater.worm _ _ _ _).
  - by move=> _; apply: kept1 (@lup_vec_ok K) _ _.
  - by move=> x [<-|[<-|[]]].
  - move=> s5 s6 f1 f2; have [_ hr5 _] := i5; rewrite m5 in hr5.
    apply: (no_gap0 H2 H3 a_tau_mono erefl); last by repeat constructor.
    by apply: (reach_set _ _ _ f2) => //; apply: (reach_set hr5 _ _ f1).
have [st6 [c6 i6 d6 g6]] := C60_global np mo wk (geps := 0) H1 (@lup_vec_ok K) H2 H3 a_tau_0 a_tau_beta a_tau_mono (lexx 0) erefl order_desc i5 (d5 isT) lg.
have o6 : operators K unit (ms K) (st_mc st6) = [:: Psi (OT 4%coqZ 0%coqZ) ANNIHILATION_OP 0; Psi (OT 6%coqZ 0%coqZ) CREATION_OP 0].
  move: g6; rewrite m5 k1 k2 o2 => /(_ isT) /=; rewrite !det1 //.
  have [[h1 [h2 [_ [h4 [h5 [h6 _]]]]]] _ _] := i2.
  case: ifP => [_ [] //|/negP []]; rewrite normr_gt0; apply: mulf_neq0.
    by apply: mulf_neq0; [rewrite pnatr_eq0|exact: ftr46].
  by apply: invr_neq0; apply: mulf_neq0; [rewrite pnatr_eq0|rewrite -h5].
have [st7 [c7 i7 _]] := Step (fresh := true) (k := Resize K unit 2) i6 (fun _ => d6) isT.
have m7 : st_mc st7 = st_mc st6 by move: c7; rewrite /Assembly.run_cmd; case: set_window_size => // s7 [<-].
have n3 : nwin s3 = 2%N by case: q3.
have c0 st : Run_cmd st (Update None 0) = Some st by case: st.
have rs : Runs (sweep_cmds inp (State mc0 s [::])) (State mc0 s [::]) = Some (State mc2 s3 [::]).
  have -> : sweep_cmds inp (State mc0 s [::]) = [:: Update None 0; NextWindow K unit; Update (Some ins) 0; NextWindow K unit].
    by rewrite /sweep_cmds [nwin _]/= n0.
  by rewrite (runS _ (c0 _)) (runS _ c1) (runS _ c2) (runS _ c3).
have rg : Runs (global_cmds inp (State mc2 s3 [::])) (State mc2 s3 [::]) = Some st7.
  have -> : global_cmds inp (State mc2 s3 [::]) = [:: Resize K unit 1; DetVec K unit; Global (maxn 2 10) hop id 0; Resize K unit 2].
    by rewrite /global_cmds [nwin _]/= n3.
  by rewrite (runS _ c4) (runS _ c5) (runS _ c6) (runS _ c7).
exists (State mc0 s [::]), st7; split=> //; last by rewrite m7.
- split=> //; split=> //.
  + rewrite /sweep_cmds [nwin _]/= n0; split=> //; rewrite c0 => _ [<-]; split=> //; rewrite c1 => _ [<-].
    split; first by split=> //= p' [<-]; exact: lp.
    by rewrite c2 => _ [<-].
  + rewrite rs => _ [<-]; rewrite /global_cmds [nwin _]/= n3; split=> // st; rewrite c4 => -[<-]; split=> // st'; rewrite c5 => -[<-].
    by split.
- by rewrite /Assembly.mc_steps /Assembly.mc_step rs rg.
Qed.
End Instance.
Print Assumptions C60_instance.
