(** * C74: what the check of the configuration in a debug build finds *)
From Coq Require Import ZArith Lia List Bool Sorting.Permutation Sorting.Sorted.
From mathcomp Require Import all_ssreflect all_fingroup all_algebra zify.
From Verif Require Import OpContainer CombSort PermSign T_PermSign Updater T_Updater Dist Proposal HybDet EigenBasis FastUpdate T_FastUpdate
  DetMatrix T_DetMatrix T_DetUpdate T_DetHistory DetPartitioned T_DetPartitioned GlobalUpdate T_GlobalUpdate
  Window T_Window T_WindowTrace LazyTrace T_LazyTrace Assembly T_Assembly SanityCheck.
Import Order.Theory GRing.Theory Num.Theory.
Set Implicit Arguments.
Unset Strict Implicit.
Unset Printing Implicit Defensive.
Local Close Scope Z_scope.
Local Open Scope nat_scope.
Delimit Scope Z_scope with coqZ.
Local Open Scope ring_scope.

Local Arguments restore_state : simpl never.
Local Arguments set_window_size : simpl never.
(** ** Wrong inverse matrices *)
Section Inverse.
Variable K : numFieldType.
Variable F : psi -> psi -> K.
Variable junk : nat -> nat -> K.
Variables (lab : seq nat) (nb : nat).
Hypothesis lab_ok : all (fun b => b < nb)%N lab.
Variable luv : forall n, 'M[K]_n -> seq K.
Hypothesis luv_ok : forall n (A : 'M[K]_n), is_lu_vec A (luv A).
Notation phist := (phist F junk lab nb).

(** The matrix [g] in place of the inverse kept in a block; the matrices [gs] in all blocks *)
Definition put_inverse (g : mat K) (d : dm K) : dm K := DM (d_state d) (d_mode d) g (d_perm d) (d_cdagg d) (d_c d) (d_work d).
Definition put_inverses (gs : seq (mat K)) (M : pm K) : pm K := set_mats [seq put_inverse p.1 p.2 | p <- zip gs (pm_mats M)] M.
Definition fitting (gs : seq (mat K)) (M : pm K) : Prop := map (@mr K) gs = map (@dsize K) (pm_mats M).

Lemma run_put (f := fun (_ : nat) m => DetMatrix.rebuild_inverse_matrix F m) ms : forall gs b, map (@mr K) gs = map (@dsize K) ms ->
  (forall m, List.In m ms -> is_waiting m) ->
  run_blocks f b [seq put_inverse p.1 p.2 | p <- zip gs ms] = run_blocks f b ms.
Proof.
elim: ms => [|m ms IH] [|g gs] b //= [e1 e2] hw.
have -> : f b (put_inverse g m) = f b m.
  rewrite /f /DetMatrix.rebuild_inverse_matrix /put_inverse /is_waiting /=; move: (hw m (or_introl erefl)); rewrite /is_waiting => ->.
  by rewrite e1.
have : forall m1, f b m <> Throw unit m1.
  by rewrite /f /DetMatrix.rebuild_inverse_matrix; rewrite (hw m (or_introl erefl)) /=; case: ifP.
by case: (f b m) => // [a m1 _|m1 /(_ m1)//]; rewrite IH // => x hx; apply: hw; right.
Qed.
Lemma rebuild_put gs M cd c : phist M cd c -> fitting gs M ->
  rebuild_inverse_matrix F (put_inverses gs M) = rebuild_inverse_matrix F M.
Proof.
move=> hh hf; have [[sz hm] _ _ _ _] := phist_ok lab_ok hh.
rewrite /rebuild_inverse_matrix /put_inverses /= run_put //.
move=> m /(In_nth _ _ m)[b [hb e]]; move: hb; rewrite -[List.length _]/(size _) => /ssrnat.ltP; rewrite sz => hb.
have [hs _ _ _] := hm m b hb; move: hs; have -> : nth m (pm_mats M) b = m by rewrite -[in RHS]e; elim: (pm_mats M) b {e hb} => [|? ? IH] [|b] //=.
by rewrite /is_waiting => ->.
Qed.

(** Recomputing the inverse of a right block does not change the factors of the determinant *)
Lemma vec_rebuild d d2 cd c : T_DetUpdate.at_rest F d cd c -> DetMatrix.rebuild_inverse_matrix F d = Ok tt d2 -> dm_det_vec luv d2 = dm_det_vec luv d.
Proof.
move=> h e; have [d2' e' h2] := rebuild_ok h; move: e'; rewrite e => -[E]; subst d2'.
have [_ [_ _ _ [m1 _ m3] _] _ _] := h; have [_ [_ _ _ [n1 _ n3] _] _ _] := h2.
have eo : s_ops (d_cdagg d2) = s_ops (d_cdagg d) /\ s_ops (d_c d2) = s_ops (d_c d) /\ d_perm d2 = d_perm d.
  by move: e; rewrite /DetMatrix.rebuild_inverse_matrix; case: ifP => // _; case: ifP => // _ [<-].
case: eo => eo1 [eo2 eo3]; rewrite eo1 eo2 in n1 n3.
rewrite /dm_det_vec /dsize n1 m1 eo3; case: ifP => // _; congr (asc_sort (mul_first _ (map _ (luv _)))).
set n := size _ in m3 n3 *; set A := matL _ _ _ _ _ _ in m3 n3.
by rewrite -[LHS]mul1mx -(mulmx1C m3) -mulmxA n3 mulmx1.
Qed.
Lemma pm_vec_rebuild M cd c M2 : phist M cd c -> rebuild_inverse_matrix F M = POk tt M2 -> pm_det_vec luv M2 = pm_det_vec luv M.
Proof.
move=> hh; have [[sz hm] _ _ _ _] := phist_ok lab_ok hh.
have [|l2 [ms2 [er2 sl2 sm2 hP2]]] := @run_blocks_ok _ _ (fun _ m => DetMatrix.rebuild_inverse_matrix F m)
   (fun b _ m => forall d0, dm_det_vec luv m = dm_det_vec luv (nth d0 (pm_mats M) b)) 0 (pm_mats M).
  move=> b d0; rewrite sz add0n => hb; have hb0 := hm d0 _ hb; have [m2 e a2] := rebuild_ok hb0.
  exists tt, m2; split=> // d1; rewrite (vec_rebuild hb0 e); congr dm_det_vec; apply: set_nth_default; by rewrite sz.
rewrite /rebuild_inverse_matrix er2 => -[<-]; rewrite /pm_det_vec /=; congr (asc_sort (mul_first _ (flatten _))).
by apply: map_nth_eq; rewrite ?sm2 // => d0 b hb; exact: (hP2 b d0 tt hb d0).
Qed.

Lemma size_dm_vec m : size (dm_det_vec luv m) = maxn (dsize m) 1.
Proof.
rewrite /dm_det_vec; case: eqP => [->//|/eqP h0]; rewrite size_sort.
have sz : size (luv (toM (dsize m) (dsize m) (d_inv m))) = dsize m by have [p [q [L [U [_ _ _ _ []]]]]] := luv_ok (toM (dsize m) (dsize m) (d_inv m)).
have -> x (s : seq K) : size (mul_first x s) = size s by case: s.
by rewrite size_map sz; apply/esym/maxn_idPl; rewrite lt0n.
Qed.
Lemma size_pm_vec gs M : fitting gs M -> size (pm_det_vec luv (put_inverses gs M)) = size (pm_det_vec luv M).
Proof.
rewrite /fitting /pm_det_vec !size_sort => h.
have -> x (s : seq K) : size (mul_first x s) = size s by case: s.
have -> x (s : seq K) : size (mul_first x s) = size s by case: s.
rewrite !size_flatten; congr sumn; rewrite /shape -!map_comp /=.
elim: (pm_mats M) gs h => [|m ms IH] [|g gs] //= [h1 h2]; rewrite IH // !size_dm_vec; congr (maxn _ _ :: _); exact: h1.
Qed.
Lemma put_same M : put_inverses [seq d_inv m | m <- pm_mats M] M = M.
Proof.
case: M => ms a b c d e f; rewrite /put_inverses /set_mats /=; congr (PM _ _ _ _ _ _ _).
by elim: ms => //= -[? ? ? ? ? ? ?] ms ->.
Qed.
Lemma fitting_same M : fitting [seq d_inv m | m <- pm_mats M] M.
Proof. by rewrite /fitting -map_comp. Qed.
End Inverse.

(** The loop keeps the quotient of the last factors. *)
Lemma det_ratio_last (K : numFieldType) (a b : seq K) : size a = size b -> (0 < size b)%N -> det_ratio a b = Some (last 0 a / last 0 b).
Proof.
move=> e h; rewrite /det_ratio e ltnn; congr Some.
elim/last_ind: a b e h => [|a x _] b; first by case: b.
elim/last_ind: b => [|b y _] //; rewrite !size_rcons => -[e] _.
by rewrite !last_rcons -!cats1 zip_cat // foldl_cat.
Qed.

Section Check.
Variable K : numFieldType.
Variables (W : Type) (w_ops : W -> seq psi).
Variable F : psi -> psi -> K.
Variable junk : nat -> nat -> K.
Variables (lab : seq nat) (nb : nat).
Variables (np : int) (mo : umode) (wk : work K).
Variable luv : forall n, 'M[K]_n -> seq K.
Variable geps : K.
Variables (Ket Bra : Type) (outer : list (Bra * Ket)).
Variables (ket_invalid : Ket -> bool) (bra_invalid : Bra -> bool) (ket_nil : Ket) (bra_nil : Bra).
Variables (apply_ket : optype -> nat -> Ket -> Ket) (apply_bra : optype -> nat -> Bra -> Bra).
Variables (prop_ket : Z -> Ket -> Ket) (prop_bra : Z -> Bra -> Bra).
Variables (normalize_ket : Ket -> Ket) (normalize_bra : Bra -> Bra).
Variables (norm_ket : Ket -> K) (norm_bra : Bra -> K).
Variables (sec_ket : Ket -> nat) (sec_bra : Bra -> nat).
Variable product : Bra -> Ket -> K.
Variable tau : nat -> nat -> Z.
Variable cut : K.
Variables (min_dim : Ket -> nat) (dst : optype -> nat -> nat -> option nat) (dim_sector : nat -> nat) (cexp : nat -> Z -> K).
Variable rank : Ket -> nat.
Variable eps : K.
Variable order : seq K -> seq nat.
Variable beta : Z.

(** The hypotheses of C22, C24 and C34; nothing is truncated. *)
Hypothesis lab_ok : all (fun b => b < nb)%N lab.
Hypothesis nb_gt0 : (0 < nb)%N.
Hypothesis luv_ok : forall n (A : 'M[K]_n), is_lu_vec A (luv A).
Hypothesis H : braket_ok ket_invalid bra_invalid ket_nil bra_nil apply_ket apply_bra prop_ket prop_bra
  normalize_ket normalize_bra sec_ket sec_bra product.
Hypothesis N : norm_ok ket_invalid apply_ket prop_ket norm_ket norm_bra sec_ket product min_dim dst dim_sector cexp rank.
Hypothesis tau_0 : forall n, (0 < n)%N -> tau n 0 = 0%coqZ.
Hypothesis tau_beta : forall n, (0 < n)%N -> tau n (2 * n) = beta.
Hypothesis tau_mono : forall n p q, (p <= q)%N -> (q <= 2 * n)%N -> (tau n p <= tau n q)%coqZ.
Hypothesis eps_ge0 : 0 <= eps.
Hypothesis cut0 : cut = 0.
(** 1E-4 *)
Variable tol : K.
Hypothesis tol_pos : 0 < tol.
Hypothesis order_ok : forall bs, descending bs (order bs).

Notation sw := (sw K Ket Bra).
Notation config := (config K W (ms K)).
Notation state := (state K W Ket Bra).
Notation reach := (T_Window.reach outer ket_invalid bra_invalid ket_nil bra_nil apply_ket apply_bra prop_ket prop_bra
  normalize_ket normalize_bra norm_ket norm_bra tau cut).
Notation tbounds := (trace_bounds ket_invalid bra_invalid sec_ket sec_bra tau min_dim dst dim_sector cexp).
Notation lazy_at := (lazy_at ket_invalid bra_invalid apply_ket prop_ket normalize_ket sec_ket sec_bra product tau
  min_dim dst dim_sector cexp eps order).
Notation consistent := (consistent K W w_ops (ms K) (@ms_cd K) (@ms_c K) (full_det F lab nb) (ms_wf F junk lab nb)
  (full_trace outer apply_ket prop_ket product beta)).
Notation ftr := (full_trace outer apply_ket prop_ket product beta).
Notation ops mc := (operators K W (ms K) mc).
Notation det mc := (mstate K W (ms K) mc).
Notation det_of mc := (full_det F lab nb (ms_cd (det mc)) (ms_c (det mc))).
Notation setw := (set_window_size ket_invalid bra_invalid ket_nil bra_nil apply_ket apply_bra prop_ket prop_bra
  normalize_ket normalize_bra norm_ket norm_bra tau cut).
Notation wops := (worm_ops W w_ops).
Notation fdet := (full_det F lab nb).
Notation vec := (pm_det_vec luv).
Notation sanity := (sanity_check w_ops F luv ket_invalid bra_invalid ket_nil bra_nil apply_ket apply_bra prop_ket prop_bra
  normalize_ket normalize_bra norm_ket norm_bra sec_ket sec_bra product tau cut min_dim dst dim_sector cexp eps order tol).
Notation inv := (inv w_ops F junk lab nb outer ket_invalid bra_invalid ket_nil bra_nil apply_ket apply_bra prop_ket prop_bra
  normalize_ket normalize_bra norm_ket norm_bra product tau cut beta).
Notation phist := (phist F junk lab nb).
(** The window shows the same part of the same operators *)
Definition same_view (s s' : sw) : Prop :=
  [/\ nwin s' = nwin s, posL s' = posL s, posR s' = posR s, right_states s' = right_states s & left_states s' = left_states s].

Lemma sign_fromE v t b : sign_from v t b = mysign K (sgK K b * \prod_(x <- v) x * t).
Proof.
rewrite /sign_from.
have -> : foldl (fun s x => s * mysign K x) 1 v = mysign K (\prod_(x <- v) x).
  have G (a : K) : foldl (fun s x => s * mysign K x) (mysign K a) v = mysign K (a * \prod_(x <- v) x).
    elim: v a => [|x v IH] a /=; first by rewrite big_nil mulr1.
    by rewrite -mysignM IH big_cons mulrA.
  by have := G 1; rewrite /mysign normr1 divr1 mul1r => ->.
have -> : sgK K b = mysign K (sgK K b) by rewrite /mysign /sgK; case: b; rewrite ?normrN normr1 divr1.
by rewrite -!mysignM mulrC mulrA; congr mysign; rewrite /mysign /sgK; case: b; rewrite ?normrN normr1 divr1.
Qed.

Section Any.
(** A determinant object that was right, with any matrices in place of the inverses kept in its blocks; any operators, trace and
    signs in the configuration *)
Variables (M : pm K) (cd c : seq psi) (gs : seq (mat K)).
Hypothesis hM : phist M cd c.
Hypothesis hgs : fitting gs M.
Variables (l : container) (wm : option W) (tr sg : K) (ps : bool) (s : sw).
Hypothesis hl : csorted l.
Hypothesis ht : times_in beta l.
Hypothesis hr : reach l s.
Hypothesis gap : forall s1, setw (check_window s) l 0 (Some ITIME_LEFT) s = WOk s1 -> no_gap eps (tbounds l s1).
Let mc : config := Conf K W (ms K) l (Some (put_inverses gs M)) wm tr sg ps.

Definition accepted : bool :=
  [&& insert_all (pm_cd_order M ++ pm_c_order M ++ wops wm) == l,
      `|last 0 (vec (put_inverses gs M)) / last 0 (vec M) - 1| < tol,
      `|ftr l - tr| < tol * `|tr|,
      compute_permutation_sign_impl (pm_cd_order M) (pm_c_order M) (wops wm) == Some ps &
      `|mysign K (sgK K ps * fdet cd c * ftr l) / sg - 1| < tol].

Lemma vec_neq0 x : x \in vec M -> x != 0.
Proof.
move=> hx; have [_ nz _ _ _] := C34_history lab_ok hM; move: nz.
rewrite -(C60_det_vec lab_ok luv_ok nb_gt0 hM) prodf_seq_neq0 => /allP /(_ x hx).
by [].
Qed.
Lemma vec_gt0 : (0 < size (vec M))%N.
Proof.
have [[sz hm] _ _ _ _] := phist_ok lab_ok hM.
rewrite /pm_det_vec size_sort.
have -> x (v : seq K) : size (mul_first x v) = size v by case: v.
case: (pm_mats M) sz => [e|m ms0 _]; first by have := nb_gt0; rewrite -e.
by rewrite /= size_cat (size_dm_vec luv_ok) addn_gt0 leq_max orbT.
Qed.

Lemma checkE : exists M2 s2,
  [/\ phist M2 cd c, pm_cd_order M2 = pm_cd_order M /\ pm_c_order M2 = pm_c_order M, vec M2 = vec M, reach l s2 /\ same_view s s2 &
      accepted = (if sanity mc s is SOk _ _ then true else false) /\
      forall mc' s', sanity mc s = SOk mc' s' -> mc' = Conf K W (ms K) l (Some M2) wm tr sg ps /\ s' = s2].
Proof.
have [M2 eM2 _] := C34_rebuild (phist_ok lab_ok hM).
have hM2 := phist_rebuild hM eM2; have ev := pm_vec_rebuild lab_ok luv hM eM2.
have eo : pm_cd_order M2 = pm_cd_order M /\ pm_c_order M2 = pm_c_order M.
  by move: eM2; rewrite /rebuild_inverse_matrix; case: run_blocks => // ? ? [<-].
have n0 : (0 < check_window s)%N by rewrite /check_window leq_max orbT.
have [s1 [e1 hr1 _]] := set1 tau_mono l hr n0.
have [s2 [e2 [v1 [v2 [v3 [v4 [v5 _]]]]]]] := C23_restore tau_mono hr hr1.
have hr2 := reach_restore hr hr1 e2.
have eT : (lazy_at s1 l 0).2 = ftr l.
  by apply: (lazy_full H N tau_0 tau_beta tau_mono eps_ge0 cut0 order_ok); split=> //; exact: gap.
have eD : det_ratio (vec (put_inverses gs M)) (vec M2) = Some (last 0 (vec (put_inverses gs M)) / last 0 (vec M)).
  by rewrite ev det_ratio_last // ?vec_gt0 // size_pm_vec.
have eS : sign_from (vec M2) (ftr l) ps = mysign K (sgK K ps * fdet cd c * ftr l).
  by rewrite ev sign_fromE (C60_det_vec lab_ok luv_ok nb_gt0 hM).
exists M2, s2; split=> //.
rewrite /accepted /sanity_check /mc /= (rebuild_put lab_ok hM hgs) eM2 eD e1 eT e2 eo.1 eo.2.
case: eqP => //= _; case: (`|last 0 _ / _ - 1| < tol) => //=; case: (`|ftr l - tr| < _) => //=.
case: (compute_permutation_sign_impl _ _ _) => [p2|] //=.
rewrite (_ : (Some p2 == Some ps) = (p2 == ps)) //; case: eqP => //= ->; rewrite eS.
by case: (`|_ / sg - 1| < tol) => //=; split=> // ? ? [<- <-].
Qed.
End Any.

Section Claims.
Variables (M : pm K) (cd c : seq psi) (gs : seq (mat K)).
Hypothesis hM : phist M cd c.
Hypothesis hgs : fitting gs M.
Variables (l : container) (wm : option W) (tr sg : K) (ps : bool) (s : sw).
Hypothesis hl : csorted l.
Hypothesis ht : times_in beta l.
Hypothesis hr : reach l s.
Hypothesis gap : forall s1, setw (check_window s) l 0 (Some ITIME_LEFT) s = WOk s1 -> no_gap eps (tbounds l s1).
Hypothesis ut : uniq (map p_time (cd ++ c ++ wops wm)).
Notation mc := (Conf K W (ms K) l (Some (put_inverses gs M)) wm tr sg ps).

Lemma orderP : Permutation (pm_cd_order M ++ pm_c_order M ++ wops wm) (cd ++ c ++ wops wm).
Proof.
have [_ _ _ [o1 o2] _] := C34_history lab_ok hM.
by apply: perm_eq_Permutation; apply: perm_cat => //; apply: perm_cat.
Qed.
Lemma insertedP : insert_all (pm_cd_order M ++ pm_c_order M ++ wops wm) = l <-> Permutation l (cd ++ c ++ wops wm).
Proof.
have hu : NoDup (List.map p_time (pm_cd_order M ++ pm_c_order M ++ wops wm)).
  apply: (Permutation_NoDup (Permutation_sym (Permutation_map p_time orderP))); exact/NoDup_uniq.
have [h1 h2] := insert_all_spec hu; split=> [<-|h]; first exact: Permutation_trans h2 orderP.
apply: csorted_perm_eq h1 hl _; apply: (Permutation_trans h2); apply: (Permutation_trans orderP); exact: Permutation_sym.
Qed.

(** C74. The check accepts exactly when: the operators are those of the determinant object and the worm; the largest factors of the
    two determinants agree; the trace is that of the operators; the permutation sign is right; the sign is that of the
    recomputed weight. *)
Theorem C74_accepts : (exists mc' s', sanity mc s = SOk mc' s') <->
  [/\ Permutation l (cd ++ c ++ wops wm),
      `|last 0 (vec (put_inverses gs M)) / last 0 (vec M) - 1| < tol,
      `|ftr l - tr| < tol * `|tr|,
      compute_permutation_sign_impl (pm_cd_order M) (pm_c_order M) (wops wm) = Some ps &
      `|mysign K (sgK K ps * fdet cd c * ftr l) / sg - 1| < tol].
Proof.
have [M2 [s2 [_ _ _ _ [h _]]]] := checkE hM hgs wm tr sg ps hl ht hr gap.
split=> [[mc' [s' e]]|[/insertedP/eqP h1 h2 h3 /eqP h4 h5]].
  by move: h; rewrite e => /and5P[/eqP/insertedP h1 h2 h3 /eqP h4 h5].
have : accepted M cd c gs l wm tr sg ps by apply/and5P.
by rewrite h; case: (sanity mc s) => // mc' s' _; exists mc', s'.
Qed.

(** C74. An accepting check leaves operators, worm, trace and signs as they are, puts the window back, and replaces the inverse
    matrices: afterwards they are right, whatever they were. *)
Theorem C74_repairs mc' s' : sanity mc s = SOk mc' s' -> exists M2,
  [/\ mc' = Conf K W (ms K) l (Some M2) wm tr sg ps, phist M2 cd c, DetPartitioned.compute_determinant M2 = fdet cd c,
      reach l s' & same_view s s'].
Proof.
move=> e; have [M2 [s2 [h1 _ _ [h3 h4] [_ h]]]] := checkE hM hgs wm tr sg ps hl ht hr gap; have [-> ->] := h _ _ e.
by exists M2; split=> //; have [] := C34_history lab_ok h1.
Qed.
End Claims.

(** C74. In a run (C60) the check never fails, and the run goes on as without it. *)
Theorem C74_consistent st : inv st ->
  (forall s1, setw (check_window (st_sw st)) (ops (st_mc st)) 0 (Some ITIME_LEFT) (st_sw st) = WOk s1 -> no_gap eps (tbounds (ops (st_mc st)) s1)) ->
  exists mc' s', [/\ sanity (st_mc st) (st_sw st) = SOk mc' s', inv (State mc' s' (st_dv st)),
    ops mc' = ops (st_mc st) /\ Updater.worm K W (ms K) mc' = Updater.worm K W (ms K) (st_mc st),
    [/\ trace K W (ms K) mc' = trace K W (ms K) (st_mc st), sign K W (ms K) mc' = sign K W (ms K) (st_mc st),
        perm_sign K W (ms K) mc' = perm_sign K W (ms K) (st_mc st) & ms_det_vec luv (det mc') = ms_det_vec luv (det (st_mc st))] &
    same_view (st_sw st) s'].
Proof.
case: st => mc s dv [/= hc hr ht] gap; case: mc hc hr ht gap => l m wm tr sg ps hc hr ht gap; cbn in hc, hr, ht, gap.
move: (hc) => [hS [hP [[M [cd [c [em hM]]]] [hz [e5 [e6 [e7 e8]]]]]]]; cbn in hS, hP, em, hz, e5, e6, e7, e8.
subst m; have [_ nz _ [o1 o2] _] := C34_history lab_ok hM; cbn in hP, hz, e7, e8.
have efd : fdet (pm_cd_order M) (pm_c_order M) = fdet cd c by exact: full_det_perm.
have P : Permutation l (cd ++ c ++ wops wm).
  by apply: (Permutation_trans hP); apply: perm_eq_Permutation; rewrite !app_cat; apply: perm_cat => //; apply: perm_cat.
have ut : uniq (map p_time (cd ++ c ++ wops wm)).
  by apply/NoDup_uniq; apply: (Permutation_NoDup (Permutation_map p_time P)); exact: csorted_NoDup_times.
have hf := fitting_same M; have pe := put_same M.
have hv : last 0 (vec M) != 0.
  apply: (vec_neq0 hM); have := vec_gt0 hM; case: (vec M) => // a v _ /=; exact: mem_last.
have acc : accepted M cd c [seq d_inv m | m <- pm_mats M] l wm tr sg ps.
  apply/and5P; split.
  - by apply/eqP; apply/(insertedP hM hS ut).
  - by rewrite pe divff // subrr normr0.
  - by rewrite -e5 subrr normr0 mulr_gt0 // normr_gt0.
  - by apply/eqP.
  - by rewrite e8 efd -e5 divff ?subrr ?normr0 // mysign_neq0 // mulf_neq0 // mulf_neq0 // sgK_neq0.
have [M2 [s2 [h1 [oo1 oo2] hve [h3 h4] [ha h]]]] := checkE hM hf wm tr sg ps hS ht hr gap.
move: acc; rewrite ha {ha}; move: h; rewrite pe; case: (sanity _ s) => // mc' s' /(_ _ _ erefl)[-> ->] _.
exists (Conf K W (ms K) l (Some M2) wm tr sg ps), s2; split=> //; split=> //=.
by split=> //=; split; [|split; [exists M2, cd, c|]]; rewrite /= ?oo1 ?oo2.
Qed.
End Check.

Section Numbers.
Variable K : numFieldType.
Variable z : K.
Hypothesis z_pos : 0 < z.
Hypothesis z_lt1 : z < 1.
Lemma two_neq0 : 2%:R != 0 :> K. Proof. by rewrite pnatr_eq0. Qed.
Lemma vec_two (a b : K) : `|a| <= `|b| -> last 0 (asc_sort (mul_first (1 : int)%:~R [:: a; b])) = b.
Proof. by move=> h; rewrite /asc_sort /sort /= mulr1 h. Qed.
Lemma less : `|2%:R * z| <= `|2%:R|.
Proof. by rewrite normrM ler_pimulr // gtr0_norm // ltW. Qed.
Lemma same_norm (tol : K) : 0 < tol -> `|2%:R / 2%:R - 1 : K| < tol.
Proof. by rewrite divff ?two_neq0 // subrr normr0. Qed.
Lemma det_prod : 1%:~R * (((2%:R * z)^-1)^-1 * (2%:R^-1)^-1) = z * (2%:R * 2%:R) :> K.
Proof. by rewrite !invrK !mul1r mulrAC mulrC. Qed.
Lemma invert_two (x : K) : 2%:R * x = 1 -> x = 2%:R^-1.
Proof. by move=> h; apply: (mulfI two_neq0); rewrite divff ?two_neq0. Qed.
Lemma own_sign (x tol : K) : x != 0 -> 0 < tol -> `|mysign K x / mysign K x - 1| < tol.
Proof. by move=> h t; rewrite divff ?mysign_neq0 // subrr normr0. Qed.
Lemma own_trace (x tol : K) : x != 0 -> 0 < tol -> `|x - x| < tol * `|x|.
Proof. by move=> h t; rewrite subrr normr0 mulr_gt0 // normr_gt0. Qed.
End Numbers.

(** ** The check of the determinants looks at one factor only
    Two flavors in two blocks, the hybridization function 2, one pair in each block; the inverse kept in the first block is wrong by
    the factor [1 / z], so that the determinant obtained from the maintained inverses is wrong by the factor [z]. *)
Section Refuted.
Variable K : numFieldType.
Variables (w z tol : K).
Hypothesis w_pos : 0 < w.
Hypothesis z_pos : 0 < z.
Hypothesis z_lt1 : z < 1.
Hypothesis tol_pos : 0 < tol.
Let F (_ _ : psi) : K := 2%:R.
Let lab := [:: 0%N; 1%N].
Variable order : seq K -> seq nat.
Hypothesis order_desc : forall bs, descending bs (order bs).
Variables (junk : nat -> nat -> K) (np : int) (mo : umode) (wk : work K) (s0 : sw K (aket K) (aket K)).
Let wo (_ : unit) : seq psi := [::].
Let ac (o : optype) (_ : nat) := @a_c K o.
Let ab (o : optype) (_ : nat) := @a_c K (a_flip o).
Let one1 (_ : aket K) := 1%N.
Let one2 (_ : nat) := 1%N.
Let aq := a_prop w.
Let an := @a_norm K.
Let ai := @a_invalid K.
Let asc := @a_sec K.
Let ap := @a_prod K.
Let H1 : all (fun b => b < 2)%N lab := isT.
Let H2 : braket_ok ai ai None None ac ab aq aq id id asc asc ap := a_ok w.
Let H3 : norm_ok ai ac aq an an asc ap one1 a_dst one2 (a_exp w) one1 := a_norm_ok w_pos.
Notation Inv := (inv wo F junk lab 2 (a_outer K) ai ai None None ac ab aq aq id id an an ap a_tau 0 8%coqZ).
Notation Sanity := (sanity_check wo F (@lup_vec K) ai ai None None ac ab aq aq id id an an asc asc ap a_tau 0 one1 a_dst one2 (a_exp w) 0 order tol).
Notation Ftr := (full_trace (a_outer K) ac aq ap 8%coqZ).
Notation fdet := (full_det F lab 2).

Let cd := [:: Psi (OT 3%coqZ 0%coqZ) CREATION_OP 0; Psi (OT 7%coqZ 0%coqZ) CREATION_OP 1].
Let c := [:: Psi (OT 1%coqZ 0%coqZ) ANNIHILATION_OP 0; Psi (OT 5%coqZ 0%coqZ) ANNIHILATION_OP 1].
Let l : container := [:: nth psi0 c 0; nth psi0 cd 0; nth psi0 c 1; nth psi0 cd 1].

Lemma det_pair x y : hyb_det F [:: x] [:: y] = 2%:R.
Proof. by rewrite /hyb_det /= /detL det_mx11 mxE. Qed.
Lemma det_two : fdet cd c = 2%:R * 2%:R.
Proof.
rewrite full_det_blocks //= !big_cons big_nil mulr1.
by rewrite !det_pair mul1r.
Qed.
Lemma perm_l : Permutation l (cd ++ c ++ [::]).
Proof. by apply: perm_eq_Permutation. Qed.
Lemma trace_l : Ftr l = w ^+ 4.
Proof.
rewrite /full_trace /full_term /sumK /= /ap /= !add0r !mul1r !expr1n !mulr1.
by rewrite -!exprD.
Qed.

(** a block with one pair and the number [x] in place of the inverse *)
Lemma vec_one (m : dm K) : dsize m = 1%N -> d_perm m = 1 -> dm_det_vec (@lup_vec K) m = [:: 1 / me (d_inv m) 0 0].
Proof.
move=> e ep; rewrite /dm_det_vec e ep -[(1 == 0)%N]/false.
set A := toM _ _ _; have hA := @lup_vec_ok K _ A; have hd := is_lu_vec_det hA.
have [_ [_ [_ [_ [_ _ _ _ [sz _]]]]]] := hA.
case: (lup_vec A) sz hd => [|a []] // _; rewrite big_seq1 => ->.
by rewrite /= mulr1 /A det_mx11 mxE.
Qed.
Lemma det_one (m : dm K) : dsize m = 1%N -> d_perm m = 1 -> DetMatrix.compute_determinant m = 1 / me (d_inv m) 0 0.
Proof. by move=> e ep; rewrite /DetMatrix.compute_determinant e ep det_mx11 mxE. Qed.
Lemma block_one (m : dm K) x y : T_DetUpdate.at_rest F m [:: x] [:: y] ->
  [/\ s_ops (d_cdagg m) = [:: x], s_ops (d_c m) = [:: y], dsize m = 1%N, d_perm m = 1 & me (d_inv m) 0 0 = 2%:R^-1].
Proof.
move=> [_ [_ _ _ [m1 m2 m3] m4] p1 p2].
have e1 : s_ops (d_cdagg m) = [:: x] by apply: perm_small_eq.
have e2 : s_ops (d_c m) = [:: y] by apply: perm_small_eq.
rewrite e1 e2 in m1 m3 m4; split=> //.
move/matrixP: m3 => /(_ 0 0); rewrite !mxE big_ord1 !mxE /= => h.
exact: invert_two h.
Qed.

Lemma det_refuted : exists l M mc' s s' tr sg ps gs,
  let cd := pm_cd_order M in let c := pm_c_order M in
  [/\ Inv (State (Conf K unit (ms K) l (Some M) None tr sg ps) s [::]), fitting gs M,
      DetPartitioned.compute_determinant (put_inverses gs M) = z * fdet cd c, fdet cd c != 0 &
      Sanity (Conf K unit (ms K) l (Some (put_inverses gs M)) None tr sg ps) s = SOk mc' s'].
Proof.
have nz : fdet cd c != 0 by rewrite det_two mulf_neq0 // two_neq0.
have [M _ hM] := C34_build junk H1 np mo wk (erefl : size cd = size c) isT isT nz.
have [[sz hm] _ hpm [o1 o2] _] := phist_ok H1 hM.
case em : (pm_mats M) sz hm => [|m0 [|m1 []]] // _ hm.
have [a1 a2 a3 a4 a5] := block_one (hm m0 0%N isT : T_DetUpdate.at_rest F m0 [:: nth psi0 cd 0] [:: nth psi0 c 0]).
have [b1 b2 b3 b4 b5] := block_one (hm m0 1%N isT : T_DetUpdate.at_rest F m1 [:: nth psi0 cd 1] [:: nth psi0 c 1]).
have {o1}o1 : pm_cd_order M = cd by rewrite o1 em /= a1 b1.
have {o2}o2 : pm_c_order M = c by rewrite o2 em /= a2 b2.
have {hpm}hp : pm_perm M = 1 by rewrite hpm.
pose gs := [:: Mat 1 1 (fun _ _ => (2%:R * z)^-1); d_inv m1].
have hf : fitting gs M by rewrite /fitting em /= a3.
have zn : z != 0 by rewrite gt_eqF.
have g0 : dsize (put_inverse (Mat 1 1 (fun _ _ => (2%:R * z)^-1)) m0) = 1%N by [].
have v1 : last 0 (pm_det_vec (@lup_vec K) (put_inverses gs M)) = 2%:R.
  rewrite -(vec_two (less z_pos z_lt1)) /pm_det_vec /put_inverses; cbn [pm_perm pm_mats set_mats].
  rewrite hp em /gs; cbn [zip map fst snd flatten foldr].
  rewrite (vec_one g0 a4); cbn [put_inverse d_inv me]; rewrite -[put_inverse _ m1]/(put_inverse (d_inv m1) m1).
  rewrite (vec_one (b3 : dsize (put_inverse (d_inv m1) m1) = 1%N) b4); cbn [put_inverse d_inv me cat].
  by rewrite b5 !div1r !invrK.
have v2 : last 0 (pm_det_vec (@lup_vec K) M) = 2%:R.
  rewrite -[RHS](vec_two (lexx `|2%:R : K|)) /pm_det_vec hp em; cbn [map flatten foldr].
  by rewrite (vec_one a3 a4) (vec_one b3 b4) a5 b5 !div1r !invrK.
have [s [es _]] := @initw_ok K (aket K) (aket K) (a_outer K) ai ai None None ac ab aq aq id id an an a_tau 0 l 1 s0 isT.
have hr := reach_init (isT : 0 < 1)%N es.
have hS : csorted l by repeat constructor.
have ht : times_in 8%coqZ l by move=> x [<-|[<-|[<-|[<-|[]]]]].
have t0 : Ftr l != 0 by rewrite trace_l expf_neq0 // gt_eqF.
have [ps eps] : exists ps, compute_permutation_sign_impl cd c [::] = Some ps by eexists; vm_compute; reflexivity.
pose sg := mysign K (sgK K ps * fdet cd c * Ftr l).
have P := perm_l.
have n0 : (0 < check_window s)%N by rewrite /check_window leq_max orbT.
have gap s1 : set_window_size ai ai None None ac ab aq aq id id an an a_tau 0 (check_window s) l 0 (Some ITIME_LEFT) s = WOk s1 ->
    no_gap 0 (trace_bounds ai ai asc asc a_tau one1 a_dst one2 (a_exp w) l s1).
  move=> e1; apply: (no_gap0 H2 H3 a_tau_mono erefl) hS.
  by apply: (reach_set hr n0 _ e1).
have ea : exists mc' s', Sanity (Conf K unit (ms K) l (Some (put_inverses gs M)) None (Ftr l) sg ps) s = SOk mc' s'.
  have [_ G] := C74_accepts (w_ops := wo) (wm := None) H1 (isT : (0 < 2)%N) (@lup_vec_ok K) H2 H3 a_tau_0 a_tau_beta a_tau_mono (lexx (0 : K)) erefl tol order_desc
    hM hf (Ftr l) sg ps hS ht hr gap isT.
  apply: G.
  rewrite o1 o2 v1 v2; split; [exact: P|exact: same_norm|exact: own_trace|exact: eps|].
  exact: own_sign (mulf_neq0 (mulf_neq0 (sgK_neq0 _ _) nz) t0) tol_pos.
have [mc' [s' {}ea]] := ea.
exists l, M, mc', s, s', (Ftr l), sg, ps, gs; rewrite o1 o2; split; [|exact: hf| |exact: nz|exact: ea].
- split; [|exact: hr|exact: ht]; split; [exact: hS|split; [by rewrite /= o1 o2; exact: P|]].
  split; [exists M, cd, c; split; [reflexivity|exact: hM]|]; split; [rewrite /= o1 o2; reflexivity|]; split; [reflexivity|]; split; [exact: t0|].
  by split; rewrite /= o1 o2; [exact: eps|].
- rewrite /DetPartitioned.compute_determinant /put_inverses; cbn [pm_perm pm_mats set_mats].
  rewrite hp em /gs; cbn [zip map fst snd foldl].
  rewrite (det_one g0 a4) (det_one (b3 : dsize (put_inverse (d_inv m1) m1) = 1%N) b4); cbn [put_inverse d_inv me].
  rewrite b5 !div1r det_two; exact: det_prod.
Qed.
End Refuted.
(** the order of std::sort *)
Definition sort_order (R : realFieldType) (bs : seq R) : seq nat := sort (fun i j => nth 0 bs j <= nth 0 bs i) (iota 0 (size bs)).
Lemma sort_order_desc (R : realFieldType) bs : @descending [numFieldType of R] bs (@sort_order R bs).
Proof.
split; first by rewrite /sort_order perm_sort.
by apply: sort_sorted => i j; exact: (@le_total _ R).
Qed.

(** C74. For every factor [z] between 0 and 1 there is a state in which the determinant obtained from the maintained inverses is wrong
    by this factor and which the check accepts, whatever its tolerance. *)
Theorem C74_det_refuted (R : realFieldType) (w z tol : R) (junk : nat -> nat -> R) (np : int) (mo : umode)
    (wk : work [numFieldType of R]) (s0 : sw [numFieldType of R] (aket [numFieldType of R]) (aket [numFieldType of R])) :
    0 < w -> 0 < z -> z < 1 -> 0 < tol ->
  let K := [numFieldType of R] in let F (_ _ : psi) : K := 2%:R in let lab := [:: 0%N; 1%N] in let wo (_ : unit) : seq psi := [::] in
  let ac (o : optype) (_ : nat) := @a_c K o in let ab (o : optype) (_ : nat) := @a_c K (a_flip o) in
  exists l M mc' s s' tr sg ps gs,
  [/\ inv wo F junk lab 2 (a_outer K) (@a_invalid K) (@a_invalid K) None None ac ab (a_prop (w : K)) (a_prop (w : K)) id id (@a_norm K) (@a_norm K)
        (@a_prod K) a_tau 0 8%coqZ (State (Conf K unit (ms K) l (Some M) None tr sg ps) s [::]), fitting gs M,
      DetPartitioned.compute_determinant (put_inverses gs M) = z * full_det F lab 2 (pm_cd_order M) (pm_c_order M),
      full_det F lab 2 (pm_cd_order M) (pm_c_order M) != 0 &
      sanity_check wo F (@lup_vec K) (@a_invalid K) (@a_invalid K) None None ac ab (a_prop (w : K)) (a_prop (w : K)) id id (@a_norm K) (@a_norm K)
        (@a_sec K) (@a_sec K) (@a_prod K) a_tau 0 (fun _ => 1%N) a_dst (fun _ => 1%N) (a_exp (w : K)) 0 (@sort_order R) tol
        (Conf K unit (ms K) l (Some (put_inverses gs M)) None tr sg ps) s = SOk mc' s'].
Proof. by move=> h1 h2 h3 h4; exact: (@det_refuted [numFieldType of R] w z tol h1 h2 h3 h4 (@sort_order R) (@sort_order_desc R) junk np mo wk s0). Qed.

(** The hypotheses can be met *)
Example C74_instance (wk : work [numFieldType of rat]) (s0 : sw [numFieldType of rat] (aket [numFieldType of rat]) (aket [numFieldType of rat])) : exists l M mc' s s' tr sg ps gs,
  let K := [numFieldType of rat] in let F (_ _ : psi) : K := 2%:R in let wo (_ : unit) : seq psi := [::] in
  [/\ DetPartitioned.compute_determinant (put_inverses gs M) = 8%:R^-1 * full_det F [:: 0%N; 1%N] 2 (pm_cd_order M) (pm_c_order M),
      full_det F [:: 0%N; 1%N] 2 (pm_cd_order M) (pm_c_order M) != 0 &
      sanity_check wo F (@lup_vec K) (@a_invalid K) (@a_invalid K) None None (fun o _ => @a_c K o) (fun o _ => @a_c K (a_flip o))
        (a_prop (2%:R : K)) (a_prop (2%:R : K)) id id (@a_norm K) (@a_norm K)
        (@a_sec K) (@a_sec K) (@a_prod K) a_tau 0 (fun _ => 1%N) a_dst (fun _ => 1%N) (a_exp (2%:R : K)) 0 (@sort_order _) 16%:R^-1
        (Conf K unit (ms K) l (Some (put_inverses gs M)) None tr sg ps) s = SOk mc' s'].
Proof.
have [//|//|//|//|l [M [mc' [s [s' [tr [sg [ps [gs [_ _ h1 h2 h3]]]]]]]]]] := @C74_det_refuted rat_realFieldType 2%:R 8%:R^-1 16%:R^-1 (fun _ _ => 0) 1 DoNothing wk s0.
by exists l, M, mc', s, s', tr, sg, ps, gs; split; [exact: h1|exact: h2|exact: h3].
Qed.
Print Assumptions C74_accepts.
Print Assumptions C74_repairs.
Print Assumptions C74_consistent.
Print Assumptions C74_det_refuted.
