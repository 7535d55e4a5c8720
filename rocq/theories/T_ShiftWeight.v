(** * C67: a shift of all operators does not change the weight of a configuration *)
From Coq Require Import ZArith List Sorting.Permutation.
From mathcomp Require Import all_ssreflect all_algebra zify ssrZ.
From Verif Require Import OpContainer KField CombSort PermSign T_PermSign ShiftParity Updater Dist Proposal HybDet GlobalUpdate T_GlobalUpdate.
Import Order.Theory GRing.Theory Num.Theory.
Set Implicit Arguments.
Unset Strict Implicit.
Unset Printing Implicit Defensive.
Local Close Scope Z_scope.
Local Open Scope nat_scope.
Local Open Scope ring_scope.
Delimit Scope Z_scope with coqZ.

Lemma NatoddE m : Nat.odd m = odd m.
Proof. by elim: m => // m IH; rewrite PeanoNat.Nat.odd_succ -PeanoNat.Nat.negb_odd IH. Qed.

Section Weight.
Variables (K : numFieldType) (F : psi -> psi -> K).
Add Field Kf : (kfield_theory K).
Notation time x := (ot_time (p_time x)).

(** The sign times the determinant in terms of pairs of operators in any order *)
Definition pair_order (cd c w : seq psi) : seq optime := (interleave (map p_time c) (map p_time cd) ++ map p_time w)%list.
Lemma hyb_det_inv cd c : size c = size cd -> uniq (map p_time c) -> uniq (map p_time cd) ->
  hyb_det F cd c = (-1) ^+ inv ot_lt (map p_time c) * (-1) ^+ inv ot_lt (map p_time cd) * detL psi0 psi0 F (size c) c cd.
Proof.
move=> hs u1 u2.
have G l : uniq (map p_time l) -> exists2 k, adj k l (tsort l) & odd k = odd (inv ot_lt (map p_time l)).
  move=> u; have [k h] := perm_adj l (tsort l) (perm_eq_Permutation (perm_tsort l)); exists k => //.
  have p2 := adj_parity ot_lt _ _ _ ot_lt_flip (proj2 (NoDup_uniq _) u) (map_adj p_time h).
  by move: p2; rewrite tsort_inv !NatoddE /=; case: (odd k); case: (odd (inv _ _)).
have [k1 h1 e1] := G _ u1; have [k2 h2 e2] := G _ u2.
by rewrite (hyb_det_adj F hs h1 h2) -signr_odd e1 signr_odd -[(-1) ^+ k2]signr_odd e2 signr_odd.
Qed.
Theorem C67_any_order cd c w : size c = size cd -> uniq (map p_time (cd ++ c ++ w)) ->
  exists2 p, compute_permutation_sign_impl cd c w = Some p &
    sgK K p * hyb_det F cd c = (-1) ^+ inv ot_gt (pair_order cd c w) * detL psi0 psi0 F (size c) c cd.
Proof.
move=> hs u; have hl : length c = length cd by [].
have u' : NoDup (all_times cd c w) by apply/NoDup_uniq; rewrite /all_times app_cat app_cat -!map_cat.
exists (xorb (Nat.odd (inv ot_gt (pair_order cd c w))) (xorb (Nat.odd (inv ot_lt (map p_time c))) (Nat.odd (inv ot_lt (map p_time cd))))).
  exact: perm_sign_storage.
have [ucd uc] : uniq (map p_time cd) /\ uniq (map p_time c).
  by move: u; rewrite !map_cat !cat_uniq => /and3P[-> _ /and3P[]].
rewrite (hyb_det_inv hs uc ucd) !NatoddE -3!(signr_odd _ (inv _ _)).
move: (odd _) (odd _) (odd _) => a b d.
by case: a; case: b; case: d; rewrite /sgK /= ?expr0 ?expr1; kring K.
Qed.

(** ** Shift *)
Variables (D : nat -> nat -> Z -> K) (beta s : Z).
Hypothesis hs : (0 < s < beta)%coqZ.
(** The hybridization function depends on the difference of the times and is antiperiodic (C25). *)
Hypothesis F_diff : forall x y, F x y = D (p_flavor x) (p_flavor y) (time x - time y)%coqZ.
Hypothesis D_anti : forall f g d, (0 < d < beta)%coqZ -> D f g (d - beta)%coqZ = - D f g d.
Notation sh := (operator_shift beta s).
(** this operator is moved around the end of the interval *)
Definition around (t : optime) : bool := Z.ltb beta (ot_time t + s).
Definition sht (t : optime) : optime := OT (shift_time beta s (ot_time t)) (ot_small t).
(** one of the two ends of the interval is not used *)
Definition half_open (b : bool) (t : optime) : Prop := if b then (0 < ot_time t <= beta)%coqZ else (0 <= ot_time t < beta)%coqZ.

Lemma sht_lt b x y : half_open b x -> half_open b y -> x <> y -> ot_lt (sht x) (sht y) = xorb (ot_lt x y) (xorb (around x) (around y)).
Proof.
move=> hx hy ne.
have P u v : reflect ((ot_time u < ot_time v)%coqZ \/ ot_time u = ot_time v /\ (ot_small u < ot_small v)%coqZ) (ot_lt u v).
  by apply: (iffP idP) => h; apply/ot_lt_spec.
have ne' : ot_time x <> ot_time y \/ ot_small x <> ot_small y.
  case: (Z.eq_dec (ot_time x) (ot_time y)) => [e1|]; last by left.
  case: (Z.eq_dec (ot_small x) (ot_small y)) => [e2|]; last by right.
  by case: ne; case: x y e1 e2 {hx hy} => [? ?] [? ?] /= -> ->.
have {}hx : (0 < ot_time x <= beta)%coqZ /\ (0 < ot_time y <= beta)%coqZ \/ (0 <= ot_time x < beta)%coqZ /\ (0 <= ot_time y < beta)%coqZ.
  by case: b hx hy => /= hx hy; [left|right].
rewrite /around; case: (P (sht x) (sht y)) => /=; rewrite /shift_time; case: (P x y); case: Z.ltb_spec; case: Z.ltb_spec => //= h1 h2 h3 h4.
all: exfalso; clear -hs hx ne' h1 h2 h3 h4; lia.
Qed.

Lemma F_shift b x y : half_open b (p_time x) -> half_open b (p_time y) ->
  F (sh x) (sh y) = (-1) ^+ around (p_time x) * (-1) ^+ around (p_time y) * F x y.
Proof.
move=> hx hy; have {}hx : ((0 < time x <= beta)%coqZ /\ (0 < time y <= beta)%coqZ) \/ ((0 <= time x < beta)%coqZ /\ (0 <= time y < beta)%coqZ).
  by case: b hx hy => /= hx hy; [left|right].
rewrite !F_diff /= /around /shift_time; case: Z.ltb_spec => h1; case: Z.ltb_spec => h2 /=.
- rewrite expr1 mulrNN !mul1r; congr D; lia.
- rewrite expr1 expr0 mulr1 mulN1r -D_anti; last by lia.
  congr D; lia.
- rewrite expr1 expr0 mul1r mulN1r (_ : (time x - time y)%coqZ = (time x - time y + beta - beta)%coqZ); last by lia.
  rewrite D_anti ?opprK; last by lia.
  congr D; lia.
- rewrite expr0 !mul1r; congr D; lia.
Qed.

Lemma det_scale n (a b : 'I_n -> K) (M : 'M[K]_n) :
  \det (\matrix_(i, j) (a i * b j * M i j)) = (\prod_i a i) * (\prod_i b i) * \det M.
Proof.
have -> : \matrix_(i, j) (a i * b j * M i j) = diag_mx (\row_i a i) *m M *m diag_mx (\row_i b i).
  by apply/matrixP => i j; rewrite mul_mx_diag mxE mul_diag_mx !mxE mulrAC.
rewrite !det_mulmx !det_diag mulrAC; congr (_ * _ * _); apply: eq_bigr => i _; by rewrite mxE.
Qed.
Lemma prod_around (l : seq psi) : \prod_(i < size l) (-1) ^+ around (p_time (nth psi0 l i)) = (-1) ^+ count (fun x => around (p_time x)) l :> K.
Proof.
rewrite -(big_mkord xpredT (fun i => (-1) ^+ around (p_time (nth psi0 l i)))) -(big_nth psi0 xpredT (fun x => (-1) ^+ around (p_time x))).
by elim: l => [|x l IH]; rewrite ?big_nil // big_cons IH /= exprD.
Qed.
Lemma detL_shift b cd c : size c = size cd -> (forall x, x \in cd ++ c -> half_open b (p_time x)) ->
  detL psi0 psi0 F (size c) (map sh c) (map sh cd) =
  (-1) ^+ (count (fun x => around (p_time x)) c + count (fun x => around (p_time x)) cd) * detL psi0 psi0 F (size c) c cd.
Proof.
move=> e h; rewrite exprD -[in RHS]prod_around -[in RHS]prod_around -e /detL.
rewrite -(det_scale (fun i => (-1) ^+ around (p_time (nth psi0 c i))) (fun i => (-1) ^+ around (p_time (nth psi0 cd i)))).
congr (\det _); apply/matrixP => i j; rewrite !mxE !(nth_map psi0) -?e //.
by apply: F_shift; apply: h; rewrite mem_cat mem_nth ?orbT // -e.
Qed.

Lemma sht_inj b x y : half_open b x -> half_open b y -> sht x = sht y -> x = y.
Proof.
have h0 := hs; case: x y => [tx sx] [ty sy] hx hy [] /=; rewrite /shift_time => e ->; congr OT; move: hx hy e.
by case: b => /= hx hy; case: Z.ltb_spec => h1; case: Z.ltb_spec => h2 e; clear -h0 hx hy h1 h2 e; lia.
Qed.
Lemma p_time_sh (l : seq psi) : map p_time (map sh l) = map sht (map p_time l).
Proof. by rewrite -!map_comp; apply: eq_map => x. Qed.
Lemma uniq_shift b (l : seq psi) : (forall x, x \in l -> half_open b (p_time x)) -> uniq (map p_time l) -> uniq (map p_time (map sh l)).
Proof.
move=> h u; rewrite p_time_sh map_inj_in_uniq // => x y /mapP[x' hx ->] /mapP[y' hy ->]; apply: (@sht_inj b); exact: h.
Qed.
Lemma map_interleave (f : optime -> optime) l m : map f (interleave l m) = interleave (map f l) (map f m).
Proof. by elim: l m => [|x l IH] [|y m] //=; rewrite IH. Qed.
Lemma count_moved (l : seq psi) : count (fun x => around (p_time x)) l = moved around (map p_time l).
Proof. by rewrite /moved; elim: l => //= x l ->; case: (around _). Qed.
Lemma moved_perm (l m : seq optime) : Permutation l m -> moved around l = moved around m.
Proof. by rewrite /moved; elim=> //= [x l1 l2 _ IH|x y l1|l1 l2 l3 _ -> _ ->] //; case: (around _); rewrite /= ?IH //; case: (around _). Qed.

(** C67. The sign of the reordering times the determinant changes by a factor -1 for each operator of the worm that is moved around the
    end of the interval. The numbers of operators of the worm are even. *)
Theorem C67_sign_det b cd c w : size c = size cd -> uniq (map p_time (cd ++ c ++ w)) -> (forall x, x \in cd ++ c ++ w -> half_open b (p_time x)) ->
  ~~ odd (size w) ->
  exists p p', [/\ compute_permutation_sign_impl cd c w = Some p,
    compute_permutation_sign_impl (map sh cd) (map sh c) (map sh w) = Some p' &
    sgK K p' * hyb_det F (map sh cd) (map sh c) = (-1) ^+ count (fun x => around (p_time x)) w * (sgK K p * hyb_det F cd c)].
Proof.
move=> e u h ev; have [p e1 e2] := C67_any_order e u.
have u' : uniq (map p_time (map sh cd ++ map sh c ++ map sh w)) by rewrite -!map_cat; exact: uniq_shift h u.
have es : size (map sh c) = size (map sh cd) by rewrite !size_map.
have [p' e1' e2'] := C67_any_order es u'; exists p, p'; split=> //; rewrite e2 e2'.
have -> : pair_order (map sh cd) (map sh c) (map sh w) = map sht (pair_order cd c w).
  by rewrite /pair_order !p_time_sh -map_interleave !app_cat map_cat.
rewrite size_map (@detL_shift b) //; last by move=> x hx; apply: h; rewrite catA mem_cat hx.
have hp : Permutation (map p_time (c ++ cd ++ w)) (pair_order cd c w).
  rewrite /pair_order !map_cat -!app_cat List.app_assoc; apply: Permutation_app => //; apply: Permutation_sym.
  by apply: interleave_perm; rewrite !length_size !size_map.
have hk x : In x (pair_order cd c w) -> half_open b x.
  move=> /(Permutation_in _ (Permutation_sym hp))/In_mem/mapP[y hy ->]; apply: h.
  by move: hy; rewrite !mem_cat orbCA.
have hN : NoDup (pair_order cd c w).
  apply: Permutation_NoDup hp _; apply/NoDup_uniq; move: u; rewrite !map_cat; congr is_true; apply: perm_uniq.
  by rewrite perm_catCA.
have := inv_shift sht around (half_open b) (@sht_lt b) _ hk hN.
have -> : length (pair_order cd c w) = (2 * size c + size w)%N.
  by rewrite -(Permutation_length hp) length_size size_map !size_cat -e; lia.
have -> : moved around (pair_order cd c w) = (count (fun x => around (p_time x)) c + count (fun x => around (p_time x)) cd + count (fun x => around (p_time x)) w)%N.
  rewrite -(moved_perm hp) -count_moved !count_cat; lia.
have le : (count (fun x => around (p_time x)) c + count (fun x => around (p_time x)) cd + count (fun x => around (p_time x)) w <= 2 * size c + size w)%N.
  have := count_size (fun x => around (p_time x)) c; have := count_size (fun x => around (p_time x)) cd; have := count_size (fun x => around (p_time x)) w.
  rewrite -e; lia.
move: le; set A := (count _ c + count _ cd)%N; set B := count _ w => le.
rewrite !NatoddE => ei.
have {}ei : odd (inv ot_gt (map sht (pair_order cd c w))) = odd (inv ot_gt (pair_order cd c w)) (+) odd (A + B).
  have [m em] : exists m, (2 * size c + size w)%N = (2 * m)%N.
    by exists (size c + (size w)./2)%N; rewrite -{1}(odd_double_half (size w)) (negbTE ev); lia.
  move: ei le; rewrite em => -> le.
  suff -> : odd (Nat.mul (A + B) (2 * m - (A + B))) = odd (A + B) by case: (odd (A + B)); case: (odd (inv _ _)).
  have -> : Nat.mul (A + B) (2 * m - (A + B)) = ((A + B) * (2 * m - (A + B)))%N by [].
  by rewrite oddM oddB // oddM /= andbb.
rewrite -signr_odd ei signr_addb !signr_odd exprD.
have aa : (-1) ^+ A * (-1) ^+ A = 1 :> K by rewrite -exprD addnn -signr_odd odd_double.
move: aa; move: ((-1) ^+ A) ((-1) ^+ B) ((-1) ^+ inv _ _) (detL _ _ _ _ _ _) => x y z d aa.
by rewrite (_ : z * (x * y) * (x * d) = (x * x) * (y * (z * d))); [rewrite aa mul1r|kring K].
Qed.

(** C67. Without a worm the product does not change; the absolute value of the determinant never does. *)
Theorem C67_no_worm b cd c : size c = size cd -> uniq (map p_time (cd ++ c)) -> (forall x, x \in cd ++ c -> half_open b (p_time x)) ->
  exists p p', [/\ compute_permutation_sign_impl cd c [::] = Some p,
    compute_permutation_sign_impl (map sh cd) (map sh c) [::] = Some p' &
    sgK K p' * hyb_det F (map sh cd) (map sh c) = sgK K p * hyb_det F cd c].
Proof.
move=> e u h; have [|||p [p' [e1 e2 e3]]] := @C67_sign_det b cd c [::] e; rewrite ?cats0 //.
by exists p, p'; split=> //; rewrite e3 expr0 mul1r.
Qed.
Theorem C67_abs_det b cd c : size c = size cd -> uniq (map p_time (cd ++ c)) -> (forall x, x \in cd ++ c -> half_open b (p_time x)) ->
  `|hyb_det F (map sh cd) (map sh c)| = `|hyb_det F cd c|.
Proof.
move=> e u h; have [p [p' [_ _ e3]]] := C67_no_worm e u h.
have sn q : `|sgK K q| = 1 by case: q; rewrite /sgK ?normrN normr1.
by have := congr1 Num.norm e3; rewrite !normrM !sn !mul1r.
Qed.

(** ** The whole update *)
Variables (W : Type) (w_ops : W -> seq psi) (MS : Type) (m_cd m_c : MS -> seq psi).
Variable m_build : seq (psi * psi) -> MS.
Variable tr : container -> K.
Variables (blk : nat -> nat) (nblk : nat) (lu : seq psi -> seq psi -> seq K) (wf : MS -> Prop).
Hypothesis Fblk : forall x y, blk (p_flavor x) != blk (p_flavor y) -> F x y = 0.
Hypothesis lu_ok : forall xs ys, size xs = size ys -> is_lu_vec (matL psi0 psi0 F (size xs) xs ys) (lu xs ys).
Hypothesis build_ok : forall cd c, size cd = size c -> uniq (map p_time (cd ++ c)) ->
  in_blocks blk nblk (cd ++ c) -> hyb_det F cd c != 0 ->
  let m := m_build (zip cd c) in wf m /\ Permutation (m_cd m) cd /\ Permutation (m_c m) c.
Hypothesis wf_det : forall m, wf m -> hyb_det F (m_cd m) (m_c m) != 0.
Variable eps : K.
(** The trace does not change when the operators are shifted (C66_shift). *)
Hypothesis tr_shift : forall l, csorted l -> (forall x, In x l -> 0 <= time x <= beta)%coqZ ->
  (forall x y, In x l -> In y l -> time x = 0%coqZ -> time y <> beta) -> tr (insert_all (map sh l)) = tr l.
Notation consistent := (@consistent K W w_ops MS m_cd m_c (hyb_det F) wf tr).
Notation gupd := (global_update w_ops m_cd m_c m_build tr blk nblk lu eps).
Notation wops mc := (worm_ops W w_ops (Updater.worm K W MS mc)).

(** C67. The shift is accepted for every random number in [0, 1[. All operators are shifted, the trace and the absolute value of the
    determinant are the same, and the sign of the configuration changes with the operators of the worm that are moved around the end. *)
Theorem C67_accepted b wop r mc dv : consistent mc ->
  \prod_(x <- dv) x = hyb_det F (m_cd (mstate _ _ _ mc)) (m_c (mstate _ _ _ mc)) ->
  0 <= r < 1 -> (0 < size (m_cd (mstate _ _ _ mc)))%N ->
  uniq (map p_time (operators _ _ _ mc)) -> (forall x, x \in operators _ _ _ mc -> half_open b (p_time x)) ->
  (forall w, Updater.worm _ _ _ mc = Some w -> w_ops (wop w) = map sh (w_ops w) /\ ~~ odd (size (w_ops w))) ->
  in_blocks blk nblk (m_cd (mstate _ _ _ mc) ++ m_c (mstate _ _ _ mc)) ->
  (let cd := map sh (m_cd (mstate _ _ _ mc)) in let c := map sh (m_c (mstate _ _ _ mc)) in let v := block_vec blk nblk lu cd c in
   balanced blk nblk cd c -> all (kept eps (abs_sort v)) v) ->
  exists mc' dv', [/\ gupd sh wop r mc dv = Some (mc', dv', true),
    operators _ _ _ mc' = insert_all (map sh (operators _ _ _ mc)) /\ Updater.worm _ _ _ mc' = omap wop (Updater.worm _ _ _ mc),
    trace _ _ _ mc' = trace _ _ _ mc,
    `|hyb_det F (m_cd (mstate _ _ _ mc')) (m_c (mstate _ _ _ mc'))| = `|hyb_det F (m_cd (mstate _ _ _ mc)) (m_c (mstate _ _ _ mc))| &
    sign _ _ _ mc' = (-1) ^+ count (fun x => around (p_time x)) (wops mc) * sign _ _ _ mc].
Proof.
move=> HC dvE /andP[r0 r1] n0 u ho hw ib hk; move: (HC) => [HS [HP [Hwf [Hlen [Htr [Htr0 [Hps Hsg]]]]]]].
set cd := m_cd _ in HP Hlen Hps Hsg dvE n0 ib hk *; set c := m_c _ in HP Hlen Hps Hsg dvE ib hk *.
have hP : perm_eq (operators _ _ _ mc) (cd ++ c ++ wops mc) by apply: Permutation_perm_eq; rewrite -!app_cat.
have eW : worm_ops W w_ops (omap wop (Updater.worm _ _ _ mc)) = map sh (wops mc).
  by case: (Updater.worm _ _ _ mc) hw => //= w /(_ w erefl)[].
have ev : ~~ odd (size (wops mc)) by case: (Updater.worm _ _ _ mc) hw => //= w /(_ w erefl)[].
have eN : new_ops w_ops m_cd m_c sh wop mc = map sh (cd ++ c ++ wops mc) by rewrite /new_ops /new_w eW !map_cat.
have u2 : uniq (map p_time (cd ++ c ++ wops mc)) by rewrite -(perm_uniq (perm_map p_time hP)).
have ho2 x : x \in cd ++ c ++ wops mc -> half_open b (p_time x) by rewrite -(perm_mem hP); exact: ho.
have es : size c = size cd by rewrite -!length_size Hlen.
have un : uniq (map p_time (new_ops w_ops m_cd m_c sh wop mc)) by rewrite eN; exact: uniq_shift ho2 u2.
have ibn : in_blocks blk nblk (map sh cd ++ map sh c).
  rewrite -map_cat; move: ib; rewrite /in_blocks.
  by move=> ib; rewrite all_map; apply: sub_all ib => x.
have [mc' [dv' [acc [eg [hc' [_ hacc]]]]]] := C55_global_update_metropolis Fblk lu_ok build_ok wf_det HC dvE r0 n0 un ibn hk.
have [oS oP] : csorted (insert_all (map sh (operators _ _ _ mc))) /\
    Permutation (insert_all (map sh (operators _ _ _ mc))) (map sh (operators _ _ _ mc)).
  by apply/insert_all_spec/NoDup_uniq; exact: uniq_shift ho u.
have oP2 : Permutation (insert_all (map sh (operators _ _ _ mc))) (new_ops w_ops m_cd m_c sh wop mc).
  by apply: Permutation_trans oP _; rewrite eN; apply: Permutation_map; exact: perm_eq_Permutation.
have eT : tr (insert_all (map sh (operators _ _ _ mc))) = tr (operators _ _ _ mc).
  apply: tr_shift => // [x /In_mem/ho|x y /In_mem/ho + /In_mem/ho].
    by clear; case: b => /=; lia.
  by clear; case: b => /=; lia.
have [ea] := hacc _ oS oP2.
have u3 : uniq (map p_time (cd ++ c)) by move: u2; rewrite catA map_cat cat_uniq => /andP[].
have ho3 x : x \in cd ++ c -> half_open b (p_time x) by move=> hx; apply: ho2; rewrite catA mem_cat hx.
have eD := C67_abs_det es u3 ho3.
have d0 : hyb_det F cd c != 0 := wf_det Hwf.
have ac : acc = true.
  rewrite ea eT /weight -/cd -/c -Htr !normrM normfV normrM /new_cd /new_c -/cd -/c eD divff ?r1 //.
  by rewrite mulf_neq0 // normr_eq0.
rewrite ac in eg *; move=> [e1 e2 p1 p2].
have eD' : hyb_det F (m_cd (mstate _ _ _ mc')) (m_c (mstate _ _ _ mc')) = hyb_det F (map sh cd) (map sh c).
  by apply: hyb_det_ext; exact: Permutation_perm_eq.
move: hc' => [_ [_ [_ [Hlen' [Htr' [_ [Hps' Hsg']]]]]]].
exists mc', dv'; split=> //.
- by rewrite Htr' e1 eT.
- by rewrite eD'.
rewrite Hsg' Hsg eD' Htr' e1 eT -Htr.
have [p [p' [q1 q2 q3]]] := C67_sign_det es u2 ho2 ev.
have q4 : p' = perm_sign _ _ _ mc'.
  by move: Hps'; rewrite e2 eW -(C08_sign_independent_of_storage_order _ _ _ _ _ (esym Hlen') p1 p2) q2 => -[].
rewrite Hps in q1; case: q1 => q1; rewrite -q1 q4 in q3.
rewrite q3 /mysign -!mulrA; set x := (-1) ^+ _; have x1 : `|x| = 1 by rewrite normrX normrN1 expr1n.
by rewrite !normrM x1 mul1r.
Qed.
End Weight.
Print Assumptions C67_any_order.
Print Assumptions C67_sign_det.
Print Assumptions C67_no_worm.
Print Assumptions C67_abs_det.
Print Assumptions C67_accepted.
