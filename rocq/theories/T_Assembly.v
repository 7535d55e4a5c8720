(** * C60: the configuration, the determinant object and the window stay consistent during a whole run *)
From Coq Require Import ZArith Lia List Bool Sorting.Permutation Sorting.Sorted.
From mathcomp Require Import all_ssreflect all_fingroup all_algebra zify.
From Verif Require Import OpContainer CombSort PermSign T_PermSign Updater T_Updater Dist Proposal HybDet EigenBasis FastUpdate T_FastUpdate
  DetMatrix T_DetMatrix T_DetUpdate T_DetHistory DetPartitioned T_DetPartitioned GlobalUpdate T_GlobalUpdate
  Window T_Window T_WindowTrace LazyTrace T_LazyTrace Assembly.
Import Order.Theory GRing.Theory Num.Theory.
Set Implicit Arguments.
Unset Strict Implicit.
Unset Printing Implicit Defensive.
Local Close Scope Z_scope.
Local Open Scope nat_scope.
Delimit Scope Z_scope with coqZ.
Local Open Scope ring_scope.

(** ** The determinant object meets the contract of C04 and C05 *)
Section Det.
Variable K : numFieldType.
Variable F : psi -> psi -> K.
Variable junk : nat -> nat -> K.
Variables (lab : seq nat) (nb : nat).
Variables (np : int) (mo : umode) (w : work K).
Hypothesis lab_ok : all (fun b => b < nb)%N lab.
Notation phist := (phist F junk lab nb).

Definition to_call (u : hyb_update) : call := Call (Updater.cd_rem u) (Updater.c_rem u) (Updater.cd_add u) (Updater.c_add u).
Definition ms_wf (m : ms K) : Prop := exists M cd c, m = Some M /\ phist M cd c.
(** all flavors have a block; in each block as many creation as annihilation operators are added and removed, or one
    operator is replaced (or the block is not square afterwards) *)
Definition ms_ok (u : hyb_update) : Prop := known_call lab (to_call u) /\ paired_blocks lab nb (to_call u).
(** operators are replaced in a block where what stays in between is singular *)
Definition ms_lossy (cd c : seq psi) (u : hyb_update) : bool := singular_between F lab nb (to_call u) cd c.

Lemma kept_rest (rem cd0 cd : seq psi) : uniq cd -> perm_eq cd (rem ++ cd0) -> perm_eq (T_DetUpdate.kept rem cd) cd0.
Proof.
move=> u p; apply: (perm_trans (perm_filter _ p)); rewrite filter_cat.
have := u; rewrite (perm_uniq p) cat_uniq => /and3P[u1 /hasPn h u2].
rewrite (_ : [seq x <- rem | _] = [::]) /=; last by apply/eqP; rewrite -(negbK (_ == _)) -has_filter; apply/hasPn => x ->.
by rewrite (_ : [seq x <- cd0 | _] = cd0) //; apply/all_filterP/allP => x hx; exact: h.
Qed.

Lemma possible_valid cd c u : uniq cd -> uniq c -> hyb_possible cd c u -> valid cd c (to_call u).
Proof.
move=> u1 u2 [cd0 [c0 [p1 [p2 nd]]]].
have q1 := Permutation_perm_eq p1; have q2 := Permutation_perm_eq p2; rewrite !app_cat in q1 q2.
have k1 := kept_rest u1 q1; have k2 := kept_rest u2 q2.
split.
- by move=> x hx; rewrite (perm_mem q1) mem_cat hx.
- by move=> x hx; rewrite (perm_mem q2) mem_cat hx.
- by move: u1; rewrite (perm_uniq q1) cat_uniq => /and3P[].
- by move: u2; rewrite (perm_uniq q2) cat_uniq => /and3P[].
move/NoDup_uniq: nd; rewrite !app_cat => un.
apply: etrans un; apply: perm_uniq; apply: perm_map; rewrite /T_DetHistory.new_cd /T_DetHistory.new_c /T_DetHistory.after /=.
by apply: perm_cat; rewrite perm_catC; apply: perm_cat.
Qed.

Lemma result_new cd c u cd' c' : uniq cd -> uniq c -> hyb_possible cd c u -> hyb_result cd c u cd' c' ->
  perm_eq cd' (T_DetHistory.new_cd (to_call u) cd) /\ perm_eq c' (T_DetHistory.new_c (to_call u) c).
Proof.
move=> u1 u2 [cd0 [c0 [p1 [p2 _]]]] [r1 r2].
have q1 := Permutation_perm_eq p1; have q2 := Permutation_perm_eq p2.
have s1 := Permutation_perm_eq r1; have s2 := Permutation_perm_eq r2; rewrite !app_cat in q1 q2 s1 s2.
have k1 := kept_rest u1 q1; have k2 := kept_rest u2 q2.
have G (x x0 xr xa x' : seq psi) : perm_eq x (xr ++ x0) -> perm_eq (x' ++ xr) (x ++ xa) -> perm_eq (T_DetUpdate.kept xr x) x0 ->
    perm_eq x' (T_DetUpdate.kept xr x ++ xa).
  move=> h1 h2 h3; rewrite -(perm_cat2r xr); apply: (perm_trans h2); rewrite perm_sym.
  apply: (@perm_trans _ ((x0 ++ xa) ++ xr)); first by rewrite perm_cat2r perm_cat2r.
  rewrite perm_sym; apply: (@perm_trans _ ((xr ++ x0) ++ xa)); first by rewrite perm_cat2r.
  by rewrite -catA perm_catC.
by split; [exact: G q1 s1 k1|exact: G q2 s2 k2].
Qed.

Lemma new_result cd c u : uniq cd -> uniq c -> hyb_possible cd c u -> hyb_result cd c u (T_DetHistory.new_cd (to_call u) cd) (T_DetHistory.new_c (to_call u) c).
Proof.
move=> u1 u2 [cd0 [c0 [p1 [p2 _]]]].
have q1 := Permutation_perm_eq p1; have q2 := Permutation_perm_eq p2; rewrite !app_cat in q1 q2.
have k1 := kept_rest u1 q1; have k2 := kept_rest u2 q2.
have G (x x0 xr xa : seq psi) : perm_eq x (xr ++ x0) -> perm_eq (T_DetUpdate.kept xr x) x0 ->
    perm_eq ((T_DetUpdate.kept xr x ++ xa) ++ xr) (x ++ xa).
  move=> h1 h3; apply: (@perm_trans _ ((x0 ++ xa) ++ xr)); first by rewrite perm_cat2r perm_cat2r.
  rewrite perm_sym; apply: (@perm_trans _ ((xr ++ x0) ++ xa)); first by rewrite perm_cat2r.
  by rewrite -catA perm_catC.
by split; apply: perm_eq_Permutation; rewrite !app_cat; [exact: G q1 k1|exact: G q2 k2].
Qed.

Lemma inb_perm b (s t : seq psi) : perm_eq s t -> perm_eq (inb (blk lab nb) b s) (inb (blk lab nb) b t).
Proof. exact: perm_filter. Qed.
Lemma lossy_perm cd c cd' c' u : perm_eq cd cd' -> perm_eq c c' -> ms_lossy cd c u = ms_lossy cd' c' u.
Proof.
move=> p1 p2; apply: eq_has => b; congr (_ && (_ == _)); rewrite /kept_det; apply: hyb_det_ext; apply: kept_perm; exact: inb_perm.
Qed.
Lemma full_det_perm cd c cd' c' : perm_eq cd cd' -> perm_eq c c' -> full_det F lab nb cd c = full_det F lab nb cd' c'.
Proof. exact: hyb_det_ext. Qed.
Lemma phist_uniq M cd c : phist M cd c -> [/\ uniq (map p_time (cd ++ c)), uniq cd, uniq c & all (flavor_known lab) (cd ++ c)].
Proof.
move=> /(phist_ok lab_ok)[_ _ _ _ [u k]]; split=> //; move: (u); rewrite map_cat cat_uniq => /and3P[v1 _ v2]; [exact: map_uniq v1|exact: map_uniq v2].
Qed.

Theorem C60_det_contract : det_contract K (ms K) (@ms_cd K) (@ms_c K) (ms_try F lab nb) (ms_perform junk nb) (ms_reject nb)
  (full_det F lab nb) ms_wf ms_ok ms_lossy.
Proof.
split; [|split].
- move=> cd c cd' c' /Permutation_perm_eq p1 /Permutation_perm_eq p2; exact: full_det_perm.
- move=> m [M [cd [c [-> hh]]]] /=; have [_ nz _ [o1 o2] _] := C34_history lab_ok hh.
  by rewrite (full_det_perm o1 o2).
move=> m u [M [cd [c [-> hh]]]] hpos hlen [hk hp] /=.
have [_ nz _ [o1 o2] _] := C34_history lab_ok hh; have [ut ucd uc _] := phist_uniq hh.
have hposs : hyb_possible cd c u.
  move: hpos => [cd0 [c0 [p1 [p2 nd]]]]; exists cd0, c0; split; [|split=> //].
    by apply: Permutation_trans p1; apply: perm_eq_Permutation; rewrite perm_sym.
  by apply: Permutation_trans p2; apply: perm_eq_Permutation; rewrite perm_sym.
have hv := possible_valid ucd uc hposs.
have [x [M1 [e h1 h2 h3 [M3 e3 hh3]]]] := C34_ratio lab_ok hh hv hk hp.
have toR cd' c' : hyb_result (pm_cd_order M) (pm_c_order M) u cd' c' -> hyb_result cd c u cd' c'.
  move=> [r1 r2]; split; [apply: (Permutation_trans r1)|apply: (Permutation_trans r2)]; apply: Permutation_app => //; exact: perm_eq_Permutation.
rewrite -[DetPartitioned.try_update _ _ _ _ _ _ _ _]/(ptry F lab nb (to_call u) M) e /=; split; [|split].
- move=> cd' c' /toR hr; have [q1 q2] := result_new ucd uc hposs hr.
  rewrite (lossy_perm u o1 o2) (full_det_perm o1 o2) (full_det_perm q1 q2) /ms_lossy.
  by case: ifP => [/h2|/negbT/h1].
- move=> nx; have [M2 -> hh2] := h3 nx; split; first by exists M2, (T_DetHistory.new_cd (to_call u) cd), (T_DetHistory.new_c (to_call u) c).
  have [_ _ _ [n1 n2] _] := C34_history lab_ok hh2; have [r1 r2] := new_result ucd uc hposs.
  have [o1' o2'] : Permutation cd (pm_cd_order M) /\ Permutation c (pm_c_order M).
    by split; apply: perm_eq_Permutation; rewrite perm_sym.
  split.
    apply: (Permutation_trans _ (Permutation_app_tail _ o1')); apply: (Permutation_trans _ r1); apply: Permutation_app_tail; exact: perm_eq_Permutation.
  apply: (Permutation_trans _ (Permutation_app_tail _ o2')); apply: (Permutation_trans _ r2); apply: Permutation_app_tail; exact: perm_eq_Permutation.
rewrite e3 /=; have [_ _ _ [n1 n2] _] := C34_history lab_ok hh3.
split; first by exists M3, cd, c.
split; apply: perm_eq_Permutation.
  by apply: (perm_trans o1); rewrite perm_sym.
by apply: (perm_trans o2); rewrite perm_sym.
Qed.

(** ** compute_determinant_as_product *)
Variable luv : forall n, 'M[K]_n -> seq K.
Hypothesis luv_ok : forall n (A : 'M[K]_n), is_lu_vec A (luv A).

Lemma prod_asc (s : seq K) : \prod_(x <- asc_sort s) x = \prod_(x <- s) x.
Proof. by apply: perm_big; rewrite perm_sort. Qed.
Lemma prod_mul_first (x : K) s : (0 < size s)%N -> \prod_(y <- mul_first x s) y = x * \prod_(y <- s) y.
Proof. by case: s => //= a s _; rewrite !big_cons [a * x]mulrC mulrA. Qed.

Lemma dm_det_vecE m cd c : T_DetUpdate.at_rest F m cd c ->
  \prod_(x <- dm_det_vec luv m) x = DetMatrix.compute_determinant m /\ (0 < size (dm_det_vec luv m))%N.
Proof.
move=> [_ hw _ _]; rewrite /dm_det_vec; case: eqP => e0.
  split=> //; rewrite big_seq1 /DetMatrix.compute_determinant e0 det_mx00 divr1.
  have [_ _ h3 [m1 _ _] _] := hw; have hd := wf_det hw.
  move: e0; rewrite /dsize m1 => /size0nil e2; have /size0nil e1 : size (s_ops (d_cdagg m)) = 0%N by rewrite -?h3 ?e2 // h3 e2.
  by move: hd; rewrite e1 e2 /hyb_det /= /detL det_mx00 mulr1 => <-.
have lo := luv_ok (toM (dsize m) (dsize m) (d_inv m)).
have sz : size (luv (toM (dsize m) (dsize m) (d_inv m))) = dsize m by case: lo => p [q [L [U [_ _ _ _ []]]]].
have sz0 : (0 < size [seq (1 / x)%R | x <- luv (toM (dsize m) (dsize m) (d_inv m))])%N by rewrite size_map sz lt0n; apply/eqP.
split; last by rewrite size_sort; move: sz0; case: map.
rewrite prod_asc prod_mul_first // big_map /DetMatrix.compute_determinant; congr (_ * _).
rewrite -(is_lu_vec_det lo) -prodfV; apply: eq_bigr => x _; exact: div1r.
Qed.

Theorem C60_det_vec M cd c : (0 < nb)%N -> phist M cd c -> \prod_(x <- pm_det_vec luv M) x = full_det F lab nb cd c.
Proof.
move=> nb0 hh; have [<- _ _ _ _] := C34_history lab_ok hh.
have [[sz hm] _ _ _ _] := phist_ok lab_ok hh.
rewrite /pm_det_vec prod_asc prod_mul_first /DetPartitioned.compute_determinant; last first.
  case: (pm_mats M) sz hm => [e|m ms0 _ hm]; first by rewrite -e in nb0.
  by rewrite /= size_cat ltn_addr //; have [] := dm_det_vecE (hm m 0%N nb0).
have fE (l : seq K) : foldl (fun r x => r * x) 1 l = \prod_(x <- l) x by rewrite foldl_prod (big_nth 0) big_mkord.
congr (_ * _); rewrite fE big_flatten !big_map.
case: (pm_mats M) sz hm => [|m0 ms0] sz hm; first by rewrite !big_nil.
rewrite !(big_nth m0) big_nat [RHS]big_nat; apply: eq_bigr => i /andP[_ hi].
by have [] := dm_det_vecE (hm m0 i _); rewrite -?sz.
Qed.
End Det.

(** With cutoff 0 a negative answer of the lazy evaluation comes with the value 0. *)
Lemma lazy_zero (K : numFieldType) (eps : K) order bs cs : (lazy_eval_trace eps order bs cs 0).1 = false -> (lazy_eval_trace eps order bs cs 0).2 = 0.
Proof.
have G (sum : K) : (0 < `|sum|) = false -> sum = 0 by rewrite normr_gt0 => /negbFE/eqP.
suff : forall sum, (lazy_loop eps cs 0 order bs sum).1 = false -> (lazy_loop eps cs 0 order bs sum).2 = 0 by exact.
elim: order bs => [|i r IH] bs sum; first exact: G.
rewrite [lazy_loop _ _ _ _ _ _]/=; case: ifP => _; first exact: G.
by case: ifP => // _; exact: IH.
Qed.

Section Run.
Variable K : numFieldType.
Variables (W : Type) (w_ops : W -> seq psi).
Variable F : psi -> psi -> K.
Variable junk : nat -> nat -> K.
Variables (lab : seq nat) (nb : nat).
Variables (np : int) (mo : umode) (wk : work K).
Variable luv : forall n, 'M[K]_n -> seq K.
Variable geps : K.
Variables (Ket Bra : Type) (outer : list (Bra * Ket)).
Variables (ket_invalid : Ket -> bool) (bra_invalid : Bra -> bool) (ket_nil : Ket) (bra_nil : Bra).
Variables (apply_ket : optype -> nat -> Ket -> Ket) (apply_bra : optype -> nat -> Bra -> Bra).
Variables (prop_ket : Z -> Ket -> Ket) (prop_bra : Z -> Bra -> Bra).
Variables (normalize_ket : Ket -> Ket) (normalize_bra : Bra -> Bra).
Variables (norm_ket : Ket -> K) (norm_bra : Bra -> K).
Variables (sec_ket : Ket -> nat) (sec_bra : Bra -> nat).
Variable product : Bra -> Ket -> K.
Variable tau : nat -> nat -> Z.
Variable cut : K.
Variables (min_dim : Ket -> nat) (dst : optype -> nat -> nat -> option nat) (dim_sector : nat -> nat) (cexp : nat -> Z -> K).
Variable rank : Ket -> nat.
Variable eps : K.
Variable order : seq K -> seq nat.
Variable beta : Z.

(** The hypotheses of C22, C24 and C34; nothing is truncated. *)
Hypothesis lab_ok : all (fun b => b < nb)%N lab.
Hypothesis nb_gt0 : (0 < nb)%N.
Hypothesis luv_ok : forall n (A : 'M[K]_n), is_lu_vec A (luv A).
Hypothesis H : braket_ok ket_invalid bra_invalid ket_nil bra_nil apply_ket apply_bra prop_ket prop_bra
  normalize_ket normalize_bra sec_ket sec_bra product.
Hypothesis N : norm_ok ket_invalid apply_ket prop_ket norm_ket norm_bra sec_ket product min_dim dst dim_sector cexp rank.
Hypothesis tau_0 : forall n, (0 < n)%N -> tau n 0 = 0%coqZ.
Hypothesis tau_beta : forall n, (0 < n)%N -> tau n (2 * n) = beta.
Hypothesis tau_mono : forall n p q, (p <= q)%N -> (q <= 2 * n)%N -> (tau n p <= tau n q)%coqZ.
Hypothesis eps_ge0 : 0 <= eps.
Hypothesis cut0 : cut = 0.
Hypothesis order_ok : forall bs, descending bs (order bs).

Notation sw := (sw K Ket Bra).
Notation config := (config K W (ms K)).
Notation state := (state K W Ket Bra).
Notation reach := (T_Window.reach outer ket_invalid bra_invalid ket_nil bra_nil apply_ket apply_bra prop_ket prop_bra
  normalize_ket normalize_bra norm_ket norm_bra tau cut).
Notation tbounds := (trace_bounds ket_invalid bra_invalid sec_ket sec_bra tau min_dim dst dim_sector cexp).
Notation bound_sum := (bound_sum ket_invalid bra_invalid sec_ket sec_bra tau min_dim dst dim_sector cexp).
Notation lazy_at := (lazy_at ket_invalid bra_invalid apply_ket prop_ket normalize_ket sec_ket sec_bra product tau
  min_dim dst dim_sector cexp eps order).
Notation local_update := (local_update w_ops F junk lab nb ket_invalid bra_invalid apply_ket prop_ket normalize_ket
  sec_ket sec_bra product tau min_dim dst dim_sector cexp eps order).
Notation consistent := (consistent K W w_ops (ms K) (@ms_cd K) (@ms_c K) (full_det F lab nb) (ms_wf F junk lab nb)
  (full_trace outer apply_ket prop_ket product beta)).
Notation ftr := (full_trace outer apply_ket prop_ket product beta).
Notation ops mc := (operators K W (ms K) mc).
Notation det mc := (mstate K W (ms K) mc).
Notation det_of mc := (full_det F lab nb (ms_cd (det mc)) (ms_c (det mc))).
Notation setw := (set_window_size ket_invalid bra_invalid ket_nil bra_nil apply_ket apply_bra prop_ket prop_bra
  normalize_ket normalize_bra norm_ket norm_bra tau cut).
Notation run_cmd := (run_cmd w_ops F junk lab nb np mo wk luv geps ket_invalid bra_invalid ket_nil bra_nil apply_ket apply_bra
  prop_ket prop_bra normalize_ket normalize_bra norm_ket norm_bra sec_ket sec_bra product tau cut min_dim dst dim_sector cexp eps order).
Notation run := (run w_ops F junk lab nb np mo wk luv geps ket_invalid bra_invalid ket_nil bra_nil apply_ket apply_bra
  prop_ket prop_bra normalize_ket normalize_bra norm_ket norm_bra sec_ket sec_bra product tau cut min_dim dst dim_sector cexp eps order).
Notation start := (start W junk lab nb np mo wk outer ket_invalid bra_invalid ket_nil bra_nil apply_ket apply_bra
  prop_ket prop_bra normalize_ket normalize_bra norm_ket norm_bra sec_ket sec_bra product tau cut).
Notation new_worm mc p := (match p_worm_new K W p with None => Updater.worm K W (ms K) mc | Some w => w end).
Notation wops := (worm_ops W w_ops).

(** *** The trace at a window *)
(** Operators for which the window [s] evaluates the trace exactly *)
Definition tr_ok (s : sw) (l : container) : Prop := [/\ reach l s, csorted l, times_in beta l & no_gap eps (tbounds l s)].

Lemma trace_at s : trace_contract K (bound_sum s) (lazy_at s) ftr (tr_ok s).
Proof.
have G l c : tr_ok s l -> _ := fun h => let: And4 h1 h2 h3 h4 := h in
  C24_full_trace H N tau_0 tau_beta tau_mono c eps_ge0 cut0 h1 h2 h3 (order_ok (tbounds l s)) h4.
split; [|split] => [l h|l c h|l c h]; [by have [] := G l 0 h|by have [_ []] := G l c h|by have [_ [_]] := G l c h].
Qed.
Lemma lazy_full s l : tr_ok s l -> (lazy_at s l 0).2 = ftr l.
Proof.
move=> h; have [_ [h2 h3]] := trace_at s; have := h2 l 0 h; have := h3 l 0 h.
rewrite -[fst _]/(_.1) -[snd _]/(_.2); case e: (lazy_at s l 0).1 => [|] h4 h5; first exact: h4.
by rewrite /Assembly.lazy_at lazy_zero //; move/esym: h5; rewrite normr_gt0 => /negbFE/eqP.
Qed.

(** *** Legal commands *)
(** A proposal: removed operators are hybridized with the bath, the numbers of creation and annihilation operators stay
    equal, the correction factor is positive, the determinant object can handle it, all operators that change are inside
    the window, and the bounds of the trace do not differ by more than the factor [eps] (see C24). *)
Definition legal_prop (s : sw) (mc : config) (p : proposal K W) : Prop :=
  let u := p_hyb K W p in
  [/\ (exists cd0, Permutation (ms_cd (det mc)) (Updater.cd_rem u ++ cd0)) /\ (exists c0, Permutation (ms_c (det mc)) (Updater.c_rem u ++ c0)),
      (size (Updater.cd_add u) + size (Updater.c_rem u) = size (Updater.c_add u) + size (Updater.cd_rem u))%N,
      0 < p_corr K W p /\ ms_ok lab nb u &
      forall rem add, merge_diff (Updater.cd_rem u ++ Updater.c_rem u) (Updater.cd_add u ++ Updater.c_add u)
          (wops (Updater.worm K W (ms K) mc)) (wops (new_worm mc p)) = (rem, add) ->
        (forall x, In x rem \/ In x add -> rng_cc (tau_low tau s) (tau_high tau s) x) /\
        (forall l rec, update_operators (ops mc) rem add = UTrue l rec -> no_gap eps (tbounds l s))].

(** A global update: the transformed operators have different times in [0, beta] and flavors with a block, no factor of the
    new determinant is discarded (C55), no gap between the bounds at the auxiliary window [s2]. *)
Definition legal_global (n : nat) (hop : psi -> psi) (wop : W -> W) (r : K) (st : state) : Prop :=
  let mc := st_mc st in
  [/\ (0 < n)%N, 0 <= r & (0 < size (ms_cd (det mc)))%N ->
    let cd := map hop (ms_cd (det mc)) in
    let c := map hop (ms_c (det mc)) in
    let l := transformed w_ops hop wop mc in
    [/\ uniq (map p_time (cd ++ c ++ wops (omap wop (Updater.worm K W (ms K) mc)))), all (flavor_known lab) (cd ++ c),
        (let v := block_vec (blk lab nb) nb (lu_ops F luv) cd c in balanced (blk lab nb) nb cd c -> all (kept geps (abs_sort v)) v),
        times_in beta l &
        forall s1 s2, setw 1 (ops mc) 0 (Some ITIME_LEFT) (st_sw st) = WOk s1 -> setw n l 0 (Some ITIME_LEFT) s1 = WOk s2 ->
          no_gap eps (tbounds l s2)]].

(** [fresh]: the determinant vector was computed after the last local update *)
Definition legal (fresh : bool) (st : state) (k : cmd K W) : Prop :=
  match k with
  | Update p r => 0 <= r /\ forall p', p = Some p' -> legal_prop (st_sw st) (st_mc st) p'
  | Resize n => (0 < n)%N
  | Global n hop wop r => fresh /\ legal_global n hop wop r st
  | _ => True
  end.
Definition fresh_after (fresh : bool) (k : cmd K W) : bool := match k with Update _ _ => false | DetVec => true | _ => fresh end.
Fixpoint legal_run (fresh : bool) (st : state) (ks : seq (cmd K W)) : Prop :=
  if ks is k :: ks' then legal fresh st k /\ forall st', run_cmd st k = Some st' -> legal_run (fresh_after fresh k) st' ks' else True.

(** *** Invariant *)
Definition inv (st : state) : Prop :=
  [/\ consistent (st_mc st), reach (ops (st_mc st)) (st_sw st) & times_in beta (ops (st_mc st))].
Definition dv_ok (st : state) : Prop := \prod_(x <- st_dv st) x = det_of (st_mc st).

Let pok s := proposal_ok K W w_ops (ms K) (@ms_cd K) (@ms_c K) (ms_ok lab nb) (tr_ok s).

Lemma rem_known mc p rem add : consistent mc ->
  (exists cd0, Permutation (ms_cd (det mc)) (Updater.cd_rem (p_hyb K W p) ++ cd0)) ->
  (exists c0, Permutation (ms_c (det mc)) (Updater.c_rem (p_hyb K W p) ++ c0)) ->
  merge_diff (Updater.cd_rem (p_hyb K W p) ++ Updater.c_rem (p_hyb K W p)) (Updater.cd_add (p_hyb K W p) ++ Updater.c_add (p_hyb K W p))
    (wops (Updater.worm K W (ms K) mc)) (wops (new_worm mc p)) = (rem, add) ->
  NoDup rem /\ forall x, In x rem -> In x (ops mc).
Proof.
move=> [HS [HP _]] [cd0 Hcd] [c0 Hc] HM; rewrite -!app_cat in Hcd Hc HM.
have HPold : Permutation (ops mc) (((Updater.cd_rem (p_hyb K W p) ++ Updater.c_rem (p_hyb K W p)) ++ wops (Updater.worm K W (ms K) mc)) ++ (cd0 ++ c0))%list.
  apply: (Permutation_trans HP); apply: (Permutation_trans (Permutation_app Hcd (Permutation_app_tail _ Hc))).
  by apply: perm_eq_Permutation; rewrite !app_cat; apply/seq.permP => f; rewrite !count_cat; lia.
have HND : NoDup (ops mc) := NoDup_map_inv' _ _ (csorted_NoDup_times _ HS).
have HNDo := NoDup_app_remove_r _ _ (Permutation_NoDup HPold HND).
have [h1 h2] := merge_diff_rem_sub _ _ _ _ _ _ HM HNDo; split=> // x /h2 hx.
by apply: (Permutation_in x (Permutation_sym HPold)); apply: in_or_app; left.
Qed.

Lemma ot_le_trans a b c : ot_le a b -> ot_le b c -> ot_le a c.
Proof. rewrite !ot_le_negb /ot_lt; move=> h1 h2; apply/negP => h3; move: h1 h2 h3; do !case: Z.eqb_spec; do ?case: Z.ltb_spec; lia. Qed.

Lemma rng_in s l x : reach l s -> rng_cc (tau_low tau s) (tau_high tau s) x -> ot_le (at_ 0) (p_time x) /\ ot_le (p_time x) (at_ beta).
Proof.
move=> /(reach_wf tau_mono)[hw hr] /andP[h1 h2].
have [n1 _ _ l2 _ _] := hw; have [rl _] := rest_le hw hr.
split; [apply: ot_le_trans h1|apply: (ot_le_trans h2)].
  have := @tau_mono (nwin s) 0 (posR s) isT; rewrite tau_0 // /tau_low.
  rewrite !ot_le_negb /ot_lt /=; case: Z.eqb_spec; do ?case: Z.ltb_spec; lia.
have := @tau_mono (nwin s) (posL s) (2 * nwin s) l2 (leqnn _); rewrite tau_beta // /tau_high.
rewrite !ot_le_negb /ot_lt /=; case: Z.eqb_spec; do ?case: Z.ltb_spec; lia.
Qed.

Lemma new_ok s mc p rem add l rec : consistent mc -> reach (ops mc) s -> times_in beta (ops mc) -> legal_prop s mc p ->
  merge_diff (Updater.cd_rem (p_hyb K W p) ++ Updater.c_rem (p_hyb K W p)) (Updater.cd_add (p_hyb K W p) ++ Updater.c_add (p_hyb K W p))
    (wops (Updater.worm K W (ms K) mc)) (wops (new_worm mc p)) = (rem, add) ->
  update_operators (ops mc) rem add = UTrue l rec -> tr_ok s l.
Proof.
move=> hc hr ht [[q1 q2] _ _ hl] em eu; have [h1 h2] := hl _ _ em.
have [r1 r2] := rem_known hc q1 q2 em; have [hs _] := hc.
have hr' := C22_update_inside hr hs r1 r2 eu h1.
have := @update_operators_ok (ops mc) rem add hs r1 r2; rewrite eu => -[hs' _].
split=> //; last exact: h2 eu.
move=> x /(@update_operators_in _ _ _ _ _ x hs r1 r2 eu)[[hx _]|hx]; first exact: ht.
by apply: (rng_in hr); apply: h1; right.
Qed.

Lemma legal_ok s mc p : consistent mc -> reach (ops mc) s -> times_in beta (ops mc) -> legal_prop s mc p -> pok s mc p.
Proof.
move=> hc hr ht hl; have [[q1 q2] q3 [q4 q5] _] := hl.
rewrite /pok /proposal_ok; do 5!split=> //; move=> rem add l rec em eu; exact: new_ok em eu.
Qed.

Lemma not_thrown s mc p r ct : consistent mc -> legal_prop s mc p -> forall mc', local_update s mc ct (Some p) r <> Threw K W (ms K) mc'.
Proof.
move=> hc [[q1 q2] _ _ hl] mc'; rewrite /Assembly.local_update /Updater.update.
case em: (merge_diff _ _ _ _) => [rem add]; have [h1 _] := hl _ _ em.
have rc l : (forall x, In x l -> rng_cc (tau_low tau s) (tau_high tau s) x) -> range_check (tau_low tau s) (tau_high tau s) l.
  move=> h; apply: (proj2 (forallb_forall _ _)) => x /h; rewrite /rng_cc !ot_le_negb /ot_lt /=.
  by do !case: Z.eqb_spec; do ?case: Z.ltb_spec => //=; lia.
rewrite (rc rem) ?(rc add) /=; [|by move=> x hx; apply: h1; right|by move=> x hx; apply: h1; left].
have [r1 r2] := rem_known hc q1 q2 em; have [hs _] := hc.
have := @update_operators_ok (ops mc) rem add hs r1 r2; case: (update_operators _ _ _) => [l|l rec|l rec] // _.
case: (ms_try _ _ _ _ _) => dr m.
have A a b c d : match accept_config K W w_ops (ms K) (@ms_cd K) (@ms_c K) (ms_perform junk nb) mc l a b c d with
    | Some mc0 => Done K W (ms K) mc0 (finalize ct true true) true | None => Updater.UB K W (ms K) end <> Threw K W (ms K) mc'.
  by case: accept_config.
case: rem {em h1 r1 r2} => [|x rem]; case: add => [|y add]; try (by case: ifP => // _; case: ifP => // _; case: (lazy_at s l _) => [[] t] //; exact: A).
Qed.

Lemma accepted_ops s mc p r ct mc' ct' : local_update s mc ct (Some p) r = Done K W (ms K) mc' ct' true ->
  exists rem add rec, merge_diff (Updater.cd_rem (p_hyb K W p) ++ Updater.c_rem (p_hyb K W p)) (Updater.cd_add (p_hyb K W p) ++ Updater.c_add (p_hyb K W p))
    (wops (Updater.worm K W (ms K) mc)) (wops (new_worm mc p)) = (rem, add) /\ update_operators (ops mc) rem add = UTrue (ops mc') rec.
Proof.
rewrite /Assembly.local_update /Updater.update.
case em: (merge_diff _ _ _ _) => [rem add]; case: ifP => // _.
case eu: (update_operators _ _ _) => [l|l rec|l rec] //.
case: (ms_try _ _ _ _ _) => dr m.
have A a b c d : match accept_config K W w_ops (ms K) (@ms_cd K) (@ms_c K) (ms_perform junk nb) mc l a b c d with
    | Some mc0 => Done K W (ms K) mc0 (finalize ct true true) true | None => Updater.UB K W (ms K) end = Done K W (ms K) mc' ct' true -> ops mc' = l.
  by rewrite /accept_config; case: (compute_permutation_sign_impl _ _ _) => // pn [<-].
move=> h; exists rem, add, rec; split=> //; rewrite eu; congr (UTrue _ _); symmetry; move: h.
case: rem {em eu} => [|x rem]; case: add => [|y add]; try (by case: ifP => // _; case: ifP => // _; case: (lazy_at s l _) => [[] t] // /A).
by case: ifP => // _ /A.
Qed.

(** *** One local update *)
(** It returns; the invariant is kept; it is accepted exactly when the random number is below the modulus of correction factor
    times ratio of determinants times ratio of traces, unless operators are replaced around a singular matrix (then it is
    rejected); an accepted update leaves the proposed operators, a rejected one changes nothing but the order inside the
    determinant object. *)
Theorem C60_update st p r : inv st -> 0 <= r -> legal_prop (st_sw st) (st_mc st) p ->
  exists mc' ct acc,
  [/\ local_update (st_sw st) (st_mc st) (Cnt 0 0 0) (Some p) r = Done K W (ms K) mc' ct acc,
      inv (State mc' (st_sw st) (st_dv st)),
      (acc <-> exists cd' c' ops', [/\ hyb_result (ms_cd (det (st_mc st))) (ms_c (det (st_mc st))) (p_hyb K W p) cd' c',
         csorted ops' /\ Permutation ops' (cd' ++ c' ++ wops (new_worm (st_mc st) p)),
         ~~ ms_lossy F lab nb (ms_cd (det (st_mc st))) (ms_c (det (st_mc st))) (p_hyb K W p) &
         r < `|p_corr K W p * (full_det F lab nb cd' c' / det_of (st_mc st)) * (ftr ops' / ftr (ops (st_mc st)))|]),
      (acc -> Updater.worm K W (ms K) mc' = new_worm (st_mc st) p /\
         hyb_result (ms_cd (det (st_mc st))) (ms_c (det (st_mc st))) (p_hyb K W p) (ms_cd (det mc')) (ms_c (det mc'))) &
      ~~ acc -> [/\ ops mc' = ops (st_mc st), Updater.worm K W (ms K) mc' = Updater.worm K W (ms K) (st_mc st),
         trace K W (ms K) mc' = trace K W (ms K) (st_mc st) & sign K W (ms K) mc' = sign K W (ms K) (st_mc st)]].
Proof.
case: st => mc s dv [/= hc hr ht] r0 hl; have hp := legal_ok hc hr ht hl.
have HD := C60_det_contract F junk lab_ok.
have HT := trace_at s.
have hpo p' : Some p = Some p' -> pok s mc p' by case=> <-.
have spec := update_spec _ _ _ _ _ _ _ _ _ _ _ _ _ _ _ _ _ (tau_low tau s) (tau_high tau s) mc (Cnt 0 0 0) (Some p) r HD HT hc hpo r0.
case e: (local_update s mc (Cnt 0 0 0) (Some p) r) => [mc'||mc' ct acc].
- by case: (not_thrown hc hl e).
- by move: e spec; rewrite /Assembly.local_update => ->.
exists mc', ct, acc; have mp := C04_metropolis_rule _ _ _ _ _ _ _ _ _ _ _ _ _ _ _ _ _ HD HT _ _ _ _ _ _ _ _ _ hc hp r0 e.
have hc' := C05_update_keeps_consistent _ _ _ _ _ _ _ _ _ _ _ _ _ _ _ _ _ HD HT _ _ _ _ _ _ _ _ _ hc hpo r0 e.
have na : ~~ acc -> [/\ ops mc' = ops mc, Updater.worm K W (ms K) mc' = Updater.worm K W (ms K) mc,
    trace K W (ms K) mc' = trace K W (ms K) mc & sign K W (ms K) mc' = sign K W (ms K) mc].
  by move: spec; move: (e); rewrite /Assembly.local_update => ->; case: (acc) => // -[h1 [h2 [h3 [h4 _]]]] _.
split=> //.
- case: (boolP acc) (na) => ha na'; last by have [|e1 _ _ _] := na' => //; split; rewrite //= e1.
  move: e; rewrite ha => /accepted_ops[rem [add [rec [em eu]]]].
  by have [h1 h2 h3 _] := new_ok hc hr ht hl em eu; split.
- apply: (iff_trans mp); split=> -[cd' [c' [l h]]]; exists cd', c', l.
    by have [h1 [h2 [h3 [h4 h5]]]] := h; split=> //; rewrite /ms_lossy; rewrite -/(ms_lossy F lab nb _ _ _) h4.
  by have [h1 [h2 h3] /negbTE h4 h5] := h.
- by move=> ha; move: spec; move: (e); rewrite /Assembly.local_update => ->; rewrite ha => -[_ [p0 [[<-] [h1 [h2 _]]]]].
Qed.

(** *** One global update *)
Lemma blk_known (x : psi) : flavor_known lab x = (blk lab nb (p_flavor x) < nb)%N.
Proof.
rewrite /flavor_known /blk; case: (ltnP (p_flavor x) (size lab)) => h; last by rewrite nth_default ?ltnn.
by rewrite (allP lab_ok) // mem_nth.
Qed.
Lemma known_blocks (s : seq psi) : all (flavor_known lab) s = in_blocks (blk lab nb) nb s.
Proof. by apply: eq_all => x; exact: blk_known. Qed.

Notation within := (within F lab nb).
Let luw (xs ys : seq psi) : seq K := luv (matL psi0 psi0 within (size xs) xs ys).
Lemma matL_within b (cd c : seq psi) : size (inb (blk lab nb) b cd) = size (inb (blk lab nb) b c) ->
  matL psi0 psi0 F (size (inb (blk lab nb) b c)) (inb (blk lab nb) b c) (inb (blk lab nb) b cd) =
  matL psi0 psi0 within (size (inb (blk lab nb) b c)) (inb (blk lab nb) b c) (inb (blk lab nb) b cd).
Proof.
move=> e; apply/matrixP => i j; rewrite !mxE /T_DetPartitioned.within.
have hi : nth psi0 (inb (blk lab nb) b c) i \in inb (blk lab nb) b c by rewrite mem_nth.
have hj : nth psi0 (inb (blk lab nb) b cd) j \in inb (blk lab nb) b cd by rewrite mem_nth // e.
by move: hi hj; rewrite !mem_inb => /andP[/eqP -> _] /andP[/eqP -> _]; rewrite eqxx.
Qed.
Lemma block_vec_within cd c : ~~ has (fun b => size (inb (blk lab nb) b cd) != size (inb (blk lab nb) b c)) (iota 0 nb) ->
  block_vec (blk lab nb) nb (lu_ops F luv) cd c = block_vec (blk lab nb) nb luw cd c.
Proof.
move=> /hasPn h; rewrite /block_vec; congr flatten; apply/eq_in_map => b /h /negPn /eqP e.
by rewrite /lu_ops /luw matL_within.
Qed.
Lemma det_rat_within cd c dv : det_rat (blk lab nb) nb (lu_ops F luv) geps cd c dv = det_rat (blk lab nb) nb luw geps cd c dv.
Proof. by rewrite /det_rat; case: ifP => // /negbT hb; rewrite (block_vec_within hb). Qed.
Lemma hk_within cd c : (let v := block_vec (blk lab nb) nb (lu_ops F luv) cd c in balanced (blk lab nb) nb cd c -> all (kept geps (abs_sort v)) v) ->
  let v := block_vec (blk lab nb) nb luw cd c in balanced (blk lab nb) nb cd c -> all (kept geps (abs_sort v)) v.
Proof.
move=> h v hb; rewrite /v -block_vec_within; first exact: h.
by apply/hasPn => b /(allP hb); rewrite negbK eq_sym.
Qed.
Lemma luw_ok xs ys : size xs = size ys -> is_lu_vec (matL psi0 psi0 within (size xs) xs ys) (luw xs ys).
Proof. by move=> _; exact: luv_ok. Qed.

Lemma build_ok cd c : size cd = size c -> uniq (map p_time (cd ++ c)) -> in_blocks (blk lab nb) nb (cd ++ c) ->
  hyb_det within cd c != 0 ->
  let m := ms_build F junk lab nb np mo wk (zip cd c) in ms_wf F junk lab nb m /\ Permutation (ms_cd m) cd /\ Permutation (ms_c m) c.
Proof.
move=> e1 e2; rewrite -known_blocks => e3 e4; have [M eM hM] := C34_build junk lab_ok np mo wk e1 e2 e3 e4.
rewrite /ms_build eM /=; split; first by exists M, cd, c.
by have [_ _ _ [o1 o2] _] := C34_history lab_ok hM; split; exact: perm_eq_Permutation.
Qed.
Lemma ms_wf_det m : ms_wf F junk lab nb m -> hyb_det within (ms_cd m) (ms_c m) != 0.
Proof. by have [_ [h _]] := C60_det_contract F junk lab_ok; exact: h. Qed.

Lemma set1 l l' s n : reach l s -> (0 < n)%N -> exists s', [/\ setw n l' 0 (Some ITIME_LEFT) s = WOk s', reach l' s' & nwin s' = n /\ (n = 1%N -> posR s' = 0%N /\ posL s' = 2%N)].
Proof.
move=> hr hn; have [hw _] := reach_wf tau_mono hr.
have [//|//|s' [e [_ [en H']]]] := @setw_ok _ _ _ outer ket_invalid bra_invalid ket_nil bra_nil apply_ket apply_bra prop_ket prop_bra normalize_ket normalize_bra norm_ket norm_bra tau cut l l' n 0 (Some ITIME_LEFT) s hw.
exists s'; split=> //; first by apply: reach_set hr hn _ e.
by split=> // n1; move: H'; rewrite n1 => -[-> [-> _]].
Qed.

Lemma whole_window (l l' : container) (s : sw) : nwin s = 1%N -> posR s = 0%N -> posL s = 2%N -> times_in beta l -> times_in beta l' -> confined tau l l' s.
Proof.
move=> e1 e2 e3 h1 h2; rewrite /confined e1 e2 e3 tau_0 // -[2%N]/(2 * 1)%N tau_beta //.
have B m : times_in beta m -> List.filter (before 0) m = [::] /\ List.filter (T_Window.after beta) m = [::].
  move=> hm; split; elim: m hm => //= x m IH hm; have [h3 h4] := hm x (or_introl erefl).
    by move: h3; rewrite ot_le_negb /before => /negbTE ->; apply: IH => y hy; apply: hm; right.
  by move: h4; rewrite ot_le_negb /T_Window.after => /negbTE ->; apply: IH => y hy; apply: hm; right.
by have [-> ->] := B l h1; have [-> ->] := B l' h2.
Qed.

Theorem C60_global st n hop wop r : inv st -> dv_ok st -> legal_global n hop wop r st ->
  exists st', [/\ run_cmd st (Global n hop wop r) = Some st', inv st', dv_ok st' &
    (0 < size (ms_cd (det (st_mc st))))%N ->
    let l := transformed w_ops hop wop (st_mc st) in
    if r < `|full_det F lab nb (map hop (ms_cd (det (st_mc st)))) (map hop (ms_c (det (st_mc st)))) * ftr l /
            (det_of (st_mc st) * ftr (ops (st_mc st)))|
    then [/\ ops (st_mc st') = l, Updater.worm K W (ms K) (st_mc st') = omap wop (Updater.worm K W (ms K) (st_mc st)),
      Permutation (ms_cd (det (st_mc st'))) (map hop (ms_cd (det (st_mc st)))) &
      Permutation (ms_c (det (st_mc st'))) (map hop (ms_c (det (st_mc st))))] else st_mc st' = st_mc st].
Proof.
case: st => mc s dv [/= hc hr ht] hd [/= n0 r0 hl]; rewrite /run_cmd /global_step /=.
case: posnP hl => [e _|e hl]; first by exists (State mc s dv); split.
have [u kn hk ti ng] := hl isT.
have [s1 [e1 h1 [w1 _]]] := set1 (ops mc) hr (isT : 0 < 1)%N.
have [s2 [e2 h2 [w2 _]]] := set1 (transformed w_ops hop wop mc) h1 n0.
have [s3 [e3 h3 [w3 /(_ erefl)[p3 q3]]]] := set1 (ops mc) h2 (isT : 0 < 1)%N.
rewrite e1 /= e2 e3.
have [oS oP] : csorted (transformed w_ops hop wop mc) /\ Permutation (transformed w_ops hop wop mc)
    (map hop (ms_cd (det mc)) ++ map hop (ms_c (det mc)) ++ wops (omap wop (Updater.worm K W (ms K) mc))).
  by apply/insert_all_spec/NoDup_uniq.
have eT : (lazy_at s2 (transformed w_ops hop wop mc) 0).2 = ftr (transformed w_ops hop wop mc).
  by apply: lazy_full; split=> //; exact: ng e1 e2.
set gu := global_update _ _ _ _ _ _ _ _ _ _ _ _ _ _.
have -> : gu = global_update w_ops (@ms_cd K) (@ms_c K) (ms_build F junk lab nb np mo wk) ftr (blk lab nb) nb luw geps hop wop r mc dv.
  by rewrite /gu /global_update -/(transformed w_ops hop wop mc) eT det_rat_within.
have kn' : in_blocks (blk lab nb) nb (map hop (ms_cd (det mc)) ++ map hop (ms_c (det mc))) by rewrite -known_blocks.
have [mc' [dv' [acc [-> [hc' [hdv' hacc]]]]]] := C55_global_update_metropolis (@within_blk K F lab nb) luw_ok build_ok ms_wf_det
  (w_ops := w_ops) (tr := ftr) (eps := geps) (hop := hop) (wop := wop) hc hd r0 e u kn' (hk_within hk).
have [ea eo] := hacc _ oS oP; exists (State mc' s3 dv'); split=> //=.
- split=> //=; last by case: (acc) eo => [[->]|->].
  by case: (acc) eo => [[-> _ _ _]|->]; [apply: reach_update h3 _; exact: whole_window|].
- by move=> _; rewrite -/(full_det F lab nb) in ea; rewrite -ea.
Qed.

(** *** Any legal sequence of commands *)
Lemma det_vec_ok st : inv st -> dv_ok (State (st_mc st) (st_sw st) (ms_det_vec luv (det (st_mc st)))).
Proof.
case: st => mc s dv [/= [_ [_ [[M [cd [c [e hM]]]] _]]] _ _]; rewrite /dv_ok /= e /=.
have [_ _ _ [o1 o2] _] := C34_history lab_ok hM.
by rewrite (C60_det_vec lab_ok luv_ok nb_gt0 hM) (full_det_perm F lab nb o1 o2).
Qed.

(** A legal command does not fail and keeps the invariant; the determinant vector represents the determinant whenever
    global_update reads it. *)
Theorem C60_step (fresh : bool) st k : inv st -> (fresh -> dv_ok st) -> legal fresh st k ->
  exists st', [/\ run_cmd st k = Some st', inv st' & fresh_after fresh k -> dv_ok st'].
Proof.
move=> hi hd; case: k => [[p|] r||n||n hop wop r]; rewrite [legal _ _ _]/= [fresh_after _ _]/=.
- move=> [r0 hp]; have [mc' [ct [acc [e1 e2 _ _ _]]]] := C60_update hi r0 (hp p erefl).
  by exists (State mc' (st_sw st) (st_dv st)); split=> //; rewrite /Assembly.run_cmd e1.
- by move=> _; exists st; split=> //; case: (st).
- move=> _; have [hc hr ht] := hi; have [_ [[s' e] _]] := C19_no_failure tau_mono hr.
  by exists (State (st_mc st) s' (st_dv st)); split=> //; [rewrite /Assembly.run_cmd e|split=> //=; exact: reach_next e].
- move=> hn; have [hc hr ht] := hi; have [s' [e hr' _]] := set1 (ops (st_mc st)) hr hn.
  by exists (State (st_mc st) s' (st_dv st)); split=> //; rewrite /Assembly.run_cmd e.
- by move=> _; eexists; split; [reflexivity|case: hi|move=> _; exact: det_vec_ok].
- by move=> [/hd dv lg]; have [st' [e1 e2 e3 _]] := C60_global hi dv lg; exists st'.
Qed.

Theorem C60_run (fresh : bool) ks st : inv st -> (fresh -> dv_ok st) -> legal_run fresh st ks -> exists st', run ks st = Some st' /\ inv st'.
Proof.
elim: ks fresh st => [|k ks IH] fresh st hi hd; first by exists st.
move=> [hk hl]; have [st' [e hi' hd']] := C60_step hi hd hk.
by have [st2 [e2 hi2]] := IH _ _ hi' hd' (hl _ e); exists st2; rewrite /= e.
Qed.

Lemma times_in_nil : times_in beta [::].
Proof. by []. Qed.

(** The initial state: empty, and the trace of the impurity without operators is positive (it is the partition function). *)
Theorem C60_start wmin s0 : (0 < wmin)%N -> 0 < ftr [::] -> exists st, start wmin s0 = Some st /\ inv st.
Proof.
move=> hw h0; have [s [e _]] := @initw_ok _ _ _ outer ket_invalid bra_invalid ket_nil bra_nil apply_ket apply_bra prop_ket prop_bra normalize_ket normalize_bra norm_ket norm_bra tau cut [::] wmin s0 hw.
have hr : reach [::] s := reach_init hw e.
have hS : csorted [::] by constructor.
rewrite /start e; eexists; split; first reflexivity; split=> //=.
rewrite (C22_no_truncation H tau_0 tau_beta tau_mono cut0 (no_gek N) (no_geb N) hr hS times_in_nil).
apply: C05_initial_consistent => //.
- by exists (pm0 junk lab nb np mo wk), [::], [::]; split=> //; exact: phist0.
- by rewrite /full_det /hyb_det /= /detL det_mx00.
Qed.

(** From the constructor on *)
Theorem C60_program wmin s0 ks : (0 < wmin)%N -> 0 < ftr [::] ->
  (forall st, start wmin s0 = Some st -> legal_run false st ks) ->
  exists st st', [/\ start wmin s0 = Some st, run ks st = Some st' & inv st'].
Proof.
move=> hw h0 hl; have [st [e hi]] := C60_start s0 hw h0.
by have [st' [e' hi']] := C60_run hi (fun h : false => False_ind _ (notF h)) (hl _ e); exists st, st'.
Qed.

(** What the invariant says: operators, determinant, trace and sign kept in the configuration are those obtained from scratch. *)
Notation ctrace := (compute_trace ket_invalid bra_invalid apply_ket prop_ket normalize_ket sec_ket sec_bra product tau).
Theorem C60_invariant st : inv st -> let mc := st_mc st in
  [/\ csorted (ops mc) /\ Permutation (ops mc) (ms_cd (det mc) ++ ms_c (det mc) ++ wops (Updater.worm K W (ms K) mc)),
      exists2 M, det mc = Some M & DetPartitioned.compute_determinant M = det_of mc,
      trace K W (ms K) mc = ftr (ops mc) /\ ctrace (ops mc) (st_sw st) = ftr (ops mc),
      compute_permutation_sign_impl (ms_cd (det mc)) (ms_c (det mc)) (wops (Updater.worm K W (ms K) mc)) = Some (perm_sign K W (ms K) mc) &
      sign K W (ms K) mc = mysign K (sgK K (perm_sign K W (ms K) mc) * det_of mc * ftr (ops mc)) /\
      det_of mc * ftr (ops mc) != 0].
Proof.
move=> [hc hr ht] mc; move: (hc); rewrite -/mc in hr ht *; move=> [h1 [h2 [h3 [h4 [h5 [h6 [h7 h8]]]]]]].
have hd := ms_wf_det h3; split=> //.
- by have [M [cd [c [e hM]]]] := h3; exists M => //; have [-> _ _ [o1 o2] _] := C34_history lab_ok hM; rewrite e /= (full_det_perm F lab nb o1 o2).
- by split=> //; exact: (C22_no_truncation H tau_0 tau_beta tau_mono cut0 (no_gek N) (no_geb N) hr h1 ht).
- by rewrite -h5; split=> //; rewrite mulf_neq0.
Qed.

(** *** do_one_sweep and global_updates *)
(** The part of legality that depends on the random choices only: proposals and transformations *)
Fixpoint legal_moves (st : state) (ks : seq (cmd K W)) : Prop :=
  if ks is k :: ks' then
    match k with Update _ _ => legal true st k | Global _ _ _ _ => legal true st k | _ => True end /\
    forall st', run_cmd st k = Some st' -> legal_moves st' ks'
  else True.
(** The part that depends on the code: window sizes are positive and the determinant vector is up to date *)
Fixpoint well_ordered (fresh : bool) (ks : seq (cmd K W)) : bool :=
  if ks is k :: ks' then
    match k with Resize n => (0 < n)%N | Global _ _ _ _ => fresh | _ => true end && well_ordered (fresh_after fresh k) ks'
  else true.
Lemma well_ordered_legal fresh st ks : well_ordered fresh ks -> legal_moves st ks -> legal_run fresh st ks.
Proof.
elim: ks fresh st => //= k ks IH fresh st /andP[h1 h2] [h3 h4]; split; last by move=> st' e; apply: IH; [|exact: h4].
by case: k h1 h3 {h2 h4} => //= n hop wop r -> [].
Qed.
Lemma well_ordered_cat fresh ks ks' : well_ordered fresh (ks ++ ks') = well_ordered fresh ks && well_ordered (foldl fresh_after fresh ks) ks'.
Proof. by elim: ks fresh => //= k ks IH fresh; rewrite IH andbA. Qed.

Lemma sweep_size_gt0 nstd rk : (0 < sweep_window_size nstd rk)%N.
Proof. by rewrite /sweep_window_size leq_max orbT. Qed.
Lemma ordered_updates fresh (us : seq (option (proposal K W) * K)) : well_ordered fresh [seq Update u.1 u.2 | u <- us].
Proof. by elim: us fresh => /=. Qed.

Theorem C60_sweep_ordered fresh nstd rk cur ups : well_ordered fresh (do_one_sweep nstd rk cur ups).
Proof.
rewrite /do_one_sweep well_ordered_cat; apply/andP; split; first by case: ifP => //= _; rewrite sweep_size_gt0.
move: (foldl _ _ _) => {}fresh; elim: (take _ _) fresh => //= us uss IH fresh.
by rewrite well_ordered_cat IH andbT -cats1 well_ordered_cat ordered_updates.
Qed.
Theorem C60_global_ordered fresh nstd cur ups gs : (0 < cur)%N -> well_ordered fresh (global_updates nstd cur ups gs).
Proof.
move=> hc; rewrite /global_updates /= well_ordered_cat ordered_updates /=.
by elim: gs => //=; rewrite hc.
Qed.
(** The order matters: before DetVec, or after a local update, a global update would read a wrong vector. *)
Example ordered_needed n hop wop r p q : well_ordered false [:: Global n hop wop r] = false /\
  well_ordered true [:: Update p q; Global n hop wop r] = false.
Proof. by []. Qed.

(** Positions of the window at the local updates *)
Fixpoint positions (st : state) (ks : seq (cmd K W)) : seq nat :=
  if ks is k :: ks' then
    (if k is Update _ _ then cons (posR (st_sw st)) else id) (if run_cmd st k is Some st' then positions st' ks' else [::])
  else [::].

Lemma updates_run (fresh : bool) us rest st : inv st -> (fresh -> dv_ok st) -> legal_run fresh st ([seq Update u.1 u.2 | u <- us] ++ rest) ->
  exists (fresh' : bool) st', [/\ inv st' /\ (fresh' -> dv_ok st'), st_sw st' = st_sw st, legal_run fresh' st' rest &
    run ([seq Update u.1 u.2 | u <- us] ++ rest) st = run rest st' /\
    positions st ([seq Update u.1 u.2 | u <- us] ++ rest) = nseq (size us) (posR (st_sw st)) ++ positions st' rest].
Proof.
elim: us fresh st => [|u us IH] fresh st hi hd; first by exists fresh, st.
move=> [hk hl]; have [st1 [e1 hi1 hd1]] := C60_step hi hd hk.
have [fr [st2 [hi2 es hl2 [er ep]]]] := IH _ _ hi1 hd1 (hl _ e1).
have esw : st_sw st1 = st_sw st.
  move: e1; rewrite /Assembly.run_cmd; case: (Assembly.local_update _ _ _ _ _ _ _ _ _ _ _ _ _ _ _ _ _ _ _ _ _ _ _ _ _) => // mc' ct acc [<-] //.
by exists fr, st2; split; rewrite ?es //; cbn [cat map Assembly.run positions]; rewrite e1; split; rewrite ?er ?ep ?esw.
Qed.


Notation nextw := (move_window_to_next_position ket_invalid bra_invalid ket_nil bra_nil apply_ket apply_bra prop_ket prop_bra
  normalize_ket normalize_bra norm_ket norm_bra tau cut).
Definition blocks_of (uss : seq (seq (option (proposal K W) * K))) : seq (cmd K W) :=
  flatten [seq rcons [seq Update u.1 u.2 | u <- us] (@NextWindow K W) | us <- uss].
(** updates number k of a sweep are made at position P k *)
Definition at_positions (P : nat -> nat) (uss : seq (seq (option (proposal K W) * K))) : seq nat :=
  flatten [seq nseq (size (nth [::] uss k)) (P k) | k <- iota 0 (size uss)].

Lemma walk (P : nat -> nat) (Q : nat -> sw -> Prop) (m : nat) :
  (forall k s, Q k s -> posR s = P k) ->
  (forall k l s s', (k < m)%N -> reach l s -> Q k s -> nextw l s = WOk s' -> Q k.+1 s') ->
  forall uss (fresh : bool) st k, inv st -> (fresh -> dv_ok st) -> Q k (st_sw st) -> (k + size uss <= m)%N ->
  legal_run fresh st (blocks_of uss) ->
  exists st', [/\ inv st', Q (k + size uss)%N (st_sw st'), run (blocks_of uss) st = Some st' &
    positions st (blocks_of uss) = at_positions (fun j => P (k + j)%N) uss].
Proof.
move=> hP hQ; elim=> [|us uss IH] fresh st k hi hd hk hm hl; first by exists st; rewrite addn0.
rewrite /blocks_of [flatten _]/= -cats1 -!catA in hl *.
have [fr [st1 [[hi1 hd1] es hl1 [er ep]]]] := updates_run hi hd hl.
rewrite er ep; move: hl1 => /= [_ hl1].
have [hc1 hr1 ht1] := hi1; have [hw hr] := reach_wf tau_mono hr1.
have [s2 [e2 [w2 [r2 [n2 _]]]]] := nextw_ok hw hr.
have e2' : run_cmd st1 (@NextWindow K W) = Some (State (st_mc st1) s2 (st_dv st1)) by rewrite /Assembly.run_cmd e2.
have hi2 : inv (State (st_mc st1) s2 (st_dv st1)) by split=> //=; exact: reach_next e2.
have hk2 : Q k.+1 s2 by apply: hQ e2 => //; [move: hm => /=; lia|rewrite es].
have [||st3 [i3 q3 r3 p3]] := IH fr (State (st_mc st1) s2 (st_dv st1)) k.+1 hi2 hd1 hk2.
- by move: hm => /=; lia.
- exact: hl1 _ e2'.
exists st3; rewrite e2; split=> //; first by rewrite -addSnnS.
rewrite /at_positions [size (_ :: _)]/= [iota _ _]/= [map _ (_ :: _)]/= [flatten (_ :: _)]/= (hP _ _ hk) addn0; congr (_ ++ _).
rewrite p3 /at_positions -[1%N]addn0 iotaDl -map_comp; congr flatten; apply: eq_map => j /=.
by rewrite addSnnS.
Qed.

Definition q_up (n k : nat) (s : sw) : Prop := [/\ nwin s = n, posR s = k & dirn s = Some ITIME_LEFT \/ k = 0%N].
Definition q_down (n k : nat) (s : sw) : Prop := [/\ nwin s = n, posR s = (2 * n - 2 - k)%N & dirn s <> Some ITIME_LEFT \/ k = 0%N].
Lemma up_step n k l s s' : (2 <= n)%N -> (k < 2 * n - 2)%N -> reach l s -> q_up n k s -> nextw l s = WOk s' -> q_up n k.+1 s'.
Proof.
move=> hn hk hr [en ep ed]; have [hw hs] := reach_wf tau_mono hr.
have [s2 [e2 [_ [_ [n2 H2]]]]] := nextw_ok hw hs; rewrite e2 => -[<-].
have lp : posL s = (k + 2)%N by case: hs => [[? _]|[_ [? _]]]; lia.
move: H2; have -> : (nwin s == 1%N) = false by lia.
have -> : (if dirn s is Some ITIME_LEFT then posL s != (2 * nwin s)%N else posR s == 0%N) = true.
  have h1 : posL s != (2 * nwin s)%N by lia.
  by case: ed => [->//|k0]; case: (dirn s) => [[]|] //; rewrite ep k0.
by move=> [h3 h4]; split; rewrite ?n2 ?h3 ?ep ?addn1 //; left.
Qed.
Lemma down_step n k l s s' : (2 <= n)%N -> (k < 2 * n - 2)%N -> reach l s -> q_down n k s -> nextw l s = WOk s' -> q_down n k.+1 s'.
Proof.
move=> hn hk hr [en ep ed]; have [hw hs] := reach_wf tau_mono hr.
have [s2 [e2 [_ [_ [n2 H2]]]]] := nextw_ok hw hs; rewrite e2 => -[<-].
have lp : posL s = (posR s + 2)%N by case: hs => [[? _]|[_ [? _]]]; lia.
move: H2; have -> : (nwin s == 1%N) = false by lia.
have -> : (if dirn s is Some ITIME_LEFT then posL s != (2 * nwin s)%N else posR s == 0%N) = false.
  have h1 : (posR s == 0%N) = false by lia.
  case: ed => [|k0]; first by case: (dirn s) => [[]|].
  by case: (dirn s) => [[]|] //; apply/negbTE; rewrite negbK lp ep; lia.
by move=> [h3 h4]; split; rewrite ?n2 ?h4 //; [lia|left].
Qed.

(** The window is at one of the two ends: the assertions in impurity.ipp:495, 514 and 546, which are commented out *)
Definition at_end (st : state) : Prop := posR (st_sw st) = 0%N \/ posR (st_sw st) = (2 * nwin (st_sw st) - 2)%N.
(** positions of a sweep with [n] windows that starts at the right end (at time 0), or at the left end *)
Definition sweep_path (n : nat) (from_zero : bool) (k : nat) : nat := if from_zero then k else (2 * n - 2 - k)%N.

Lemma take_all_ups n (ups : seq (seq (option (proposal K W) * K))) : size ups = sweep_moves n -> take (sweep_moves n) ups = ups.
Proof. by move=> <-; rewrite take_size. Qed.

Lemma sweep_blocks n (fresh : bool) st ups : inv st -> (fresh -> dv_ok st) -> at_end st -> nwin (st_sw st) = n -> size ups = sweep_moves n ->
  legal_run fresh st (blocks_of ups) ->
  exists st', [/\ inv st', at_end st' & nwin (st_sw st') = n] /\ [/\ run (blocks_of ups) st = Some st',
    positions st (blocks_of ups) = at_positions (sweep_path n (posR (st_sw st) == 0%N)) ups &
    ((2 <= n)%N -> posR (st_sw st') = if posR (st_sw st) == 0%N then (2 * n - 2)%N else 0%N)].
Proof.
move=> hi hd he en es hl; have [_ hr _] := hi; have [hw hs] := reach_wf tau_mono hr.
have [n2|n1] : (2 <= n)%N \/ (n = 1%N) by case: hs => -[]; rewrite en; [right|left].
- case: (posR (st_sw st) =P 0%N) => [p0|p0].
  + have Q0 : q_up n 0 (st_sw st) by split=> //; right.
    have [||st' [i' [q1 q2 q3] r' pp]] := @walk (fun k => k) (q_up n) (2 * n - 2) _ (fun k l s s' => @up_step n k l s s' n2) ups fresh st 0 hi hd Q0 _ hl.
    * by move=> k s [].
    * by rewrite es /sweep_moves; lia.
    exists st'; split; last by split=> //; [rewrite q2 add0n es /sweep_moves; lia].
    by split=> //; right; rewrite q2 q1 es /sweep_moves; lia.
  + have Q0 : q_down n 0 (st_sw st) by split=> //; [case: he => // ->; rewrite en subn0|right].
    have [||st' [i' [q1 q2 q3] r' pp]] := @walk (fun k => 2 * n - 2 - k)%N (q_down n) (2 * n - 2) _ (fun k l s s' => @down_step n k l s s' n2) ups fresh st 0 hi hd Q0 _ hl.
    * by move=> k s [].
    * by rewrite es /sweep_moves; lia.
    exists st'; split; last by split=> //; [rewrite q2 add0n es /sweep_moves; lia].
    by split=> //; left; rewrite q2 es /sweep_moves; lia.
- have es1 : size ups = 1%N by rewrite es n1.
  have p0 : posR (st_sw st) = 0%N by case: hs => [[_ []]|[]] //; lia.
  have [||||st' [i' [q1 q2] r' pp]] := @walk (fun _ => 0%N) (fun _ s => nwin s = 1%N /\ posR s = 0%N) 1 _ _ ups fresh st 0 hi hd _ _ hl.
  + by move=> k s [].
  + move=> k l s s' _ hr' [h1 h2]; have [hw' hs'] := reach_wf tau_mono hr'.
    by have [s2 [e2 [_ [_ [_ H2]]]]] := nextw_ok hw' hs'; rewrite e2 => -[<-]; move: H2; rewrite h1 eqxx => ->.
  + by rewrite en n1.
  + by rewrite es1.
  exists st'; split; first by split=> //; [left|rewrite q1 n1].
  split=> //; last by rewrite n1.
  by rewrite pp p0 /at_positions es1.
Qed.

(** *** C61: do_one_sweep *)
(** A sweep that starts at an end never fails and ends at an end (the other one, unless its window has been changed or covers
    everything), and its updates are made at the positions 0, 1, ... or 2 n - 2, 2 n - 3, ... in turn. *)
Theorem C61_sweep_positions (fresh : bool) nstd rk st ups :
  let n := sweep_window_size nstd rk in
  let from_zero := (n != nwin (st_sw st)) || (posR (st_sw st) == 0%N) in
  inv st -> (fresh -> dv_ok st) -> at_end st -> size ups = sweep_moves n ->
  legal_moves st (do_one_sweep nstd rk (nwin (st_sw st)) ups) ->
  exists st', [/\ inv st', at_end st' & nwin (st_sw st') = n] /\ [/\ run (do_one_sweep nstd rk (nwin (st_sw st)) ups) st = Some st',
    positions st (do_one_sweep nstd rk (nwin (st_sw st)) ups) = at_positions (sweep_path n from_zero) ups &
    ((2 <= n)%N -> posR (st_sw st') = if from_zero then (2 * n - 2)%N else 0%N)].
Proof.
move=> n z hi hd he es hm.
have hl := well_ordered_legal (C60_sweep_ordered fresh nstd rk (nwin (st_sw st)) ups) hm.
move: hl; rewrite /do_one_sweep -/n (take_all_ups es) -/(blocks_of ups) /z {z}.
case: eqP => [en|en]; first by move=> hl; apply: (sweep_blocks hi hd he _ es hl).
move=> [hk hl].
have [hc hr ht] := hi.
have [hw _] := reach_wf tau_mono hr.
have [|//|s' [e [w' [n' H']]]] := @setw_ok _ _ _ outer ket_invalid bra_invalid ket_nil bra_nil apply_ket apply_bra prop_ket prop_bra normalize_ket normalize_bra norm_ket norm_bra tau cut (ops (st_mc st)) (ops (st_mc st)) n 0 (Some ITIME_LEFT) (st_sw st) hw.
  exact: sweep_size_gt0.
have e' : run_cmd st (@Resize K W n) = Some (State (st_mc st) s' (st_dv st)) by rewrite /Assembly.run_cmd e.
have [st1 [f1 i1 d1]] := C60_step hi hd hk.
move: f1; rewrite e' => -[ee]; subst st1.
have p0 : posR s' = 0%N by move: H'; case: ifP => _ [].
have [|st2 [A [B C D]]] := sweep_blocks i1 d1 _ n' es (hl _ e'); first by left.
exists st2; split=> //; cbn [cat Assembly.run positions]; rewrite /= e; split=> //; first by rewrite C /= p0.
by move=> h2; rewrite (D h2) /= p0.
Qed.

Lemma run_cat ks ks' st : run (ks ++ ks') st = obind (run ks') (run ks st).
Proof.
elim: ks st => // k ks IH st; cbn [cat].
have -> st1 l : run (k :: l) st1 = obind (run l) (run_cmd st1 k) by rewrite [in LHS]/Assembly.run; case: (run_cmd _ _).
have -> st1 l : run (k :: l) st1 = obind (run l) (run_cmd st1 k) by rewrite [in LHS]/Assembly.run; case: (run_cmd _ _).
by case: (run_cmd st k) => //= st1; rewrite IH.
Qed.
Lemma legal_cat (fresh : bool) ks ks' st : legal_run fresh st (ks ++ ks') -> legal_run fresh st ks.
Proof. by elim: ks fresh st => //= k ks IH fresh st [h1 h2]; split=> // st' e; apply: IH; exact: h2. Qed.

(** The global updates leave the window at the right end, with the number of windows it had before. *)
Theorem C61_global_end (fresh : bool) nstd st us gs : inv st -> (fresh -> dv_ok st) ->
  legal_moves st (global_updates nstd (nwin (st_sw st)) us gs) ->
  exists st', [/\ run (global_updates nstd (nwin (st_sw st)) us gs) st = Some st', inv st', nwin (st_sw st') = nwin (st_sw st) & posR (st_sw st') = 0%N].
Proof.
move=> hi hd hm; have [_ hr0 _] := hi; have [hw0 _] := reach_wf tau_mono hr0.
have n0 : (0 < nwin (st_sw st))%N := wf_n hw0.
have hl := well_ordered_legal (C60_global_ordered fresh nstd us gs n0) hm.
move: hl; set n := nwin _; set pre := @Resize K W 1 :: [seq Update u.1 u.2 | u <- us] ++ @DetVec K W :: [seq Global (maxn nstd 10) g.1.1 g.1.2 g.2 | g <- gs].
have -> : global_updates nstd n us gs = pre ++ [:: @Resize K W n] by rewrite /global_updates /pre cat_cons -catA.
move=> hl; have [st1 [e1 [hc1 hr1 ht1]]] := C60_run hi hd (legal_cat hl).
have [hw _] := reach_wf tau_mono hr1.
have [|//|s' [e [w' [n' H']]]] := @setw_ok _ _ _ outer ket_invalid bra_invalid ket_nil bra_nil apply_ket apply_bra prop_ket prop_bra normalize_ket normalize_bra norm_ket norm_bra tau cut (ops (st_mc st1)) (ops (st_mc st1)) n 0 (Some ITIME_LEFT) (st_sw st1) hw.
  exact: n0.
exists (State (st_mc st1) s' (st_dv st1)); rewrite run_cat e1 /= e; split=> //; last by move: H'; case: ifP => _ [].
by split=> //=; apply: reach_set hr1 _ _ e.
Qed.

(** One step of the program, and any number of them *)
Definition legal_step (i : step_input K W) (st : state) : Prop :=
  [/\ size (i_ups i) = sweep_moves (sweep_window_size (i_nstd i) (i_rank i)), legal_moves st (sweep_cmds i st) &
      forall st1, run (sweep_cmds i st) st = Some st1 -> legal_moves st1 (global_cmds i st1)].
Notation mc_step := (mc_step w_ops F junk lab nb np mo wk luv geps ket_invalid bra_invalid ket_nil bra_nil apply_ket apply_bra
  prop_ket prop_bra normalize_ket normalize_bra norm_ket norm_bra sec_ket sec_bra product tau cut min_dim dst dim_sector cexp eps order).
Notation mc_steps := (mc_steps w_ops F junk lab nb np mo wk luv geps ket_invalid bra_invalid ket_nil bra_nil apply_ket apply_bra
  prop_ket prop_bra normalize_ket normalize_bra norm_ket norm_bra sec_ket sec_bra product tau cut min_dim dst dim_sector cexp eps order).
Fixpoint legal_steps (ins : seq (step_input K W)) (st : state) : Prop :=
  if ins is i :: ins' then legal_step i st /\ forall st', mc_step i st = Some st' -> legal_steps ins' st' else True.

Theorem C61_step i st : inv st -> at_end st -> legal_step i st -> exists st', [/\ mc_step i st = Some st', inv st', at_end st',
  nwin (st_sw st') = sweep_window_size (i_nstd i) (i_rank i) & (i_global i -> posR (st_sw st') = 0%N)].
Proof.
move=> hi he [h1 h2 h3].
have [st1 [[i1 a1 n1] [r1 _ _]]] := C61_sweep_positions hi (fun h : false => False_ind _ (notF h)) he h1 h2.
have {}r1 : run (sweep_cmds i st) st = Some st1 := r1.
rewrite /Assembly.mc_step r1; move: (h3 _ r1); rewrite /global_cmds; case: (i_global i) => [[us gs]|] hg; last by exists st1.
have [st2 [r2 i2 n2 p2]] := C61_global_end i1 (fun h : false => False_ind _ (notF h)) hg.
by exists st2; split=> //; [left|rewrite n2].
Qed.

Theorem C61_steps wmin s0 ins : (0 < wmin)%N -> 0 < ftr [::] ->
  (forall st, start wmin s0 = Some st -> legal_steps ins st) ->
  exists st st', [/\ start wmin s0 = Some st, mc_steps ins st = Some st', inv st' & at_end st'].
Proof.
move=> hw h0 hl; have [st [e hi]] := C60_start s0 hw h0.
have he : at_end st.
  have [s [es [_ [_ H']]]] := @initw_ok _ _ _ outer ket_invalid bra_invalid ket_nil bra_nil apply_ket apply_bra prop_ket prop_bra normalize_ket normalize_bra norm_ket norm_bra tau cut [::] wmin s0 hw.
  by left; move: e; rewrite /Assembly.start es => -[<-] /=; move: H'; case: ifP => _ [].
have {}hl := hl _ e; exists st; move: hl hi he; rewrite e; elim: ins st {e} => [|i ins IH] st; first by move=> _ hi he; exists st.
move=> [l1 l2] hi he; have [st1 [e1 i1 a1 _ _]] := C61_step hi he l1.
have [st' [_ e' i' a']] := IH _ (l2 _ e1) i1 a1.
by exists st'; split=> //; cbn [Assembly.mc_steps]; rewrite e1.
Qed.

(** A sweep that starts at time 0 with two windows or more makes no update in a window that reaches beyond the grid point
    2 n - 1; one that starts at the other end makes none that begins before the grid point 1. *)
Lemma in_path P uss p : p \in at_positions P uss -> exists2 k, (k < size uss)%N & p = P k.
Proof.
by move=> /flatten_mapP[k]; rewrite mem_iota add0n => /andP[_ hk]; rewrite mem_nseq => /andP[_ /eqP ->]; exists k.
Qed.
Theorem C61_last_piece_refuted (fresh : bool) nstd rk st ups p :
  let n := sweep_window_size nstd rk in
  let from_zero := (n != nwin (st_sw st)) || (posR (st_sw st) == 0%N) in
  inv st -> (fresh -> dv_ok st) -> at_end st -> (2 <= n)%N -> size ups = sweep_moves n ->
  legal_moves st (do_one_sweep nstd rk (nwin (st_sw st)) ups) ->
  p \in positions st (do_one_sweep nstd rk (nwin (st_sw st)) ups) ->
  if from_zero then (p + 2 <= 2 * n - 1)%N else (1 <= p)%N.
Proof.
move=> n z hi hd he n2 es hm.
have [st1 [_ [_ -> _]]] := C61_sweep_positions hi hd he es hm.
move=> /in_path[k]; rewrite es /sweep_moves -/n -/z => hk ->; rewrite /sweep_path; case: z; lia.
Qed.
(** Two sweeps in a row with windows of one size make updates at all positions, and so everywhere (C20_coverage). *)
Theorem C61_two_sweeps nstd rk nstd' rk' st ups ups' p :
  let n := sweep_window_size nstd rk in
  let ks := do_one_sweep nstd rk (nwin (st_sw st)) ups in
  inv st -> at_end st -> size ups = sweep_moves n -> all (fun us => 0 < size us)%N ups -> legal_moves st ks ->
  sweep_window_size nstd' rk' = n -> size ups' = sweep_moves n -> all (fun us => 0 < size us)%N ups' ->
  forall st1, run ks st = Some st1 ->
  let ks' := do_one_sweep nstd' rk' (nwin (st_sw st1)) ups' in
  legal_moves st1 ks' -> (p <= 2 * n - 2)%N -> p \in positions st ks ++ positions st1 ks'.
Proof.
move=> n ks hi he es ha hm en es' ha' st1 e1 ks' hm' hp.
have [st2 [[i2 a2 n2] [r2 p2 q2]]] := C61_sweep_positions hi (fun h : false => False_ind _ (notF h)) he es hm.
move: r2; rewrite e1 => -[ee]; subst st2.
rewrite -en in es'.
have [st3 [_ [_ p3 _]]] := C61_sweep_positions i2 (fun h : false => False_ind _ (notF h)) a2 es' hm'.
have M P uss k : all (fun us => 0 < size us)%N uss -> (k < size uss)%N -> P k \in at_positions P uss.
  move=> /(all_nthP [::]) h hk; apply/flatten_mapP; exists k; first by rewrite mem_iota.
  by rewrite mem_nseq eqxx andbT; exact: h.
rewrite p2 p3 mem_cat; rewrite en n2 eqxx /=; rewrite en /sweep_moves in es'; rewrite /sweep_moves in es.
have [n1|hn] : n = 1%N \/ (2 <= n)%N by move: (sweep_size_gt0 nstd rk); rewrite -/n; lia.
  have -> : p = sweep_path n ((n != nwin (st_sw st)) || (posR (st_sw st) == 0%N)) 0 by rewrite /sweep_path; case: ifP; lia.
  by rewrite (M _ _ 0%N ha) // es n1.
rewrite (q2 hn) -/n; case: ((n != nwin (st_sw st)) || (posR (st_sw st) == 0%N)).
- have -> : (2 * n - 2 == 0)%N = false by lia.
  case: (ltnP p (2 * n - 2)) => h; first by have /= -> // := M (sweep_path n true) ups p ha; rewrite es; lia.
  have -> : p = sweep_path n false 0 by rewrite /sweep_path; lia.
  by rewrite (M _ ups') ?orbT // es'; lia.
- case: (posnP p) => h; first by rewrite h (M (sweep_path n true) ups' 0%N) ?orbT // es'; lia.
  have -> : p = sweep_path n false (2 * n - 2 - p) by rewrite /sweep_path; lia.
  by rewrite (M _ ups) // es; lia.
Qed.

(** With eps = 0 the condition on the bounds holds by itself. *)
Lemma no_gap0 l (s : sw) : eps = 0 -> reach l s -> csorted l -> no_gap eps (tbounds l s).
Proof.
move=> e0 hr hs i hi; right; rewrite e0 mul0r; apply: bound_nneg (C24_bound H N tau_mono hr hs) _.
by move: hi; rewrite /trace_bounds /contributions !size_map.
Qed.
Theorem C60_legal_exact st p : eps = 0 -> inv st -> let u := p_hyb K W p in let mc := st_mc st in
  (exists cd0, Permutation (ms_cd (det mc)) (Updater.cd_rem u ++ cd0)) -> (exists c0, Permutation (ms_c (det mc)) (Updater.c_rem u ++ c0)) ->
  (size (Updater.cd_add u) + size (Updater.c_rem u) = size (Updater.c_add u) + size (Updater.cd_rem u))%N ->
  0 < p_corr K W p -> ms_ok lab nb u ->
  (forall rem add, merge_diff (Updater.cd_rem u ++ Updater.c_rem u) (Updater.cd_add u ++ Updater.c_add u)
          (wops (Updater.worm K W (ms K) mc)) (wops (new_worm mc p)) = (rem, add) ->
        forall x, In x rem \/ In x add -> rng_cc (tau_low tau (st_sw st)) (tau_high tau (st_sw st)) x) ->
  legal_prop (st_sw st) mc p.
Proof.
move=> e0 [hc hr ht] u mc q1 q2 q3 q4 q5 q6; split=> // rem add em; split; first exact: q6 em.
move=> l rec eu; have [r1 r2] := rem_known hc q1 q2 em; have [hs _] := hc.
have hr' := C22_update_inside hr hs r1 r2 eu (q6 _ _ em).
have := @update_operators_ok (ops mc) rem add hs r1 r2; rewrite eu => -[hs' _].
exact: no_gap0.
Qed.
(** sliding_window.min is not tested against 1 (impurity.ipp:146-152) *)
Theorem C61_min_window_refuted wmax s0 : (0 < wmax)%N -> window_checks 0 wmax /\ start 0 s0 = None.
Proof. by move=> h; rewrite /window_checks ltnn andbT -leqNgt. Qed.
End Run.

(** *** C61: window sizes *)
Lemma ceil_divP a b m : (0 < b)%N -> (ceil_div a b <= m)%N = (a <= m * b)%N.
Proof. by move=> hb; rewrite /ceil_div -ltnS ltn_divLR // mulSn; lia. Qed.
(** the smallest number of windows for which the average order per flavor and window is at most one, between the limits *)
Theorem C61_window_size wmin wmax nf hist : (0 < nf)%N -> (0 < size hist)%N -> (wmin <= wmax)%N ->
  (wmin <= new_window_size wmin wmax nf hist <= wmax)%N /\
  forall m, (wmin <= m < wmax)%N -> (new_window_size wmin wmax nf hist <= m)%N = (sumn hist <= m * (size hist * nf))%N.
Proof.
move=> h1 h2 h3; rewrite /new_window_size; split; first by lia.
by move=> m hm; rewrite -ceil_divP ?muln_gt0 ?h1 ?h2 //; lia.
Qed.
Theorem C61_history order hist : (0 < size (push_order order hist) <= 100)%N.
Proof. by rewrite /push_order /= size_take; case: ifP => /=; lia. Qed.
(** The test of impurity.ipp:149 compares sliding_window.max with itself: limits in the wrong order pass, and the number of
    windows then exceeds the maximum. *)
Theorem C61_window_limits_refuted : exists wmin wmax nf hist, window_checks wmin wmax /\ (wmax < new_window_size wmin wmax nf hist)%N.
Proof. by exists 5%N, 2%N, 1%N, [:: 3%N]. Qed.
Example C61_window_instance : (new_window_size 1 100 2 (push_order 7 [:: 4; 6]) = 3 /\ sweep_window_size 3 2 = 1 /\ sweep_moves 3 = 4)%N.
Proof. by []. Qed.


(** ** An LU decomposition exists, so that the hypothesis on [luv] can be met (cormen_lup of mathcomp) *)
Section LU.
Variable K : fieldType.
Definition lup_vec n : 'M[K]_n -> seq K :=
  if n is n'.+1 return 'M[K]_n -> seq K then
    fun A => let: (P, _, U) := cormen_lup A in [seq (if i == 0%N :> nat then \det P else 1) * U i i | i : 'I_n'.+1 <- enum 'I_n'.+1]
  else fun=> [::].
Lemma lup_vec_ok n (A : 'M[K]_n) : is_lu_vec A (lup_vec A).
Proof.
case: n A => [|n] A; first by exists 1%g, 1%g, 0, 0; split=> [[]|[]|[]||] //; [apply/matrixP => -[]|split=> // -[]].
rewrite /lup_vec; have := cormen_lup_correct A; have := cormen_lup_perm A; have := cormen_lup_lower A; have := cormen_lup_upper A.
case: (cormen_lup A) => [[P L] U] /= hU hL /is_perm_mxP[p ->] e.
exists p, 1%g, L, U; split.
- by move=> i j hij; rewrite hL 1?ltnW // -val_eqE /= ltn_eqF.
- by move=> i; rewrite hL // eqxx.
- by move=> i j hij; rewrite hU.
- by rewrite perm_mx1 mulmx1.
- split; first by rewrite size_map size_enum_ord.
  by move=> i; rewrite (nth_map ord0) ?size_enum_ord // nth_ord_enum det_perm odd_perm1 expr0 mulr1.
Qed.
End LU.

Print Assumptions C60_det_contract.
Print Assumptions C60_det_vec.
Print Assumptions C60_update.
Print Assumptions C60_global.
Print Assumptions C60_step.
Print Assumptions C60_run.
Print Assumptions C60_start.
Print Assumptions C60_program.
Print Assumptions C60_invariant.
Print Assumptions C60_sweep_ordered.
Print Assumptions C60_global_ordered.
Print Assumptions C60_legal_exact.
Print Assumptions C61_sweep_positions.
Print Assumptions C61_global_end.
Print Assumptions C61_step.
Print Assumptions C61_steps.
Print Assumptions C61_last_piece_refuted.
Print Assumptions C61_two_sweeps.
Print Assumptions C61_min_window_refuted.
Print Assumptions C61_window_size.
Print Assumptions C61_history.
Print Assumptions C61_window_limits_refuted.
