(** * C67: the shift of all operators in the assembled program *)
From Coq Require Import ZArith Lia List Bool Sorting.Permutation Sorting.Sorted.
From mathcomp Require Import all_ssreflect all_fingroup all_algebra zify.
From Verif Require Import OpContainer CombSort PermSign T_PermSign Updater T_Updater Select KField Dist Proposal T_Proposal
  Worm T_Worm WormProposal HybDet EigenBasis FastUpdate T_FastUpdate
  DetMatrix T_DetMatrix T_DetUpdate T_DetHistory DetPartitioned T_DetPartitioned GlobalUpdate T_GlobalUpdate
  Window T_Window T_WindowTrace LazyTrace T_LazyTrace Assembly T_Assembly LocalChain T_LocalChain WormChain GlobalChain T_GlobalChain ShiftParity T_ShiftWeight T_EigenBasis T_Braket OpNorm T_TraceForm.
Import Order.Theory GRing.Theory Num.Theory.
Set Implicit Arguments.
Unset Strict Implicit.
Unset Printing Implicit Defensive.
Local Close Scope Z_scope.
Local Open Scope nat_scope.
Delimit Scope Z_scope with coqZ.
Local Open Scope ring_scope.

Lemma sub_subZ a b : (a - (a - b))%coqZ = b. Proof. lia. Qed.
Section Chain.
Variable K : numFieldType.
Variable types : seq wtype.
Notation W := wdata.
Notation w_ops := (w_ops types).
Variable F : psi -> psi -> K.
Variable junk : nat -> nat -> K.
Variables (lab : seq nat) (nb : nat).
Variables (np : int) (mo : umode) (wk : work K).
Variable luv : forall n, 'M[K]_n -> seq K.
Variable geps : K.
Variables (Ket Bra : Type) (outer : list (Bra * Ket)).
Variables (ket_invalid : Ket -> bool) (bra_invalid : Bra -> bool) (ket_nil : Ket) (bra_nil : Bra).
Variables (apply_ket : optype -> nat -> Ket -> Ket) (apply_bra : optype -> nat -> Bra -> Bra).
Variables (prop_ket : Z -> Ket -> Ket) (prop_bra : Z -> Bra -> Bra).
Variables (normalize_ket : Ket -> Ket) (normalize_bra : Bra -> Bra).
Variables (norm_ket : Ket -> K) (norm_bra : Bra -> K).
Variables (sec_ket : Ket -> nat) (sec_bra : Bra -> nat).
Variable product : Bra -> Ket -> K.
Variable tau : nat -> nat -> Z.
Variable cut : K.
Variables (min_dim : Ket -> nat) (dst : optype -> nat -> nat -> option nat) (dim_sector : nat -> nat) (cexp : nat -> Z -> K).
Variable rank : Ket -> nat.
Variable eps : K.
Variable order : seq K -> seq nat.
Variable beta : Z.

(** The hypotheses of C22, C24 and C34; nothing is truncated. *)
Hypothesis lab_ok : all (fun b => b < nb)%N lab.
Hypothesis nb_gt0 : (0 < nb)%N.
Hypothesis luv_ok : forall n (A : 'M[K]_n), is_lu_vec A (luv A).
Hypothesis H : braket_ok ket_invalid bra_invalid ket_nil bra_nil apply_ket apply_bra prop_ket prop_bra
  normalize_ket normalize_bra sec_ket sec_bra product.
Hypothesis N : norm_ok ket_invalid apply_ket prop_ket norm_ket norm_bra sec_ket product min_dim dst dim_sector cexp rank.
Hypothesis tau_0 : forall n, (0 < n)%N -> tau n 0 = 0%coqZ.
Hypothesis tau_beta : forall n, (0 < n)%N -> tau n (2 * n) = beta.
Hypothesis tau_mono : forall n p q, (p <= q)%N -> (q <= 2 * n)%N -> (tau n p <= tau n q)%coqZ.
Hypothesis eps_ge0 : 0 <= eps.
Hypothesis cut0 : cut = 0.
Hypothesis order_ok : forall bs, descending bs (order bs).

Notation sw := (sw K Ket Bra).
Notation config := (config K W (ms K)).
Notation state := (state K W Ket Bra).
Notation reach := (T_Window.reach outer ket_invalid bra_invalid ket_nil bra_nil apply_ket apply_bra prop_ket prop_bra
  normalize_ket normalize_bra norm_ket norm_bra tau cut).
Notation tbounds := (trace_bounds ket_invalid bra_invalid sec_ket sec_bra tau min_dim dst dim_sector cexp).
Notation bound_sum := (bound_sum ket_invalid bra_invalid sec_ket sec_bra tau min_dim dst dim_sector cexp).
Notation lazy_at := (lazy_at ket_invalid bra_invalid apply_ket prop_ket normalize_ket sec_ket sec_bra product tau
  min_dim dst dim_sector cexp eps order).
Notation local_update := (local_update w_ops F junk lab nb ket_invalid bra_invalid apply_ket prop_ket normalize_ket
  sec_ket sec_bra product tau min_dim dst dim_sector cexp eps order).
Notation consistent := (consistent K W w_ops (ms K) (@ms_cd K) (@ms_c K) (full_det F lab nb) (ms_wf F junk lab nb)
  (full_trace outer apply_ket prop_ket product beta)).
Notation ftr := (full_trace outer apply_ket prop_ket product beta).
Notation ops mc := (operators K W (ms K) mc).
Notation det mc := (mstate K W (ms K) mc).
Notation det_of mc := (full_det F lab nb (ms_cd (det mc)) (ms_c (det mc))).
Notation setw := (set_window_size ket_invalid bra_invalid ket_nil bra_nil apply_ket apply_bra prop_ket prop_bra
  normalize_ket normalize_bra norm_ket norm_bra tau cut).
Notation run_cmd := (run_cmd w_ops F junk lab nb np mo wk luv geps ket_invalid bra_invalid ket_nil bra_nil apply_ket apply_bra
  prop_ket prop_bra normalize_ket normalize_bra norm_ket norm_bra sec_ket sec_bra product tau cut min_dim dst dim_sector cexp eps order).
Notation run := (run w_ops F junk lab nb np mo wk luv geps ket_invalid bra_invalid ket_nil bra_nil apply_ket apply_bra
  prop_ket prop_bra normalize_ket normalize_bra norm_ket norm_bra sec_ket sec_bra product tau cut min_dim dst dim_sector cexp eps order).
Notation start := (start W junk lab nb np mo wk outer ket_invalid bra_invalid ket_nil bra_nil apply_ket apply_bra
  prop_ket prop_bra normalize_ket normalize_bra norm_ket norm_bra sec_ket sec_bra product tau cut).
Notation wops := (worm_ops W w_ops).
Notation worm mc := (Updater.worm K W (ms K) mc).
Notation Inv := (inv w_ops F junk lab nb outer ket_invalid bra_invalid ket_nil bra_nil apply_ket apply_bra prop_ket prop_bra
  normalize_ket normalize_bra norm_ket norm_bra product tau cut beta).
Notation dv_ok := (dv_ok F lab nb).
Notation legal_global := (legal_global w_ops F lab nb luv geps ket_invalid bra_invalid ket_nil bra_nil apply_ket apply_bra prop_ket
  prop_bra normalize_ket normalize_bra norm_ket norm_bra sec_ket sec_bra tau cut min_dim dst dim_sector cexp eps beta).
Notation cds st := (ms_cd (det (st_mc st))).
Notation cs st := (ms_c (det (st_mc st))).

Variable R : realFieldType.
Variable inR : {rmorphism R -> K}.
Hypothesis inR_lt : forall x y, (inR x < inR y) = (x < y).
Variable nrm : K -> R.
Hypothesis nrm_ok : forall x, inR (nrm x) = `|x|.
Notation weight := (weight F lab nb outer apply_ket prop_ket product beta nrm).
Notation inside := (inside beta).
Notation not_after := (not_after beta).
Notation gstate := (gstate types F junk lab nb outer ket_invalid bra_invalid ket_nil bra_nil apply_ket apply_bra prop_ket prop_bra
  normalize_ket normalize_bra norm_ket norm_bra product tau cut beta).
Notation exact := (exact types F lab nb luv geps ket_invalid bra_invalid ket_nil bra_nil apply_ket apply_bra prop_ket
  prop_bra normalize_ket normalize_bra norm_ket norm_bra sec_ket sec_bra tau cut min_dim dst dim_sector cexp eps).
(** The hybridization function depends on the difference of the times and is antiperiodic (C25). *)
Variables (D : nat -> nat -> Z -> K) (s : Z).
Hypothesis hs : (0 < s < beta)%coqZ.
Hypothesis F_diff : forall x y, F x y = D (p_flavor x) (p_flavor y) (ot_time (p_time x) - ot_time (p_time y))%coqZ.
Hypothesis D_anti : forall f g d, (0 < d < beta)%coqZ -> D f g (d - beta)%coqZ = - D f g d.

(** C67. When the trace is the same for the shifted operators (which C66_shift proves when the code finds no state cut away), the shift is
    accepted for every random number, and the weight of the configuration is the same afterwards. *)
Theorem C67_run n st r : gstate st -> inside st -> not_after s st -> (0 < n)%N -> 0 <= r < 1 ->
  exact n (shift_all beta s) st -> (0 < size (cds st))%N ->
  ftr (insert_all (map (operator_shift beta s) (ops (st_mc st)))) = ftr (ops (st_mc st)) ->
  exists st', [/\ run_cmd st (Global n (shift_all beta s).1 (shift_all beta s).2 r) = Some st', Inv st' /\ dv_ok st',
    image (shift_all beta s) st st', ops (st_mc st') = insert_all (map (operator_shift beta s) (ops (st_mc st))) & weight st' = weight st].
Proof.
move=> gs ins na n0 /andP[r0 r1] ex sz eT; have lg := legal_shift lab_ok nb_gt0 eps_ge0 hs gs ins na n0 r0 ex.
have [hi hd hf hw] := gs.
have [st' [e1 e2 e3 /(_ sz)]] := C60_global np mo wk lab_ok luv_ok H N tau_0 tau_beta tau_mono eps_ge0 cut0 order_ok hi hd lg.
have half x : x \in ops (st_mc st) -> half_open beta true (p_time x).
  move=> hx; case/andP: ins => /allP/(_ x hx)/Z.ltb_lt h _; have [_ _ /(_ x (proj2 (In_mem _ _) hx))[_]] := hi.
  by rewrite /half_open /ot_le /=; case: Z.eqb_spec => [->|_ /Z.leb_le] //; lia.
have eo := lst_ops hi.
have ew : wops (omap (shift_all beta s).2 (worm (st_mc st))) = map (operator_shift beta s) (wops (worm (st_mc st))).
  case: (worm (st_mc st)) hw => //= x /(_ x erefl)[h1 h2 h3].
  exact: (C17_worm_shift beta s (y := wty types x.1) (w := MkWorm x.2.1 x.2.2) h1 h3).
have hS : csorted (ops (st_mc st)) by have [[]] := hi.
have u : uniq (map p_time (ops (st_mc st))) by apply/NoDup_uniq; exact: csorted_NoDup_times.
have el : transformed w_ops (shift_all beta s).1 (shift_all beta s).2 (st_mc st) = insert_all (map (operator_shift beta s) (ops (st_mc st))).
  rewrite /transformed ew -!map_cat.
  have [h1 h2] := insert_all_spec (proj2 (NoDup_uniq _) (uniq_shift hs half u)).
  have hl x : x \in cds st ++ cs st ++ wops (worm (st_mc st)) -> half_open beta true (p_time x) by rewrite (perm_mem eo); exact: half.
  have ul : uniq (map p_time (cds st ++ cs st ++ wops (worm (st_mc st)))) by exact: lst_uniq hi.
  have [h3 h4] := insert_all_spec (proj2 (NoDup_uniq _) (uniq_shift hs hl ul)).
  apply: csorted_perm_eq => //; apply: Permutation_trans h4 _; apply: Permutation_trans _ (Permutation_sym h2).
  by apply: Permutation_map; exact: perm_eq_Permutation.
cbv zeta; rewrite el.
have eD : `|full_det F lab nb (map (operator_shift beta s) (cds st)) (map (operator_shift beta s) (cs st))| = `|det_of (st_mc st)|.
  pose D' f g d := if blk lab nb f == blk lab nb g then D f g d else 0.
  have sub x : x \in cds st ++ cs st -> x \in ops (st_mc st) by move=> hx; rewrite -(perm_mem eo) catA mem_cat hx.
  apply: (@C67_abs_det _ (within F lab nb) D' beta s hs _ _ true).
  - by move=> x y; rewrite /within /D' F_diff.
  - by move=> f g d hd'; rewrite /D'; case: ifP => _; rewrite ?oppr0 ?D_anti.
  - by have [[_ [_ [_ [e _]]]] _ _] := hi; rewrite -!length_size.
  - by have := lst_uniq hi; rewrite catA map_cat cat_uniq => /andP[].
  - by move=> x /sub/half.
have [d0 t0] := inv_neq0 lab_ok hi.
rewrite eT normrM normfV normrM eD -normrM divff ?r1; last by rewrite normr_eq0 mulf_neq0.
move=> [q1 q2 q3 q4]; exists st'; split=> //.
- by rewrite /image q2 eqxx andbT; apply/andP; split; exact: Permutation_perm_eq.
- apply: (inR_inj (inR := inR)); rewrite !nrm_ok q1 eT !normrM; congr (_ * _); rewrite -eD; congr (`|_|).
  by apply: full_det_perm; exact: Permutation_perm_eq.
Qed.
End Chain.
Print Assumptions C67_run.

(** ** The worms of the code *)
(** C67. All of them have an even number of operators. *)
Lemma even_flatten (A : Type) (P : pred A) n (f : nat -> seq A) : (forall i, (i < n)%N -> ~~ odd (count P (f i))) -> ~~ odd (count P (flatten [seq f i | i <- iota 0 n])).
Proof.
move=> h; rewrite count_flatten sumnE !big_map big_seq.
by apply: (big_ind (fun m => ~~ odd m)) => // [x y|i]; [rewrite oddD => /negbTE -> /negbTE ->|rewrite mem_iota => /h].
Qed.
Theorem C67_even y w : ~~ odd (size (get_operators y w)).
Proof. by case: y => n /=; rewrite -count_predT; apply: even_flatten => i _. Qed.
(** C67. The operators of the worms for equal-time and two-point correlation functions are moved around the end in pairs: with these the
    sign of the configuration does not change. *)
Theorem C67_pairs beta s y w : (if y is GWorm _ then false else true) -> ~~ odd (count (fun x => around beta s (p_time x)) (get_operators y w)).
Proof. by case: y => n //= _; apply: even_flatten => i _ /=; rewrite /around /= addn0; case: Z.ltb. Qed.
(** C67. For a Green's function the operators are at the times of the worm: the sign changes with the number of times that are moved around. *)
Theorem C67_green beta s r w : count (fun x => around beta s (p_time x)) (get_operators (GWorm r) w) =
  count (fun i => Z.ltb beta (get_time w i + s)) (iota 0 (2 * r)).
Proof.
elim: r => [|r IH] //; rewrite -addn1 mulnDr iotaD count_cat -IH.
by rewrite /get_operators [iota 0 (r + 1)]iotaD map_cat flatten_cat count_cat /= !add0n addn1.
Qed.
Print Assumptions C67_even.
Print Assumptions C67_pairs.
Print Assumptions C67_green.

(** ** The eigenbasis of the code *)
Section Model.
Variables (E : realDomainType) (K : numFieldType) (cj : {rmorphism K -> K}) (big inner : E).
Variables (evals : seq (seq E)) (evecs : seq (mat K)) (conn rev : conn_t) (mats : optype -> nat -> nat -> mat K).
Notation B := (build_basis cj big inner evals evecs conn rev mats).
Variables (expf : E -> K) (tick : Z -> E).
Hypothesis expD : forall x y, expf (x + y) = expf x * expf y.
Hypothesis exp_pos : forall x, 0 < expf x.
Hypothesis tickD : forall s t, tick (s + t)%coqZ = tick s + tick t.
Hypothesis dims : forall s, mc (nth (mat0 K) evecs s) = size (nth [::] evals s).
Hypothesis sizes : size evecs = size evals.
Hypothesis mats_dims : forall o f s d, conn o f s = Some d ->
  mc (mats o f s) = mr (nth (mat0 K) evecs s) /\ mr (mats o f s) = mr (nth (mat0 K) evecs d).
Variables (outer_cutoff emin : E) (flavors : nat).
Hypothesis total : size (flatten evals) = (2 ^ flavors)%N.
(** model.hpp:84-96 *)
Hypothesis flag : translationally_invariant (EigenBasis.outer_bras K outer_cutoff emin (b_evals B)) flavors.
Notation ft := (full_trace (outer_pairs B outer_cutoff emin) (@ket_apply _ _ B (built_op_dims dims mats_dims)) (ket_prop tick exp_pos)
  (@bk_product _ _ B)).
Variables (F : psi -> psi -> K) (D : nat -> nat -> Z -> K) (beta s : Z).
Hypothesis hs : (0 < s < beta)%coqZ.
Hypothesis F_diff : forall x y, F x y = D (p_flavor x) (p_flavor y) (ot_time (p_time x) - ot_time (p_time y))%coqZ.
Hypothesis D_anti : forall f g d, (0 < d < beta)%coqZ -> D f g (d - beta)%coqZ = - D f g d.
Variables (types : seq wtype) (MS : Type) (m_cd m_c : MS -> seq psi) (m_build : seq (psi * psi) -> MS).
Variables (bl : nat -> nat) (nblk : nat) (lu : seq psi -> seq psi -> seq K) (wf : MS -> Prop) (eps : K).
Hypothesis Fblk : forall x y, bl (p_flavor x) != bl (p_flavor y) -> F x y = 0.
Hypothesis lu_ok : forall xs ys, size xs = size ys -> is_lu_vec (matL psi0 psi0 F (size xs) xs ys) (lu xs ys).
Hypothesis build_ok : forall cd c, size cd = size c -> uniq (map p_time (cd ++ c)) ->
  in_blocks bl nblk (cd ++ c) -> hyb_det F cd c != 0 ->
  let m := m_build (zip cd c) in wf m /\ Permutation (m_cd m) cd /\ Permutation (m_c m) c.
Hypothesis wf_det : forall m, wf m -> hyb_det F (m_cd m) (m_c m) != 0.
Notation W := wdata.
Notation ops mc := (operators K W MS mc).
Notation st_of mc := (mstate K W MS mc).
Notation wops mc := (worm_ops W (w_ops types) (Updater.worm K W MS mc)).

(** C67. When translationally_invariant() returns true, the global shift is accepted for every random number: the warning
    "a global shift is rejected!" (impurity.ipp:683) is not printed. *)
Theorem C67_model b r mc dv : consistent K W (w_ops types) MS m_cd m_c (hyb_det F) wf (ft beta) mc ->
  \prod_(x <- dv) x = hyb_det F (m_cd (st_of mc)) (m_c (st_of mc)) -> 0 <= r < 1 -> (0 < size (m_cd (st_of mc)))%N ->
  (forall x, x \in ops mc -> half_open beta b (p_time x)) ->
  (forall x, Updater.worm K W MS mc = Some x -> worm_wf types x) ->
  in_blocks bl nblk (m_cd (st_of mc) ++ m_c (st_of mc)) ->
  (let cd := map (operator_shift beta s) (m_cd (st_of mc)) in let c := map (operator_shift beta s) (m_c (st_of mc)) in
   let v := block_vec bl nblk lu cd c in balanced bl nblk cd c -> all (GlobalUpdate.kept eps (abs_sort v)) v) ->
  exists mc' dv', [/\ global_update (w_ops types) m_cd m_c m_build (ft beta) bl nblk lu eps (shift_all beta s).1 (shift_all beta s).2 r mc dv =
      Some (mc', dv', true),
    ops mc' = insert_all (map (operator_shift beta s) (ops mc)) /\
    Updater.worm K W MS mc' = omap (shift_all beta s).2 (Updater.worm K W MS mc),
    trace K W MS mc' = trace K W MS mc,
    `|hyb_det F (m_cd (st_of mc')) (m_c (st_of mc'))| = `|hyb_det F (m_cd (st_of mc)) (m_c (st_of mc))| &
    sign K W MS mc' = (-1) ^+ count (fun x => around beta s (p_time x)) (wops mc) * sign K W MS mc].
Proof.
move=> HC dvE hr n0 ho hw ib hk.
apply: (@C67_accepted _ _ D beta s hs F_diff D_anti _ _ _ _ _ _ _ _ _ _ _ Fblk lu_ok build_ok wf_det _ _ b) => //.
- by move=> l h1 h2 h3; apply: (C66_shift expD exp_pos tickD dims sizes mats_dims total flag).
- by apply/NoDup_uniq; apply: csorted_NoDup_times; case: HC.
- move=> w ew; split; last exact: C67_even.
  have [h1 h2 h3] := hw w ew; exact: (C17_worm_shift beta s (y := wty types w.1) (w := MkWorm w.2.1 w.2.2) h1 h3).
Qed.
End Model.
Print Assumptions C67_model.

(** A concrete case: operators at the times 1 and 3 of 4, a worm with operators at 2 and 4, shifted by 2. The operators at 3 and 4 are moved
    around the end; the second one belongs to the worm, so the shift is accepted and the sign changes. *)
Section Case.
Let K := rat_numFieldType.
Let D (f g : nat) (d : Z) : K := if Z.ltb d 0 then - 2%:R else 2%:R.
Let F (x y : psi) : K := D (p_flavor x) (p_flavor y) (ot_time (p_time x) - ot_time (p_time y))%coqZ.
Let MS := (seq psi * seq psi)%type.
Let cr t := Psi (OT t 0) CREATION_OP 0.
Let an t := Psi (OT t 0) ANNIHILATION_OP 0.
Let wf (m : MS) := hyb_det F m.1 m.2 != 0.
Let lu xs ys := lup_vec (matL psi0 psi0 F (size xs) xs ys).
Let gw : wdata := (0%N, ([:: 2; 4]%coqZ, [:: 0; 0]%N)).
Let mc b sg : config K wdata MS := Conf K wdata MS [:: cr 1; an 2; an 3; cr 4] ([:: cr 1], [:: an 3]) (Some gw) 1 sg b.
Let sh := shift_all 4 2.
Lemma case_det t u : hyb_det F [:: cr t] [:: an u] = D 0 0 (u - t).
Proof. by rewrite /hyb_det /= /detL det_mx11 mxE. Qed.
Lemma case_anti f g d : (0 < d < 4)%coqZ -> D f g (d - 4)%coqZ = - D f g d.
Proof. by rewrite /D => hd; case: Z.ltb_spec => h1; case: Z.ltb_spec => h2 //; clear -hd h1 h2; lia. Qed.
Lemma case_lu xs ys : size xs = size ys -> is_lu_vec (matL psi0 psi0 F (size xs) xs ys) (lu xs ys).
Proof. by move=> _; exact: lup_vec_ok. Qed.
Lemma case_build cd c : size cd = size c -> uniq (map p_time (cd ++ c)) -> in_blocks (fun=> 0%N) 1 (cd ++ c) -> hyb_det F cd c != 0 ->
  let m : MS := (unzip1 (zip cd c), unzip2 (zip cd c)) in wf m /\ Permutation m.1 cd /\ Permutation m.2 c.
Proof. by move=> e _ _ h; rewrite /wf /= unzip1_zip ?unzip2_zip ?e. Qed.
Lemma case_kept : all (GlobalUpdate.kept 0 (abs_sort (block_vec (fun=> 0%N) 1 lu [:: cr 3] [:: an 1]))) (block_vec (fun=> 0%N) 1 lu [:: cr 3] [:: an 1]).
Proof.
rewrite /block_vec /= cats0; set A := lu _ _.
have h := is_lu_vec_det (case_lu (xs := [:: an 1]) (ys := [:: cr 3]) erefl).
have [_ [_ [_ [_ [_ _ _ _ [sz _]]]]]] := case_lu (xs := [:: an 1]) (ys := [:: cr 3]) erefl.
rewrite -/A in h sz; case: A sz h => [|a []] // _; rewrite big_seq1 det_mx11 mxE => ->.
have : F (nth psi0 [:: an 1] 0) (nth psi0 [:: cr 3] 0) != 0 by vm_compute.
move: (F _ _) => z hz /=.
by rewrite andbT /GlobalUpdate.kept normr_gt0 mulf_neq0 // invr_neq0 // /abs_sort /GlobalUpdate.maxabs /= normr_gt0 hz normr_eq0 hz.
Qed.
Let b := if compute_permutation_sign_impl [:: cr 1] [:: an 3] [:: an 2; cr 4] is Some b then b else false.
Let sg : K := if b then -1 else 1.
Lemma case_consistent : consistent K wdata (w_ops [:: GWorm 1]) MS fst snd (hyb_det F) wf (fun=> 1) (mc b sg).
Proof.
have d2 : hyb_det F [:: cr 1] [:: an 3] = 2%:R by rewrite case_det.
rewrite /Updater.consistent; split; first by do !constructor.
split; first by apply: perm_eq_Permutation; vm_compute.
split; first by rewrite /wf /= d2.
do 3!split=> //; split; first by vm_compute.
by rewrite [mstate _ _ _ _]/= d2 /mysign; apply/eqP; vm_compute.
Qed.
Example C67_accepted_instance r : 0 <= r < 1 -> exists mc' dv',
  [/\ global_update (w_ops [:: GWorm 1]) fst snd (fun l => (unzip1 l, unzip2 l)) (fun=> 1) (fun=> 0%N) 1 lu 0
        sh.1 sh.2 r (mc b sg) [:: 2%:R] = Some (mc', dv', true),
      operators K wdata MS mc' = [:: an 1; cr 2; cr 3; an 4] & sign K wdata MS mc' = - sg].
Proof.
move=> hr; have hs : (0 < 2 < 4)%coqZ by lia.
have blk0 x y : (fun=> 0%N) (p_flavor x) != (fun=> 0%N) (p_flavor y) -> F x y = 0 by [].
have [||||||mc' [dv' [e1 [e2 _] _ _ e5]]] := @C67_accepted K F D 4 2 hs (fun _ _ => erefl) case_anti wdata (w_ops [:: GWorm 1]) MS fst snd
  (fun l => (unzip1 l, unzip2 l)) (fun=> 1) (fun=> 0%N) 1 lu wf blk0 case_lu case_build (fun m h => h) 0 (fun _ _ _ _ => erefl) true sh.2 r (mc b sg)
  [:: 2%:R] case_consistent _ hr isT.
- by rewrite big_seq1 case_det.
- by vm_compute.
- by move=> x; rewrite !inE => /or4P[] /eqP ->; rewrite /half_open /=; lia.
- by move=> w [<-].
- by vm_compute.
- by move=> cd c v _; exact: case_kept.
exists mc', dv'; split; [exact: e1|by rewrite e2; vm_compute|by rewrite e5 -mulN1r; congr (_ * _)].
Qed.
End Case.
