(** * C64: global updates satisfy detailed balance

    The flavor exchange with the vector v against the one with the inverse vector, the shift against the shift. *)
From Coq Require Import ZArith Lia List Bool Sorting.Permutation Sorting.Sorted.
From mathcomp Require Import all_ssreflect all_fingroup all_algebra zify.
From Verif Require Import OpContainer CombSort PermSign T_PermSign Updater T_Updater Select KField Dist Proposal T_Proposal
  Worm T_Worm WormProposal HybDet EigenBasis FastUpdate T_FastUpdate
  DetMatrix T_DetMatrix T_DetUpdate T_DetHistory DetPartitioned T_DetPartitioned GlobalUpdate T_GlobalUpdate
  Window T_Window T_WindowTrace LazyTrace T_LazyTrace Assembly T_Assembly LocalChain T_LocalChain WormChain GlobalChain.
Import Order.Theory GRing.Theory Num.Theory.
Set Implicit Arguments.
Unset Strict Implicit.
Unset Printing Implicit Defensive.
Local Close Scope Z_scope.
Local Open Scope nat_scope.
Delimit Scope Z_scope with coqZ.
Local Open Scope ring_scope.

Lemma sub_subZ a b : (a - (a - b))%coqZ = b. Proof. lia. Qed.
Lemma subZ_inj a b c : (a - b)%coqZ = (a - c)%coqZ -> b = c. Proof. lia. Qed.

(** ** Updates in a random order *)
Section Order.
Variable R : realFieldType.
Variables (n k : nat).
Implicit Types (P : nat -> 'M[R]_n) (w : 'I_n -> R).

(** Detailed balance; [Q] and [Q'] are transition probabilities *)
Definition reversed w (Q Q' : 'M[R]_n) : Prop := forall i j, w i * Q i j = w j * Q' j i.

Lemma reversed_mul w A A' B B' : reversed w A A' -> reversed w B B' -> reversed w (A *m B) (B' *m A').
Proof.
move=> hA hB i j; rewrite !mxE !mulr_sumr; apply: eq_bigr => l _.
by rewrite mulrA hA [w l * _]mulrC -mulrA hB [RHS]mulrA [RHS]mulrC.
Qed.
Lemma reversed_1 w : reversed w 1%:M 1%:M.
Proof. by move=> i j; rewrite !mxE eq_sym; case: eqP => [->|]; rewrite ?mulr0. Qed.
Lemma in_order_rcons P s v : in_order P (rcons s v) = in_order P s *m P v.
Proof. by rewrite /in_order; elim: s => [|u s IH] /=; rewrite ?mulmx1 ?mul1mx // IH mulmxA. Qed.
Lemma reversed_order w P s : (forall v, v \in s -> reversed w (P v) (P v)) -> reversed w (in_order P s) (in_order P (rev s)).
Proof.
elim: s => [|v s IH] h; first exact: reversed_1.
rewrite rev_cons in_order_rcons; apply: reversed_mul; first by apply: h; rewrite mem_head.
by apply: IH => u hu; apply: h; rewrite inE hu orbT.
Qed.

(** When every update satisfies detailed balance, all updates in a random order satisfy detailed balance. *)
Theorem C64_random_order w P : (forall v, (v < k)%N -> reversed w (P v) (P v)) -> reversed w (random_order k P) (random_order k P).
Proof.
move=> h i j; rewrite /random_order !mxE !summxE mulrCA [RHS]mulrCA; congr (_ * _).
have pr : perm_eq (permutations (iota 0 k)) (map rev (permutations (iota 0 k))).
  apply: uniq_perm; rewrite ?(map_inj_uniq (can_inj (@revK _))) ?permutations_uniq // => s.
  rewrite -{2}(revK s) mem_map; last exact: (can_inj (@revK _)).
  by rewrite !mem_permutations perm_rev.
rewrite [in RHS](perm_big _ pr) big_map /= !mulr_sumr !big_seq; apply: eq_bigr => s; rewrite mem_permutations => hs.
by apply: reversed_order => v; rewrite (perm_mem hs) mem_iota => /h.
Qed.

(** What leaves the weights unchanged: detailed balance, and one such step after the other. *)
Definition stationary w (Q : 'M[R]_n) : Prop := forall j, \sum_i w i * Q i j = w j.
Definition normalized (Q : 'M[R]_n) : Prop := forall i, \sum_j Q i j = 1.
Theorem C64_stationary w Q : normalized Q -> reversed w Q Q -> stationary w Q.
Proof. by move=> h1 h2 j; rewrite (eq_bigr (fun i => w j * Q j i)) // -mulr_sumr h1 mulr1. Qed.
Lemma normalized_mul (A B : 'M[R]_n) : normalized A -> normalized B -> normalized (A *m B).
Proof.
move=> h1 h2 i; rewrite (eq_bigr (fun j => \sum_l A i l * B l j)); last by move=> j _; rewrite mxE.
by rewrite exchange_big -[RHS](h1 i); apply: eq_bigr => l _; rewrite -mulr_sumr h2 mulr1.
Qed.
Lemma normalized_order P : (forall v, normalized (P v)) -> normalized (random_order k P).
Proof.
move=> h i; have G s : normalized (in_order P s).
  rewrite /in_order; elim: s => [|v l IH] /=; last exact: normalized_mul.
  by move=> a; rewrite (bigD1 a) //= mxE eqxx big1 ?addr0 // => c hc; rewrite mxE eq_sym (negbTE hc).
rewrite (eq_bigr (fun j => (k`!%:R)^-1 * \sum_(s <- permutations (iota 0 k)) in_order P s i j)); last by move=> j _; rewrite mxE summxE.
rewrite -mulr_sumr exchange_big (eq_bigr (fun=> 1)) => [|s _]; last exact: G.
rewrite big_const_seq count_predT size_permutations ?iota_uniq // size_iota iter_addr_0.
by rewrite mulVf // pnatr_eq0 -lt0n fact_gt0.
Qed.
Theorem C64_stationary_mul w Q S : stationary w Q -> stationary w S -> stationary w (Q *m S).
Proof.
move=> h1 h2 j; rewrite -[RHS]h2 (eq_bigr (fun i => \sum_l w i * Q i l * S l j)); last first.
  by move=> i _; rewrite mxE mulr_sumr; apply: eq_bigr => l _; rewrite mulrA.
by rewrite exchange_big; apply: eq_bigr => l _; rewrite -mulr_suml h1.
Qed.
End Order.

(** ** The calls of global_update *)
Section Chain.
Variable K : numFieldType.
Variable types : seq wtype.
Notation W := wdata.
Notation w_ops := (w_ops types).
Variable F : psi -> psi -> K.
Variable junk : nat -> nat -> K.
Variables (lab : seq nat) (nb : nat).
Variables (np : int) (mo : umode) (wk : work K).
Variable luv : forall n, 'M[K]_n -> seq K.
Variable geps : K.
Variables (Ket Bra : Type) (outer : list (Bra * Ket)).
Variables (ket_invalid : Ket -> bool) (bra_invalid : Bra -> bool) (ket_nil : Ket) (bra_nil : Bra).
Variables (apply_ket : optype -> nat -> Ket -> Ket) (apply_bra : optype -> nat -> Bra -> Bra).
Variables (prop_ket : Z -> Ket -> Ket) (prop_bra : Z -> Bra -> Bra).
Variables (normalize_ket : Ket -> Ket) (normalize_bra : Bra -> Bra).
Variables (norm_ket : Ket -> K) (norm_bra : Bra -> K).
Variables (sec_ket : Ket -> nat) (sec_bra : Bra -> nat).
Variable product : Bra -> Ket -> K.
Variable tau : nat -> nat -> Z.
Variable cut : K.
Variables (min_dim : Ket -> nat) (dst : optype -> nat -> nat -> option nat) (dim_sector : nat -> nat) (cexp : nat -> Z -> K).
Variable rank : Ket -> nat.
Variable eps : K.
Variable order : seq K -> seq nat.
Variable beta : Z.

(** The hypotheses of C22, C24 and C34; nothing is truncated. *)
Hypothesis lab_ok : all (fun b => b < nb)%N lab.
Hypothesis nb_gt0 : (0 < nb)%N.
Hypothesis luv_ok : forall n (A : 'M[K]_n), is_lu_vec A (luv A).
Hypothesis H : braket_ok ket_invalid bra_invalid ket_nil bra_nil apply_ket apply_bra prop_ket prop_bra
  normalize_ket normalize_bra sec_ket sec_bra product.
Hypothesis N : norm_ok ket_invalid apply_ket prop_ket norm_ket norm_bra sec_ket product min_dim dst dim_sector cexp rank.
Hypothesis tau_0 : forall n, (0 < n)%N -> tau n 0 = 0%coqZ.
Hypothesis tau_beta : forall n, (0 < n)%N -> tau n (2 * n) = beta.
Hypothesis tau_mono : forall n p q, (p <= q)%N -> (q <= 2 * n)%N -> (tau n p <= tau n q)%coqZ.
Hypothesis eps_ge0 : 0 <= eps.
Hypothesis cut0 : cut = 0.
Hypothesis order_ok : forall bs, descending bs (order bs).

Notation sw := (sw K Ket Bra).
Notation config := (config K W (ms K)).
Notation state := (state K W Ket Bra).
Notation reach := (T_Window.reach outer ket_invalid bra_invalid ket_nil bra_nil apply_ket apply_bra prop_ket prop_bra
  normalize_ket normalize_bra norm_ket norm_bra tau cut).
Notation tbounds := (trace_bounds ket_invalid bra_invalid sec_ket sec_bra tau min_dim dst dim_sector cexp).
Notation bound_sum := (bound_sum ket_invalid bra_invalid sec_ket sec_bra tau min_dim dst dim_sector cexp).
Notation lazy_at := (lazy_at ket_invalid bra_invalid apply_ket prop_ket normalize_ket sec_ket sec_bra product tau
  min_dim dst dim_sector cexp eps order).
Notation local_update := (local_update w_ops F junk lab nb ket_invalid bra_invalid apply_ket prop_ket normalize_ket
  sec_ket sec_bra product tau min_dim dst dim_sector cexp eps order).
Notation consistent := (consistent K W w_ops (ms K) (@ms_cd K) (@ms_c K) (full_det F lab nb) (ms_wf F junk lab nb)
  (full_trace outer apply_ket prop_ket product beta)).
Notation ftr := (full_trace outer apply_ket prop_ket product beta).
Notation ops mc := (operators K W (ms K) mc).
Notation det mc := (mstate K W (ms K) mc).
Notation det_of mc := (full_det F lab nb (ms_cd (det mc)) (ms_c (det mc))).
Notation setw := (set_window_size ket_invalid bra_invalid ket_nil bra_nil apply_ket apply_bra prop_ket prop_bra
  normalize_ket normalize_bra norm_ket norm_bra tau cut).
Notation run_cmd := (run_cmd w_ops F junk lab nb np mo wk luv geps ket_invalid bra_invalid ket_nil bra_nil apply_ket apply_bra
  prop_ket prop_bra normalize_ket normalize_bra norm_ket norm_bra sec_ket sec_bra product tau cut min_dim dst dim_sector cexp eps order).
Notation run := (run w_ops F junk lab nb np mo wk luv geps ket_invalid bra_invalid ket_nil bra_nil apply_ket apply_bra
  prop_ket prop_bra normalize_ket normalize_bra norm_ket norm_bra sec_ket sec_bra product tau cut min_dim dst dim_sector cexp eps order).
Notation start := (start W junk lab nb np mo wk outer ket_invalid bra_invalid ket_nil bra_nil apply_ket apply_bra
  prop_ket prop_bra normalize_ket normalize_bra norm_ket norm_bra sec_ket sec_bra product tau cut).
Notation wops := (worm_ops W w_ops).
Notation worm mc := (Updater.worm K W (ms K) mc).
Notation Inv := (inv w_ops F junk lab nb outer ket_invalid bra_invalid ket_nil bra_nil apply_ket apply_bra prop_ket prop_bra
  normalize_ket normalize_bra norm_ket norm_bra product tau cut beta).
Notation dv_ok := (dv_ok F lab nb).
Notation legal_global := (legal_global w_ops F lab nb luv geps ket_invalid bra_invalid ket_nil bra_nil apply_ket apply_bra prop_ket
  prop_bra normalize_ket normalize_bra norm_ket norm_bra sec_ket sec_bra tau cut min_dim dst dim_sector cexp eps beta).
Notation cds st := (ms_cd (det (st_mc st))).
Notation cs st := (ms_c (det (st_mc st))).

Variable R : realFieldType.
Variable inR : {rmorphism R -> K}.
Hypothesis inR_lt : forall x y, (inR x < inR y) = (x < y).
Variable nrm : K -> R.
Hypothesis nrm_ok : forall x, inR (nrm x) = `|x|.
Notation weight := (weight F lab nb outer apply_ket prop_ket product beta nrm).

(** The same operators, the same of them hybridized with the bath, the same worm *)
Definition same (a b : state) : bool :=
  [&& ops (st_mc a) == ops (st_mc b), worm (st_mc a) == worm (st_mc b), perm_eq (cds a) (cds b) & perm_eq (cs a) (cs b)].
(** global_update with this transformation and this random number leads to the configuration of [y] *)
Definition leads (n : nat) (st y : state) (g : gtrans) (r : R) : bool :=
  if run_cmd st (Global n g.1 g.2 (inR r)) is Some st' then same st' y else false.
(** [y] has the transformed operators and worm of [st] *)
Definition image (g : gtrans) (st y : state) : bool :=
  [&& perm_eq (cds y) (map g.1 (cds st)), perm_eq (cs y) (map g.1 (cs st)) & worm (st_mc y) == omap g.2 (worm (st_mc st))].

Lemma leads_prob n g st y : Inv st -> Inv y -> dv_ok st -> (forall r, 0 <= r -> legal_global n g.1 g.2 r st) -> ~~ same st y ->
  uniform_prob (leads n st y g) (if (0 < size (cds st))%N && image g st y then Num.min 1 (weight y / weight st) else 0).
Proof.
move=> hi hy hd hl ns.
have w1 := weight_gt0 lab_ok inR_lt nrm_ok hi; have w2 := weight_gt0 lab_ok inR_lt nrm_ok hy.
split; first by case: ifP => _; rewrite ?lexx ?ler01 // le_minl lexx andbT le_minr ler01 divr_ge0 // ltW.
move=> r /andP[r0 r1].
have r0' : 0 <= inR r by move: r0; rewrite !le_eqVlt => /orP[/eqP <-|h]; rewrite ?rmorph0 ?eqxx // -(rmorph0 inR) inR_lt h orbT.
have [st' [e i' _ hg]] := C60_global np mo wk lab_ok luv_ok H N tau_0 tau_beta tau_mono eps_ge0 cut0 order_ok hi hd (hl _ r0').
rewrite /leads e.
have nr : (r < 0) = false by rewrite ltNge r0.
case: (posnP (size (cds st))) hg => [z|z] hg.
  move: e; rewrite /Assembly.run_cmd /global_step z eqxx => -[<-] /=; rewrite nr; exact: negbTE.
rewrite /=; have /= := hg isT.
set D := full_det _ _ _ _ _; set l := transformed _ _ _ _ => {}hg.
have [_ _ /(_ z)[u _ _ _ _]] := hl _ r0'.
have [oS oP] : csorted l /\ Permutation l (map g.1 (cds st) ++ map g.1 (cs st) ++ wops (omap g.2 (worm (st_mc st)))).
  by apply/insert_all_spec/NoDup_uniq.
case: (boolP (image g st y)) => [/and3P[p1 p2 /eqP ew]|ni]; last first.
  rewrite nr; apply/negbTE; apply: contra ni => /and4P[s1 s2 s3 s4]; move: hg; case: ifP => [_ [_ h2 h3 h4]|_ h]; last first.
    by case/negP: ns; rewrite /same -h s1 s2 s3 s4.
  rewrite /image -(eqP s2) h2 eqxx andbT; apply/andP; split.
    by rewrite perm_sym in s3; apply: (perm_trans s3); exact: Permutation_perm_eq.
  by rewrite perm_sym in s4; apply: (perm_trans s4); exact: Permutation_perm_eq.
have el : l = ops (st_mc y).
  have [[sy [py _]] _ _] := hy; apply: csorted_perm_eq => //; apply: (Permutation_trans oP); rewrite -ew.
  apply: Permutation_trans (Permutation_sym py); rewrite -!app_cat.
  by apply: Permutation_app; [|apply: Permutation_app => //]; apply: Permutation_sym; exact: perm_eq_Permutation.
have eD : D = det_of (st_mc y) by apply: full_det_perm; rewrite perm_sym.
have er : `|D * ftr l / (det_of (st_mc st) * ftr (ops (st_mc st)))| = inR (weight y / weight st).
  by rewrite /T_LocalChain.weight fmorph_div !nrm_ok eD el normrM normfV.
rewrite er inR_lt in hg; rewrite lt_minr r1 /=; move: hg; case: ifP => [_ [h1 h2 h3 h4]|_ h].
  rewrite /same h1 h2 el ew !eqxx /=; apply/andP; split.
    by rewrite perm_sym; apply: (perm_trans p1); rewrite perm_sym; exact: Permutation_perm_eq.
  by rewrite perm_sym; apply: (perm_trans p2); rewrite perm_sym; exact: Permutation_perm_eq.
by apply/negbTE; rewrite /same h; exact: ns.
Qed.

Lemma min_balance (a b : R) : 0 < a -> 0 < b -> a * Num.min 1 (b / a) = b * Num.min 1 (a / b).
Proof.
move=> a0 b0; rewrite !minr_pmulr ?ltW // !mulr1 [a * (b / a)]mulrC divfK ?gt_eqF //.
by rewrite [b * (a / b)]mulrC divfK ?gt_eqF // minC.
Qed.

(** *** The conditions on a state *)
(** the worm has the times and flavors of its type *)
Definition worm_wf (x : wdata) : Prop :=
  [/\ size x.2.1 = n_times (wty types x.1), size x.2.2 = n_flavors (wty types x.1) & (0 < n_flavors (wty types x.1))%N].
(** the flavors exist *)
Definition flavors_ok (st : state) : bool :=
  all (flavor_known lab) (cds st ++ cs st) && (if worm (st_mc st) is Some x then all (fun f => f < size lab)%N x.2.2 else true).
(** no factor of the new determinant is discarded, and no gap between the bounds of the new trace (C55, C24) *)
Definition exact (n : nat) (g : gtrans) (st : state) : Prop :=
  let cd := map g.1 (cds st) in
  let c := map g.1 (cs st) in
  let l := transformed w_ops g.1 g.2 (st_mc st) in
  (let v := block_vec (blk lab nb) nb (lu_ops F luv) cd c in balanced (blk lab nb) nb cd c -> all (GlobalUpdate.kept geps (abs_sort v)) v) /\
  (forall s1 s2, setw 1 (ops (st_mc st)) 0 (Some ITIME_LEFT) (st_sw st) = WOk s1 -> setw n l 0 (Some ITIME_LEFT) s1 = WOk s2 ->
     no_gap eps (tbounds l s2)).
Record gstate (st : state) : Prop := GState {
  gs_inv : Inv st; gs_dv : dv_ok st; gs_flav : flavors_ok st; gs_worm : forall x, worm (st_mc st) = Some x -> worm_wf x }.

Notation lst st := (cds st ++ cs st ++ wops (worm (st_mc st))).
Lemma lst_ops st : Inv st -> perm_eq (lst st) (ops (st_mc st)).
Proof. by move=> [[_ [hp _]] _ _]; apply: Permutation_perm_eq; apply: Permutation_sym; exact: hp. Qed.
Lemma lst_uniq st : Inv st -> uniq (map p_time (lst st)).
Proof.
move=> hi; rewrite (perm_uniq (perm_map p_time (lst_ops hi))).
by have [[hs _] _ _] := hi; apply/NoDup_uniq; exact: csorted_NoDup_times.
Qed.

Lemma legal_of n g st r : gstate st -> (0 < n)%N -> 0 <= r -> exact n g st ->
  wops (omap g.2 (worm (st_mc st))) = map g.1 (wops (worm (st_mc st))) ->
  {in map p_time (lst st) &, injective (fun t => p_time (g.1 (Psi t CREATION_OP 0)))} -> 
  (forall x, p_time (g.1 x) = p_time (g.1 (Psi (p_time x) CREATION_OP 0))) ->
  (forall x, flavor_known lab x -> flavor_known lab (g.1 x)) ->
  times_in beta (map g.1 (lst st)) -> legal_global n g.1 g.2 r st.
Proof.
move=> [hi hd hf hw] n0 r0 [e1 e2] ew inj tm fk ti; split=> // _.
have u : uniq (map p_time (map g.1 (lst st))).
  rewrite -map_comp (eq_map (f2 := (fun t => p_time (g.1 (Psi t CREATION_OP 0))) \o p_time)) => [|x]; last exact: tm.
  by rewrite map_comp map_inj_in_uniq ?lst_uniq.
have el : map g.1 (cds st) ++ map g.1 (cs st) ++ wops (omap g.2 (worm (st_mc st))) = map g.1 (lst st) by rewrite ew !map_cat.
split=> //; first by rewrite el.
- by rewrite -map_cat all_map; case/andP: hf => hf _; apply: sub_all hf => x; exact: fk.
- move=> x hx; apply: ti; apply: Permutation_in hx; rewrite /transformed el.
  by have [] := insert_all_spec (proj2 (NoDup_uniq _) u).
Qed.

Lemma image_back g h st y : {in cds st ++ cs st, cancel g.1 h.1} -> (forall x, worm (st_mc st) = Some x -> h.2 (g.2 x) = x) ->
  image g st y -> image h y st.
Proof.
move=> c1 c2 /and3P[p1 p2 /eqP ew]; have G s s' : {subset s <= cds st ++ cs st} -> perm_eq s' (map g.1 s) -> perm_eq s (map h.1 s').
  move=> hs hp; rewrite perm_sym; apply: (perm_trans (perm_map _ hp)); rewrite -map_comp -[X in perm_eq _ X]map_id.
  rewrite (_ : map (h.1 \o g.1) s = map id s) //; apply/eq_in_map => x /hs; exact: c1.
apply/and3P; split.
- by apply: G p1 => x hx; rewrite mem_cat hx.
- by apply: G p2 => x hx; rewrite mem_cat hx orbT.
- by rewrite ew; case: (worm (st_mc st)) c2 => //= x /(_ x erefl) ->.
Qed.

Lemma balance_of n g h st y : (0 < n)%N -> gstate st -> gstate y ->
  (forall r, 0 <= r -> legal_global n g.1 g.2 r st) -> (forall r, 0 <= r -> legal_global n h.1 h.2 r y) ->
  image g st y = image h y st -> ~~ same st y ->
  let a := if (0 < size (cds st))%N && image g st y then Num.min 1 (weight y / weight st) else 0 in
  let b := if (0 < size (cds y))%N && image h y st then Num.min 1 (weight st / weight y) else 0 in
  [/\ uniform_prob (leads n st y g) a, uniform_prob (leads n y st h) b, ((0 < size (cds st))%N -> image g st y -> 0 < a /\ 0 < b) &
      weight st * a = weight y * b].
Proof.
move=> n0 [i1 d1 _ _] [i2 d2 _ _] l1 l2 hI ns a b.
have w1 := weight_gt0 lab_ok inR_lt nrm_ok i1; have w2 := weight_gt0 lab_ok inR_lt nrm_ok i2.
have es : image g st y -> size (cds y) = size (cds st) by case/and3P=> /perm_size; rewrite size_map.
have ns' : ~~ same y st.
  apply: contra ns => /and4P[h1 h2 h3 h4].
  by apply/and4P; split; [rewrite eq_sym|rewrite eq_sym|rewrite perm_sym|rewrite perm_sym].
split; [exact: leads_prob|exact: leads_prob| |].
  move=> z im; rewrite /a /b -hI im (es im) z /= !lt_minr ltr01 /=; split; exact: divr_gt0.
rewrite /a /b -hI; case: (boolP (image g st y)) => [im|_]; last by rewrite !andbF !mulr0.
by rewrite (es im); case: (0 < _)%N; rewrite /= ?mulr0 //; exact: min_balance.
Qed.

(** *** Flavor exchanges *)
Lemma legal_exchange n v st r : gstate st -> (0 < n)%N -> 0 <= r -> exact n (exchange_all v) st -> perm_eq v (iota 0 (size lab)) ->
  legal_global n (exchange_all v).1 (exchange_all v).2 r st.
Proof.
move=> gs n0 r0 ex pv; apply: legal_of => //.
- case: gs => _ _ _; case: (worm (st_mc st)) => //= x /(_ x erefl)[h1 h2 h3].
  exact: (C18_worm_exchange v (y := wty types x.1) (w := MkWorm x.2.1 x.2.2) h2).
- move=> x hx; have sv : size v = size lab by rewrite (perm_size pv) size_iota.
  have : nth 0%N v (p_flavor x) \in iota 0 (size lab) by rewrite -(perm_mem pv) mem_nth ?sv.
  by rewrite mem_iota.
- case: gs => hi _ _ _ x /in_map_iff[z [<- hz]]; have [_ _ ti] := hi; apply: (ti z).
  by apply: Permutation_in hz; apply: perm_eq_Permutation; exact: lst_ops.
Qed.
Lemma exchange_back v u st y : flavors_ok st -> inverse_of (size lab) v u -> image (exchange_all v) st y -> image (exchange_all u) y st.
Proof.
move=> /andP[h1 h2] hi; apply: image_back => [x|x ew].
  by move=> /(allP h1) hx; rewrite /= /exchange_flavor /= (proj1 (hi _ hx)); case: (x).
case: x ew => i [ts fs] ew; rewrite /= /on_worm /=; congr (_, (_, _)).
rewrite -map_comp -[RHS]map_id; apply/eq_in_map => f hf /=; rewrite ew in h2; exact: (proj1 (hi _ (allP h2 _ hf))).
Qed.
Lemma inverse_sym m v u : inverse_of m v u -> inverse_of m u v.
Proof. by move=> h f /h[]. Qed.

(** For every flavor exchange that is used, an exchange that is used reverses it: between two different configurations the
    flows are equal. *)
Theorem C64_exchange spins sites user us n v : (0 < spins * sites)%N -> size lab = (spins * sites)%N -> (0 < n)%N ->
  swap_vectors spins sites user = SwapOk us -> v \in us ->
  exists2 u, u \in us & inverse_of (size lab) v u /\
    forall st y, gstate st -> gstate y -> exact n (exchange_all v) st -> exact n (exchange_all u) y -> ~~ same st y -> exists q q',
      [/\ uniform_prob (leads n st y (exchange_all v)) q, uniform_prob (leads n y st (exchange_all u)) q',
          ((0 < size (cds st))%N -> image (exchange_all v) st y -> 0 < q /\ 0 < q') &
          weight st * q = weight y * q'].
Proof.
move=> f0 el n0 e hv; have [_ hc] := C18_closed_under_inverse f0 e.
have [pv _ [u hu iu]] := hc _ hv; have [pu _ _] := hc _ hu; rewrite -el in pv pu iu.
exists u => //; split=> // st y g1 g2 e1 e2 ns.
have hI : image (exchange_all v) st y = image (exchange_all u) y st.
  by apply/idP/idP; [|have iu' := inverse_sym iu]; apply: exchange_back => //; [case: g1|case: g2].
have [a b c d] := balance_of n0 g1 g2 (fun r r0 => legal_exchange g1 n0 r0 e1 pv) (fun r r0 => legal_exchange g2 n0 r0 e2 pu) hI ns.
by eexists; eexists; split; [exact: a|exact: b|exact: c|exact: d].
Qed.

(** *** Shifts *)
(** no operator at time 0 *)
Definition inside (st : state) : bool :=
  all (fun x => Z.ltb 0 (ot_time (p_time x))) (ops (st_mc st)) &&
  (if worm (st_mc st) is Some x then all (fun t => Z.ltb 0 t && Z.leb t beta) x.2.1 else true).
(** the shift of no operator ends after beta (operators at the same time are ordered by a second number) *)
Definition not_after (s : Z) (st : state) : Prop := times_in beta (map (operator_shift beta s) (ops (st_mc st))).

Lemma legal_shift n s st r : (0 < s < beta)%coqZ -> gstate st -> inside st -> not_after s st -> (0 < n)%N -> 0 <= r ->
  exact n (shift_all beta s) st -> legal_global n (shift_all beta s).1 (shift_all beta s).2 r st.
Proof.
move=> hs gs ins na n0 r0 ex.
have tt t : t \in map p_time (lst st) -> (0 < ot_time t <= beta)%coqZ.
  case: (gs) => hi _ _ _; rewrite (perm_mem (perm_map p_time (lst_ops hi))) => /mapP[x hx ->].
  case/andP: ins => /allP/(_ x hx)/Z.ltb_lt h _; split=> //.
  have [_ _ /(_ x (proj2 (In_mem _ _) hx))[_]] := hi.
  by rewrite /ot_le /=; case: Z.eqb_spec => [->|_ /Z.leb_le] //; lia.
apply: legal_of => //.
- case: gs => _ _ _; case: (worm (st_mc st)) => //= x /(_ x erefl)[h1 h2 h3].
  exact: (C17_worm_shift beta s (y := wty types x.1) (w := MkWorm x.2.1 x.2.2) h1 h3).
- move=> t u /tt ht /tt hu /= [e1 e2].
  have [e|[e|e]] : ot_time t = ot_time u \/ ot_time t = 0%coqZ /\ ot_time u = beta \/ ot_time t = beta /\ ot_time u = 0%coqZ.
    by apply: (C17_injective hs) e1; lia.
  - by case: t u e e2 {ht hu e1} => [? ?] [? ?] /= -> ->.
  - lia.
  - lia.
- case: gs => hi _ _ _ x /in_map_iff[z [<- hz]]; apply: na; apply: in_map.
  by apply: Permutation_in hz; apply: perm_eq_Permutation; exact: lst_ops.
Qed.

Lemma shift_back s st y : (0 < s < beta)%coqZ -> Inv st -> inside st -> image (shift_all beta s) st y -> image (shift_all beta (beta - s)) y st.
Proof.
move=> hs hi ins; apply: image_back => [x hx|x ew].
  have hx' : x \in ops (st_mc st) by rewrite -(perm_mem (lst_ops hi)) catA mem_cat hx.
  case/andP: ins => /allP/(_ x hx')/Z.ltb_lt h _; have [_ _ /(_ x (proj2 (In_mem _ _) hx'))[_]] := hi.
  rewrite /= /operator_shift /= => h2; rewrite (C17_inverse hs); last first.
    by split; [lia|move: h2; rewrite /ot_le /=; case: Z.eqb_spec => [->|_ /Z.leb_le] //; lia].
  by case: Z.eqb_spec => [e|_]; [lia|case: (x) => [[? ?] ? ?]].
case/andP: ins => _; rewrite ew; case: x ew => i [ts fs] _ /= h; rewrite /on_worm /=; congr (_, (_, _)).
rewrite -map_comp -[RHS]map_id; apply/eq_in_map => t ht /=; have /andP[/Z.ltb_lt t0 /Z.leb_le t1] := allP h t ht.
by rewrite (C17_inverse hs); [case: Z.eqb_spec => //; lia|lia].
Qed.

(** Between two different configurations the shift by a random value has equal flows in both directions, when with every value
    s also beta - s is possible. *)
Theorem C64_shift n vals st y : (0 < n)%N -> uniq vals -> (forall s, s \in vals -> (0 < s < beta)%coqZ /\ Z.sub beta s \in vals) ->
  gstate st -> gstate y -> inside st -> inside y ->
  (forall s, s \in vals -> [/\ not_after s st, exact n (shift_all beta s) st, not_after s y & exact n (shift_all beta s) y]) ->
  ~~ same st y -> exists q q',
    [/\ flow (shift_call R beta vals) (leads n st y) q, flow (shift_call R beta vals) (leads n y st) q',
        ((0 < size (cds st))%N -> (exists2 s, s \in vals & image (shift_all beta s) st y) -> 0 < q /\ 0 < q') &
        weight st * q = weight y * q'].
Proof.
move=> n0 uv hv g1 g2 in1 in2 hx ns.
have [i1 d1 _ _] := g1; have [i2 d2 _ _] := g2.
have w1 := weight_gt0 lab_ok inR_lt nrm_ok i1; have w2 := weight_gt0 lab_ok inR_lt nrm_ok i2.
have ns' : ~~ same y st.
  apply: contra ns => /and4P[h1 h2 h3 h4].
  by apply/and4P; split; [rewrite eq_sym|rewrite eq_sym|rewrite perm_sym|rewrite perm_sym].
have hI s : s \in vals -> image (shift_all beta s) st y = image (shift_all beta (beta - s)) y st.
  move=> /hv[hs hs']; apply/idP/idP; first exact: shift_back.
  move=> /(shift_back (proj1 (hv _ hs')) i2 in2); by rewrite sub_subZ.
pose E a b (g : gtrans) := (0 < size (cds a))%N && image g a b.
have acc (a b : R) : 0 < a -> 0 < b -> 0 <= Num.min 1 (b / a) <= 1.
  by move=> ha hb; rewrite le_minl lexx andbT le_minr ler01 divr_ge0 // ltW.
have fl a b : gstate a -> gstate b -> inside a -> ~~ same a b -> 
    (forall s, s \in vals -> not_after s a /\ exact n (shift_all beta s) a) ->
    flow (shift_call R beta vals) (leads n a b) (pr (shift_call R beta vals) (E a b) * Num.min 1 (weight b / weight a)).
  move=> ga gb ia nab ha; have [ja da _ _] := ga; have [jb _ _ _] := gb.
  have wa := weight_gt0 lab_ok inR_lt nrm_ok ja; have wb := weight_gt0 lab_ok inR_lt nrm_ok jb.
  apply: flow_event; first exact: acc.
  move=> p /In_map[[w s] hp ->] _ r hr; cbn [fst snd].
  have hs : s \in vals.
    by move: hp; rewrite /unif => /in_map_iff[s' [[_ <-]]] /In_mem.
  have [h1 h2] := ha _ hs; have [_ ->] := leads_prob ja jb da (fun r r0 => legal_shift (proj1 (hv _ hs)) ga ia h1 n0 r0 h2) nab.
    by rewrite -/(E a b (shift_all beta s)); case: (E _ _ _) => //=; rewrite ltNge; case/andP: hr => ->.
  by [].
have pe : pr (shift_call R beta vals) (E st y) = pr (shift_call R beta vals) (E y st).
  rewrite /shift_call !pr_map !pr_unif0; congr (_ * _); congr (_%:R).
  have pv : perm_eq vals [seq (beta - s)%coqZ | s <- vals].
    apply: uniq_perm => //; first by rewrite map_inj_in_uniq // => a b _ _ /subZ_inj.
    move=> s; apply/idP/mapP => [hs|[s' hs' ->]]; last by case: (hv _ hs').
    by exists (beta - s)%coqZ; [case: (hv _ hs)|rewrite sub_subZ].
  rewrite [RHS](seq.permP pv) count_map; apply: eq_in_count => s hs; rewrite /E /= -hI //.
  by case: (boolP (image _ _ _)) => [/and3P[/perm_size + _ _]|]; rewrite ?andbF // size_map => ->.
exists (pr (shift_call R beta vals) (E st y) * Num.min 1 (weight y / weight st)),
  (pr (shift_call R beta vals) (E y st) * Num.min 1 (weight st / weight y)); split.
- by apply: fl => // s /hx[].
- by apply: fl => // s /hx[].
- move=> z [s hs im]; rewrite -pe.
  have p0 : 0 < pr (shift_call R beta vals) (E st y).
    rewrite /shift_call pr_map pr_unif0 mulr_gt0 ?invr_gt0 ?ltr0n -?has_count //; first by case: (vals) hs.
    by apply/hasP; exists s => //; rewrite /E z.
  by split; apply: mulr_gt0 => //; rewrite lt_minr ltr01 divr_gt0.
- by rewrite -pe mulrCA min_balance // mulrCA.
Qed.

(** An exchange that is its own inverse satisfies detailed balance; in particular the spin flip, which is always used. *)
Theorem C64_involution n v st y : perm_eq v (iota 0 (size lab)) -> inverse_of (size lab) v v -> (0 < n)%N ->
  gstate st -> gstate y -> exact n (exchange_all v) st -> exact n (exchange_all v) y -> ~~ same st y -> exists q q',
    [/\ uniform_prob (leads n st y (exchange_all v)) q, uniform_prob (leads n y st (exchange_all v)) q',
        ((0 < size (cds st))%N -> image (exchange_all v) st y -> 0 < q /\ 0 < q') & weight st * q = weight y * q'].
Proof.
move=> pv iv n0 g1 g2 e1 e2 ns.
have hI : image (exchange_all v) st y = image (exchange_all v) y st.
  by apply/idP/idP; apply: exchange_back => //; [case: g1|case: g2].
have [a b c d] := balance_of n0 g1 g2 (fun r r0 => legal_exchange g1 n0 r0 e1 pv) (fun r r0 => legal_exchange g2 n0 r0 e2 pv) hI ns.
by eexists; eexists; split; [exact: a|exact: b|exact: c|exact: d].
Qed.

(** All exchanges of a list of such vectors in a random order, on a finite set of configurations *)
Theorem C64_exchanges m (conf : 'I_m -> state) us n (P : nat -> 'M[R]_m) : (0 < n)%N ->
  (forall v, v \in us -> perm_eq v (iota 0 (size lab)) /\ inverse_of (size lab) v v) ->
  (forall i, gstate (conf i)) -> (forall i v, v \in us -> exact n (exchange_all v) (conf i)) ->
  (forall i j, i != j -> ~~ same (conf i) (conf j)) ->
  (forall v i j, (v < size us)%N -> i != j -> uniform_prob (leads n (conf i) (conf j) (exchange_all (nth [::] us v))) (P v i j)) ->
  let w i := weight (conf i) in reversed w (random_order (size us) P) (random_order (size us) P).
Proof.
move=> n0 hv hg he hd hP w; apply: C64_random_order => v vk i j; rewrite /w.
have hm : nth [::] us v \in us by exact: mem_nth.
case: (eqVneq i j) => [->//|ne]; have [p1 p2] := hv _ hm.
have [q [q' [h1 h2 _ h3]]] := C64_involution p1 p2 n0 (hg i) (hg j) (he i _ hm) (he j _ hm) (hd _ _ ne).
rewrite (uniform_prob_inj (hP v i j vk ne) h1) (uniform_prob_inj (hP v j i vk _) h2) //; by rewrite eq_sym.
Qed.

(** An exchange that is not its own inverse does not keep the weights. Three configurations that are exchanged cyclically,
    with increasing weights: what arrives at the second one is less than its weight. *)
Theorem C64_cycle n v a b c : (0 < n)%N -> perm_eq v (iota 0 (size lab)) -> gstate a -> gstate b -> gstate c ->
  exact n (exchange_all v) a -> exact n (exchange_all v) b -> exact n (exchange_all v) c -> (0 < size (cds a))%N ->
  image (exchange_all v) a b -> image (exchange_all v) b c -> image (exchange_all v) c a ->
  ~~ same a b -> ~~ same b c -> ~~ same c a -> ~~ same c b -> ~~ image (exchange_all v) c b ->
  weight a <= weight b -> weight b <= weight c ->
  [/\ uniform_prob (leads n a b (exchange_all v)) 1, uniform_prob (leads n b c (exchange_all v)) 1,
      uniform_prob (leads n c b (exchange_all v)) 0 & uniform_prob (leads n c a (exchange_all v)) (weight a / weight c)].
Proof.
move=> n0 pv ga gb gc ea eb ec sz iab ibc ica nab nbc nca ncb icb hab hbc.
have [ja da _ _] := ga; have [jb db _ _] := gb; have [jc dc _ _] := gc.
have wa := weight_gt0 lab_ok inR_lt nrm_ok ja; have wb := weight_gt0 lab_ok inR_lt nrm_ok jb; have wc := weight_gt0 lab_ok inR_lt nrm_ok jc.
have sb : size (cds b) = size (cds a) by have /and3P[/perm_size + _ _] := iab; rewrite size_map.
have sc : size (cds c) = size (cds b) by have /and3P[/perm_size + _ _] := ibc; rewrite size_map.
have la r r0 := legal_exchange (r := r) ga n0 r0 ea pv; have lb r r0 := legal_exchange (r := r) gb n0 r0 eb pv; have lc r r0 := legal_exchange (r := r) gc n0 r0 ec pv.
split.
- have := leads_prob ja jb da la nab; rewrite sz iab /=; case: lerP => // /ltW.
  by rewrite ler_pdivr_mulr // mul1r => h; rewrite (_ : weight b = weight a) ?divff ?gt_eqF //; apply/eqP; rewrite eq_le h hab.
- have := leads_prob jb jc db lb nbc; rewrite sb sz ibc /=; case: lerP => // /ltW.
  by rewrite ler_pdivr_mulr // mul1r => h; rewrite (_ : weight c = weight b) ?divff ?gt_eqF //; apply/eqP; rewrite eq_le h hbc.
- by have := leads_prob jc jb dc lc ncb; rewrite (negbTE icb) andbF.
- have := leads_prob jc ja dc lc nca; rewrite sc sb sz ica /=; case: lerP => // h.
  by rewrite (_ : weight a / weight c = 1) //; apply/eqP; rewrite eq_le h ler_pdivr_mulr // mul1r (le_trans hab hbc).
Qed.
End Chain.

(** ** The spin flip *)
Lemma nth_flip sites f : (f < 2 * sites)%N -> nth 0%N [seq Z.to_nat x | x <- spin_flip 2 sites] f = if odd f then f.-1 else f.+1.
Proof.
rewrite /spin_flip /= map_flatten -map_comp; elim: sites f => [|s IH] f hf; first by move: hf; rewrite muln0.
rewrite -[X in iota _ X]addn1 iotaD add0n map_cat flatten_cat nth_cat.
have -> : size (flatten [seq ([eta map Z.to_nat] \o (fun i => [:: Z.of_nat (2 * i + 1); Z.of_nat (2 * i)])) i | i <- iota 0 s]) = (2 * s)%N.
  by rewrite size_flatten /shape -map_comp sumnE big_map (eq_bigr (fun=> 2%N)) // big_const_seq count_predT size_iota iter_addn_0 mulnC.
case: ltnP => h; first by rewrite IH.
have : f = (2 * s)%N \/ f = (2 * s).+1 by move: hf h; rewrite mulnS; lia.
case=> ->; rewrite ?subnn ?subSnn /= ?mul2n ?odd_double /= Nat2Z.id ?addn1 //.
Qed.
(** Without user-defined vectors, every vector that is used is its own inverse. *)
Theorem C64_spin_flip sites us : (0 < sites)%N -> swap_vectors 2 sites [::] = SwapOk us ->
  forall v, v \in us -> perm_eq v (iota 0 (2 * sites)) /\ inverse_of (2 * sites) v v.
Proof.
move=> s0 e v hv; have f0 : (0 < 2 * sites)%N by rewrite muln_gt0.
have [_ /(_ v hv)[pv _ _]] := C18_closed_under_inverse f0 e; split=> //.
have [_ /(_ v hv)[k]] := C18_user_updates f0 e; rewrite cat0s; set l := [seq _ | _ <- _].
have sl : size l = (2 * sites)%N.
  rewrite size_map size_flatten /shape -map_comp sumnE big_map (eq_bigr (fun=> 2%N)) // big_const_seq count_predT size_iota iter_addn_0.
  by rewrite mulnC.
rewrite sl divnn f0 => /=; case: k => // _; rewrite mul0n drop0 take_oversize ?sl // => hl.
have fl f : (f < 2 * sites)%N -> (nth 0%N l f < 2 * sites)%N /\ nth 0%N l (nth 0%N l f) = f.
  move=> hf; have h : ((if odd f then f.-1 else f.+1) < 2 * sites)%N.
    case: ifP => o; first exact: leq_ltn_trans (leq_pred _) hf.
    rewrite ltn_neqAle hf andbT; apply: contraFneq o => /(congr1 odd); rewrite mul2n odd_double /=; exact: negbFE.
  rewrite nth_flip // h; split=> //; rewrite nth_flip //.
  by case: f {hf h} => // f /=; case: (boolP (odd f)) => o /=; rewrite ?o ?(negbTE o).
case: hl => [->|hi] f hf; first by split; case: (fl f hf).
have E g : (g < 2 * sites)%N -> nth 0%N v g = nth 0%N l g.
  by move=> hg; have [h1 h2] := fl g hg; rewrite -{1}h2; case: (hi _ h1).
by have [h1 h2] := fl f hf; rewrite !E ?h1 ?h2.
Qed.
Print Assumptions C64_random_order.
Print Assumptions C64_stationary.
Print Assumptions C64_stationary_mul.
Print Assumptions C64_exchange.
Print Assumptions C64_shift.
Print Assumptions C64_involution.
Print Assumptions C64_exchanges.
Print Assumptions C64_cycle.
Print Assumptions C64_spin_flip.
