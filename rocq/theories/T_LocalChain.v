(** * C62: one call of a local updater satisfies detailed balance *)
From Coq Require Import ZArith Lia List Bool Sorting.Permutation Sorting.Sorted.
From mathcomp Require Import all_ssreflect all_fingroup all_algebra zify.
From Verif Require Import OpContainer CombSort PermSign T_PermSign Updater T_Updater KField Dist Proposal T_Proposal DiagProposal T_DiagProposal
  ShiftProposal T_ShiftProposal HybDet EigenBasis FastUpdate T_FastUpdate
  DetMatrix T_DetMatrix T_DetUpdate T_DetHistory DetPartitioned T_DetPartitioned GlobalUpdate T_GlobalUpdate
  Window T_Window T_WindowTrace LazyTrace T_LazyTrace Assembly T_Assembly LocalChain.
Import Order.Theory GRing.Theory Num.Theory.
Set Implicit Arguments.
Unset Strict Implicit.
Unset Printing Implicit Defensive.
Local Close Scope Z_scope.
Local Open Scope nat_scope.
Delimit Scope Z_scope with coqZ.
Local Open Scope ring_scope.

(** ** Probabilities of a random proposal followed by a test of a uniform random number *)
Section Flow.
Variable R : realFieldType.
(** a random number that is uniform in [0, 1) is in [A] with probability [t] *)
Definition uniform_prob (A : R -> bool) (t : R) : Prop := 0 <= t <= 1 /\ forall r, 0 <= r < 1 -> A r = (r < t).
(** The proposal [o] is drawn from [d], then [hit o] is tested with a uniform random number; [q] is the probability that
    the test succeeds. *)
Definition flow (O : Type) (d : dist R O) (hit : O -> R -> bool) (q : R) : Prop :=
  exists th : O -> R, (forall p, List.In p d -> p.1 != 0 -> uniform_prob (hit p.2) (th p.2)) /\ q = \sum_(p <- d) p.1 * th p.2.

Lemma uniform_prob_inj A t t' : uniform_prob A t -> uniform_prob A t' -> t = t'.
Proof.
have G a b : uniform_prob A a -> uniform_prob A b -> a <= b.
  move=> [/andP[a0 a1] ha] [/andP[b0 b1] hb]; rewrite leNgt; apply/negP => lt.
  have hb1 : 0 <= b < 1 by rewrite b0 (lt_le_trans lt).
  by move: (ha b hb1); rewrite (hb b hb1) ltxx lt.
by move=> h1 h2; apply/eqP; rewrite eq_le !G.
Qed.
Lemma sum_In (O : Type) (d : dist R O) (f g : R * O -> R) : (forall p, List.In p d -> f p = g p) -> \sum_(p <- d) f p = \sum_(p <- d) g p.
Proof.
elim: d => [|p d IH] h; first by rewrite !big_nil.
by rewrite !big_cons h /=; [congr (_ + _); apply: IH => x hx; apply: h; right|left].
Qed.
Lemma flow_inj (O : Type) (d : dist R O) hit q q' : flow d hit q -> flow d hit q' -> q = q'.
Proof.
move=> [th [h ->]] [th' [h' ->]]; apply: sum_In => p hp; case: (eqVneq p.1 0) => [->|ne]; first by rewrite !mul0r.
by congr (_ * _); exact: uniform_prob_inj (h p hp ne) (h' p hp ne).
Qed.
Lemma flow_event (O : Type) (d : dist R O) hit (E : O -> bool) a : 0 <= a <= 1 ->
  (forall p, List.In p d -> p.1 != 0 -> forall r, 0 <= r < 1 -> hit p.2 r = E p.2 && (r < a)) -> flow d hit (pr d E * a).
Proof.
move=> ha h; exists (fun o => if E o then a else 0); split.
  move=> p hp ne; split; first by case: ifP => // _; rewrite lexx ler01.
  by move=> r hr; rewrite (h p hp ne r hr); case: (E _) => //=; case/andP: hr => r0 _; rewrite ltNge r0.
rewrite prE mulr_suml; apply: eq_bigr => p _; rewrite -mulrA; congr (_ * _).
by case: (E _); rewrite ?mul1r ?mul0r.
Qed.

Definition nonneg (O : Type) (d : dist R O) : bool := all (fun p => 0 <= p.1) d.
Lemma nonneg_ret (O : Type) (o : O) : nonneg (ret R o).
Proof. by rewrite /nonneg /= ler01. Qed.
Lemma nonneg_unif (O : Type) (s : seq O) : nonneg (unif R s).
Proof. by rewrite /nonneg /unif all_map; elim: s (size s) => //= a s IH n; rewrite invr_ge0 ler0n IH. Qed.
Lemma nonneg_bind (O P : Type) (d : dist R O) (f : O -> dist R P) : nonneg d -> (forall o, nonneg (f o)) -> nonneg (bind d f).
Proof.
move=> h hf; rewrite /nonneg /bind; elim: d h => //= p d IH /andP[hp /IH h]; rewrite all_cat h andbT all_map.
by apply: sub_all (hf p.2) => q hq /=; rewrite mulr_ge0.
Qed.
Lemma nonneg_map (O P : Type) (g : O -> P) (d : dist R O) : nonneg [seq (p.1, g p.2) | p <- d] = nonneg d.
Proof. by rewrite /nonneg all_map. Qed.
Lemma pr_map (O P : Type) (g : O -> P) (d : dist R O) E : pr [seq (p.1, g p.2) | p <- d] E = pr d (fun o => E (g o)).
Proof. by rewrite /pr big_map. Qed.
Lemma In_map (O P : Type) (g : O -> P) (d : dist R O) p : List.In p [seq (q.1, g q.2) | q <- d] -> exists2 q, List.In q d & p = (q.1, g q.2).
Proof. by elim: d => //= q d IH [<-|/IH[q' h ->]]; [exists q => //; left|exists q' => //; right]. Qed.
Lemma pr_nneg (O : Type) (d : dist R O) (E : O -> bool) : nonneg d -> 0 <= pr d E.
Proof.
rewrite /nonneg /pr; elim: d => [|q d IH] /=; first by rewrite big_nil.
by move=> /andP[hq /IH h]; rewrite big_cons; case: ifP => // _; rewrite addr_ge0.
Qed.
Lemma pr0 (O : Type) (d : dist R O) (E : O -> bool) : nonneg d -> pr d E = 0 -> forall p, List.In p d -> p.1 != 0 -> ~~ E p.2.
Proof.
move=> hn h; suff G : forall p, List.In p d -> E p.2 -> p.1 = 0.
  by move=> p hp ne; apply/negP => /(G p hp) e; rewrite e eqxx in ne.
move: hn h; rewrite /nonneg /pr; elim: d => //= q d IH /andP[hq hd]; rewrite big_cons.
have s0 : 0 <= \sum_(p <- d | E p.2) p.1 by exact: pr_nneg.
case hE: (E q.2) => e.
  have q0 : q.1 = 0 by apply/eqP; rewrite eq_le hq andbT -e ler_addl.
  by move: e; rewrite q0 add0r => e p [<-//|hp]; apply: IH.
by move=> p [<-|hp]; [rewrite hE|exact: IH].
Qed.
Lemma pr_sub (O : Type) (d : dist R O) (E E' : O -> bool) : (forall p, List.In p d -> p.1 != 0 -> E p.2 = E' p.2) -> pr d E = pr d E'.
Proof.
move=> h; rewrite !prE; apply: sum_In => p hp; case: (eqVneq p.1 0) => [->|ne]; first by rewrite !mul0r.
by rewrite (h p hp ne).
Qed.
Lemma supp_In (O : Type) (S : O -> bool) (d : dist R O) p : supp S d -> List.In p d -> S p.2.
Proof. by rewrite /supp; elim: d => //= q d IH /andP[hq /IH h] [<-|]. Qed.
End Flow.

(** ** The calls *)
Section Chain.
Variable K : numFieldType.
Variables (W : eqType) (w_ops : W -> seq psi).
Variable F : psi -> psi -> K.
Variable junk : nat -> nat -> K.
Variables (lab : seq nat) (nb : nat).
Variables (Ket Bra : Type) (outer : list (Bra * Ket)).
Variables (ket_invalid : Ket -> bool) (bra_invalid : Bra -> bool) (ket_nil : Ket) (bra_nil : Bra).
Variables (apply_ket : optype -> nat -> Ket -> Ket) (apply_bra : optype -> nat -> Bra -> Bra).
Variables (prop_ket : Z -> Ket -> Ket) (prop_bra : Z -> Bra -> Bra).
Variables (normalize_ket : Ket -> Ket) (normalize_bra : Bra -> Bra).
Variables (norm_ket : Ket -> K) (norm_bra : Bra -> K).
Variables (sec_ket : Ket -> nat) (sec_bra : Bra -> nat).
Variable product : Bra -> Ket -> K.
Variable tau : nat -> nat -> Z.
Variable cut : K.
Variables (min_dim : Ket -> nat) (dst : optype -> nat -> nat -> option nat) (dim_sector : nat -> nat) (cexp : nat -> Z -> K).
Variable rank : Ket -> nat.
Variable eps : K.
Variable order : seq K -> seq nat.
Variable beta : Z.

(** The hypotheses of C22, C24 and C34; nothing is truncated. *)
Hypothesis lab_ok : all (fun b => b < nb)%N lab.
Hypothesis nb_gt0 : (0 < nb)%N.
Hypothesis H : braket_ok ket_invalid bra_invalid ket_nil bra_nil apply_ket apply_bra prop_ket prop_bra
  normalize_ket normalize_bra sec_ket sec_bra product.
Hypothesis N : norm_ok ket_invalid apply_ket prop_ket norm_ket norm_bra sec_ket product min_dim dst dim_sector cexp rank.
Hypothesis tau_0 : forall n, (0 < n)%N -> tau n 0 = 0%coqZ.
Hypothesis tau_beta : forall n, (0 < n)%N -> tau n (2 * n) = beta.
Hypothesis tau_mono : forall n p q, (p <= q)%N -> (q <= 2 * n)%N -> (tau n p <= tau n q)%coqZ.
Hypothesis eps_ge0 : 0 <= eps.
Hypothesis cut0 : cut = 0.
Hypothesis order_ok : forall bs, descending bs (order bs).

Notation sw := (sw K Ket Bra).
Notation config := (config K W (ms K)).
Notation state := (state K W Ket Bra).
Notation reach := (T_Window.reach outer ket_invalid bra_invalid ket_nil bra_nil apply_ket apply_bra prop_ket prop_bra
  normalize_ket normalize_bra norm_ket norm_bra tau cut).
Notation tbounds := (trace_bounds ket_invalid bra_invalid sec_ket sec_bra tau min_dim dst dim_sector cexp).
Notation bound_sum := (bound_sum ket_invalid bra_invalid sec_ket sec_bra tau min_dim dst dim_sector cexp).
Notation lazy_at := (lazy_at ket_invalid bra_invalid apply_ket prop_ket normalize_ket sec_ket sec_bra product tau
  min_dim dst dim_sector cexp eps order).
Notation local_update := (local_update w_ops F junk lab nb ket_invalid bra_invalid apply_ket prop_ket normalize_ket
  sec_ket sec_bra product tau min_dim dst dim_sector cexp eps order).
Notation consistent := (consistent K W w_ops (ms K) (@ms_cd K) (@ms_c K) (full_det F lab nb) (ms_wf F junk lab nb)
  (full_trace outer apply_ket prop_ket product beta)).
Notation ftr := (full_trace outer apply_ket prop_ket product beta).
Notation ops mc := (operators K W (ms K) mc).
Notation det mc := (mstate K W (ms K) mc).
Notation det_of mc := (full_det F lab nb (ms_cd (det mc)) (ms_c (det mc))).
Notation new_worm mc p := (match p_worm_new K W p with None => Updater.worm K W (ms K) mc | Some w => w end).
Notation wops := (worm_ops W w_ops).

Notation worm mc := (Updater.worm K W (ms K) mc).
Notation Inv := (inv w_ops F junk lab nb outer ket_invalid bra_invalid ket_nil bra_nil apply_ket apply_bra prop_ket prop_bra
  normalize_ket normalize_bra norm_ket norm_bra product tau cut beta).
Notation legal_prop := (legal_prop w_ops lab nb ket_invalid bra_invalid sec_ket sec_bra tau min_dim dst dim_sector cexp eps).

(** Real numbers: [inR] puts them into the scalars, [nrm] is the modulus. *)
Variable R : realFieldType.
Variable inR : {rmorphism R -> K}.
Hypothesis inR_lt : forall x y, (inR x < inR y) = (x < y).
Variable nrm : K -> R.
Hypothesis nrm_ok : forall x, inR (nrm x) = `|x|.

(** the weight of a configuration *)
Definition weight (st : state) : R := nrm (det_of (st_mc st) * ftr (ops (st_mc st))).
(** a call of update() with this proposal and this random number is accepted and leads to the configuration of [y] *)
Definition lands (st y : state) (o : option (proposal K W)) (r : R) : bool :=
  if local_update (st_sw st) (st_mc st) (Cnt 0 0 0) o (inR r) is Done mc' _ true
  then (ops mc' == ops (st_mc y)) && (worm mc' == worm (st_mc y)) else false.

Lemma inR_inj : injective inR. Proof. exact: fmorph_inj. Qed.
Lemma nrmM x y : nrm (x * y) = nrm x * nrm y.
Proof. by apply: inR_inj; rewrite rmorphM !nrm_ok normrM. Qed.
Lemma nrm_gt0 x : (0 < nrm x) = (x != 0).
Proof. by rewrite -inR_lt nrm_ok rmorph0 normr_gt0. Qed.
Lemma nrm_pos x : 0 <= x -> x = inR (nrm x). Proof. by move=> h; rewrite nrm_ok ger0_norm. Qed.

Lemma inv_neq0 st : Inv st -> det_of (st_mc st) != 0 /\ ftr (ops (st_mc st)) != 0.
Proof.
move=> [[_ [_ [[M [cd [c [e hp]]]] [_ [et [tn _]]]]]] _ _]; rewrite -et; split=> //.
have [_ nz _ [q1 q2] _] := C34_history lab_ok hp.
by rewrite e /= (full_det_perm F lab nb q1 q2).
Qed.
Lemma weight_gt0 st : Inv st -> 0 < weight st.
Proof. by move=> /inv_neq0[h1 h2]; rewrite nrm_gt0 mulf_neq0. Qed.

Lemma lands_ratio st y p a r : Inv st -> Inv y -> 0 <= r -> legal_prop (st_sw st) (st_mc st) p ->
  hyb_result (ms_cd (det (st_mc st))) (ms_c (det (st_mc st))) (p_hyb K W p) (ms_cd (det (st_mc y))) (ms_c (det (st_mc y))) ->
  new_worm (st_mc st) p = worm (st_mc y) -> p_corr K W p = inR a -> 0 < a ->
  lands st y (Some p) r = ~~ ms_lossy F lab nb (ms_cd (det (st_mc st))) (ms_c (det (st_mc st))) (p_hyb K W p) && (r < a * (weight y / weight st)).
Proof.
move=> hi hy r0 hl hres hw ea a0.
have r0' : 0 <= inR r by move: r0; rewrite !le_eqVlt => /orP[/eqP <-|h]; rewrite ?rmorph0 ?eqxx // -(rmorph0 inR) inR_lt h orbT.
have [mc' [ct [acc [eu hi' hacc hok _]]]] := C60_update lab_ok nb_gt0 H N tau_0 tau_beta tau_mono eps_ge0 cut0 order_ok hi r0' hl.
have [[sy [py _]] _ _] := hy.
have cdE cd' c' : hyb_result (ms_cd (det (st_mc st))) (ms_c (det (st_mc st))) (p_hyb K W p) cd' c' ->
    Permutation cd' (ms_cd (det (st_mc y))) /\ Permutation c' (ms_c (det (st_mc y))).
  case: hres => h1 h2 [h3 h4]; split.
    by apply: Permutation_app_inv_r (Permutation_trans h3 (Permutation_sym h1)).
  by apply: Permutation_app_inv_r (Permutation_trans h4 (Permutation_sym h2)).
have opsE cd' c' l : hyb_result (ms_cd (det (st_mc st))) (ms_c (det (st_mc st))) (p_hyb K W p) cd' c' ->
    csorted l -> Permutation l (cd' ++ c' ++ wops (new_worm (st_mc st) p)) -> l = ops (st_mc y).
  move=> /cdE[q1 q2] hs hp; apply: csorted_perm_eq => //; apply: (Permutation_trans hp); rewrite hw.
  apply: Permutation_trans (Permutation_sym py); rewrite -!app_cat.
  by apply: Permutation_app => //; apply: Permutation_app.
have ratioE : `|p_corr K W p * (det_of (st_mc y) / det_of (st_mc st)) * (ftr (ops (st_mc y)) / ftr (ops (st_mc st)))| =
    inR (a * (weight y / weight st)).
  rewrite /weight rmorphM fmorph_div !nrm_ok ea !normrM !normfV (gtr0_norm _); last by rewrite -(rmorph0 inR) inR_lt.
  rewrite invfM; move: (`|det_of _|) (`|det_of _|^-1) (`|ftr _|) (`|ftr _|^-1) => x1 x2 x3 x4.
  by rewrite -!mulrA; congr (_ * (_ * _)); rewrite mulrCA.
rewrite /lands eu; case: (boolP acc) => ha.
  have [cd' [c' [l [h1 [h2 h3] h4 h5]]]] := proj1 hacc ha; have [w1 w2] := hok ha.
  have [q1 q2] := cdE _ _ h1; have el := opsE _ _ _ h1 h2 h3.
  move: h5; rewrite el (full_det_perm F lab nb (Permutation_perm_eq q1) (Permutation_perm_eq q2)) ratioE inR_lt => ->.
  rewrite h4 w1 hw eqxx !andbT; apply/eqP; have [[s' [p' _]] _ _] := hi'; apply: opsE w2 s' _.
  by move: p'; rewrite /= w1.
apply/esym/negbTE; apply: contra ha => /andP[h1 h2]; apply: (proj2 hacc).
exists (ms_cd (det (st_mc y))), (ms_c (det (st_mc y))), (ops (st_mc y)); split=> //; first by rewrite hw.
by rewrite ratioE inR_lt.
Qed.

(** *** Which proposals lead to [y] *)
Notation cds st := (ms_cd (det (st_mc st))).
Notation cs st := (ms_c (det (st_mc st))).
Definition is_cr (x : psi) : bool := p_type x == CREATION_OP.
Definition is_an (x : psi) : bool := p_type x == ANNIHILATION_OP.
(** creation operators in the rows, annihilation operators in the columns *)
Definition typed (st : state) : bool := all is_cr (cds st) && all is_an (cs st).
Definition typed_hyb (u : hyb_update) : bool :=
  [&& all is_cr (Updater.cd_rem u), all is_an (Updater.c_rem u), all is_cr (Updater.cd_add u) & all is_an (Updater.c_add u)].
Definition removable (st : state) (u : hyb_update) : Prop :=
  (exists cd0, Permutation (cds st) (Updater.cd_rem u ++ cd0)) /\ (exists c0, Permutation (cs st) (Updater.c_rem u ++ c0)).
Notation lo st := (tau_low tau (st_sw st)).
Notation hi st := (tau_high tau (st_sw st)).

Ltac clia := rewrite ?count_cat; do ?(move: (count _ _) => ?); clear; lia.

Lemma accepted_worm s mc p r ct mc' ct' : local_update s mc ct (Some p) r = Done K W (ms K) mc' ct' true -> worm mc' = new_worm mc p.
Proof.
rewrite /Assembly.local_update /Updater.update.
case: (merge_diff _ _ _ _) => [rem add]; case: ifP => // _.
case eu: (update_operators _ _ _) => [l|l rec|l rec] //.
case: (ms_try _ _ _ _ _) => dr m.
have A a b c d : match accept_config K W w_ops (ms K) (@ms_cd K) (@ms_c K) (ms_perform junk nb) mc l a b c d with
    | Some mc0 => Done K W (ms K) mc0 (finalize ct true true) true | None => Updater.UB K W (ms K) end = Done K W (ms K) mc' ct' true -> worm mc' = b.
  by rewrite /accept_config; case: (compute_permutation_sign_impl _ _ _) => // pn [<-].
move: {eu} rem => [|x rem]; move: add => [|y add]; try (by case: ifP => // _; case: ifP => // _; case: (lazy_at s l _) => [[] t] // /A).
by case: ifP => // _ /A.
Qed.

Lemma count_typed (P Q : pred psi) (s : seq psi) (f : pred psi) : (forall x, ~~ (P x && Q x)) -> all Q s -> count (predI f P) s = 0%N.
Proof.
move=> d h; apply/eqP; rewrite -leqn0 leqNgt -has_count; apply/hasPn => x /(allP h) hx /=.
by apply/negP => /andP[_ hp]; have := d x; rewrite hp hx.
Qed.
Lemma count_typed1 (P : pred psi) (s : seq psi) (f : pred psi) : all P s -> count (predI f P) s = count f s.
Proof. by move=> h; apply: eq_in_count => x /(allP h) /= ->; rewrite andbT. Qed.
Lemma cr_an x : ~~ (is_cr x && is_an x). Proof. by rewrite /is_cr /is_an; case: (p_type x). Qed.
Lemma an_cr x : ~~ (is_an x && is_cr x). Proof. by rewrite andbC cr_an. Qed.

Lemma lands_hyb st y p r : Inv st -> Inv y -> typed st -> typed y -> removable st (p_hyb K W p) ->
  typed_hyb (p_hyb K W p) -> lands st y (Some p) r ->
  hyb_result (cds st) (cs st) (p_hyb K W p) (cds y) (cs y) /\ new_worm (st_mc st) p = worm (st_mc y).
Proof.
move=> [hc _ _] [hc' _ _] /andP[t1 t2] /andP[t3 t4] [q1 q2] /and4P[u1 u2 u3 u4]; rewrite /lands.
case e: (local_update _ _ _ _ _) => [||mc' ct [|]] // /andP[/eqP eo /eqP ew].
have {}ew : new_worm (st_mc st) p = worm (st_mc y) by rewrite -ew (accepted_worm e).
split=> //; have [rem [add [rec [em eu]]]] := accepted_ops e; rewrite eo in eu.
have [r1 r2] := rem_known lab_ok nb_gt0 eps_ge0 hc q1 q2 em.
rewrite ew in em; have [hs [hp _]] := hc; have [_ [hp' _]] := hc'.
have b1 := update_operators_perm _ _ _ _ _ hs r1 r2 eu; have b2 := merge_diff_balance _ _ _ _ _ _ em.
have G (f : pred psi) : (count f (cds y) + count f (cs y) + (count f (Updater.cd_rem (p_hyb K W p)) + count f (Updater.c_rem (p_hyb K W p))) =
    count f (cds st) + count f (cs st) + (count f (Updater.cd_add (p_hyb K W p)) + count f (Updater.c_add (p_hyb K W p))))%N.
  move: hp hp' b1 b2; rewrite !app_cat => /Permutation_perm_eq/seq.permP/(_ f) + /Permutation_perm_eq/seq.permP/(_ f) +
    /Permutation_perm_eq/seq.permP/(_ f) + /Permutation_perm_eq/seq.permP/(_ f).
  clia.
split; apply: perm_eq_Permutation; rewrite !app_cat; apply/seq.permP => f; rewrite !count_cat.
  have := G (predI f is_cr); rewrite (count_typed1 f t1) (count_typed1 f t3) (count_typed1 f u1) (count_typed1 f u3)
    (count_typed f cr_an t2) (count_typed f cr_an t4) (count_typed f cr_an u2) (count_typed f cr_an u4); clia.
have := G (predI f is_an); rewrite (count_typed1 f t2) (count_typed1 f t4) (count_typed1 f u2) (count_typed1 f u4)
  (count_typed f an_cr t1) (count_typed f an_cr t3) (count_typed f an_cr u1) (count_typed f an_cr u3); clia.
Qed.

Lemma known_state st : Inv st -> all (flavor_known lab) (cds st) /\ all (flavor_known lab) (cs st).
Proof.
move=> [[_ [_ [[M [cd [c [e hp]]]] _]]] _ _]; have [_ _ _ [q1 q2] _] := C34_history lab_ok hp.
have [_ _ _] := phist_uniq lab_ok hp; rewrite all_cat => /andP[k1 k2].
by rewrite e /= (perm_all _ q1) (perm_all _ q2).
Qed.

(** the operators that the proposal takes out of the trace or puts into it are inside the window *)
Definition in_window (st : state) (p : proposal K W) : Prop := let u := p_hyb K W p in
  forall rem add, merge_diff (Updater.cd_rem u ++ Updater.c_rem u) (Updater.cd_add u ++ Updater.c_add u)
    (wops (worm (st_mc st))) (wops (new_worm (st_mc st) p)) = (rem, add) ->
  forall x, In x rem \/ In x add -> rng_cc (lo st) (hi st) x.
Lemma in_window_worm (st : state) p : let u := p_hyb K W p in
  all (rng_cc (lo st) (hi st)) ((Updater.cd_rem u ++ Updater.c_rem u ++ Updater.cd_add u ++ Updater.c_add u) ++
    (if p_worm_new K W p is Some w then wops (worm (st_mc st)) ++ wops w else [::])) -> in_window st p.
Proof.
move=> u hin u2 rem add em x hx; have [m1 m2] := merge_diff_cnt _ _ _ _ _ _ em x.
have pos (t : list psi) : In x t <-> (0 < count_occ psi_eq_dec t x)%coq_nat by exact: (count_occ_In psi_eq_dec t x).
suff hx' : In x ((Updater.cd_rem u ++ Updater.c_rem u ++ Updater.cd_add u ++ Updater.c_add u) ++
    (if p_worm_new K W p is Some w then wops (worm (st_mc st)) ++ wops w else [::]))%list.
  by have /allP := hin; apply; apply/In_mem; rewrite -!app_cat; case: (p_worm_new K W p) hx' => [w|]; rewrite -?app_cat.
apply/(pos (_ ++ _)%list); rewrite /cnt -/u !count_occ_app in m1 m2 *.
move: m1 m2; case: (p_worm_new K W p) => [w|]; rewrite ?count_occ_app; case: hx => /pos; do ?(move: (count_occ _ _ _) => ?); clear; lia.
Qed.

Lemma hyb_legal st y p : Inv st -> Inv y -> st_sw y = st_sw st -> new_worm (st_mc st) p = worm (st_mc y) ->
  removable st (p_hyb K W p) -> hyb_result (cds st) (cs st) (p_hyb K W p) (cds y) (cs y) ->
  0 < p_corr K W p -> paired_blocks lab nb (to_call (p_hyb K W p)) -> in_window st p ->
  no_gap eps (tbounds (ops (st_mc y)) (st_sw st)) -> legal_prop (st_sw st) (st_mc st) p.
Proof.
move=> hI hY es ew [q1 q2] hr c0 hpb hin ng; set u := p_hyb K W p in q1 q2 hr hpb; have [hc _ _] := hI; have [hc' _ _] := hY.
have [hs [hp [_ [sz _]]]] := hc; have [hs' [hp' [_ [sz' _]]]] := hc'.
have [p1 p2] := hr; have [e1 e2] := (perm_size (Permutation_perm_eq p1), perm_size (Permutation_perm_eq p2)).
rewrite !app_cat !size_cat -/u in e1 e2; change (size (cds st) = size (cs st)) in sz; change (size (cds y) = size (cs y)) in sz'.
split=> //; first by move: e1 e2 sz sz'; rewrite -/u; do ?(move: (size _) => ?); clear; lia.
  split=> //; split=> //; have [k1 k2] := known_state hI; have [k3 k4] := known_state hY.
  have [cd0 /Permutation_perm_eq h1] := q1; have [c0' /Permutation_perm_eq h2] := q2.
  move: k1 k2; rewrite (perm_all _ h1) (perm_all _ h2) !all_cat => /andP[a1 b1] /andP[a2 b2].
  have a3 : all (flavor_known lab) (cds st ++ Updater.cd_add u).
    by rewrite -(perm_all _ (Permutation_perm_eq p1)) app_cat all_cat k3 a1.
  have a4 : all (flavor_known lab) (cs st ++ Updater.c_add u).
    by rewrite -(perm_all _ (Permutation_perm_eq p2)) app_cat all_cat k4 a2.
  by move: a3 a4; rewrite /known_call !all_cat /= => /andP[_ ->] /andP[_ ->]; rewrite a1 a2.
move=> rem add em; have b2 := merge_diff_balance _ _ _ _ _ _ em.
split=> [x hx|l rec eu]; first exact: hin em x hx.
have [r1 r2] := rem_known lab_ok nb_gt0 eps_ge0 hc q1 q2 em.
have := @update_operators_ok (ops (st_mc st)) rem add hs r1 r2; rewrite eu => -[hsl _].
rewrite (_ : l = ops (st_mc y)) //; apply: csorted_perm_eq => //.
have b1 := update_operators_perm _ _ _ _ _ hs r1 r2 eu.
apply: perm_eq_Permutation; apply/seq.permP => f.
move: hp hp' b1 b2 p1 p2; rewrite ew !app_cat => /Permutation_perm_eq/seq.permP/(_ f) + /Permutation_perm_eq/seq.permP/(_ f) +
    /Permutation_perm_eq/seq.permP/(_ f) + /Permutation_perm_eq/seq.permP/(_ f) + /Permutation_perm_eq/seq.permP/(_ f) + /Permutation_perm_eq/seq.permP/(_ f).
rewrite -/u; clia.
Qed.

(** the proposal turns the operators of [st] into those of [y] *)
Definition arrives (st y : state) (o : option (proposal K W)) : bool :=
  if o is Some p then perm_eq (cds y ++ Updater.cd_rem (p_hyb K W p)) (cds st ++ Updater.cd_add (p_hyb K W p)) &&
    perm_eq (cs y ++ Updater.c_rem (p_hyb K W p)) (cs st ++ Updater.c_add (p_hyb K W p)) else false.
Lemma arrivesP st y p : reflect (hyb_result (cds st) (cs st) (p_hyb K W p) (cds y) (cs y)) (arrives st y (Some p)).
Proof.
rewrite /arrives /hyb_result !app_cat; apply: (iffP andP) => -[h1 h2]; split.
- exact: perm_eq_Permutation.
- exact: perm_eq_Permutation.
- exact: Permutation_perm_eq.
- exact: Permutation_perm_eq.
Qed.

Definition accept (a : R) (st y : state) : R := Num.min 1 (a * (weight y / weight st)).
Lemma accept_ge0 a st y : Inv st -> Inv y -> 0 < a -> 0 < accept a st y <= 1.
Proof.
move=> hI hY a0; rewrite /accept le_minl lexx andbT lt_minr ltr01.
by rewrite mulr_gt0 // divr_gt0 // weight_gt0.
Qed.
Lemma accept_balance a st y : Inv st -> Inv y -> 0 < a -> weight st * accept a st y = a * (weight y * accept a^-1 y st).
Proof.
move=> /weight_gt0 h1 /weight_gt0 h2 a0; rewrite /accept; move: (weight st) (weight y) h1 h2 => u v u0 v0.
rewrite !minr_pmulr ?ltW // !mulr1 [u * (a * _)]mulrCA [u * (v / u)]mulrC divfK ?gt_eqF //.
by rewrite [a * (v * _)]mulrCA mulVKf ?gt_eqF // [v * (u / v)]mulrC divfK ?gt_eqF // minC.
Qed.

Record setup (st y : state) : Prop := Setup {
  su_inv : Inv st; su_inv' : Inv y;
  su_sw : st_sw y = st_sw st;
  su_typed : typed st; su_typed' : typed y;
  su_worm : worm (st_mc y) = worm (st_mc st);
  su_gap : no_gap eps (tbounds (ops (st_mc st)) (st_sw st));
  su_gap' : no_gap eps (tbounds (ops (st_mc y)) (st_sw y)) }.
Lemma setup_sym st y : setup st y -> setup y st.
Proof. by case. Qed.

Lemma flow_arrives st y (d : dist R (option (proposal K W))) a : setup st y -> 0 < a ->
  (forall w p, List.In (w, Some p) d -> w != 0 -> [/\ p_worm_new K W p = None, removable st (p_hyb K W p), typed_hyb (p_hyb K W p) &
     arrives st y (Some p) -> [/\ p_corr K W p = inR a, paired_blocks lab nb (to_call (p_hyb K W p)),
       (let u := p_hyb K W p in all (rng_cc (lo st) (hi st)) (Updater.cd_rem u ++ Updater.c_rem u ++ Updater.cd_add u ++ Updater.c_add u)) &
       ~~ ms_lossy F lab nb (cds st) (cs st) (p_hyb K W p)]]) ->
  flow d (lands st y) (pr d (arrives st y) * accept a st y).
Proof.
move=> [i1 i2 es t1 t2 ew g1 g2] a0 h; have /andP[ac0 ac1] := accept_ge0 i1 i2 a0.
apply: flow_event; first by rewrite ltW.
move=> [w [p|]] hp ne r /andP[r0 r1]; last by rewrite /lands.
have [h1 h2 h3 h4] := h _ _ hp ne; case: (boolP (arrives _ _ _)) => ha /=.
  have [c1 c2 c3 c4] := h4 ha; move/arrivesP: ha => ha.
  rewrite (lands_ratio (a := a)) //; first by rewrite c4 /= /accept lt_minr r1.
    have c0 : 0 < p_corr K W p by rewrite c1 -(rmorph0 inR) inR_lt.
    rewrite es in g2; apply: hyb_legal i1 i2 es _ h2 ha c0 c2 _ g2; first by rewrite h1 ew.
    by apply: in_window_worm; rewrite h1 cats0.
  by rewrite h1 ew.
by apply/negbTE; apply: contra ha => /(lands_hyb i1 i2 t1 t2 h2 h3)[/arrivesP].
Qed.

(** *** Proposals that change the worm *)
Record wsetup (st y : state) : Prop := WSetup {
  ws_inv : Inv st; ws_inv' : Inv y;
  ws_sw : st_sw y = st_sw st;
  ws_typed : typed st; ws_typed' : typed y;
  ws_gap : no_gap eps (tbounds (ops (st_mc st)) (st_sw st));
  ws_gap' : no_gap eps (tbounds (ops (st_mc y)) (st_sw y)) }.
Lemma wsetup_sym st y : wsetup st y -> wsetup y st.
Proof. by case. Qed.
(** the proposal turns the operators and the worm of [st] into those of [y] *)
Definition warrives (st y : state) (o : option (proposal K W)) : bool :=
  arrives st y o && (if o is Some p then new_worm (st_mc st) p == worm (st_mc y) else false).
Definition corr_of (o : option (proposal K W)) : R := if o is Some p then nrm (p_corr K W p) else 1.

Lemma flow_worm st y (d : dist R (option (proposal K W))) : wsetup st y ->
  (forall w p, List.In (w, Some p) d -> w != 0 -> [/\ removable st (p_hyb K W p), typed_hyb (p_hyb K W p) &
     warrives st y (Some p) -> [/\ 0 < p_corr K W p, paired_blocks lab nb (to_call (p_hyb K W p)), in_window st p &
       ~~ ms_lossy F lab nb (cds st) (cs st) (p_hyb K W p)]]) ->
  flow d (lands st y) (\sum_(q <- d) q.1 * (if warrives st y q.2 then accept (corr_of q.2) st y else 0)).
Proof.
move=> [i1 i2 es t1 t2 g1 g2] h; exists (fun o => if warrives st y o then accept (corr_of o) st y else 0); split=> //.
move=> [w [p|]] hp ne; last first.
  by rewrite /warrives /=; split=> [|r /andP[r0 _]]; rewrite ?lexx ?ler01 // /lands /= ltNge r0.
have [h2 h3 h4] := h _ _ hp ne; cbn [snd]; case: (boolP (warrives _ _ _)) => ha.
  have [c1 c2 c3 c4] := h4 ha; have /andP[/arrivesP ha1 /eqP ha2] := ha.
  have c0 : 0 < corr_of (Some p) by rewrite /corr_of nrm_gt0 gt_eqF.
  have /andP[ac0 ac1] := accept_ge0 i1 i2 c0; split=> [|r /andP[r0 r1]]; first by rewrite ltW.
  rewrite (lands_ratio (a := corr_of (Some p))) //; first by rewrite c4 /= /accept lt_minr r1.
    by rewrite es in g2; exact: hyb_legal i1 i2 es ha2 h2 ha1 c1 c2 c3 g2.
  by rewrite /corr_of -nrm_pos // ltW.
split=> [|r /andP[r0 _]]; first by rewrite lexx ler01.
rewrite ltNge r0 /=; apply/negbTE; apply: contra ha => /(lands_hyb i1 i2 t1 t2 h2 h3)[h5 h6].
by apply/andP; split; [exact/arrivesP|exact/eqP].
Qed.

(** *** The operators that the updaters see *)
Lemma perm_set (l : container) (t : seq psi) : csorted l -> uniq t -> l =i t -> perm_eq l t.
Proof. by move=> /csorted_uniq u1 u2 h; exact: uniq_perm. Qed.
Lemma rangeE f (l : container) : range f l = filter f l.
Proof. by elim: l => //= x l ->. Qed.
Lemma state_uniq st : Inv st -> uniq (map p_time (cds st ++ cs st)).
Proof.
move=> [[_ [_ [[M [cd [c [e hp]]]] _]]] _ _]; have [_ _ _ [q1 q2] _] := C34_history lab_ok hp.
have [u _ _ _] := phist_uniq lab_ok hp; rewrite e /= (perm_uniq (perm_map _ (perm_cat q1 q2))) //.
Qed.
Lemma cds_uniq st : Inv st -> uniq (cds st).
Proof. by move=> /state_uniq; rewrite map_cat cat_uniq => /and3P[/map_uniq]. Qed.
Lemma cs_uniq st : Inv st -> uniq (cs st).
Proof. by move=> /state_uniq; rewrite map_cat cat_uniq => /and3P[_ _ /map_uniq]. Qed.
Lemma set_perm_cd st b : Inv st -> (b < nb)%N -> perm_eq (set_cd (det (st_mc st)) b) (inb (blk lab nb) b (cds st)).
Proof.
move=> hI hb; have [[_ [_ [[M [cd [c [e hp]]]] _]]] _ _] := hI; have [_ _ _ [q1 q2] _] := C34_history lab_ok hp.
have [[sz hm] _ _ _ _] := phist_ok lab_ok hp; rewrite e /=.
case eM: (pm_mats M) (sz) => [|d0 dl] sz'; first by rewrite -sz' in hb.
rewrite -eM (nth_map d0) ?sz //; have [_ [[_ _ [hs hi]] _ _ _ _] h3 _] := hm d0 b hb.
apply: perm_trans (inb_perm lab nb b (_ : perm_eq cd _)); last by rewrite perm_sym.
apply: perm_set => //; first by have [_ u _ _] := phist_uniq lab_ok hp; rewrite filter_uniq.
by move=> x; rewrite hi (perm_mem h3).
Qed.
Lemma set_perm_c st b : Inv st -> (b < nb)%N -> perm_eq (set_c (det (st_mc st)) b) (inb (blk lab nb) b (cs st)).
Proof.
move=> hI hb; have [[_ [_ [[M [cd [c [e hp]]]] _]]] _ _] := hI; have [_ _ _ [q1 q2] _] := C34_history lab_ok hp.
have [[sz hm] _ _ _ _] := phist_ok lab_ok hp; rewrite e /=.
case eM: (pm_mats M) (sz) => [|d0 dl] sz'; first by rewrite -sz' in hb.
rewrite -eM (nth_map d0) ?sz //; have [_ [_ [_ _ [hs hi]] _ _ _] _ h3] := hm d0 b hb.
apply: perm_trans (inb_perm lab nb b (_ : perm_eq c _)); last by rewrite perm_sym.
apply: perm_set => //; first by have [_ _ u _] := phist_uniq lab_ok hp; rewrite filter_uniq.
by move=> x; rewrite hi (perm_mem h3).
Qed.
Lemma block_sizes st b : Inv st -> (b < nb)%N -> size (inb (blk lab nb) b (cds st)) = size (inb (blk lab nb) b (cs st)).
Proof.
move=> hI hb; have [[_ [_ [[M [cd [c [e hp]]]] _]]] _ _] := hI; have [_ _ _ [q1 q2] _] := C34_history lab_ok hp.
have [[sz hm] _ _ _ _] := phist_ok lab_ok hp; rewrite e /=.
case eM: (pm_mats M) (sz) => [|d0 dl] sz'; first by rewrite -sz' in hb.
have [_ [_ _ h1 _ _] h2 h3] := hm d0 b hb.
rewrite (perm_size (inb_perm lab nb b q1)) (perm_size (inb_perm lab nb b q2)) -(perm_size h2) -(perm_size h3) //.
Qed.
Lemma all_perm st : Inv st -> perm_eq (all_cd (det (st_mc st))) (cds st) /\ perm_eq (all_c (det (st_mc st))) (cs st).
Proof.
move=> hI; have [[_ [_ [[M [cd [c [e hp]]]] _]]] _ _] := hI; have [_ _ [e1 e2] [q1 q2] _] := C34_history lab_ok hp.
by rewrite e /= e1 e2 !(perm_sym (tsort _)) (permPl q1) (permPl q2) !perm_tsort.
Qed.
Lemma removable_sub st u : Inv st -> uniq (Updater.cd_rem u) -> uniq (Updater.c_rem u) -> {subset Updater.cd_rem u <= cds st} ->
  {subset Updater.c_rem u <= cs st} -> removable st u.
Proof.
have G (xs ys : seq psi) : uniq xs -> uniq ys -> {subset xs <= ys} -> exists zs, Permutation ys (xs ++ zs).
  move=> u1 u2 hsub; exists [seq y <- ys | y \notin xs]; apply: perm_eq_Permutation.
  rewrite -(perm_filterC (mem xs) ys) perm_cat2r; apply: uniq_perm => //; first exact: filter_uniq.
  by move=> x; rewrite mem_filter; apply/andP/idP => [[]//|h]; split=> //; exact: hsub.
by move=> hI u1 u2 s1 s2; split; apply: G => //; [exact: cds_uniq|exact: cs_uniq].
Qed.

(** *** Insertion and removal *)
Lemma paired_ins (xs ys : seq psi) : paired_blocks lab nb (Call [::] [::] xs ys).
Proof. by move=> b _; rewrite /paired /= !addn0; case: (size _ == size _); rewrite ?orbT. Qed.
Lemma paired_rem (xs ys : seq psi) : paired_blocks lab nb (Call xs ys [::] [::]).
Proof. by move=> b _; rewrite /paired /= !add0n eq_sym; case: (size _ == size _); rewrite ?orbT. Qed.
Lemma lossy_none (st : state) (u : hyb_update) : [|| Updater.cd_rem u == [::] :> seq psi, Updater.c_rem u == [::] :> seq psi, Updater.cd_add u == [::] :> seq psi | Updater.c_add u == [::] :> seq psi] ->
  ~~ ms_lossy F lab nb (cds st) (cs st) u.
Proof.
move=> h; apply/hasPn => b _; rewrite /both /=.
by case/or4P: h => /eqP ->; rewrite /= ?andbF.
Qed.

Lemma supp_rem_blocks2 (cd c : nat -> seq psi) nr (ibs : seq nat) : ops_ok nb (blk lab nb) cd -> ops_ok nb (blk lab nb) c -> uniq ibs ->
  (forall b, b \in ibs -> (b < nb)%N /\ (nr b <= size (cd b))%N /\ (nr b <= size (c b))%N) ->
  supp (fun r => [&& uniq r.1, all (fun x => (blk lab nb (p_flavor x) \in ibs) && (x \in cd (blk lab nb (p_flavor x)))) r.1,
     uniq r.2 & all (fun x => (blk lab nb (p_flavor x) \in ibs) && (x \in c (blk lab nb (p_flavor x)))) r.2]) (rem_blocks R nr cd c ibs).
Proof.
move=> hcd hc; elim: ibs => [|ib ibs IH] uib hb; first by apply: (@supp_ret R).
rewrite [rem_blocks _ _ _ _ _]/=; have [hbl [h1 h2]] := hb ib (mem_head _ _); case/andP: uib => nib uib.
have h' : forall b, b \in ibs -> (b < nb)%N /\ (nr b <= size (cd b))%N /\ (nr b <= size (c b))%N.
  by move=> b hin; apply: hb; rewrite inE hin orbT.
have nthb (o : nat -> seq psi) ic (r : seq psi) : ops_ok nb (blk lab nb) o -> uniq ic -> all (fun i => (i < size (o ib))%N) ic -> uniq r ->
    all (fun x => (blk lab nb (p_flavor x) \in ibs) && (x \in o (blk lab nb (p_flavor x)))) r ->
    uniq ([seq nth psi0 (o ib) i | i <- ic] ++ r) &&
    all (fun x => (blk lab nb (p_flavor x) \in ib :: ibs) && (x \in o (blk lab nb (p_flavor x)))) ([seq nth psi0 (o ib) i | i <- ic] ++ r).
  move=> ho ui hi ur hr; have [uo /allP ab] := ho ib hbl.
  have mb i : i \in ic -> blk lab nb (p_flavor (nth psi0 (o ib) i)) = ib by move=> /(allP hi) hi'; apply/eqP/ab; rewrite mem_nth.
  rewrite cat_uniq ur andbT all_cat; apply/and3P; split; first (apply/andP; split).
  - rewrite map_inj_in_uniq // => i j /(allP hi) hi' /(allP hi) hj' /eqP; rewrite nth_uniq //; exact: eqP.
  - apply/hasPn => x /(allP hr)/andP[hx _]; apply/negP => /mapP[i /mb hi' ex]; rewrite -ex in hi'.
    by move: hx; rewrite hi' (negbTE nib).
  - by apply/allP => x /mapP[i hi' ->]; rewrite mb // mem_head mem_nth //; exact: (allP hi).
  - by apply: sub_all hr => x /andP[h3 ->]; rewrite inE h3 orbT.
apply: supp_bind (supp_pickup R h1) _ => ic /and3P[_ u1 hic].
apply: supp_bind (supp_pickup R h2) _ => ia /and3P[_ u2 hia].
apply: supp_bind (IH uib h') _ => r /and4P[r1 r2 r3 r4].
by apply: supp_ret; rewrite /= andbA nthb // nthb.
Qed.
Definition well_formed (cd c : seq psi) (o : option (move R)) : bool :=
  if o is Some m then [&& all is_cr (m_add_cd m) && all is_an (m_add_c m), uniq (m_rem_cd m) && all (fun x => x \in cd) (m_rem_cd m),
    uniq (m_rem_c m) && all (fun x => x \in c) (m_rem_c m) &
    (m_rem_cd m == [::]) && (m_rem_c m == [::]) || (m_add_cd m == [::]) && (m_add_c m == [::])] else true.
Lemma supp_propose (grid : seq optime) (L : R) k (cd c : nat -> seq psi) (cdl cl : seq psi) :
  ops_ok nb (blk lab nb) cd -> ops_ok nb (blk lab nb) c ->
  (forall b, (b < nb)%N -> {subset cd b <= cdl} /\ {subset c b <= cl}) ->
  supp (well_formed cdl cl) (propose (size lab) nb (blk lab nb) grid L k cd c).
Proof.
move=> hcd hc hs; rewrite /propose; apply: supp_bind (suppT _) _ => -[] _.
  apply: (@supp_bind _ _ _ (fun o => all is_cr [seq x.1.2 | x <- o] && all is_an [seq x.2 | x <- o])).
    elim: k => [|k IH]; first exact: supp_ret.
    rewrite [ins_loop _ _ _ _ _ _]/=; do 5! apply: supp_bind (suppT _) _ => ? _.
    by apply: supp_bind IH _ => r h; apply: supp_ret.
  by move=> o h; apply: supp_ret; rewrite /= h.
apply: supp_bind (suppT _) _ => bs _; cbv zeta; case: ifP => [_|/negbT/hasPn hn]; first exact: supp_ret.
apply: supp_bind (supp_rem_blocks2 hcd hc (iota_uniq 0 nb) _) _ => [b hb|r /and4P[h1 h2 h3 h4]].
  by have := hn _ hb; rewrite negb_or -!leqNgt => /andP[-> ->]; move: hb; rewrite mem_iota add0n.
apply: supp_ret; rewrite /= h1 h3 orbT andbT /=.
have sub (o : nat -> seq psi) (ol t : seq psi) : (forall b, (b < nb)%N -> {subset o b <= ol}) ->
    all (fun x => (blk lab nb (p_flavor x) \in iota 0 nb) && (x \in o (blk lab nb (p_flavor x)))) t -> all (fun x => x \in ol) t.
  by move=> ho; apply: sub_all => x; rewrite mem_iota add0n => /andP[/ho h /h].
by rewrite (sub _ cdl _ _ h2) ?(sub _ cl _ _ h4) // => b /hs[].
Qed.

(** [x] and [xs]: the inserted operators *)
Record inserted (grid : seq optime) (k : nat) (st y : state) (xs ys : seq psi) : Prop := Inserted {
  in_size : size xs = k; in_pos : (0 < k)%N;
  in_cd : perm_eq (cds y) (cds st ++ xs);
  in_c : perm_eq (cs y) (cs st ++ ys);
  in_grid : all (fun x => p_time x \in grid) (xs ++ ys);
  in_win : all (rng_cc (lo st) (hi st)) (xs ++ ys) }.


Add Field Rf : (kfield_theory R).
Lemma win_perm_cd st b : Inv st -> (b < nb)%N -> perm_eq (win_cd (lo st) (hi st) (det (st_mc st)) b) [seq x <- inb (blk lab nb) b (cds st) | rng_cc (lo st) (hi st) x].
Proof. by move=> hI hb; rewrite /win_cd rangeE perm_filter // set_perm_cd. Qed.
Lemma win_perm_c st b : Inv st -> (b < nb)%N -> perm_eq (win_c (lo st) (hi st) (det (st_mc st)) b) [seq x <- inb (blk lab nb) b (cs st) | rng_cc (lo st) (hi st) x].
Proof. by move=> hI hb; rewrite /win_c rangeE perm_filter // set_perm_c. Qed.
Lemma win_ok st : Inv st -> [/\ ops_ok nb (blk lab nb) (win_cd (lo st) (hi st) (det (st_mc st))), ops_ok nb (blk lab nb) (win_c (lo st) (hi st) (det (st_mc st))) &
  forall b, (b < nb)%N -> {subset win_cd (lo st) (hi st) (det (st_mc st)) b <= cds st} /\ {subset win_c (lo st) (hi st) (det (st_mc st)) b <= cs st}].
Proof.
move=> hI; split=> b hb; first split.
- by rewrite (perm_uniq (win_perm_cd hI hb)) !filter_uniq // cds_uniq.
- rewrite (perm_all _ (win_perm_cd hI hb)); apply/allP => x; rewrite !mem_filter => /andP[_ /andP[]] //.
- split; first by rewrite (perm_uniq (win_perm_c hI hb)) !filter_uniq // cs_uniq.
  rewrite (perm_all _ (win_perm_c hI hb)); apply/allP => x; rewrite !mem_filter => /andP[_ /andP[]] //.
- split=> x; rewrite ?(perm_mem (win_perm_cd hI hb)) ?(perm_mem (win_perm_c hI hb)) !mem_filter => /andP[_ /andP[]] //.
Qed.

Lemma nonneg_pickup n k : nonneg (pickup R n k). Proof. exact: nonneg_unif. Qed.
Lemma nonneg_draw B k : nonneg (draw_blocks R B k).
Proof. by elim: k => [|k IH] /=; [exact: nonneg_ret|apply: nonneg_bind => [|b]; [exact: nonneg_unif|apply: nonneg_bind => // r; exact: nonneg_ret]]. Qed.
Lemma perm_ins (cd cd' xs rd ad : seq psi) : perm_eq cd' (cd ++ xs) -> perm_eq (cd' ++ rd) (cd ++ ad) = perm_eq (xs ++ rd) ad.
Proof. by move=> h; rewrite (permPl (perm_cat h (perm_refl rd))) -catA perm_cat2l. Qed.
Lemma perm_rem (cd cd' xs rd ad : seq psi) : perm_eq cd' (cd ++ xs) -> perm_eq (cd ++ rd) (cd' ++ ad) = perm_eq rd (xs ++ ad).
Proof. by move=> h; rewrite (permPr (perm_cat h (perm_refl ad))) -catA perm_cat2l. Qed.
Lemma perm_nil0 (xs ys : seq psi) : (0 < size xs)%N -> perm_eq (xs ++ ys) [::] = false.
Proof. by move=> h; apply/negP => /perm_size; rewrite size_cat /=; case: (size xs) h. Qed.

Notation mprop m := (Prop_ K W (HU (m_rem_cd m) (m_rem_c m) (m_add_cd m) (m_add_c m)) None (inR (m_corr m))).
Lemma arrives_ins grid k st y xs ys (m : move R) : inserted grid k st y xs ys -> well_formed (cds st) (cs st) (Some m) ->
  arrives st y (Some (mprop m)) = is_ins xs ys (Some m).
Proof.
move=> [z k0 p1 p2 _ _] /and4P[_ _ _ sh]; rewrite /arrives /= (perm_ins _ _ p1) (perm_ins _ _ p2).
case/orP: sh => /andP[/eqP -> /eqP ->]; first by rewrite !cats0 /= !(perm_sym xs) !(perm_sym ys).
rewrite perm_nil0 ?z //= ?andFb; apply/esym/negbTE; rewrite !negb_and; apply/orP; right; apply/orP; right; apply/orP; left.
by apply/negP => /perm_size /=; rewrite z; case: (k) k0.
Qed.
Lemma arrives_rem grid k st y xs ys (m : move R) cd c : inserted grid k st y xs ys -> well_formed cd c (Some m) ->
  arrives y st (Some (mprop m)) = is_rem xs ys (Some m).
Proof.
move=> [z k0 p1 p2 _ _] /and4P[_ _ _ sh]; rewrite /arrives /= (perm_rem _ _ p1) (perm_rem _ _ p2).
case/orP: sh => /andP[/eqP -> /eqP ->]; last by rewrite !cats0 /=.
rewrite perm_sym perm_nil0 ?z //=; apply/esym/negbTE; rewrite !negb_and; apply/orP; right; apply/orP; right; apply/orP; left.
by apply/negP => /perm_size /=; rewrite z; case: (k) k0.
Qed.


Notation moves dp := [seq (p.1, of_move inR W p.2) | p <- (dp : dist R (option (move R)))].
Lemma of_move_in (dp : dist R (option (move R))) (st : state) w p : supp (well_formed (cds st) (cs st)) dp -> List.In (w, Some p) (moves dp) ->
  exists2 m, List.In (w, Some m) dp /\ well_formed (cds st) (cs st) (Some m) & p = mprop m.
Proof.
move=> hS /In_map[[w' [m|]] hq [-> e]] //; exists m; last by case: e => ->.
split=> //; exact: supp_In hS hq.
Qed.
Lemma move_basic (dp : dist R (option (move R))) (st : state) w p : Inv st -> typed st -> supp (well_formed (cds st) (cs st)) dp ->
  List.In (w, Some p) (moves dp) -> [/\ p_worm_new K W p = None, removable st (p_hyb K W p) & typed_hyb (p_hyb K W p)].
Proof.
move=> hI /andP[t1 t2] hS /(of_move_in hS)[m [_ /and4P[/andP[a1 a2] /andP[u1 s1] /andP[u2 s2] _]] ->]; split=> //=.
  by apply: removable_sub => //=; [exact/allP|exact/allP].
rewrite /typed_hyb /= a1 a2 !andbT; apply/andP; split.
  by apply/allP => x /(allP s1)/(allP t1).
by apply/allP => x /(allP s2)/(allP t2).
Qed.
(** Proposals that insert or remove, with correction factor [a] for the insertion and [a^-1] for the removal *)
Lemma ins_rem_flows (dp dp' : dist R (option (move R))) a grid k st y xs ys : setup st y -> inserted grid k st y xs ys ->
  nonneg dp -> nonneg dp' -> supp (well_formed (cds st) (cs st)) dp -> supp (well_formed (cds y) (cs y)) dp' -> 0 < a ->
  pr dp (fun o => @is_ins R xs ys o && ~~ corr_is a o) = 0 -> pr dp' (fun o => @is_rem R xs ys o && ~~ corr_is a^-1 o) = 0 ->
  flow (moves dp) (lands st y) (pr dp (is_ins xs ys) * accept a st y) /\ flow (moves dp') (lands y st) (pr dp' (is_rem xs ys) * accept a^-1 y st).
Proof.
move=> hs hn n1 n2 s1 s2 a0 z1 z2; have [i1 i2 es t1 t2 _ _ _] := hs.
have [_ _ _ _ _ hw] := hn; have hw' : all (rng_cc (lo y) (hi y)) (xs ++ ys) by rewrite es.
have rngp (s t : state) (xs' ys' : seq psi) : perm_eq xs' xs -> perm_eq ys' ys -> all (rng_cc (lo s) (hi s)) (xs ++ ys) ->
    all (rng_cc (lo s) (hi s)) (xs' ++ ys') by move=> h1 h2; rewrite (perm_all _ (perm_cat h1 h2)).
have -> : pr dp (is_ins xs ys) = pr (moves dp) (arrives st y).
  by rewrite pr_map; apply: pr_sub => -[w [m|]] // hm _; rewrite -(arrives_ins hn) //; exact: supp_In s1 hm.
have -> : pr dp' (is_rem xs ys) = pr (moves dp') (arrives y st).
  by rewrite pr_map; apply: pr_sub => -[w [m|]] // hm _; rewrite -(arrives_rem hn (supp_In s2 hm)).
split.
  apply: flow_arrives => // w p hp w0; have [b1 b2 b3] := move_basic i1 t1 s1 hp.
  have [m [hm wf] ep] := of_move_in s1 hp; split=> //; rewrite ep (arrives_ins hn wf) => ha.
  have := pr0 n1 z1 hm w0; cbn [snd]; rewrite ha /= negbK => /eqP ec.
  move: (ha) => /and4P[/eqP e1 /eqP e2 h3 h4]; rewrite /= e1 e2; split=> //=.
  - by rewrite ec.
  - exact: paired_ins.
  - exact: rngp.
  - exact: lossy_none.
apply: flow_arrives; rewrite ?invr_gt0 //; first exact: setup_sym.
move=> w p hp w0; have [b1 b2 b3] := move_basic i2 t2 s2 hp.
have [m [hm wf] ep] := of_move_in s2 hp; split=> //; rewrite ep (arrives_rem hn wf) => ha.
have := pr0 n2 z2 hm w0; cbn [snd]; rewrite ha /= negbK => /eqP ec.
move: (ha) => /and4P[/eqP e1 /eqP e2 h3 h4]; rewrite /= e1 e2; split=> //=.
- by rewrite ec.
- exact: paired_rem.
- by rewrite !cats0; exact: rngp.
- by apply: lossy_none; rewrite /= !orbT.
Qed.

Section InsRem.
Variables (grid : seq optime) (L : R).
Hypothesis hset : setting (size lab) nb (blk lab nb) grid L.
Let d k (st : state) := insertion_removal inR W lab nb (lo st) (hi st) grid L k (det (st_mc st)).
Let dp k (st : state) := propose (size lab) nb (blk lab nb) grid L k (win_cd (lo st) (hi st) (det (st_mc st))) (win_c (lo st) (hi st) (det (st_mc st))).

Lemma exchange_of k st y xs ys : setup st y -> inserted grid k st y xs ys ->
  T_Proposal.exchange (size lab) nb (blk lab nb) grid k (win_cd (lo st) (hi st) (det (st_mc st))) (win_c (lo st) (hi st) (det (st_mc st)))
    (win_cd (lo y) (hi y) (det (st_mc y))) (win_c (lo y) (hi y) (det (st_mc y))) xs ys.
Proof.
move=> [i1 i2 es /andP[t1 t2] /andP[t3 t4] _ _ _] [z k0 p1 p2 hg hw].
have [k1 k2] := known_state i2; have [u1 u2] := (cds_uniq i2, cs_uniq i2).
have [o1 o2 _] := win_ok i2.
move: t3 t4 k1 k2 u1 u2; rewrite !(perm_all _ p1) !(perm_all _ p2) (perm_uniq p1) (perm_uniq p2) !all_cat !cat_uniq.
move=> /andP[_ t3] /andP[_ t4] /andP[_ k1] /andP[_ k2] /and3P[_ _ u1] /and3P[_ _ u2].
move: hg hw; rewrite !all_cat => /andP[g1 g2] /andP[w1 w2].
have ex (P Q T : pred psi) (s : seq psi) : all P s -> all Q s -> all T s -> all (fun x => [&& P x, Q x & T x]) s.
  by move=> h1 h2 h3; rewrite !all_predI h1 h2.
have winE (f : state -> seq psi) zs b : perm_eq (f y) (f st ++ zs) -> all (rng_cc (lo st) (hi st)) zs ->
    perm_eq [seq x <- inb (blk lab nb) b (f y) | rng_cc (lo y) (hi y) x]
      ([seq x <- inb (blk lab nb) b (f st) | rng_cc (lo st) (hi st) x] ++ in_blk (blk lab nb) zs b).
  move=> hp hz; rewrite es; apply: perm_trans (perm_filter _ (inb_perm lab nb b hp)) _.
  rewrite /inb !filter_cat; apply: perm_cat => //; rewrite (_ : [seq x <- [seq x <- zs | _] | _] = in_blk (blk lab nb) zs b) //.
  by apply/all_filterP; apply/allP => x; rewrite mem_filter => /andP[_ /(allP hz)].
split=> //.
- by rewrite u1 /=; apply: ex.
- by rewrite u2 /=; apply: ex.
- move=> b hb; have := block_sizes i2 hb; rewrite (perm_size (inb_perm lab nb b p1)) (perm_size (inb_perm lab nb b p2)).
  by rewrite /inb !filter_cat !size_cat -!/(inb _ _ _) (block_sizes i1 hb) => /addnI.
- move=> b hb; rewrite (permPl (win_perm_cd i2 hb)) (permPl (winE (fun s => cds s) _ _ p1 w1)) perm_cat2r perm_sym; exact: win_perm_cd.
- move=> b hb; rewrite (permPl (win_perm_c i2 hb)) (permPl (winE (fun s => cs s) _ _ p2 w2)) perm_cat2r perm_sym; exact: win_perm_c.
- by move=> b hb; apply/andP; exact: o1.
- by move=> b hb; apply/andP; exact: o2.
Qed.

Lemma nonneg_propose k st : nonneg (dp k st).
Proof.
apply: nonneg_bind => [|[]]; first exact: nonneg_unif.
  apply: nonneg_bind => [|o]; last exact: nonneg_ret.
  elim: k => [|k IH]; first exact: nonneg_ret.
  rewrite [ins_loop _ _ _ _ _ _]/=; do 5! (apply: nonneg_bind => [|?]; first exact: nonneg_unif).
  apply: nonneg_bind => // r; exact: nonneg_ret.
apply: nonneg_bind => [|bs]; first exact: nonneg_draw.
cbv zeta; case: ifP => _; first exact: nonneg_ret.
apply: nonneg_bind => [|r]; last exact: nonneg_ret.
elim: (iota 0 nb) => [|ib ibs IH]; first exact: nonneg_ret.
rewrite [rem_blocks _ _ _ _ _]/=; do 2! (apply: nonneg_bind => [|?]; first exact: nonneg_pickup).
apply: nonneg_bind => // r; exact: nonneg_ret.
Qed.

Lemma supp_dp k st : Inv st -> supp (well_formed (cds st) (cs st)) (dp k st).
Proof. by move=> /win_ok[o1 o2 o3]; exact: supp_propose. Qed.

(** C62. Insertion and removal of [k] pairs: the probability (per unit volume of the inserted times) that one call of the
    updater leads from [st] to [y], times the weight of [st], is the probability of the way back times the weight of [y]. *)
Theorem C62_insertion_removal k st y xs ys : setup st y -> inserted grid k st y xs ys -> exists q q',
  [/\ flow (d k st) (lands st y) q, flow (d k y) (lands y st) q', 0 < q, 0 < q' &
      weight st * (q / (L / (size grid)%:R) ^+ (2 * k)) = weight y * q'].
Proof.
move=> hs hn; have hx := exchange_of hs hn; have [i1 i2 es t1 t2 _ _ _] := hs.
have [a0 [z1 z2]] := C12_correction hset hx; have [pf0 [pr0' _]] := C12_density_ratio hset hx.
move: a0 z1 z2; set a := corr_ins _ _ _ _ _ _ _ _ => a0 z1 z2.
have [f1 f2] := ins_rem_flows hs hn (nonneg_propose k st) (nonneg_propose k y) (supp_dp k i1) (supp_dp k i2) a0 z1 z2.
have ai : 0 < a^-1 by rewrite invr_gt0.
have [/andP[c0 _] /andP[c0' _]] := (accept_ge0 i1 i2 a0, accept_ge0 i2 i1 ai).
exists (pr (dp k st) (is_ins xs ys) * accept a st y), (pr (dp k y) (is_rem xs ys) * accept a^-1 y st); split=> //.
- by rewrite mulr_gt0.
- by rewrite mulr_gt0.
have ba := accept_balance i1 i2 a0; have fr := pr_fwd_rev hset hx; rewrite -/a in fr.
have cn : (L / (size grid)%:R) ^+ (2 * k) != 0 by have [_ g0 _ _ _ l0] := hset; rewrite expf_neq0 // mulf_neq0 ?invr_eq0 ?gt_eqF // ltr0n.
have an : a != 0 by rewrite gt_eqF.
move: fr ba cn; rewrite /cell -/(dp k st) -/(dp k y); move: (_ ^+ _) (pr _ _) (pr _ _) (accept _ _ _) (accept _ _ _) (weight _) (weight _) an => v pv pf x' x u' u an fr ba vn.
apply: (mulfI an); rewrite mulrCA; transitivity (u * x * (a * pf / v)); first by kring R.
by rewrite fr mulfK // ba; kring R.
Qed.
End InsRem.

(** *** Insertion and removal of pairs of one flavor *)
Section Diagonal.
Variables (grid : seq optime) (L : R).
Hypotheses (grid_uniq : uniq grid) (grid_pos : (0 < size grid)%N) (L_pos : 0 < L).
Let d k (st : state) := diagonal inR W lab nb (lo st) (hi st) grid L k (det (st_mc st)).
Let fcd (st : state) := flavor_cd (lo st) (hi st) (blk lab nb) (det (st_mc st)).
Let fc (st : state) := flavor_c (lo st) (hi st) (blk lab nb) (det (st_mc st)).
Let dp k (st : state) := diag_propose (size lab) grid L k (fcd st) (fc st).

Lemma blk_lt f : (f < size lab)%N -> (blk lab nb f < nb)%N.
Proof. by move=> hf; rewrite /blk; exact: (allP lab_ok _ (mem_nth nb hf)). Qed.
Lemma fl_perm_cd st f : Inv st -> (f < size lab)%N -> perm_eq (fcd st f) [seq x <- cds st | (p_flavor x == f) && rng_cc (lo st) (hi st) x].
Proof.
move=> hI hf; rewrite /fcd /flavor_cd (permPl (perm_filter _ (win_perm_cd hI (blk_lt hf)))) /inb -!filter_predI.
by rewrite (eq_filter (a2 := fun x => (p_flavor x == f) && rng_cc (lo st) (hi st) x)) // => x /=; case: eqP => //= ->; rewrite eqxx andbT.
Qed.
Lemma fl_perm_c st f : Inv st -> (f < size lab)%N -> perm_eq (fc st f) [seq x <- cs st | (p_flavor x == f) && rng_cc (lo st) (hi st) x].
Proof.
move=> hI hf; rewrite /fc /flavor_c (permPl (perm_filter _ (win_perm_c hI (blk_lt hf)))) /inb -!filter_predI.
by rewrite (eq_filter (a2 := fun x => (p_flavor x == f) && rng_cc (lo st) (hi st) x)) // => x /=; case: eqP => //= ->; rewrite eqxx andbT.
Qed.
Lemma dexchange_of k f st y xs ys : setup st y -> inserted grid k st y xs ys -> (f < size lab)%N -> all (fun x => p_flavor x == f) (xs ++ ys) ->
  @dexchange R (size lab) grid L k f (fcd st) (fc st) (fcd y) (fc y) xs ys.
Proof.
move=> [i1 i2 es /andP[t1 t2] /andP[t3 t4] _ _ _] [z k0 p1 p2 hg hw] hf hfl.
have [u1 u2] := (cds_uniq i2, cs_uniq i2).
have e1 : size (cds y) = size (cs y) by have [[_ [_ [_ [e _]]]] _ _] := i2.
have e2 : size (cds st) = size (cs st) by have [[_ [_ [_ [e _]]]] _ _] := i1.
move: t3 t4 (u1) (u2) e1; rewrite !(perm_all _ p1) !(perm_all _ p2) (perm_uniq p1) (perm_uniq p2) (perm_size p1) (perm_size p2) !all_cat !cat_uniq !size_cat e2.
move=> /andP[_ t3] /andP[_ t4] /and3P[_ _ v1] /and3P[_ _ v2] /addnI e1.
move: hg hw hfl; rewrite !all_cat => /andP[g1 g2] /andP[w1 w2] /andP[f1 f2].
have ex (P Q T : pred psi) (s : seq psi) : all P s -> all Q s -> all T s -> all (fun x => [&& P x, Q x & T x]) s.
  by move=> h1 h2 h3; rewrite !all_predI h1 h2.
have winE (h : state -> seq psi) zs g : perm_eq (h y) (h st ++ zs) -> all (rng_cc (lo st) (hi st)) zs ->
    perm_eq [seq x <- h y | (p_flavor x == g) && rng_cc (lo y) (hi y) x]
      ([seq x <- h st | (p_flavor x == g) && rng_cc (lo st) (hi st) x] ++ [seq x <- zs | p_flavor x == g]).
  move=> hp hz; rewrite es; apply: perm_trans (perm_filter _ hp) _; rewrite filter_cat; apply: perm_cat => //.
  by rewrite (eq_in_filter (a2 := fun x => p_flavor x == g)) // => x /(allP hz) ->; rewrite andbT.
split=> //.
- by rewrite -e1 z.
- by rewrite v1 /=; apply: ex.
- by rewrite v2 /=; apply: ex.
- by move=> g hg; rewrite (permPl (fl_perm_cd i2 hg)) (permPl (winE (fun s => cds s) _ _ p1 w1)) perm_cat2r perm_sym; exact: fl_perm_cd.
- by move=> g hg; rewrite (permPl (fl_perm_c i2 hg)) (permPl (winE (fun s => cs s) _ _ p2 w2)) perm_cat2r perm_sym; exact: fl_perm_c.
- move=> g hg; rewrite (perm_uniq (fl_perm_cd i2 hg)) (perm_all _ (fl_perm_cd i2 hg)) filter_uniq //=.
  by apply/allP => x; rewrite mem_filter => /andP[/andP[]].
- move=> g hg; rewrite (perm_uniq (fl_perm_c i2 hg)) (perm_all _ (fl_perm_c i2 hg)) filter_uniq //=.
  by apply/allP => x; rewrite mem_filter => /andP[/andP[]].
Qed.
Lemma nonneg_diag k st : nonneg (dp k st).
Proof.
apply: nonneg_bind => [|f]; first exact: nonneg_unif.
apply: nonneg_bind => [|[]]; first exact: nonneg_unif.
  apply: nonneg_bind => [|o]; last exact: nonneg_ret.
  elim: k => [|k IH]; first exact: nonneg_ret.
  rewrite [draws2 _ _ _]/=; do 2! (apply: nonneg_bind => [|?]; first exact: nonneg_unif).
  apply: nonneg_bind => // r; exact: nonneg_ret.
rewrite /diag_removal; case: ifP => _; first exact: nonneg_ret.
do 2! (apply: nonneg_bind => [|?]; first exact: nonneg_pickup).
exact: nonneg_ret.
Qed.
Lemma supp_diag k st : Inv st -> supp (well_formed (cds st) (cs st)) (dp k st).
Proof.
move=> hI; apply: (@supp_bind _ _ _ (fun f => f < size lab)%N); first by apply: supp_unif; apply/allP => f; rewrite mem_iota add0n.
move=> f hf; apply: supp_bind (suppT _) _ => -[] _.
  apply: supp_bind (suppT _) _ => o _; apply: supp_ret => /=; rewrite !andbT !all_map.
  by apply/andP; split; apply/allP.
rewrite /diag_removal; case: ifP => [_|/negbT]; first exact: supp_ret.
rewrite negb_or -!leqNgt => /andP[h1 h2].
have sub (t s : seq psi) (P : pred psi) i : perm_eq t (filter P s) -> uniq s -> uniq i -> all (fun j => j < size t)%N i ->
    uniq [seq nth psi0 t j | j <- i] && all (fun x => x \in s) [seq nth psi0 t j | j <- i].
  move=> hp us ui hi; have ut : uniq t by rewrite (perm_uniq hp) filter_uniq.
  apply/andP; split.
    by rewrite map_inj_in_uniq // => a b /(allP hi) ha /(allP hi) hb /eqP; rewrite nth_uniq // => /eqP.
  by rewrite all_map; apply: sub_all hi => j hj /=; have := mem_nth psi0 hj; rewrite (perm_mem hp) mem_filter => /andP[].
apply: supp_bind (supp_pickup R h1) _ => ic /and3P[_ u1 hic].
apply: supp_bind (supp_pickup R h2) _ => ia /and3P[_ u2 hia].
apply: supp_ret; rewrite /= orbT andbT (sub _ _ _ _ (fl_perm_cd hI hf)) ?cds_uniq //.
by rewrite (sub _ _ _ _ (fl_perm_c hI hf)) ?cs_uniq.
Qed.

(** C62. Insertion and removal of [k] pairs of one flavor: the balance is wrong by the factor [k!]. *)
Theorem C62_diagonal k f st y xs ys : setup st y -> inserted grid k st y xs ys -> (f < size lab)%N -> all (fun x => p_flavor x == f) (xs ++ ys) ->
  exists q q', [/\ flow (d k st) (lands st y) q, flow (d k y) (lands y st) q', 0 < q, 0 < q' &
      weight st * (q / (L / (size grid)%:R) ^+ (2 * k)) = (k`!)%:R * (weight y * q')].
Proof.
move=> hs hn hf hfl; have hx := dexchange_of hs hn hf hfl; have [i1 i2 es t1 t2 _ _ _] := hs.
have [a0 [z1 z2]] := C13_corrections_reciprocal hx; have fr := C13_correction_is_factorial_times_exact hx.
move: a0 z1 z2 fr; set a := (L ^+ _ / _) => a0 z1 z2 fr.
have [f1 f2] := ins_rem_flows hs hn (nonneg_diag k st) (nonneg_diag k y) (supp_diag k i1) (supp_diag k i2) a0 z1 z2.
have ai : 0 < a^-1 by rewrite invr_gt0.
have [/andP[c0 _] /andP[c0' _]] := (accept_ge0 i1 i2 a0, accept_ge0 i2 i1 ai).
have cn : (L / (size grid)%:R) ^+ (2 * k) != 0 by rewrite expf_neq0 // mulf_neq0 ?invr_eq0 ?gt_eqF // ltr0n.
have pn : pr (dp k st) (is_ins xs ys) != 0 /\ pr (dp k y) (is_rem xs ys) != 0.
  by split; apply/eqP => e; move: a0; rewrite fr e ?(mul0r, mulr0, invr0) ltxx.
exists (pr (dp k st) (is_ins xs ys) * accept a st y), (pr (dp k y) (is_rem xs ys) * accept a^-1 y st); split=> //.
- by rewrite mulr_gt0 // lt_def pn.1 pr_nneg // nonneg_diag.
- by rewrite mulr_gt0 // lt_def pn.2 pr_nneg // nonneg_diag.
have ba := accept_balance i1 i2 a0; have an : a != 0 by rewrite gt_eqF.
case: pn; move: fr ba cn; rewrite /dcell -/(dp k st) -/(dp k y).
move: (_ ^+ _) (pr (dp k st) _) (pr (dp k y) _) (accept _ _ _) (accept _ _ _) (weight _) (weight _) (k`!)%:R an => v pf pv x' x u' u kf an fr ba vn pfn pvn.
transitivity (u * x * (pf / v)); first by kring R.
by rewrite ba fr invf_div; move: pfn vn; clear; move=> *; kfield R.
Qed.
Corollary C62_diagonal_one f st y xs ys : setup st y -> inserted grid 1 st y xs ys -> (f < size lab)%N -> all (fun x => p_flavor x == f) (xs ++ ys) ->
  exists q q', [/\ flow (d 1 st) (lands st y) q, flow (d 1 y) (lands y st) q', 0 < q, 0 < q' &
      weight st * (q / (L / (size grid)%:R) ^+ 2) = weight y * q'].
Proof.
move=> hs hn hf hfl; have [q [q' [h1 h2 h3 h4 h5]]] := C62_diagonal hs hn hf hfl.
by exists q, q'; split=> //; move: h5; rewrite muln1 mul1r.
Qed.
(** For two or more pairs detailed balance does not hold. *)
Corollary C62_diagonal_unbalanced k f st y xs ys : (1 < k)%N -> setup st y -> inserted grid k st y xs ys -> (f < size lab)%N -> all (fun x => p_flavor x == f) (xs ++ ys) ->
  forall q q', flow (d k st) (lands st y) q -> flow (d k y) (lands y st) q' -> weight st * (q / (L / (size grid)%:R) ^+ (2 * k)) <> weight y * q'.
Proof.
move=> hk hs hn hf hfl q q' f1 f2; have [q1 [q2 [g1 g2 p1 p2]]] := C62_diagonal hs hn hf hfl.
have [i1 i2 _ _ _ _ _ _] := hs; rewrite (flow_inj f1 g1) (flow_inj f2 g2) => -> /esym/eqP.
have w0 : weight y * q2 != 0 by rewrite gt_eqF // mulr_gt0 // weight_gt0.
rewrite -{1}[weight y * q2]mul1r -subr_eq0 -mulrBl mulf_eq0 (negbTE w0) orbF subr_eq0 -[1]/(1%:R) eqr_nat.
have : (k <= k`!)%N by case: (k) hk => // k' _; rewrite factS leq_pmulr // fact_gt0.
by move=> h /eqP e; rewrite -e in h; move: (leq_trans hk h).
Qed.
End Diagonal.

(** *** Replacement of one operator *)
Record replaced (st y : state) (x z : psi) : Prop := Replaced {
  rp_ne : x != z;
  rp_type : p_type z = p_type x;
  rp_blk : blk lab nb (p_flavor z) = blk lab nb (p_flavor x);
  rp_cd : perm_eq (cds y ++ filter is_cr [:: x]) (cds st ++ filter is_cr [:: z]);
  rp_c : perm_eq (cs y ++ filter is_an [:: x]) (cs st ++ filter is_an [:: z]);
  rp_win : rng_cc (lo st) (hi st) x && rng_cc (lo st) (hi st) z }.
Lemma replaced_sym st y x z : st_sw y = st_sw st -> replaced st y x z -> replaced y st z x.
Proof.
move=> es [h1 h2 h3 h4 h5 /andP[h6 h7]]; split; rewrite ?es ?h6 ?h7 //; first by rewrite eq_sym.
- by rewrite perm_sym.
- by rewrite perm_sym.
Qed.
Lemma range_perm st : Inv st -> perm_eq (range_cd (lo st) (hi st) (det (st_mc st))) [seq x <- cds st | rng_cc (lo st) (hi st) x] /\
  perm_eq (range_c (lo st) (hi st) (det (st_mc st))) [seq x <- cs st | rng_cc (lo st) (hi st) x].
Proof.
by move=> hI; have [h1 h2] := all_perm hI; rewrite /range_cd /range_c !rangeE; split; apply: perm_filter.
Qed.
Let rops (st : state) := range_cd (lo st) (hi st) (det (st_mc st)) ++ range_c (lo st) (hi st) (det (st_mc st)).
Lemma rops_perm st : Inv st -> perm_eq (rops st) [seq x <- cds st ++ cs st | rng_cc (lo st) (hi st) x].
Proof. by move=> /range_perm[h1 h2]; rewrite filter_cat perm_cat. Qed.
Lemma rops_uniq st : Inv st -> uniq (rops st).
Proof. by move=> hI; rewrite (perm_uniq (rops_perm hI)) filter_uniq // (map_uniq (state_uniq hI)). Qed.
(** what the updaters draw: an operator in the window and another one of its type *)
Definition drawn (st : state) (o : option (psi * psi)) : bool :=
  if o is Some p then (p.1 \in rops st) && (p_type p.2 == p_type p.1) else true.
Notation hyb_of p := (HU (filter is_cr [:: p.1]) (filter is_an [:: p.1]) (filter is_cr [:: p.2]) (filter is_an [:: p.2])).
Lemma of_replaceE st (p : psi * psi) : Inv st -> typed st -> drawn st (Some p) ->
  of_replace K W (range_cd (lo st) (hi st) (det (st_mc st))) (Some p) = Some (Prop_ K W (hyb_of p) None 1).
Proof.
move=> hI /andP[/allP t1 /allP t2] /andP[hp /eqP et]; congr (Some (Prop_ _ _ _ _ _)); have [q1 q2] := range_perm hI.
rewrite /= (perm_mem q1) mem_filter; move: hp; rewrite mem_cat (perm_mem q1) (perm_mem q2) !mem_filter.
case: (boolP (rng_cc _ _ _)) => //= _; case: (boolP (p.1 \in cds st)) => /= [/t1 h _|_ /t2].
  by rewrite h /is_an /is_cr et; move: h; rewrite /is_cr => /eqP ->.
by rewrite /is_an /is_cr et => /eqP ->.
Qed.
Lemma drawn_in st (p : psi * psi) : Inv st -> drawn st (Some p) -> rng_cc (lo st) (hi st) p.1 /\ p.1 \in cds st ++ cs st.
Proof. by move=> hI /andP[]; rewrite (perm_mem (rops_perm hI)) mem_filter => /andP[]. Qed.
Lemma drawn_sub st (p : psi * psi) : Inv st -> typed st -> drawn st (Some p) -> all (fun x => x \in cds st) (filter is_cr [:: p.1]) /\
  all (fun x => x \in cs st) (filter is_an [:: p.1]).
Proof.
move=> hI /andP[/allP t1 /allP t2] /(drawn_in hI)[_]; rewrite mem_cat /= => /orP[h|h].
  by rewrite (t1 _ h) /= h; split=> //; case: ifP => // h'; have := cr_an p.1; rewrite (t1 _ h) h'.
by rewrite (t2 _ h) /= h; split=> //; case: ifP => // h'; have := cr_an p.1; rewrite (t2 _ h) h'.
Qed.
Lemma pair_swap (a b x z : psi) : x != z -> perm_eq [:: z; a] [:: b; x] -> (a == x) && (b == z).
Proof.
move=> ne hp; have := perm_mem hp x; rewrite !inE eqxx orbT (negbTE ne) /= => /eqP e; rewrite -e eqxx.
by move: hp; rewrite -e -[[:: z; x]]/([:: z] ++ [:: x]) -[[:: b; x]]/([:: b] ++ [:: x]) perm_cat2r => /(perm_small_eq (isT : size [:: b] <= 1)%N)[->]; rewrite eqxx.
Qed.
Lemma swap_perm (s t : seq psi) (a b x z : psi) : x != z -> perm_eq (t ++ [:: x]) (s ++ [:: z]) -> perm_eq (t ++ [:: a]) (s ++ [:: b]) = (a == x) && (b == z).
Proof.
move=> ne h; apply/idP/andP => [h'|[/eqP-> /eqP->]] //; apply/andP; apply: pair_swap => //.
have := perm_cat (h' : perm_eq _ _) (_ : perm_eq (s ++ [:: z]) (t ++ [:: x])); rewrite perm_sym h => /(_ isT) => {}h.
apply/seq.permP => f; move/seq.permP/(_ f): h; rewrite !count_cat /=; do ?(move: (count _ _) => ?); case: (f a); case: (f b); case: (f x); case: (f z); clear; lia.
Qed.
Lemma swap_nil (s t : seq psi) (x z : psi) : x != z -> perm_eq (t ++ [:: x]) (s ++ [:: z]) -> ~~ perm_eq t s.
Proof.
move=> ne h; apply/negP => h'; move: h; rewrite (permPl (perm_cat h' (perm_refl _))) perm_cat2l => /(perm_small_eq (isT : size [:: z] <= 1)%N)[e].
by rewrite e eqxx in ne.
Qed.
Lemma arrives_replace st y x z (p : psi * psi) : setup st y -> replaced st y x z -> drawn st (Some p) ->
  arrives st y (of_replace K W (range_cd (lo st) (hi st) (det (st_mc st))) (Some p)) = (p == (x, z)).
Proof.
move=> [i1 i2 es t1 t2 ew _ _] [ne et _ h1 h2 _] hd; rewrite (of_replaceE i1 t1 hd) /arrives /=.
have ecr : is_cr p.2 = is_cr p.1 by case/andP: hd => _ /eqP e; rewrite /is_cr e.
have ean : is_an p.2 = is_an p.1 by case/andP: hd => _ /eqP e; rewrite /is_an e.
have zcr : is_cr z = is_cr x by rewrite /is_cr et.
have zan : is_an z = is_an x by rewrite /is_an et.
move: h1 h2; rewrite /= ecr ean zcr zan; have := cr_an x; have := cr_an p.1.
have ty (v : psi) : is_cr v || is_an v by rewrite /is_cr /is_an; case: (p_type v).
have e2 : (p == (x, z)) = (p.1 == x) && (p.2 == z) by case: (p).
rewrite e2; have := ty x; have := ty p.1.
case xc: (is_cr x); case pc: (is_cr p.1); case xa: (is_an x); case pa: (is_an p.1) => //= _ _ _ _; rewrite ?cats0 => h1 h2.
- by rewrite (swap_perm _ _ ne h1) h2 andbT.
- rewrite (negbTE (swap_nil ne h1)) /=; apply/esym/negbTE; apply/negP => /andP[/eqP e _].
  by rewrite e xc in pc.
- rewrite (negbTE (swap_nil ne h2)) andbF /=; apply/esym/negbTE; apply/negP => /andP[/eqP e _].
  by rewrite e xc in pc.
by rewrite (swap_perm _ _ ne h2) h1.
Qed.
Lemma paired_swap (x z : psi) : p_type z = p_type x -> blk lab nb (p_flavor z) = blk lab nb (p_flavor x) ->
  paired_blocks lab nb (to_call (hyb_of (x, z))).
Proof.
move=> et eb b _; rewrite /paired /= /is_cr /is_an et.
by case: (p_type x); rewrite /inb /= eb; case: (_ == b).
Qed.
Lemma replace_flow st y x z (dp : dist R (option (psi * psi))) : setup st y -> replaced st y x z -> supp (drawn st) dp ->
  flow [seq (p.1, of_replace K W (range_cd (lo st) (hi st) (det (st_mc st))) p.2) | p <- dp] (lands st y)
    (pr dp (pred1 (Some (x, z))) * accept 1 st y).
Proof.
move=> hs hr hd; have [i1 i2 es t1 t2 ew _ _] := hs; have [ne et eb _ _ /andP[w1 w2]] := hr.
have -> : pr dp (pred1 (Some (x, z))) =
    pr [seq (p.1, of_replace K W (range_cd (lo st) (hi st) (det (st_mc st))) p.2) | p <- dp] (arrives st y).
  rewrite pr_map; apply: pr_sub => -[w [p|]] // hm _.
  have dr := supp_In hd hm; cbn [snd] in dr; cbn [snd].
  by rewrite (arrives_replace hs hr dr).
apply: flow_arrives; rewrite ?ltr01 // => w p /In_map[[w' [m|]] hq [-> e]] // w0.
have dr := supp_In hd hq; cbn [snd] in dr; have -> : p = Prop_ K W (hyb_of m) None 1 by apply: Some_inj; rewrite -(of_replaceE i1 t1 dr) e.
have [d1 d2] := drawn_in i1 dr; have [s1 s2] := drawn_sub i1 t1 dr; split=> //.
- apply: removable_sub => //=; [by case: ifP|by case: ifP|exact/allP|exact/allP].
- by apply/and4P; split; exact: filter_all.
move=> ha; have em : m = (x, z).
  by apply/eqP; rewrite -(arrives_replace hs hr dr) (of_replaceE i1 t1 dr).
split; rewrite ?em //=.
- by rewrite rmorph1.
- exact: paired_swap.
- by rewrite !all_cat /=; do 4! case: ifP => _ /=; rewrite ?w1 ?w2.
by apply: lossy_none; rewrite /= /is_cr /is_an et; case: (p_type x).
Qed.
Lemma rops_moved st y x z : setup st y -> replaced st y x z -> x \in rops st /\ perm_eq (rops y) (z :: rem x (rops st)).
Proof.
move=> [i1 i2 es /andP[t1 t2] /andP[t3 t4] _ _ _] [ne et _ h1 h2 /andP[w1 w2]].
have hp : perm_eq ((cds y ++ cs y) ++ [:: x]) ((cds st ++ cs st) ++ [:: z]).
  apply/seq.permP => f; move/seq.permP/(_ f): h1; move/seq.permP/(_ f): h2; rewrite !count_cat /= /is_cr /is_an et.
  by case: (p_type x) => /=; do ?(move: (count _ _) => ?); case: (f x); case: (f z); clear; lia.
have hx : x \in rops st.
  by rewrite (perm_mem (rops_perm i1)) mem_filter w1 /=; have := perm_mem hp x; rewrite !mem_cat !inE eqxx orbT (negbTE ne) orbF => <-.
split=> //; have e3 : perm_eq (rops y ++ [:: x]) (rops st ++ [:: z]).
  apply: perm_trans (perm_cat (rops_perm i2) (perm_refl [:: x])) _; rewrite es perm_sym.
  apply: perm_trans (perm_cat (rops_perm i1) (perm_refl [:: z])) _; rewrite perm_sym.
  by have := perm_filter (rng_cc (lo st) (hi st)) hp; rewrite !filter_cat /= w1 w2.
have {}e3 : perm_eq (x :: rops y) (z :: x :: rem x (rops st)).
  by rewrite -cat1s perm_catC (permPl e3) perm_catC /= perm_cons perm_to_rem.
by rewrite -(perm_cons x) (permPl e3) -cat1s -[x :: _]cat1s perm_catCA.
Qed.

(** C62. Shift of one operator *)
Section Shift.
Variable D : nat -> nat.
Let d (st : state) := shift R W lab nb (lo st) (hi st) D (det (st_mc st)).
Let fl f := flavors (size lab) (blk lab nb) (blk lab nb f).
Let dp (st : state) := shift_propose R fl D (lo st) (hi st) (rops st).
Lemma supp_shift st : supp (drawn st) (dp st).
Proof.
rewrite /dp /shift_propose; case e: (rops st) => [|v s]; first exact: supp_ret.
rewrite -e; apply: (@supp_bind _ _ _ (fun i => i < size (rops st))%N); first by apply: supp_unif; apply/allP => i; rewrite mem_iota add0n.
move=> i hi'; do 3! (apply: supp_bind (suppT _) _ => ? _).
case: ifP => _; apply: supp_ret => //.
by rewrite /drawn mem_nth //= eqxx.
Qed.
Lemma shift_moved st y x z : setup st y -> replaced st y x z -> T_ShiftProposal.valid (lo st) (hi st) x -> T_ShiftProposal.valid (lo st) (hi st) z ->
  moved fl (lo st) (hi st) (rops st) (rops y) x z.
Proof.
move=> hs hr v1 v2; have [i1 i2 es _ _ _ _ _] := hs; have [ne et eb _ _ _] := hr; have [hx hp] := rops_moved hs hr.
by split=> //; [exact: rops_uniq|exact: rops_uniq|rewrite /fl eb].
Qed.
Lemma shift_fl st y x z : setup st y -> replaced st y x z -> (p_flavor x \in fl (p_flavor x)) /\ (p_flavor z \in fl (p_flavor x)).
Proof.
move=> hs hr; have [i1 i2 es _ _ _ _ _] := hs; have [ne et eb _ _ _] := hr; have [hx hp] := rops_moved hs hr.
have hz : z \in rops y by rewrite (perm_mem hp) mem_head.
have kn (s : state) v : Inv s -> v \in rops s -> (p_flavor v < size lab)%N.
  move=> hI; rewrite (perm_mem (rops_perm hI)) mem_filter mem_cat => /andP[_].
  by have [k1 k2] := known_state hI; move=> /orP[/(allP k1)|/(allP k2)].
by rewrite !mem_filter !mem_iota !add0n eqxx eb eqxx (kn _ _ i1 hx) (kn _ _ i2 hz).
Qed.
Theorem C62_shift_partial st y x z : setup st y -> replaced st y x z -> T_ShiftProposal.valid (lo st) (hi st) x -> T_ShiftProposal.valid (lo st) (hi st) z ->
  D (p_flavor x) = D (p_flavor z) -> exists q q', [/\ flow (d st) (lands st y) q, flow (d y) (lands y st) q' & weight st * q = weight y * q'].
Proof.
move=> hs hr v1 v2 eD; have [i1 i2 es _ _ _ _ _] := hs.
have [m1 m2] := shift_fl hs hr; have mv := shift_moved hs hr v1 v2.
have fu f : uniq (fl f) by rewrite filter_uniq // iota_uniq.
have e := C15_symmetric R fu mv eD m1 m2.
have f1 := replace_flow hs hr (supp_shift st); have f2 := replace_flow (setup_sym hs) (replaced_sym es hr) (supp_shift y).
exists (pr (dp st) (pred1 (Some (x, z))) * accept 1 st y), (pr (dp y) (pred1 (Some (z, x))) * accept 1 y st); split=> //.
have eB := accept_balance i1 i2 ltr01; rewrite invr1 mul1r in eB; rewrite mulrCA eB [RHS]mulrCA; congr (_ * _).
by rewrite /dp es; exact: e.
Qed.
(** In general: the balance is wrong by the ratio of the step sizes. *)
Theorem C62_shift_ratio st y x z : setup st y -> replaced st y x z -> T_ShiftProposal.valid (lo st) (hi st) x -> T_ShiftProposal.valid (lo st) (hi st) z ->
  Z.le (Z.abs (Z.sub (ot_time (p_time z)) (ot_time (p_time x)))) (Z.of_nat (minn (D (p_flavor x)) (D (p_flavor z)))) ->
  exists q q', [/\ flow (d st) (lands st y) q, flow (d y) (lands y st) q', 0 < q, 0 < q' &
    weight st * (q * (2 * D (p_flavor x) + 1)%:R) = weight y * (q' * (2 * D (p_flavor z) + 1)%:R)].
Proof.
move=> hs hr v1 v2 hd; have [i1 i2 es _ _ _ _ _] := hs.
have [m1 m2] := shift_fl hs hr; have mv := shift_moved hs hr v1 v2.
have fu f : uniq (fl f) by rewrite filter_uniq // iota_uniq.
have [e p0] := C15_ratio R fu mv m1 m2 hd.
have f1 := replace_flow hs hr (supp_shift st); have f2 := replace_flow (setup_sym hs) (replaced_sym es hr) (supp_shift y).
have [/andP[c0 _] /andP[c0' _]] := (accept_ge0 i1 i2 ltr01, accept_ge0 i2 i1 ltr01).
have eB := accept_balance i1 i2 ltr01; rewrite invr1 mul1r in eB.
have n1 : 0 < (2 * D (p_flavor x) + 1)%:R :> R by rewrite ltr0n addn1.
have n2 : 0 < (2 * D (p_flavor z) + 1)%:R :> R by rewrite ltr0n addn1.
exists (pr (dp st) (pred1 (Some (x, z))) * accept 1 st y), (pr (dp y) (pred1 (Some (z, x))) * accept 1 y st).
have {}p0 : 0 < pr (dp st) (pred1 (Some (x, z))) by [].
have {}e : pr (dp st) (pred1 (Some (x, z))) * (2 * D (p_flavor x) + 1)%:R = pr (dp y) (pred1 (Some (z, x))) * (2 * D (p_flavor z) + 1)%:R.
  by rewrite /dp es.
split=> //.
- by rewrite mulr_gt0.
- by rewrite mulr_gt0 // -(pmulr_lgt0 _ n2) -e mulr_gt0.
move: e eB; move: (pr _ _) (pr _ _) (accept _ _ _) (accept _ _ _) (weight _) (weight _) => pv pf a1 a2 u1 u2 e eB.
by transitivity (u2 * a2 * (pf * (2 * D (p_flavor x) + 1)%:R)); [kring R|rewrite eB e; kring R].
Qed.
Corollary C62_shift_unbalanced st y x z : setup st y -> replaced st y x z -> T_ShiftProposal.valid (lo st) (hi st) x -> T_ShiftProposal.valid (lo st) (hi st) z ->
  Z.le (Z.abs (Z.sub (ot_time (p_time z)) (ot_time (p_time x)))) (Z.of_nat (minn (D (p_flavor x)) (D (p_flavor z)))) ->
  D (p_flavor x) <> D (p_flavor z) ->
  forall q q', flow (d st) (lands st y) q -> flow (d y) (lands y st) q' -> weight st * q <> weight y * q'.
Proof.
move=> hs hr v1 v2 hd nD q q' f1 f2 e; have [q1 [q2 [g1 g2 p1 p2]]] := C62_shift_ratio hs hr v1 v2 hd.
have [i1 i2 _ _ _ _ _ _] := hs.
rewrite -(flow_inj f1 g1) -(flow_inj f2 g2) mulrA e -!mulrA => /(mulfI (lt0r_neq0 (weight_gt0 i2))).
rewrite (flow_inj f2 g2) => /(mulfI (lt0r_neq0 p2)) /eqP; rewrite eqr_nat eqn_add2r eqn_mul2l /= => /eqP; exact: nD.
Qed.
End Shift.

(** C62. New flavor for one operator *)
Section PairFlavor.
Let d (st : state) := pair_flavor R W lab (lo st) (hi st) (det (st_mc st)).
Let dp (st : state) := pair_flavor_propose R (size lab) (range_cd (lo st) (hi st) (det (st_mc st))) (range_c (lo st) (hi st) (det (st_mc st))).
Lemma supp_pair st : supp (drawn st) (dp st).
Proof.
rewrite /dp /pair_flavor_propose; case: ifP => _; first exact: supp_ret.
apply: supp_bind (suppT _) _ => b _; set t := if b then _ else _.
apply: (@supp_bind _ _ _ (fun i => i < size t)%N); first by apply: supp_unif; apply/allP => i; rewrite mem_iota add0n.
move=> i hi'; apply: supp_bind (suppT _) _ => f _; apply: supp_ret; rewrite /drawn /= eqxx andbT mem_cat.
by have := mem_nth psi0 hi'; rewrite /t; case: (b) => ->; rewrite ?orbT.
Qed.
Theorem C62_pair_flavor st y x f : setup st y -> replaced st y x (with_flavor x f) ->
  exists q q', [/\ flow (d st) (lands st y) q, flow (d y) (lands y st) q' & weight st * q = weight y * q'].
Proof.
move=> hs hr; have [i1 i2 es t1 t2 _ _ _] := hs; have [ne _ eb h1 h2 /andP[w1 w2]] := hr.
have [hx hp] := rops_moved hs hr.
have f1 := replace_flow hs hr (supp_pair st); have f2 := replace_flow (setup_sym hs) (replaced_sym es hr) (supp_pair y).
exists (pr (dp st) (pred1 (Some (x, with_flavor x f))) * accept 1 st y), (pr (dp y) (pred1 (Some (with_flavor x f, x))) * accept 1 y st); split=> //.
have eB := accept_balance i1 i2 ltr01; rewrite invr1 mul1r in eB; rewrite mulrCA eB [RHS]mulrCA; congr (_ * _).
have [r1 r2] := range_perm i1; have [r3 r4] := range_perm i2; rewrite es in r3 r4.
have kn (s : state) v : Inv s -> v \in rops s -> (p_flavor v < size lab)%N.
  move=> hI; rewrite (perm_mem (rops_perm hI)) mem_filter mem_cat => /andP[_].
  by have [k1 k2] := known_state hI; move=> /orP[/(allP k1)|/(allP k2)].
have hz : with_flavor x f \in rops y by rewrite (perm_mem hp) mem_head.
have ux : uniq [seq p_time v | v <- cds st ++ cs st] := state_uniq i1.
have hin : x \in cds st ++ cs st by move: hx; rewrite (perm_mem (rops_perm i1)) mem_filter => /andP[].
have zn v : v \in cds st ++ cs st -> p_time v = p_time x -> v = x.
  move=> hv ev; have := nth_index psi0 hv; have := nth_index psi0 hin.
  have : index v (cds st ++ cs st) = index x (cds st ++ cs st).
    apply/eqP; rewrite -(nth_uniq (p_time psi0) _ _ ux) ?size_map ?index_mem //.
    by rewrite !(nth_map psi0) ?index_mem // !nth_index // ev.
  by move=> -> -> .
have zst : with_flavor x f \notin cds st ++ cs st.
  by apply/negP => /zn /(_ (erefl _)) e; rewrite e eqxx in ne.
have [/andP[t1a t1b]] := t1.
have tcr : is_cr (with_flavor x f) = is_cr x by [].
have tan : is_an (with_flavor x f) = is_an x by [].
have G (s s' : seq psi) (P : pred psi) : perm_eq (s' ++ filter P [:: x]) (s ++ filter P [:: with_flavor x f]) -> P (with_flavor x f) = P x ->
    all P s -> with_flavor x f \notin s -> (P x -> x \in s) ->
    (x \in [seq v <- s | rng_cc (lo st) (hi st) v] -> perm_eq [seq v <- s' | rng_cc (lo st) (hi st) v] (with_flavor x f :: rem x [seq v <- s | rng_cc (lo st) (hi st) v])) /\
    (x \notin [seq v <- s | rng_cc (lo st) (hi st) v] -> perm_eq [seq v <- s' | rng_cc (lo st) (hi st) v] [seq v <- s | rng_cc (lo st) (hi st) v] /\
       with_flavor x f \notin [seq v <- s | rng_cc (lo st) (hi st) v]).
  move=> hps eP al nz hPx; rewrite !mem_filter w1 w2 /=; split=> hxs.
    move: hps; rewrite /= eP (allP al _ hxs) => /(perm_filter (rng_cc (lo st) (hi st))); rewrite !filter_cat /= w1 w2 => hps.
    have hxf : x \in [seq v <- s | rng_cc (lo st) (hi st) v] by rewrite mem_filter w1.
    rewrite -(perm_cons x) -cat1s perm_catC (permPl hps) perm_catC /=.
    rewrite (permPr (_ : perm_eq _ (with_flavor x f :: x :: rem x [seq v <- s | rng_cc (lo st) (hi st) v]))).
      by rewrite perm_cons; exact: perm_to_rem.
    by rewrite -cat1s -[_ :: x :: _]cat1s -[x :: rem _ _]cat1s -[_ :: rem _ _]cat1s perm_catCA.
  split=> //; apply: perm_filter; move: hps; rewrite /= eP; case: ifP => [/hPx h|_]; first by rewrite h in hxs.
  by rewrite !cats0.
have T (r r' s s' : seq psi) (P : pred psi) : perm_eq r [seq v <- s | rng_cc (lo st) (hi st) v] -> perm_eq r' [seq v <- s' | rng_cc (lo st) (hi st) v] ->
    perm_eq (s' ++ filter P [:: x]) (s ++ filter P [:: with_flavor x f]) -> P (with_flavor x f) = P x ->
    all P s -> with_flavor x f \notin s -> (P x -> x \in s) ->
    (x \in r -> perm_eq r' (with_flavor x f :: rem x r)) /\ (x \notin r -> perm_eq r' r /\ with_flavor x f \notin r).
  move=> e e' k1 k2 k3 k4 k5; have [g g'] := G _ _ _ k1 k2 k3 k4 k5; rewrite !(perm_mem e); split.
    move=> hxr; have h := g hxr; rewrite (permPl e') (permPl h) perm_cons -(perm_cons x).
    have hx' : x \in r by rewrite (perm_mem e).
    by rewrite -(permPl (perm_to_rem hxr)) -(permPr (perm_to_rem hx')) perm_sym.
  by move=> /g'[h ->]; rewrite (permPl e') (permPl h) perm_sym.
have [a1 a2] : with_flavor x f \notin cds st /\ with_flavor x f \notin cs st by apply/andP; rewrite -negb_or -mem_cat.
have xcd : is_cr x -> x \in cds st.
  by move=> hc; move: hin; rewrite mem_cat => /orP[//|/(allP t1b) ha]; have := cr_an x; rewrite hc ha.
have xc : is_an x -> x \in cs st.
  by move=> hc; move: hin; rewrite mem_cat => /orP[/(allP t1a) ha|//]; have := cr_an x; rewrite hc ha.
have [g1 g2] := T _ _ _ _ _ r1 r3 h1 tcr t1a a1 xcd; have [g3 g4] := T _ _ _ _ _ r2 r4 h2 tan t1b a2 xc.
rewrite /dp es; apply: C15_pair_flavor => //.
- exact: kn hx.
- exact: kn hz.
- by rewrite (perm_uniq r1) filter_uniq // cds_uniq.
- by rewrite (perm_uniq r2) filter_uniq // cs_uniq.
- by rewrite (perm_uniq r3) filter_uniq // cds_uniq.
- by rewrite (perm_uniq r4) filter_uniq // cs_uniq.
Qed.
End PairFlavor.
End Chain.
Print Assumptions C62_insertion_removal.
Print Assumptions C62_diagonal.
Print Assumptions C62_diagonal_one.
Print Assumptions C62_diagonal_unbalanced.
Print Assumptions C62_shift_partial.
Print Assumptions C62_shift_ratio.
Print Assumptions C62_shift_unbalanced.
Print Assumptions C62_pair_flavor.
