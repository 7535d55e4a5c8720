(** * C63: one call of a worm updater satisfies detailed balance

    The target weight of a configuration with a worm of type i is [w i] times the modulus of determinant times trace. *)
From Coq Require Import ZArith Lia List Bool Sorting.Permutation Sorting.Sorted.
From mathcomp Require Import all_ssreflect all_fingroup all_algebra zify.
From Verif Require Import OpContainer CombSort PermSign T_PermSign Updater T_Updater Select KField Dist Proposal T_Proposal
  ShiftProposal T_ShiftProposal Worm T_Worm WormProposal T_WormProposal HybDet EigenBasis FastUpdate T_FastUpdate
  DetMatrix T_DetMatrix T_DetUpdate T_DetHistory DetPartitioned T_DetPartitioned GlobalUpdate T_GlobalUpdate
  Window T_Window T_WindowTrace LazyTrace T_LazyTrace Assembly T_Assembly LocalChain T_LocalChain WormChain.
Import Order.Theory GRing.Theory Num.Theory.
Set Implicit Arguments.
Unset Strict Implicit.
Unset Printing Implicit Defensive.
Local Close Scope Z_scope.
Local Open Scope nat_scope.
Delimit Scope Z_scope with coqZ.
Local Open Scope ring_scope.

(** ** What the worm updaters propose *)
Section Steps.
Variable R : realFieldType.
Implicit Types e : dist R (option (wmove R)).

(** A proposal that removes operators, and one that adds operators; both may change the worm. *)
Definition takes (n : nat) (cd c : seq psi) (o : option (wmove R)) : bool :=
  if o is Some m then [&& (wm_kind m < n)%N, (wm_add_cd m == [::]) && (wm_add_c m == [::]),
    uniq (wm_rem_cd m) && all (fun x => x \in cd) (wm_rem_cd m) & uniq (wm_rem_c m) && all (fun x => x \in c) (wm_rem_c m)] else true.
Definition gives (n : nat) (o : option (wmove R)) : bool :=
  if o is Some m then [&& (wm_kind m < n)%N, (wm_rem_cd m == [::]) && (wm_rem_c m == [::]), all is_cr (wm_add_cd m) & all is_an (wm_add_c m)]
  else true.

Lemma supp0 (O : Type) (S E : O -> bool) (d : dist R O) : supp S d -> (forall o, S o -> ~~ E o) -> pr d E = 0.
Proof. by move=> hS h; rewrite (pr_sub (E' := pred0)) ?pr_pred0 // => p hp _; apply/negbTE/h; exact: supp_In hS hp. Qed.
Lemma supp_sub (O : Type) (S S' : O -> bool) (d : dist R O) : supp S d -> (forall o, S o -> S' o) -> supp S' d.
Proof. by move=> + h; apply: sub_all => p /h. Qed.
Lemma nonneg_draws (O : Type) (s : seq O) k : nonneg (draws R s k).
Proof. by elim: k => [|k IH] /=; [exact: nonneg_ret|apply: nonneg_bind => [|b]; [exact: nonneg_unif|apply: nonneg_bind => // r; exact: nonneg_ret]]. Qed.
Lemma nonneg_labels (A T C : Type) (h : A -> T -> C) (s : seq T) ls : nonneg (label_draws R h s ls).
Proof. by elim: ls => [|a ls IH] /=; [exact: nonneg_ret|apply: nonneg_bind => [|b]; [exact: nonneg_unif|apply: nonneg_bind => // r; exact: nonneg_ret]]. Qed.
Lemma nonneg_pick num o fl : nonneg (pick_ops R num o fl).
Proof. by elim: fl => [|f fl IH] /=; [exact: nonneg_ret|apply: nonneg_bind => [|b]; [exact: nonneg_unif|apply: nonneg_bind => // r; exact: nonneg_ret]]. Qed.

Variables (nf : nat) (grid : seq Z) (L : R) (types : seq wtype) (w : nat -> R).
Lemma nonneg_step_Z cd c : nonneg (worm_step_Z nf grid L types w cd c).
Proof.
apply: nonneg_bind (nonneg_unif _ _) _ => i; apply: nonneg_bind (nonneg_unif _ _) _ => -[].
  apply: nonneg_bind (nonneg_draws _ _) _ => ts; apply: nonneg_bind (nonneg_unif _ _) _ => -[].
    by apply: nonneg_bind (nonneg_draws _ _) _ => fs; exact: nonneg_ret.
  by apply: nonneg_bind (nonneg_unif _ _) _ => f; exact: nonneg_ret.
apply: nonneg_bind (nonneg_draws _ _) _ => ts; apply: nonneg_bind (nonneg_draws _ _) _ => fs; cbv zeta.
case: ifP => _; first exact: nonneg_ret.
by apply: nonneg_bind (nonneg_pick _ _ _) _ => rd; apply: nonneg_bind (nonneg_pick _ _ _) _ => ra; exact: nonneg_ret.
Qed.
Lemma nonneg_step_W i cd c ts fs : nonneg (worm_step_W nf grid L types w i cd c ts fs).
Proof.
apply: nonneg_bind (nonneg_unif _ _) _ => -[].
  by apply: nonneg_bind (nonneg_unif _ _) _ => -[]; [exact: nonneg_ret|case: ifP => _; exact: nonneg_ret].
by apply: nonneg_bind (nonneg_labels _ _ _) _ => r; exact: nonneg_ret.
Qed.

Lemma supp_pick num (o : nat -> seq psi) (cdl : seq psi) fl : uniq fl ->
  (forall f, f \in fl -> [/\ (num f <= size (o f))%N, uniq (o f), all (fun x => p_flavor x == f) (o f) & {subset o f <= cdl}]) ->
  supp (fun r => [&& uniq r, all (fun x => x \in cdl) r, all (fun x => p_flavor x \in fl) r & all (fun f => size (of_flav r f) == num f) fl])
    (pick_ops R num o fl).
Proof.
elim: fl => [|f fl IH] ufl h; first exact: supp_ret.
have [h1 h2 h3 h4] := h f (mem_head _ _); case/andP: ufl => nfl ufl.
apply: (supp_bind (supp_pickup R h1)) => ic /and3P[zic uic hic].
apply: (supp_bind (IH ufl _)) => [g hg|r /and4P[r1 r2 r3 r4]]; first by apply: h; rewrite inE hg orbT.
have mo j : j \in ic -> nth psi0 (o f) j \in o f by move=> /(allP hic); exact: mem_nth.
have fo j : j \in ic -> p_flavor (nth psi0 (o f) j) = f by move=> /mo/(allP h3)/eqP.
apply: supp_ret; apply/and4P; split.
- rewrite cat_uniq r1 andbT; apply/andP; split.
    rewrite map_inj_in_uniq // => a b /(allP hic) ha /(allP hic) hb /eqP; rewrite nth_uniq //; exact: eqP.
  apply/hasPn => x /(allP r3) hx; apply/negP => /mapP[j /fo hj ex]; move: hx; rewrite ex hj.
  by rewrite (negbTE nfl).
- by rewrite all_cat r2 andbT all_map; apply/allP => j /mo /h4.
- rewrite all_cat all_map; apply/andP; split; first by apply/allP => j /fo /= ->; rewrite mem_head.
  by apply: sub_all r3 => x hx; rewrite inE hx orbT.
apply/andP; split.
  rewrite /of_flav filter_cat size_cat [X in (_ + X)%N](_ : _ = 0%N) ?addn0; last first.
    rewrite size_filter; apply/eqP; rewrite eqn0Ngt -has_count; apply/hasPn => x /(allP r3).
    by apply: contraL => /eqP ->.
  rewrite (_ : filter _ _ = [seq nth psi0 (o f) j | j <- ic]) ?size_map //.
  by apply/all_filterP; rewrite all_map; apply/allP => j /fo /= ->.
apply/allP => g hg; have /eqP <- := allP r4 _ hg; rewrite /of_flav filter_cat size_cat.
rewrite (_ : [seq x <- [seq _ | j <- ic] | _] = [::]) //; apply/eqP; rewrite -(negbK (_ == _)) -has_filter; apply/hasPn => x /mapP[j /fo hj ->].
by rewrite hj; apply: contra nfl => /eqP ->.
Qed.

(** The operators of the updaters: of one flavor, different, hybridized *)
Definition sorted_in (o : nat -> seq psi) (l : seq psi) : Prop :=
  forall f, (f < nf)%N -> [/\ uniq (o f), all (fun x => p_flavor x == f) (o f) & {subset o f <= l}].
(** what a move that inserts a worm removes *)
Definition keyed (o : option (wmove R)) : bool :=
  if o is Some m then
    if (wm_kind m < 2)%N then (wm_rem_cd m == [::]) && (wm_rem_c m == [::])
    else if wm_new m is Some x then
      let ops := w_ops types x in
      [&& all (fun x => p_flavor x < nf)%N (wm_rem_cd m ++ wm_rem_c m),
          all (fun f => size (of_flav (wm_rem_cd m) f) == WormProposal.num_ops CREATION_OP ops f) (iota 0 nf) &
          all (fun f => size (of_flav (wm_rem_c m) f) == WormProposal.num_ops ANNIHILATION_OP ops f) (iota 0 nf)]
    else false
  else true.
Lemma supp_step_Z cd c cdl cl : sorted_in cd cdl -> sorted_in c cl ->
  supp (fun o => takes 3 cdl cl o && keyed o) (worm_step_Z nf grid L types w cd c).
Proof.
move=> hcd hc; rewrite /worm_step_Z.
apply: supp_bind (suppT _) _ => i _; apply: supp_bind (suppT _) _ => -[] _.
  apply: supp_bind (suppT _) _ => ts _; apply: supp_bind (suppT _) _ => -[] _.
    by apply: supp_bind (suppT _) _ => fs _; exact: supp_ret.
  by apply: supp_bind (suppT _) _ => f _; exact: supp_ret.
apply: supp_bind (suppT _) _ => ts _; apply: supp_bind (suppT _) _ => fs _; cbv zeta.
case: ifP => [_|/negbT/hasPn hn]; first exact: supp_ret.
apply: (supp_bind (supp_pick (cdl := cdl) (iota_uniq 0 nf) _)) => [f hf|rd /and4P[r1 r2 r3 r4]].
  have := hn f hf; rewrite negb_or -!leqNgt => /andP[h1 _]; move: hf; rewrite mem_iota add0n => hf.
  by have [h2 h3 h4] := hcd f hf.
apply: (supp_bind (supp_pick (cdl := cl) (iota_uniq 0 nf) _)) => [f hf|ra /and4P[q1 q2 q3 q4]].
  have := hn f hf; rewrite negb_or -!leqNgt => /andP[_ h1]; move: hf; rewrite mem_iota add0n => hf.
  by have [h2 h3 h4] := hc f hf.
apply: supp_ret; rewrite /= r1 r2 q1 q2 /= r4 q4 !andbT all_cat.
have G (s : seq psi) : all (fun x => p_flavor x \in iota 0 nf) s -> all (fun x => p_flavor x < nf)%N s.
  by apply: sub_all => x; rewrite mem_iota add0n.
by rewrite !G.
Qed.

Definition keyed_add (ops : seq psi) (o : option (wmove R)) : bool :=
  if o is Some m then
    if (wm_kind m < 2)%N then (wm_add_cd m == [::]) && (wm_add_c m == [::])
    else perm_eq (map key (wm_add_cd m ++ wm_add_c m)) (map key ops)
  else true.
Lemma supp_step_W i cd c ts fs :
  supp (fun o => gives 3 o && keyed_add (w_ops types (i, (ts, fs))) o) (worm_step_W nf grid L types w i cd c ts fs).
Proof.
rewrite /worm_step_W; apply: supp_bind (suppT _) _ => -[] _.
  by apply: supp_bind (suppT _) _ => -[] _; [exact: supp_ret|case: ifP => _; exact: supp_ret].
rewrite /hyb_rem; cbv zeta; set ls := [seq _ | x <- _].
have hl : supp (fun r => map key r == ls) (label_draws R (fun (a : optype * nat) t => Psi (OT t 0) a.1 a.2) grid ls).
  elim: ls => [|a ls IH]; first by apply: supp_ret; rewrite /= eqxx.
  apply: supp_bind (suppT _) _ => t _; apply: (supp_bind IH) => r /eqP hr.
  by apply: supp_ret; rewrite /= hr /key /=; case: a.
apply: (supp_bind hl) => r /eqP hr; apply: supp_ret; rewrite /= !filter_all /=.
rewrite -/(map key _) -[map key (get_operators _ _)]/ls -hr; apply: perm_map.
rewrite (_ : [seq x <- r | p_type x == ANNIHILATION_OP] = [seq x <- r | predC (fun x => p_type x == CREATION_OP) x]) ?perm_filterC //.
by apply: eq_filter => x /=; case: (p_type x).
Qed.

Lemma keyed_perm rd ra ops : all is_cr rd -> all is_an ra -> all (fun x => p_flavor x < nf)%N (rd ++ ra) ->
  all (fun x => p_flavor x < nf)%N ops ->
  all (fun f => size (of_flav rd f) == WormProposal.num_ops CREATION_OP ops f) (iota 0 nf) ->
  all (fun f => size (of_flav ra f) == WormProposal.num_ops ANNIHILATION_OP ops f) (iota 0 nf) -> perm_eq (map key (rd ++ ra)) (map key ops).
Proof.
move=> t1 t2 f1 f2 h1 h2; apply/allP => -[t f] _ /=; apply/eqP; rewrite !count_map.
have big (s : seq psi) : (nf <= f)%N -> all (fun x => p_flavor x < nf)%N s -> count (preim key (pred1 (t, f))) s = 0%N.
  move=> hf ha; apply/eqP; rewrite eqn0Ngt -has_count; apply/hasPn => x /(allP ha) hx /=.
  by apply/negP => /eqP[_ e]; move: hx; rewrite e ltnNge hf.
case: (leqP nf f) => hf; first by rewrite !big.
have cnt0 (s : seq psi) (u : optype) : all (fun x => p_type x == u) s -> count (preim key (pred1 (t, f))) s = if t == u then size (of_flav s f) else 0%N.
  move=> ha; rewrite /of_flav size_filter; case: (eqVneq t u) => [et|ne].
    by apply: eq_in_count => x /(allP ha)/eqP hx /=; rewrite /key xpair_eqE hx et eqxx.
  apply/eqP; rewrite eqn0Ngt -has_count; apply/hasPn => x /(allP ha)/eqP hx /=.
  by rewrite /key xpair_eqE hx eq_sym (negbTE ne).
have hm : f \in iota 0 nf by rewrite mem_iota add0n.
rewrite count_cat (cnt0 _ _ t1) (cnt0 _ _ t2) (eqP (allP h1 _ hm)) (eqP (allP h2 _ hm)) /WormProposal.num_ops.
by case: t {big cnt0} => /=; rewrite ?addn0 ?add0n; apply: eq_count => x /=; rewrite /key xpair_eqE.
Qed.
End Steps.

Section WormChain.
Variable K : numFieldType.
Variable types : seq wtype.
Notation W := wdata.
Notation w_ops := (w_ops types).
Variable F : psi -> psi -> K.
Variable junk : nat -> nat -> K.
Variables (lab : seq nat) (nb : nat).
Variables (Ket Bra : Type) (outer : list (Bra * Ket)).
Variables (ket_invalid : Ket -> bool) (bra_invalid : Bra -> bool) (ket_nil : Ket) (bra_nil : Bra).
Variables (apply_ket : optype -> nat -> Ket -> Ket) (apply_bra : optype -> nat -> Bra -> Bra).
Variables (prop_ket : Z -> Ket -> Ket) (prop_bra : Z -> Bra -> Bra).
Variables (normalize_ket : Ket -> Ket) (normalize_bra : Bra -> Bra).
Variables (norm_ket : Ket -> K) (norm_bra : Bra -> K).
Variables (sec_ket : Ket -> nat) (sec_bra : Bra -> nat).
Variable product : Bra -> Ket -> K.
Variable tau : nat -> nat -> Z.
Variable cut : K.
Variables (min_dim : Ket -> nat) (dst : optype -> nat -> nat -> option nat) (dim_sector : nat -> nat) (cexp : nat -> Z -> K).
Variable rank : Ket -> nat.
Variable eps : K.
Variable order : seq K -> seq nat.
Variable beta : Z.

(** The hypotheses of C22, C24 and C34; nothing is truncated. *)
Hypothesis lab_ok : all (fun b => b < nb)%N lab.
Hypothesis nb_gt0 : (0 < nb)%N.
Hypothesis H : braket_ok ket_invalid bra_invalid ket_nil bra_nil apply_ket apply_bra prop_ket prop_bra
  normalize_ket normalize_bra sec_ket sec_bra product.
Hypothesis N : norm_ok ket_invalid apply_ket prop_ket norm_ket norm_bra sec_ket product min_dim dst dim_sector cexp rank.
Hypothesis tau_0 : forall n, (0 < n)%N -> tau n 0 = 0%coqZ.
Hypothesis tau_beta : forall n, (0 < n)%N -> tau n (2 * n) = beta.
Hypothesis tau_mono : forall n p q, (p <= q)%N -> (q <= 2 * n)%N -> (tau n p <= tau n q)%coqZ.
Hypothesis eps_ge0 : 0 <= eps.
Hypothesis cut0 : cut = 0.
Hypothesis order_ok : forall bs, descending bs (order bs).

Notation sw := (sw K Ket Bra).
Notation config := (config K W (ms K)).
Notation state := (state K W Ket Bra).
Notation reach := (T_Window.reach outer ket_invalid bra_invalid ket_nil bra_nil apply_ket apply_bra prop_ket prop_bra
  normalize_ket normalize_bra norm_ket norm_bra tau cut).
Notation tbounds := (trace_bounds ket_invalid bra_invalid sec_ket sec_bra tau min_dim dst dim_sector cexp).
Notation bound_sum := (bound_sum ket_invalid bra_invalid sec_ket sec_bra tau min_dim dst dim_sector cexp).
Notation lazy_at := (lazy_at ket_invalid bra_invalid apply_ket prop_ket normalize_ket sec_ket sec_bra product tau
  min_dim dst dim_sector cexp eps order).
Notation local_update := (local_update w_ops F junk lab nb ket_invalid bra_invalid apply_ket prop_ket normalize_ket
  sec_ket sec_bra product tau min_dim dst dim_sector cexp eps order).
Notation consistent := (consistent K W w_ops (ms K) (@ms_cd K) (@ms_c K) (full_det F lab nb) (ms_wf F junk lab nb)
  (full_trace outer apply_ket prop_ket product beta)).
Notation ftr := (full_trace outer apply_ket prop_ket product beta).
Notation ops mc := (operators K W (ms K) mc).
Notation det mc := (mstate K W (ms K) mc).
Notation det_of mc := (full_det F lab nb (ms_cd (det mc)) (ms_c (det mc))).
Notation new_worm mc p := (match p_worm_new K W p with None => Updater.worm K W (ms K) mc | Some w => w end).
Notation wops := (worm_ops W w_ops).

Notation worm mc := (Updater.worm K W (ms K) mc).
Notation Inv := (inv w_ops F junk lab nb outer ket_invalid bra_invalid ket_nil bra_nil apply_ket apply_bra prop_ket prop_bra
  normalize_ket normalize_bra norm_ket norm_bra product tau cut beta).
Notation legal_prop := (legal_prop w_ops lab nb ket_invalid bra_invalid sec_ket sec_bra tau min_dim dst dim_sector cexp eps).

Notation cds st := (ms_cd (det (st_mc st))).
Notation cs st := (ms_c (det (st_mc st))).
Notation lo st := (tau_low tau (st_sw st)).
Notation hi st := (tau_high tau (st_sw st)).

(** Real numbers: [inR] puts them into the scalars, [nrm] is the modulus. *)
Variable R : realFieldType.
Variable inR : {rmorphism R -> K}.
Hypothesis inR_lt : forall x y, (inR x < inR y) = (x < y).
Variable nrm : K -> R.
Hypothesis nrm_ok : forall x, inR (nrm x) = `|x|.

Add Field Rf : (kfield_theory R).
Notation weight := (weight F lab nb outer apply_ket prop_ket product beta nrm).
Notation lands := (lands w_ops F junk lab nb ket_invalid bra_invalid apply_ket prop_ket normalize_ket
  sec_ket sec_bra product tau min_dim dst dim_sector cexp eps order inR).
Notation wsetup := (wsetup w_ops F junk lab nb outer ket_invalid bra_invalid ket_nil bra_nil apply_ket apply_bra prop_ket prop_bra
  normalize_ket normalize_bra norm_ket norm_bra sec_ket sec_bra product tau cut min_dim dst dim_sector cexp eps beta).
Notation in_window := (in_window w_ops tau).
Notation accept := (accept F lab nb outer apply_ket prop_ket product beta nrm).
Notation wprop := (wprop inR).
Notation of_wmove := (of_wmove inR).
Notation moves e := [seq (p.1, of_wmove p.2) | p <- (e : dist R (option (wmove R)))].

Lemma sum_kinds (e : dist R (option (wmove R))) (A : option (wmove R) -> bool) (g : R -> R) (al : nat -> R) n :
  (forall p, List.In p e -> p.1 != 0 -> A p.2 -> if p.2 is Some m then (wm_kind m < n)%N && (wm_corr m == al (wm_kind m)) else false) ->
  \sum_(p <- e) p.1 * (if A p.2 then g (if p.2 is Some m then wm_corr m else 1) else 0) =
  \sum_(k <- iota 0 n) pr e (fun o => A o && (if o is Some m then wm_kind m == k else false)) * g (al k).
Proof.
move=> h; under [RHS]eq_bigr do rewrite prE mulr_suml.
rewrite exchange_big /=; apply: sum_In => p hp; have := h p hp.
case: (eqVneq p.1 0) => [->|ne] h'; first by rewrite mul0r big1 // => k _; rewrite !mul0r.
case: (A p.2) h' => [/(_ isT isT)|_]; last by (rewrite mulr0 big1 // => k _; rewrite mul0r).
case: p.2 => // m /andP[hk /eqP ->] /=.
rewrite (bigD1_seq (wm_kind m)) ?mem_iota ?add0n ?iota_uniq //= eqxx mulr1 big1 ?addr0 // => k nk.
by rewrite eq_sym (negbTE nk) mulr0 mul0r.
Qed.

(** a branch: [alpha] is the correction factor of the call, [alpha^-1] that of the reverse *)
Definition kind_ok (wt alpha vf vr : R) (fwd rev : pred R -> R) : Prop :=
  [/\ 0 < alpha, fwd (predC (pred1 alpha)) = 0, rev (predC (pred1 alpha^-1)) = 0 &
      alpha * (fwd xpredT * vr) = wt * (rev xpredT * vf)].
Lemma balanced_kind wt alpha vf vr fwd rev : 0 < vf -> 0 < vr -> T_WormProposal.balanced wt alpha vf vr fwd rev -> kind_ok wt alpha vf vr fwd rev.
Proof.
move=> f0 r0 [a0 [p1 p2] [e1 e2] e]; split=> //; rewrite {1}e.
have n1 : fwd xpredT != 0 by rewrite gt_eqF.
have n2 : vf != 0 by rewrite gt_eqF.
have n3 : vr != 0 by rewrite gt_eqF.
move: (fwd _) (rev _) n1 => a b n1; kfield R.
Qed.
Lemma zero_kind wt vf vr fwd rev : (forall X, fwd X = 0) -> (forall X, rev X = 0) -> kind_ok wt 1 vf vr fwd rev.
Proof. by move=> h1 h2; split; rewrite ?ltr01 ?h1 ?h2 // !mul0r !mulr0. Qed.

Notation warrives := (@warrives K W Ket Bra).
Lemma warrives_takes n cd c st y rd ra m : perm_eq (cds st) (cds y ++ rd) -> perm_eq (cs st) (cs y ++ ra) -> takes n cd c (Some m) ->
  warrives st y (of_wmove (Some m)) = wev xpredT (wm_kind m) (worm (st_mc y)) rd ra [::] [::] (Some m).
Proof.
move=> h1 h2 /and4P[_ /andP[/eqP e1 /eqP e2] _ _]; rewrite /T_LocalChain.warrives /arrives /= e1 e2 !cats0 !eqxx !andbT.
by rewrite (permPr h1) (permPr h2) !perm_cat2l andbC andbA.
Qed.
Lemma warrives_gives n st y rd ra m : perm_eq (cds st) (cds y ++ rd) -> perm_eq (cs st) (cs y ++ ra) -> gives n (Some m) ->
  warrives y st (of_wmove (Some m)) = wev xpredT (wm_kind m) (worm (st_mc st)) [::] [::] rd ra (Some m).
Proof.
move=> h1 h2 /and4P[_ /andP[/eqP e1 /eqP e2] _ _]; rewrite /T_LocalChain.warrives /arrives /= e1 e2 !cats0 !eqxx !andbT.
by rewrite (permPl h1) (permPl h2) !perm_cat2l (perm_sym rd) (perm_sym ra) andbC /=.
Qed.

Lemma kind_corr (e : dist R (option (wmove R))) k a nw rd ra ad aa x m : nonneg e -> pr e (wev (predC (pred1 a)) k nw rd ra ad aa) = 0 ->
  List.In (x, Some m) e -> x != 0 -> wev xpredT k nw rd ra ad aa (Some m) -> wm_corr m = a.
Proof.
move=> hn z hm x0 /=; have := pr0 hn z hm x0; cbn [snd]; rewrite /= => + /and5P[h1 h2 h3 h4 /and3P[h5 h6 _]].
by rewrite h1 h2 h3 h4 h5 h6 /= negbK => /eqP.
Qed.
Lemma sum_arrives (e : dist R (option (wmove R))) (A : option (proposal K W) -> bool) (g : R -> R) (al : nat -> R) n (nw : option W) rd ra ad aa :
  (forall x m, List.In (x, Some m) e -> (wm_kind m < n)%N) -> ~~ A None -> nonneg e ->
  (forall x m, List.In (x, Some m) e -> A (of_wmove (Some m)) = wev xpredT (wm_kind m) nw rd ra ad aa (Some m)) ->
  (forall k, (k < n)%N -> 0 < al k /\ pr e (wev (predC (pred1 (al k))) k nw rd ra ad aa) = 0) ->
  \sum_(q <- moves e) q.1 * (if A q.2 then g (corr_of nrm q.2) else 0) =
  \sum_(k <- iota 0 n) pr e (wev xpredT k nw rd ra ad aa) * g (al k).
Proof.
move=> hk hN hn hA hal.
have key x m : List.In (x, Some m) e -> x != 0 -> A (of_wmove (Some m)) -> wm_corr m = al (wm_kind m) /\ 0 < al (wm_kind m).
  move=> hm x0; rewrite (hA _ _ hm) => hw; have [a0 z] := hal _ (hk _ _ hm); split=> //.
  exact: kind_corr hn z hm x0 hw.
rewrite big_map; transitivity (\sum_(p <- e) p.1 * (if A (of_wmove p.2) then g (if p.2 is Some m then wm_corr m else 1) else 0)).
  apply: sum_In => -[x [m|]] hm /=; last by rewrite (negbTE hN).
  case: (eqVneq x 0) => [->|x0]; first by rewrite !mul0r.
  case: ifP => // hAm; have [e1 a0] := key x m hm x0 hAm; congr (_ * g _).
  apply: (inR_inj (inR := inR)); rewrite nrm_ok ger0_norm // e1 ltW // -(rmorph0 inR) inR_lt //.
rewrite (sum_kinds (A := fun o => A (of_wmove o)) g (al := al) (n := n)) => [|[x [m|]] hm x0 /=]; last by rewrite (negbTE hN).
  apply: eq_big_seq => k _; congr (_ * _); apply: pr_sub => -[x [m|]] hm _ /=; last by rewrite (negbTE hN).
  by rewrite (hA _ _ hm) /= eqxx /= andbC.
by move=> hAm; rewrite (hk _ _ hm) /=; have [-> _] := key x m hm x0 hAm.
Qed.

Lemma moves_in (e : dist R (option (wmove R))) (S : option (wmove R) -> bool) x p : supp S e -> List.In (x, Some p) (moves e) ->
  exists2 m, List.In (x, Some m) e /\ S (Some m) & p = wprop m.
Proof.
move=> hS /In_map[[x' [m|]] hq [-> ep]] //; exists m; last by case: ep => ->.
by split=> //; exact: supp_In hS hq.
Qed.

Lemma worm_balance n (st y : state) (e e' : dist R (option (wmove R))) rd ra wt vf vr al : wsetup st y ->
  perm_eq (cds st) (cds y ++ rd) -> perm_eq (cs st) (cs y ++ ra) ->
  nonneg e -> nonneg e' -> supp (takes n (cds st) (cs st)) e -> supp (gives n) e' ->
  (forall x m, List.In (x, Some m) e -> x != 0 -> takes n (cds st) (cs st) (Some m) -> warrives st y (of_wmove (Some m)) -> in_window st (wprop m)) ->
  (forall x m, List.In (x, Some m) e' -> x != 0 -> gives n (Some m) -> warrives y st (of_wmove (Some m)) -> in_window y (wprop m)) ->
  (forall k, (k < n)%N -> kind_ok wt (al k) vf vr (fun X => pr e (wev X k (worm (st_mc y)) rd ra [::] [::]))
     (fun X => pr e' (wev X k (worm (st_mc st)) [::] [::] rd ra))) -> 0 < vf -> 0 < vr ->
  exists q q', [/\ flow (moves e) (lands st y) q, flow (moves e') (lands y st) q',
    (forall k, (k < n)%N -> 0 < pr e (wev xpredT k (worm (st_mc y)) rd ra [::] [::]) ->
       0 < pr e' (wev xpredT k (worm (st_mc st)) [::] [::] rd ra) -> 0 < q /\ 0 < q') &
    weight st * (q / vf) = wt * (weight y * (q' / vr))].
Proof.
move=> hs h1 h2 n1 n2 s1 s2 w1 w2 hk vf0 vr0; have [i1 i2 es /andP[t1 t2] /andP[t3 t4] g1 g2] := hs.
have inR0 a : 0 < a -> 0 < inR a by move=> h; rewrite -(rmorph0 inR) inR_lt.
have k1 x m : List.In (x, Some m) e -> (wm_kind m < n)%N by move=> hm; have := supp_In s1 hm => /and4P[].
have k2 x m : List.In (x, Some m) e' -> (wm_kind m < n)%N by move=> hm; have := supp_In s2 hm => /and4P[].
have a1 x m : List.In (x, Some m) e -> warrives st y (of_wmove (Some m)) = wev xpredT (wm_kind m) (worm (st_mc y)) rd ra [::] [::] (Some m).
  by move=> hm; exact: warrives_takes h1 h2 (supp_In s1 hm).
have a2 x m : List.In (x, Some m) e' -> warrives y st (of_wmove (Some m)) = wev xpredT (wm_kind m) (worm (st_mc st)) [::] [::] rd ra (Some m).
  by move=> hm; exact: warrives_gives h1 h2 (supp_In s2 hm).
have o1 k : (k < n)%N -> 0 < al k /\ pr e (wev (predC (pred1 (al k))) k (worm (st_mc y)) rd ra [::] [::]) = 0 by move=> /hk[].
have o2 k : (k < n)%N -> 0 < (al k)^-1 /\ pr e' (wev (predC (pred1 (al k)^-1)) k (worm (st_mc st)) [::] [::] rd ra) = 0.
  by move=> /hk[a0 _ z _]; rewrite invr_gt0.
have F1 : flow (moves e) (lands st y) (\sum_(q <- moves e) q.1 * (if warrives st y q.2 then accept (corr_of nrm q.2) st y else 0)).
  apply: (flow_worm (order := order) lab_ok nb_gt0 H N tau_0 tau_beta tau_mono eps_ge0 cut0 order_ok inR_lt nrm_ok hs) => x p /(moves_in s1)[m [hm S] ->] x0.
  have /and4P[_ /andP[/eqP e1 /eqP e2] /andP[u1 m1] /andP[u2 m2]] := S; split.
  - by apply: (removable_sub lab_ok i1) => //=; exact/allP.
  - rewrite /typed_hyb /= e1 e2 !andbT; apply/andP; split; first by apply/allP => z /(allP m1)/(allP t1).
    by apply/allP => z /(allP m2)/(allP t2).
  move=> ha; split; last by apply: lossy_none; rewrite /= e1 e2 !orbT.
  - move: (ha); rewrite (a1 _ _ hm) => hw; have [a0 z] := o1 _ (k1 _ _ hm); have -> : p_corr K W (wprop m) = inR (wm_corr m) by [].
    by rewrite (kind_corr n1 z hm x0 hw) inR0.
  - by rewrite /wprop /= e1 e2; exact: paired_rem.
  - exact: w1 hm x0 S ha.
have F2 : flow (moves e') (lands y st) (\sum_(q <- moves e') q.1 * (if warrives y st q.2 then accept (corr_of nrm q.2) y st else 0)).
  apply: (flow_worm (order := order) lab_ok nb_gt0 H N tau_0 tau_beta tau_mono eps_ge0 cut0 order_ok inR_lt nrm_ok (wsetup_sym hs)) => x p /(moves_in s2)[m [hm S] ->] x0.
  have /and4P[_ /andP[/eqP e1 /eqP e2] c1 c2] := S; split.
  - by apply: (removable_sub lab_ok i2) => //=; rewrite ?e1 ?e2.
  - by rewrite /typed_hyb /= e1 e2 c1 c2.
  move=> ha; split; last by apply: lossy_none; rewrite /= e1 e2.
  - move: (ha); rewrite (a2 _ _ hm) => hw; have [a0 z] := o2 _ (k2 _ _ hm); have -> : p_corr K W (wprop m) = inR (wm_corr m) by [].
    by rewrite (kind_corr n2 z hm x0 hw) inR0.
  - by rewrite /wprop /= e1 e2; exact: paired_ins.
  - exact: w2 hm x0 S ha.
move: F1; rewrite (sum_arrives (al := al) (fun a => accept a st y) k1 _ n1 a1 o1) // => F1.
move: F2; rewrite (sum_arrives (al := fun k => (al k)^-1) (fun a => accept a y st) k2 _ n2 a2 o2) // => F2.
eexists; eexists; split; [exact: F1|exact: F2|..].
  have pos (d : dist R (option (wmove R))) (g b : nat -> R) k : (forall j, (j < n)%N -> 0 <= g j /\ 0 < b j) -> (k < n)%N -> 0 < g k ->
      0 < \sum_(j <- iota 0 n) g j * b j.
    move=> hg hkn gk; rewrite (bigD1_seq k) ?iota_uniq ?mem_iota //=; apply: ltr_paddr.
      rewrite big_seq_cond; apply: sumr_ge0 => j /andP[]; rewrite mem_iota add0n => /= /hg[u1 u2] _.
      by rewrite mulr_ge0 // ltW.
    by rewrite mulr_gt0 //; case: (hg _ hkn).
  move=> k hkn q1 q2; split; apply: (pos e _ _ k) => // j hj; (split; first exact: pr_nneg).
    by have [a0 _] := o1 j hj; have /andP[] := accept_ge0 lab_ok inR_lt nrm_ok i1 i2 a0.
  by have [a0 _] := o2 j hj; have /andP[] := accept_ge0 lab_ok inR_lt nrm_ok i2 i1 a0.
rewrite !mulr_suml !mulr_sumr; apply: eq_big_seq => k; rewrite mem_iota add0n => /hk[a0 _ _ ek].
have := accept_balance lab_ok inR_lt nrm_ok i1 i2 a0 => eb.
have nf0 : vf != 0 by rewrite gt_eqF.
have nr0 : vr != 0 by rewrite gt_eqF.
have na0 : al k != 0 by rewrite gt_eqF.
move: (pr e _) (pr e' _) ek eb => A B ek; move: (accept _ _ _) (accept _ _ _) (weight st) (weight y) => Y X u v eb.
transitivity ((al k * (A * vr)) * (v * Y) / (vf * vr)); last by rewrite ek; kfield R.
transitivity (u * X * A / vf); first by kfield R.
by rewrite eb; kfield R.
Qed.
(** a time strictly inside the window *)
Definition inside (st : state) (t : Z) : bool := Z.ltb (lo st) t && Z.ltb t (hi st).
Lemma inside_rng (st : state) x : inside st (ot_time (p_time x)) -> rng_cc (lo st) (hi st) x.
Proof.
rewrite /inside /rng_cc /ot_le [ot_time (at_ _)]/= [ot_small (at_ _)]/= [ot_time (at_ (hi st))]/= [ot_small (at_ (hi st))]/=.
move: (lo st) (hi st) (ot_time _) (ot_small _) => a b t s; clear; case: (Z.eqb_spec a t); case: (Z.eqb_spec t b); lia.
Qed.
Lemma ops_time y ts fs x : size ts = n_times y -> x \in get_operators y (MkWorm ts fs) -> ot_time (p_time x) \in ts.
Proof.
case: y => n z /flattenP[s /mapP[j]]; rewrite mem_iota add0n => /= hj ->; rewrite !inE => /orP[] /eqP -> /=;
  rewrite /get_time /= mem_nth // z [n_times _]/= //; clear -hj; lia.
Qed.
Lemma ops_flavor y ts fs nf : size fs = n_flavors y -> all (fun f => f < nf)%N fs ->
  all (fun x => p_flavor x < nf)%N (get_operators y (MkWorm ts fs)).
Proof.
case: y => n z hf; apply/allP => x /flattenP[s /mapP[j]]; rewrite mem_iota add0n => /= hj ->; rewrite !inE => /orP[] /eqP -> /=;
  rewrite /get_flavor /= (allP hf) // mem_nth // z [n_flavors _]/=; clear -hj; lia.
Qed.
Lemma in_range_worm (st : state) y ts fs : size ts = n_times y -> all (inside st) ts -> is_worm_in_range y (MkWorm ts fs) (lo st) (hi st).
Proof.
move=> z h; apply/allP => j; rewrite mem_iota add0n => hj; have /andP[h1 h2] : inside st (nth Z0 ts j) by rewrite (allP h) // mem_nth // z.
move: h1 h2; rewrite /get_time /=; move: (nth _ _ _) (lo st) (hi st); clear; lia.
Qed.
Lemma diag_nseq y ts fs : size fs = n_flavors y -> is_diagonal y (MkWorm ts fs) -> fs = nseq (n_flavors y) (nth 0%N fs 0).
Proof.
move=> z hd; apply: (@eq_from_nth _ 0%N); rewrite ?size_nseq // => j hj; rewrite nth_nseq -z hj.
case: j hj => // j hj; apply/eqP/(allP hd); rewrite mem_iota -z; clear -hj; lia.
Qed.

Section InsRem.
Variables (w : nat -> R) (grid : seq Z) (L : R).
Hypothesis grid_uniq : uniq grid.
Hypothesis grid_pos : (0 < size grid)%N.
Hypothesis lab_pos : (0 < size lab)%N.
Hypothesis L_pos : 0 < L.
Hypothesis w_pos : forall i, 0 < w i.
Notation wcell := (wcell grid L).
Notation nt i := (n_times (wty types i)).
Notation nfl i := (n_flavors (wty types i)).

(** [y] has a worm of type [i], and the hybridized operators of [st] without [rd] and [ra] (which may be empty) *)
Record worm_inserted (st y : state) (i : nat) (ts : seq Z) (fs : seq nat) (rd ra : seq psi) : Prop := WormInserted {
  wi_type : (i < size types)%N /\ (0 < nfl i)%N;
  wi_st : worm (st_mc st) = None;
  wi_y : worm (st_mc y) = Some (i, (ts, fs));
  wi_times : size ts = nt i /\ {subset ts <= grid};
  wi_flavors : size fs = nfl i /\ all (fun f => f < size lab)%N fs;
  wi_cd : perm_eq (cds st) (cds y ++ rd);
  wi_c : perm_eq (cs st) (cs y ++ ra);
  wi_ops : all (fun x => (ot_small (p_time x) == 0%coqZ) && (ot_time (p_time x) \in grid)) (rd ++ ra);
  wi_grid : all (inside st) grid }.

Notation moves_at st := (worm_ins_rem_moves types w (size lab) (lo st) (hi st) grid L (worm (st_mc st)) (det (st_mc st))).
(** impurity.ipp:557-565 *)
Theorem C63_insertion_removal (st y : state) i ts fs rd ra : wsetup st y -> worm_inserted st y i ts fs rd ra -> exists q q',
  [/\ flow (worm_ins_rem inR types w (size lab) (lo st) (hi st) grid L (worm (st_mc st)) (det (st_mc st))) (lands st y) q,
      flow (worm_ins_rem inR types w (size lab) (lo y) (hi y) grid L (worm (st_mc y)) (det (st_mc y))) (lands y st) q',
      ((rd == [::]) && (ra == [::]) || perm_eq (map key (rd ++ ra)) (map key (w_ops (i, (ts, fs)))) -> 0 < q /\ 0 < q') &
      weight st * (q / wcell ^+ nt i) = w i * (weight y * (q' / wcell ^+ (size rd + size ra)))].
Proof.
move=> hs hw; have [i1 i2 es t1 t2 g1 g2] := hs; have [[hi0 nf0] wst wy hts hfs pcd pc ho hg] := hw.
have [k1 k2] := known_state lab_ok i1.
have c0 : 0 < wcell by rewrite /T_WormProposal.wcell divr_gt0 // ltr0n.
have hgy : all (inside y) grid by move: hg; rewrite /inside es.
have insd x : ot_time (p_time x) \in grid -> rng_cc (lo st) (hi st) x by move=> /(allP hg) /inside_rng.
have winr : all (rng_cc (lo st) (hi st)) (rd ++ ra).
  by apply/allP => x /(allP ho)/andP[_]; exact: insd.
have winw : all (rng_cc (lo st) (hi st)) (get_operators (wty types i) (MkWorm ts fs)).
  by apply/allP => x /(ops_time (proj1 hts)) /(proj2 hts); exact: insd.
have inr : is_worm_in_range (wty types i) (MkWorm ts fs) (lo y) (hi y).
  by apply: in_range_worm; [case: hts|apply/allP => t /(proj2 hts)/(allP hgy)].
pose cd0 := wcd (lo st) (hi st) (det (st_mc st)); pose c1 := wc (lo st) (hi st) (det (st_mc st)).
pose cdy := wcd (lo y) (hi y) (det (st_mc y)); pose cy := wc (lo y) (hi y) (det (st_mc y)).
have e1 : moves_at st = worm_step_Z (size lab) grid L types w cd0 c1 by rewrite wst.
have e2 : moves_at y = worm_step_W (size lab) grid L types w i cdy cy ts fs by rewrite wy /worm_ins_rem_moves inr.
have [p1 p2] := range_perm lab_ok i1; have [p3 p4] := range_perm lab_ok i2.
have srt (ss l : seq psi) : perm_eq ss [seq x <- l | rng_cc (lo st) (hi st) x] -> uniq l -> sorted_in (size lab) (of_flav ss) l.
  move=> hp ul f _; split; rewrite ?filter_all // ?filter_uniq ?(perm_uniq hp) ?filter_uniq //.
  by move=> x; rewrite mem_filter (perm_mem hp) mem_filter => /and3P[].
have s1 : supp (fun o => takes 3 (cds st) (cs st) o && keyed (size lab) types o) (moves_at st).
  by rewrite e1; apply: supp_step_Z; apply: srt => //; [exact: cds_uniq i1|exact: cs_uniq i1].
have s2 : supp (fun o => gives 3 o && keyed_add (w_ops (i, (ts, fs))) o) (moves_at y).
  by rewrite e2; exact: supp_step_W.
have srd : {subset rd <= cds st} by move=> x hx; rewrite (perm_mem pcd) mem_cat hx orbT.
have sra : {subset ra <= cs st} by move=> x hx; rewrite (perm_mem pc) mem_cat hx orbT.
have typd : all is_cr rd by case/andP: t1 => /allP h _; apply/allP => x /srd/h.
have typa : all is_an ra by case/andP: t1 => _ /allP h; apply/allP => x /sra/h.
have fld : all (fun x => p_flavor x < size lab)%N rd by apply/allP => x /srd/(allP k1).
have fla : all (fun x => p_flavor x < size lab)%N ra by apply/allP => x /sra/(allP k2).
have ud : uniq rd by have := cds_uniq lab_ok i1; rewrite (perm_uniq pcd) cat_uniq => /and3P[].
have ua : uniq ra by have := cs_uniq lab_ok i1; rewrite (perm_uniq pc) cat_uniq => /and3P[].
have fO := ops_flavor ts (proj1 hfs) (proj2 hfs).
have zero X (k : nat) : (if (k < 2)%N then ~~ ((rd == [::]) && (ra == [::])) else ~~ perm_eq (map key (rd ++ ra)) (map key (w_ops (i, (ts, fs))))) ->
    pr (moves_at st) (wev X k (worm (st_mc y)) rd ra [::] [::]) = 0 /\ pr (moves_at y) (wev X k (worm (st_mc st)) [::] [::] rd ra) = 0.
  move=> hk; split.
    apply: (supp0 s1) => -[m|] //= /andP[_ hkey]; apply: contraTN hk; case/and5P=> /eqP <- /eqP hnw q1 q2 _.
    move: hkey; rewrite hnw wy; case: ifP => _.
      by case/andP=> /eqP r1 /eqP r2; move: q1 q2; rewrite r1 r2 !(perm_sym [::]) => /perm_nilP -> /perm_nilP ->.
    case/and3P=> _ h1 h2; rewrite negbK; apply: (keyed_perm (nf := size lab)) => //; rewrite ?all_cat ?fld //.
      by apply: sub_all h1 => f /eqP <-; rewrite (perm_size (perm_filter _ q1)).
    by apply: sub_all h2 => f /eqP <-; rewrite (perm_size (perm_filter _ q2)).
  apply: (supp0 s2) => -[m|] //= /andP[_ hkey]; apply: contraTN hk; case/and5P=> /eqP <- _ _ _ /and3P[q1 q2 _].
  move: hkey; case: ifP => _.
    by case/andP=> /eqP r1 /eqP r2; move: q1 q2; rewrite r1 r2 !(perm_sym [::]) => /perm_nilP -> /perm_nilP ->.
  by rewrite negbK; apply: perm_trans; apply: perm_map; rewrite perm_sym perm_cat.
pose vf := wcell ^+ nt i; pose vr := wcell ^+ (size rd + size ra).
have vf0 : 0 < vf by rewrite exprn_gt0.
have vr0 : 0 < vr by rewrite exprn_gt0.
pose OK k a := kind_ok (w i) a vf vr (fun X => pr (moves_at st) (wev X k (worm (st_mc y)) rd ra [::] [::]))
  (fun X => pr (moves_at y) (wev X k (worm (st_mc st)) [::] [::] rd ra)).
have K01 k : (k < 2)%N -> exists a, OK k a.
  move=> hk; case: (boolP ((rd == [::]) && (ra == [::]))) => [/andP[/eqP r1 /eqP r2]|h]; last first.
    by exists 1; apply: zero_kind => X; case: (zero X k _) => //; rewrite hk.
  have v1 : vr = 1 by rewrite /vr r1 r2 /= expr0.
  rewrite /OK v1 e1 e2 wst wy r1 r2; case: k hk => [|[|k]] // _.
    by eexists; apply: (balanced_kind vf0 ltr01); exact: (C14_trace (F := size lab) (grid := grid) (L := L) (types := types)).
  case: (boolP (is_diagonal (wty types i) (MkWorm ts fs))) => hd.
    eexists; apply: (balanced_kind vf0 ltr01).
    exact: (C14_trace_diagonal (F := size lab) (grid := grid) (L := L) (types := types) _ _ _ _ _ _ _ _ (diag_nseq (proj1 hfs) hd)).
  by exists 1; apply: zero_kind => X; case: (C14_diagonal_branch_closed (size lab) grid L w hi0 X cd0 c1 cdy cy hd).
have P0 : (rd == [::]) && (ra == [::]) -> 0 < pr (moves_at st) (wev xpredT 0 (worm (st_mc y)) rd ra [::] [::]) /\
    0 < pr (moves_at y) (wev xpredT 0 (worm (st_mc st)) [::] [::] rd ra).
  move=> /andP[/eqP r1 /eqP r2]; rewrite e1 e2 wst wy r1 r2.
  by have [_ [] ] := C14_trace (F := size lab) (grid := grid) (L := L) (types := types) grid_uniq grid_pos lab_pos L_pos w_pos hi0 hts hfs cd0 c1 cdy cy.
have B2 : perm_eq (map key (rd ++ ra)) (map key (w_ops (i, (ts, fs)))) -> exists a,
    T_WormProposal.balanced (w i) a vf vr (fun X => pr (moves_at st) (wev X 2 (worm (st_mc y)) rd ra [::] [::]))
      (fun X => pr (moves_at y) (wev X 2 (worm (st_mc st)) [::] [::] rd ra)).
  move=> hk.
  have flt (ss l ss' l' r : seq psi) f : perm_eq ss [seq x <- l | rng_cc (lo st) (hi st) x] -> perm_eq ss' [seq x <- l' | rng_cc (lo y) (hi y) x] ->
      perm_eq l (l' ++ r) -> all (rng_cc (lo st) (hi st)) r -> perm_eq (of_flav ss f) (of_flav ss' f ++ of_flavor r f).
    move=> a1 a2 a3 a4; rewrite -filter_cat; apply: perm_filter; rewrite (permPl a1); move: a2; rewrite es => a2.
    rewrite -[X in _ ++ X](all_filterP a4) (permPl (perm_filter _ a3)) filter_cat perm_cat2r perm_sym //.
  move: winr; rewrite all_cat => /andP[wrd wra]; move: ho; rewrite all_cat => /andP[ho1 ho2].
  have mv t (l : seq psi) : uniq l -> all (fun x => p_type x == t) l -> all (fun x => p_flavor x < size lab)%N l ->
      all (fun x => (ot_small (p_time x) == 0%coqZ) && (ot_time (p_time x) \in grid)) l -> movable (size lab) grid t l.
    move=> h1 h2 h3 h4; rewrite /movable h1; apply/allP => x hx; apply/and4P; split; [exact: (allP h2)|exact: (allP h3)|..].
      by case/andP: (allP h4 _ hx).
    by case/andP: (allP h4 _ hx).
  eexists; rewrite e1 e2 wst wy; apply: (C14_hyb (F := size lab) (grid := grid) (L := L) (types := types)) => //.
  - exact: mv.
  - exact: mv.
  - by move=> f _; exact: flt p1 p3 pcd wrd.
  - by move=> f _; exact: flt p2 p4 pc wra.
  - by move=> f hf; have [-> -> _] := srt _ _ p1 (cds_uniq lab_ok i1) f hf.
  - by move=> f hf; have [-> -> _] := srt _ _ p2 (cs_uniq lab_ok i1) f hf.
have K2 : exists a, OK 2%N a.
  case: (boolP (perm_eq (map key (rd ++ ra)) (map key (w_ops (i, (ts, fs)))))) => [/B2[a hb]|hk]; first by exists a; exact: balanced_kind.
  by exists 1; apply: zero_kind => X; case: (zero X 2%N).
have [a0 A0] := K01 0%N isT; have [a1 A1] := K01 1%N isT; have [a2 A2] := K2.
pose al k := nth 1 [:: a0; a1; a2] k.
have [|||||||q [q' [f1 f2 hp e]]] := worm_balance (n := 3) (al := al) hs pcd pc _ _ _ _ _ _ _ vf0 vr0 (e := moves_at st) (e' := moves_at y) (wt := w i).
- by rewrite e1; exact: nonneg_step_Z.
- by rewrite e2; exact: nonneg_step_W.
- by apply: (supp_sub s1) => o /andP[].
- by apply: (supp_sub s2) => o /andP[].
- move=> x0 m _ _ ht ha; move: (ha); rewrite (warrives_takes pcd pc ht) => /and5P[_ hnw q1 q2 _].
  have /and4P[_ /andP[/eqP z1 /eqP z2] _ _] := ht.
  apply: in_window_worm; rewrite /= z1 z2 !cats0 (eqP hnw) wst wy /= all_cat (perm_all _ (perm_cat q1 q2)) winr.
  exact: winw.
- move=> x0 m _ _ ht ha; move: (ha); rewrite (warrives_gives pcd pc ht) => /and5P[_ hnw _ _ /and3P[q1 q2 _]].
  have /and4P[_ /andP[/eqP z1 /eqP z2] _ _] := ht.
  apply: in_window_worm; rewrite /= z1 z2 (eqP hnw) wst wy /= es all_cat (perm_all _ (perm_cat q1 q2)) winr cats0.
  exact: winw.
- by case=> [|[|[|k]]].
exists q, q'; split=> // /orP[/P0[h1 h2]|/B2[a [_ [h1 h2] _ _]]]; first exact: (hp 0%N).
exact: (hp 2%N).
Qed.
End InsRem.

(** ** Which operators change *)
Lemma in_window_cnt (st : state) p : let u := p_hyb K W p in
  (forall x, ~~ rng_cc (lo st) (hi st) x ->
     count_mem x ((Updater.cd_rem u ++ Updater.c_rem u) ++ wops (worm (st_mc st))) =
     count_mem x ((Updater.cd_add u ++ Updater.c_add u) ++ wops (new_worm (st_mc st) p))) -> in_window st p.
Proof.
move=> u hin u2 rem add em x hx; apply/negPn/negP => nx; have [m1 m2] := merge_diff_cnt _ _ _ _ _ _ em x.
have cE (t : seq psi) : cnt t x = count_mem x t.
  by elim: t => //= a t IH; rewrite -IH /cnt /=; case: psi_eq_dec => [->|ne]; rewrite ?eqxx // (introF eqP ne).
have := hin x nx; rewrite -!cE => e; rewrite -!app_cat in e.
have pos (t : list psi) : In x t <-> (0 < cnt t x)%coq_nat by exact: (count_occ_In psi_eq_dec t x).
by rewrite -[u2]/u in m1 m2; case: hx => /pos; rewrite ?m1 ?m2 -?app_cat e; clear; lia.
Qed.
Lemma count_pairs (T : eqType) (P : pred T) (f g f' g' : nat -> T) s :
  (forall j, j \in s -> (f j = f' j \/ P (f j) && P (f' j)) /\ (g j = g' j \/ P (g j) && P (g' j))) ->
  forall x, ~~ P x -> count_mem x (flatten [seq [:: f j; g j] | j <- s]) = count_mem x (flatten [seq [:: f' j; g' j] | j <- s]).
Proof.
move=> h x nx; elim: s h => //= j s IH h; rewrite -IH => [|k hk]; last by apply: h; rewrite inE hk orbT.
have key a b : (a = b \/ P a && P b) -> (a == x) = (b == x).
  case=> [->//|/andP[h1 h2]]; transitivity false; last symmetry; by apply/negbTE; apply: contraNneq nx => <-.
by have [/key -> /key ->] := h j (mem_head _ _).
Qed.
(** the operators of two worms of one type differ only where the times or flavors differ *)
Lemma ops_diff y (P : pred Z) ts ts' fs fs' :
  (forall f, (f < n_flavors y)%N -> forall t, t \in time_index y f ->
     (nth Z0 ts t = nth Z0 ts' t /\ nth 0%N fs f = nth 0%N fs' f) \/ P (nth Z0 ts t) && P (nth Z0 ts' t)) ->
  forall x, ~~ P (ot_time (p_time x)) -> count_mem x (get_operators y (MkWorm ts fs)) = count_mem x (get_operators y (MkWorm ts' fs')).
Proof.
move=> h x nx; case: y h => n h; apply: (count_pairs (P := fun x => P (ot_time (p_time x)))) => // j; rewrite mem_iota add0n => /= hj;
  rewrite /get_time /get_flavor /=; split.
- have := h (2 * j)%N _ j; rewrite [time_index _ _]/= mulKn // inE eqxx => /(_ _ isT)[|[-> ->]|->]; [rewrite [n_flavors _]/=; clear -hj; lia|by left|by right].
- have := h (2 * j + 1)%N _ j; rewrite [time_index _ _]/= (_ : ((2 * j + 1) %/ 2 = j)%N) ?inE ?eqxx; last by rewrite mulnC divnMDl // addn0.
  by move=> /(_ _ isT)[|[-> ->]|->]; [rewrite [n_flavors _]/=; clear -hj; lia|left|right].
- have := h (2 * j)%N _ (2 * j)%N; rewrite [time_index _ _]/= inE eqxx => /(_ _ isT)[|[-> ->]|->]; [rewrite [n_flavors _]/=; clear -hj; lia|by left|by right].
- have := h (2 * j + 1)%N _ (2 * j + 1)%N; rewrite [time_index _ _]/= inE eqxx => /(_ _ isT)[|[-> ->]|->]; [rewrite [n_flavors _]/=; clear -hj; lia|by left|by right].
- have := h (2 * j)%N _ 0%N; rewrite [time_index _ _]/= inE eqxx => /(_ _ isT)[|[-> ->]|->]; [rewrite [n_flavors _]/=; clear -hj; lia|by left|by right].
- have := h (2 * j + 1)%N _ 0%N; rewrite [time_index _ _]/= inE eqxx => /(_ _ isT)[|[-> ->]|->]; [rewrite [n_flavors _]/=; clear -hj; lia|by left|by right].
Qed.

Section Others.
Variables (w : nat -> R).
Hypothesis w_pos : forall i, 0 < w i.

(** ** GWormInsertionRemover *)
(** The operators of the worm of [y] are [ra] and [rd], alternating. *)
Record lines_cut (st y : state) (i rk : nat) (rd ra : seq psi) : Prop := LinesCut {
  lc_type : wty types i = GWorm rk;
  lc_st : worm (st_mc st) = None;
  lc_y : worm (st_mc y) = Some (i, (pair_times rd ra, pair_flavors rd ra));
  lc_size : size rd = rk /\ size ra = rk;
  lc_cd : perm_eq (cds st) (cds y ++ rd);
  lc_c : perm_eq (cs st) (cs y ++ ra);
  lc_small : all (fun x => ot_small (p_time x) == 0%coqZ) (cds st ++ cs st) }.

Lemma pair_ops rk rd ra : size rd = rk -> size ra = rk -> plain CREATION_OP rd -> plain ANNIHILATION_OP ra ->
  perm_eq (get_operators (GWorm rk) (MkWorm (pair_times rd ra) (pair_flavors rd ra))) (rd ++ ra).
Proof.
elim: rd ra rk => [|x rd IH] [|z ra] rk <- //.
rewrite /plain /= => -[zra] /andP[/andP[nx ux] /andP[/andP[/eqP tx /eqP sx] ax]] /andP[/andP[nz uz] /andP[/andP[/eqP tz /eqP sz] az]].
have p1 : plain CREATION_OP rd by rewrite /plain ux ax.
have p2 : plain ANNIHILATION_OP ra by rewrite /plain uz az.
have := IH _ _ erefl zra p1 p2; rewrite /get_operators.
set o1 := flatten _ => h; rewrite /= -/(cat _ _) /get_time /get_flavor [nth _ _ (2 * 0)]/= [nth _ _ (2 * 0 + 1)]/=.
rewrite [Psi _ _ (nth _ _ _)](_ : _ = z); last by case: (z) tz sz => -[t s] ty f /= -> ->.
rewrite [Psi _ _ (nth _ _ _)](_ : _ = x); last by case: (x) tx sx => -[t s] ty f /= -> ->.
rewrite [flatten _](_ : _ = o1).
  by rewrite (perm_catCA [:: z] [:: x] o1) /= perm_cons perm_sym -[z :: ra]/([:: z] ++ ra) (perm_catCA rd [:: z] ra) /= perm_cons perm_sym.
congr flatten; rewrite (iotaDl 1 0) -map_comp; apply/eq_map => j.
by cbn [comp]; rewrite /get_time /get_flavor; cbn [w_times w_flavors]; rewrite (_ : (2 * (1 + j) = (2 * j).+2)%N) ?mulnDr // !addSn.
Qed.

(** impurity.ipp:568-587 *)
Theorem C63_gworm (st y : state) i rk rd ra : wsetup st y -> lines_cut st y i rk rd ra -> exists q q',
  [/\ flow (gworm_call inR w i rk (worm (st_mc st)) (det (st_mc st))) (lands st y) q,
      flow (gworm_call inR w i rk (worm (st_mc y)) (det (st_mc y))) (lands y st) q', 0 < q, 0 < q' &
      weight st * q = w i * (weight y * q')].
Proof.
move=> hs [ety wst wy [zd za] pcd pc hsm]; have [i1 i2 es t1 t2 g1 g2] := hs.
have zo : size (cs st) = size (cds st) by have [[_ [_ [_ [e _]]]] _ _] := i1.
have e1 : gworm_moves w i rk (worm (st_mc st)) (det (st_mc st)) = gworm_ins i rk (w i) (cds st) (cs st) by rewrite wst.
have e2 : gworm_moves w i rk (worm (st_mc y)) (det (st_mc y)) =
    gworm_rem rk (w i) (cds y) (cs y) (pair_times rd ra) (pair_flavors rd ra) by rewrite wy.
have pl t (l : seq psi) : uniq l -> all (fun x => p_type x == t) l -> all (fun x => ot_small (p_time x) == 0%coqZ) l -> plain t l.
  by move=> u h1 h2; rewrite /plain u; apply/allP => x hx; rewrite (allP h1) ?(allP h2).
move: hsm; rewrite all_cat => /andP[sm1 sm2]; have /andP[ty1 ty2] := t1.
have pd : plain CREATION_OP (cds st) by apply: pl => //; exact: cds_uniq i1.
have pa : plain ANNIHILATION_OP (cs st) by apply: pl => //; exact: cs_uniq i1.
have plr t (l l' r : seq psi) : perm_eq l (l' ++ r) -> plain t l -> plain t r.
  by move=> hp /andP[u h]; move: u h; rewrite /plain (perm_uniq hp) cat_uniq => /and3P[_ _ ->]; rewrite (perm_all _ hp) all_cat => /andP[].
have hperm := pair_ops zd za (plr _ _ _ _ pcd pd) (plr _ _ _ _ pc pa).
have := @C14_gworm R i rk (w i) _ _ _ _ rd ra (w_pos i) pd pa zo zd za pcd pc.
set al0 := alpha_g _ _ _ => bal.
have [|||||||q [q' [f1 f2 hp e]]] := worm_balance (n := 1) (al := fun=> al0) hs pcd pc _ _ _ _ _ _ _ ltr01 ltr01
  (e := gworm_moves w i rk (worm (st_mc st)) (det (st_mc st))) (e' := gworm_moves w i rk (worm (st_mc y)) (det (st_mc y))) (wt := w i).
- rewrite e1 /gworm_ins; cbv zeta; case: ifP => _; first exact: nonneg_ret.
  by apply: nonneg_bind (nonneg_unif _ _) _ => ic; apply: nonneg_bind (nonneg_unif _ _) _ => ia; exact: nonneg_ret.
- by rewrite e2; exact: nonneg_ret.
- rewrite e1 /gworm_ins; cbv zeta; case: ifP => hN; first exact: supp_ret.
  move/negbT: hN; rewrite -leqNgt => hN.
  apply: (supp_bind (supp_pickup R hN)) => ic /and3P[_ u1 m1]; apply: (supp_bind (supp_pickup R hN)) => ia /and3P[_ u2 m2].
  have [ucd _] := andP pd; have [uc _] := andP pa.
  have sub (l : seq psi) (s : seq nat) : uniq l -> uniq s -> all (fun j => j < size l)%N s ->
      uniq [seq nth psi0 l j | j <- s] && all (fun x => x \in l) [seq nth psi0 l j | j <- s].
    move=> ul us hj; rewrite map_inj_in_uniq => [|a b /(allP hj) ha /(allP hj) hb /eqP]; last by rewrite nth_uniq // => /eqP.
    by rewrite us all_map; apply/allP => j /(allP hj) /= h; exact: mem_nth.
  by apply: supp_ret; rewrite /takes /= !sub // zo.
- rewrite e2; apply: supp_ret; rewrite /gives /= !all_map; apply/andP; split; apply/allP => r; rewrite mem_iota add0n => /= hr.
    by rewrite /is_cr (proj2 (nth_flat2 _ _ _ hr)).
  by rewrite /is_an (proj1 (nth_flat2 _ _ _ hr)).
- move=> x0 m _ _ ht ha; move: (ha); rewrite (warrives_takes pcd pc ht) => /and5P[_ hnw q1 q2 _].
  have /and4P[_ /andP[/eqP z1 /eqP z2] _ _] := ht.
  apply: in_window_cnt => x _; rewrite /= z1 z2 !cats0 (eqP hnw) wst wy /= cats0 /WormChain.w_ops /= ety.
  by apply/seq.permP; rewrite (permPl (perm_cat q1 q2)) perm_sym.
- move=> x0 m _ _ ht ha; move: (ha); rewrite (warrives_gives pcd pc ht) => /and5P[_ hnw _ _ /and3P[q1 q2 _]].
  have /and4P[_ /andP[/eqP z1 /eqP z2] _ _] := ht.
  apply: in_window_cnt => x _; rewrite /= z1 z2 (eqP hnw) wst wy /= cats0 /WormChain.w_ops /= ety.
  by apply/seq.permP; rewrite (permPl hperm) perm_sym; exact: perm_cat.
- by case=> // _; rewrite e1 e2 wst wy; exact: balanced_kind ltr01 ltr01 bal.
move: e; rewrite !divr1 => e; have [_ [h1 h2] _ _] := bal.
have [h3 h4] : 0 < q /\ 0 < q' by apply: (hp 0%N isT); rewrite ?e1 ?e2 ?wst ?wy.
by exists q, q'.
Qed.

(** ** Worms that only change their times or flavors; no operator moves *)
Lemma to_worm_pr (d : dist R (option W)) X (a : W) :
  pr [seq (p.1, to_worm R p.2) | p <- d] (wev X 0 (Some a) [::] [::] [::] [::]) = (X 1)%:R * pr d (pred1 (Some a)).
Proof.
rewrite pr_map !prE mulr_sumr; apply: eq_bigr => -[x [b|]] _ /=; last by rewrite !mulr0.
by rewrite mulrCA -natrM mulnb andbC.
Qed.
Lemma to_worm_supp (d : dist R (option W)) cd c : supp (fun o => takes 1 cd c o && gives 1 o) [seq (p.1, to_worm R p.2) | p <- d].
Proof. by rewrite /supp all_map; apply/allP => -[x [b|]]. Qed.
Lemma to_worm_in (d : dist R (option W)) x m : List.In (x, Some m) [seq (p.1, to_worm R p.2) | p <- d] -> exists2 a, m = WMove 0 (Some a) [::] [::] [::] [::] 1 & List.In (x, Some a) d.
Proof. by move=> /In_map[[x' [b|]] // h [-> ->]]; exists b. Qed.

Lemma plain_change (st y : state) (d d' : dist R (option W)) a b u v : wsetup st y ->
  worm (st_mc st) = Some a -> worm (st_mc y) = Some b -> perm_eq (cds st) (cds y) -> perm_eq (cs st) (cs y) ->
  nonneg d -> nonneg d' -> 0 < u -> 0 < v -> pr d (pred1 (Some b)) * u = pr d' (pred1 (Some a)) * v ->
  (pr d (pred1 (Some b)) != 0 -> forall x, ~~ rng_cc (lo st) (hi st) x -> count_mem x (w_ops a) = count_mem x (w_ops b)) -> exists q q',
  [/\ flow (moves [seq (p.1, to_worm R p.2) | p <- d]) (lands st y) q,
      flow (moves [seq (p.1, to_worm R p.2) | p <- d']) (lands y st) q',
      (pr d (pred1 (Some b)) != 0 -> 0 < q /\ 0 < q') &
      weight st * (q / v) = weight y * (q' / u)].
Proof.
move=> hs wst wy pcd pc n1 n2 u0 v0 eu hc; have [i1 i2 es t1 t2 g1 g2] := hs.
have nz (e : dist R (option W)) x c : nonneg e -> List.In (x, Some c) e -> x != 0 -> pr e (pred1 (Some c)) != 0.
  by move=> hn hm x0; apply/eqP => z; have := pr0 hn z hm x0; rewrite /= eqxx.
pose e := [seq (p.1, to_worm R p.2) | p <- d]; pose e' := [seq (p.1, to_worm R p.2) | p <- d'].
have [|||||||||q [q' [f1 f2 hp E]]] := worm_balance (n := 1) (al := fun=> 1) (rd := [::]) (ra := [::]) hs _ _ _ _ _ _ _ _ _ v0 u0 (e := e) (e' := e') (wt := 1); rewrite ?cats0 ?nonneg_map //.
- by apply: (supp_sub (to_worm_supp d (cds st) (cs st))) => o /andP[].
- by apply: (supp_sub (to_worm_supp d' (cds st) (cs st))) => o /andP[].
- move=> x0 m /to_worm_in[c -> hm] nx0 ht; rewrite (warrives_takes (rd := [::]) (ra := [::]) _ _ ht) ?cats0 // => /and5P[_ /eqP /= hnw _ _ _].
  apply: in_window_cnt => x hx; rewrite /= wst; move: hnw; rewrite wy => -[ec]; rewrite ec in hm *; exact: hc (nz _ _ _ n1 hm nx0) x hx.
- move=> x0 m /to_worm_in[c -> hm] nx0 ht; rewrite (warrives_gives (rd := [::]) (ra := [::]) _ _ ht) ?cats0 // => /and5P[_ /eqP /= hnw _ _ _].
  apply: in_window_cnt => x; rewrite es => hx; rewrite /= wy; move: hnw; rewrite wst => -[ec]; rewrite ec in hm *; symmetry; apply: hc => //.
  have := nz _ _ _ n2 hm nx0; apply: contraNneq => z; move: eu; rewrite z mul0r => /esym/eqP.
  by rewrite mulf_eq0 (gt_eqF v0) orbF.
- case=> // _; rewrite wst wy; split; rewrite ?ltr01 ?invr1 // ?to_worm_pr /= ?eqxx ?mul0r //.
  by rewrite !mul1r.
exists q, q'; split=> //; last by rewrite E mul1r.
move=> h; have g1' : 0 < pr d (pred1 (Some b)) by rewrite lt_neqAle eq_sym h pr_nneg.
have g2' : 0 < pr d' (pred1 (Some a)) by rewrite -(pmulr_lgt0 _ v0) -eu mulr_gt0.
by apply: (hp 0%N isT); rewrite /e /e' ?wst ?wy to_worm_pr mul1r.
Qed.
Lemma pr_supp (O : Type) (S E : O -> bool) (d : dist R O) : supp S d -> pr d E != 0 -> exists2 o, S o & E o.
Proof.
elim: d => [|[x o] d IH] /=; first by rewrite prE big_nil eqxx.
move=> /andP[hS hd]; case: (boolP (E o)) => hE; first by exists o.
by rewrite prE big_cons -prE (negbTE hE) mulr0 add0r; exact: IH.
Qed.

(** ** WormFlavorChanger *)
Record flavors_changed (st y : state) (i : nat) (ts : seq Z) (fs fs' : seq nat) : Prop := FlavorsChanged {
  fc_st : worm (st_mc st) = Some (i, (ts, fs));
  fc_y : worm (st_mc y) = Some (i, (ts, fs'));
  fc_size : [/\ size ts = n_times (wty types i), size fs = n_flavors (wty types i) & size fs' = n_flavors (wty types i)];
  fc_flavors : all (fun f => f < size lab)%N fs /\ all (fun f => f < size lab)%N fs';
  (** no time on an edge of the window *)
  fc_times : all (fun t => outside (lo st) (hi st) t || inside st t) ts;
  fc_cd : perm_eq (cds st) (cds y);
  fc_c : perm_eq (cs st) (cs y) }.

Lemma nonneg_change f y0 l h x : nonneg (change_propose R f y0 l h x).
Proof.
apply: nonneg_bind => [|x']; last by case: ifP => _; exact: nonneg_ret.
elim: (iota _ _) x => [|k fl IH] x /=; first exact: nonneg_ret.
by case: ifP => _ //; apply: nonneg_bind (nonneg_unif _ _) _ => v.
Qed.
Lemma index_lt y0 f t : (f < n_flavors y0)%N -> t \in time_index y0 f -> (t < n_times y0)%N.
Proof. by case: y0 => n; rewrite /= inE => h /eqP -> //; rewrite ltn_divLR // mulnC. Qed.
(** a flavor changes only if its times are in the window *)
Lemma supp_change nf y0 l h (ts : seq Z) fs : supp (fun o => if o is Some x then
    all (fun f => (nth 0%N fs f == nth 0%N (w_flavors x) f) || all (fun t => ~~ outside l h (nth Z0 ts t)) (time_index y0 f)) (iota 0 (n_flavors y0)) else true)
  (change_propose R nf y0 l h (MkWorm ts fs)).
Proof.
pose S (fs1 : seq nat) (fl : seq nat) (x : Worm.worm) := (w_times x == ts) &&
  all (fun f => (nth 0%N fs1 f == nth 0%N (w_flavors x) f) || all (fun t => ~~ outside l h (nth Z0 ts t)) (time_index y0 f)) fl.
have loop fl all_fl fs1 : supp (S fs1 all_fl) (change_loop R nf y0 l h (MkWorm ts fs1) fl).
  elim: fl fs1 => [|f fl IH] fs1.
    by apply: supp_ret; apply/andP; split=> //; apply/allP => f _; rewrite eqxx.
  rewrite [change_loop _ _ _ _ _ _ _]/=; case: ifP => hf; last exact: IH.
  apply: supp_bind (suppT _) _ => v _; apply: (supp_sub (IH _)) => x /andP[e1 /allP e2]; rewrite /S e1.
  apply/allP => g /e2; rewrite nth_set_nth /=; case: (eqVneq g f) => [-> _|//]; by rewrite hf orbT.
by apply: (supp_bind (loop _ (iota 0 (n_flavors y0)) fs)) => x /andP[_ hx]; case: ifP => _; apply: supp_ret.
Qed.

(** impurity.ipp:615-621 *)
Theorem C63_flavor_changer (st y : state) i ts fs fs' : wsetup st y -> flavors_changed st y i ts fs fs' -> exists q q',
  [/\ flow (changer_call inR types (size lab) (lo st) (hi st) (worm (st_mc st))) (lands st y) q,
      flow (changer_call inR types (size lab) (lo y) (hi y) (worm (st_mc y))) (lands y st) q',
      (pr (change_propose R (size lab) (wty types i) (lo st) (hi st) (MkWorm ts fs)) (fun o => if o is Some x then hits ts fs' x else false) != 0 ->
       0 < q /\ 0 < q') &
      weight st * q = weight y * q'].
Proof.
move=> hs [wst wy [z0 z1 z2] [b1 b2] ht pcd pc]; have [i1 i2 es t1 t2 g1 g2] := hs.
pose D (s : state) g : dist R (option W) := [seq (p.1, omap (fun x : Worm.worm => (i, (w_times x, w_flavors x)) : W) p.2) | p <-
   change_propose R (size lab) (wty types i) (lo s) (hi s) (MkWorm ts g)].
have eD (s : state) g : changer_moves R types (size lab) (lo s) (hi s) (Some (i, (ts, g))) = [seq (p.1, to_worm R p.2) | p <- D s g].
  by rewrite /D -map_comp.
have prD (s : state) g h : pr (D s g) (pred1 (Some (i, (ts, h)))) =
    pr (change_propose R (size lab) (wty types i) (lo s) (hi s) (MkWorm ts g)) (fun o => if o is Some x then hits ts h x else false).
  rewrite pr_map; apply: pr_sub => -[p [[t f]|]] _ _ //=; rewrite /hits /=.
  by apply/eqP/andP => [[-> ->]|[/eqP -> /eqP ->]].
have n0 (s : state) g : nonneg (D s g) by rewrite nonneg_map; exact: nonneg_change.
have [||q [q' [f1 f2 hp e]]] := plain_change (d := D st fs) (d' := D y fs') hs wst wy pcd pc (n0 _ _) (n0 _ _) ltr01 ltr01.
- by rewrite !prD !mulr1 es; apply: C16_flavor.
- rewrite prD => /(pr_supp (supp_change _ _ _ _ _ _))[[x|] // /allP hS /andP[_ /eqP ex]] x0 hx.
  apply: (ops_diff (P := inside st)) => [f hf t htt|]; last by apply: contra hx; exact: inside_rng.
  have hf' : f \in iota 0 (n_flavors (wty types i)) by rewrite mem_iota.
  case/orP: (hS f hf') => [/eqP|/allP/(_ _ htt) ho]; first by rewrite ex; left.
  by right; have := allP ht _ (mem_nth Z0 (_ : t < size ts)%N); rewrite z0 (index_lt hf htt) (negbTE ho) => /(_ isT) /= ->.
exists q, q'; split; first by rewrite /changer_call wst eD.
- by rewrite /changer_call wy eD.
- by rewrite -prD; exact: hp.
by move: e; rewrite !divr1.
Qed.

(** ** WormMover *)
Record times_changed (st y : state) (i : nat) (ts ts' : seq Z) (fs : seq nat) : Prop := TimesChanged {
  tc_st : worm (st_mc st) = Some (i, (ts, fs));
  tc_y : worm (st_mc y) = Some (i, (ts', fs));
  tc_size : size ts' = size ts /\ (0 < size ts)%N;
  (** no time on an edge of the window *)
  tc_times : all (fun t => outside (lo st) (hi st) t || inside st t) (ts ++ ts');
  tc_cd : perm_eq (cds st) (cds y);
  tc_c : perm_eq (cs st) (cs y) }.

Definition one_moved (l h : Z) (ts ts' : seq Z) : bool :=
  has (fun t => [&& ~~ outside l h (nth Z0 ts t), ~~ outside l h (nth Z0 ts' t) & ts' == seq.set_nth Z0 ts t (nth Z0 ts' t)]) (iota 0 (size ts)).
Lemma nonneg_mover D l h ts : nonneg (mover_propose R D l h ts).
Proof.
rewrite /mover_propose; elim: {1}(size ts) => [|n IH]; first exact: nonneg_ret.
apply: nonneg_bind (nonneg_unif _ _) _ => t; case: ifP => _ //.
apply: nonneg_bind => [|c]; first by rewrite /nonneg /= divr_ge0 ?ler0n // invr_ge0 ler0n.
apply: nonneg_bind => [|v]; last by case: ifP => _ //; exact: nonneg_ret.
by case: c; [apply: nonneg_bind (nonneg_unif _ _) _ => s; exact: nonneg_ret|exact: nonneg_unif].
Qed.
Lemma supp_mover D l h ts : supp (fun o => if o is Some ts' then one_moved l h ts ts' else true) (mover_propose R D l h ts).
Proof.
rewrite /mover_propose; elim: {1}(size ts) => [|n IH]; first exact: supp_ret.
apply: (supp_bind (S := fun t => t \in iota 0 (size ts))) => [|t ht]; first by apply: supp_unif; exact/allP.
case: ifP => // /negbT ho; apply: supp_bind (suppT _) _ => c _; apply: supp_bind (suppT _) _ => v _.
case: ifP => // /negbT ho'; apply: supp_ret; apply/hasP; exists t => //.
by rewrite nth_set_nth /= eqxx ho ho' eqxx.
Qed.

Variable D : nat.
Notation tries s ts := (\sum_(k < size ts) (fail R D (lo s) (hi s) ts) ^+ k).
Lemma tries_gt0 (s : state) ts : (0 < size ts)%N -> 0 < tries s ts.
Proof.
case: (size ts) => // n _; rewrite big_ord_recl expr0; apply: ltr_paddr; last exact: ltr01.
by apply: sumr_ge0 => k _; apply: exprn_ge0; exact: fail_ge0.
Qed.
Lemma inside_inner (s : state) t : inside s t -> t \in inner (lo s) (hi s).
Proof.
rewrite /inside; move: (lo s) (hi s) => a b /andP[/Z.ltb_lt h1 /Z.ltb_lt h2]; apply/mapP; exists (Z.to_nat (Z.sub t a)).
  rewrite mem_iota; move: h1 h2; clear; lia.
by move: h1 h2; clear; lia.
Qed.
Lemma mover_ratio (s : state) ts ts' : size ts' = size ts -> all (fun t => outside (lo s) (hi s) t || inside s t) (ts ++ ts') ->
  pr (mover_propose R D (lo s) (hi s) ts) (pred1 (Some ts')) * tries s ts' = pr (mover_propose R D (lo s) (hi s) ts') (pred1 (Some ts)) * tries s ts.
Proof.
move=> z hall; have key (u v : seq Z) : size v = size u -> all (fun t => outside (lo s) (hi s) t || inside s t) (u ++ v) ->
    pr (mover_propose R D (lo s) (hi s) u) (pred1 (Some v)) != 0 ->
    pr (mover_propose R D (lo s) (hi s) u) (pred1 (Some v)) * tries s v = pr (mover_propose R D (lo s) (hi s) v) (pred1 (Some u)) * tries s u.
  move=> zz; rewrite all_cat => /andP[hu hv] /(pr_supp (supp_mover _ _ _ _))[[v'|] // /hasP[t ht /and3P[o1 o2 /eqP e]] /eqP[ev]].
  rewrite {v'}ev in o2 e; move: ht; rewrite mem_iota add0n => /= ht.
  have i1 : inside s (nth Z0 u t) by have := allP hu _ (mem_nth Z0 ht); rewrite (negbTE o1).
  have i2 : inside s (nth Z0 v t).
    have ht' : (t < size v)%N by rewrite zz.
    by have := allP hv _ (mem_nth Z0 ht'); rewrite (negbTE o2).
  case: (eqVneq (nth Z0 v t) (nth Z0 u t)) => ne.
    suff -> : v = u by [].
    apply: (@eq_from_nth _ Z0) => // k _; rewrite e nth_set_nth /=; case: (eqVneq k t) => [->|] //.
  by have := C16_ratio R D ht (inside_inner i1) (inside_inner i2) ne; rewrite /= -e zz.
case: (eqVneq (pr (mover_propose R D (lo s) (hi s) ts) (pred1 (Some ts'))) 0) => [e0|]; last exact: key.
case: (eqVneq (pr (mover_propose R D (lo s) (hi s) ts') (pred1 (Some ts))) 0) => [->|]; first by rewrite e0 !mul0r.
by move=> h; symmetry; apply: key => //; move: hall; rewrite !all_cat andbC.
Qed.

Section Mover.
Variables (st y : state) (i : nat) (ts ts' : seq Z) (fs : seq nat).
Hypothesis hs : wsetup st y.
Hypothesis hw : times_changed st y i ts ts' fs.
Notation mover_flows q q' :=
  (flow (mover_call inR (lo st) (hi st) D (worm (st_mc st))) (lands st y) q /\
   flow (mover_call inR (lo y) (hi y) D (worm (st_mc y))) (lands y st) q').
Notation proposed := (pr (mover_propose R D (lo st) (hi st) ts) (pred1 (Some ts')) != 0).
(** The rejected tries are the only difference. *)
Theorem C63_mover_ratio : exists q q', [/\ mover_flows q q', (proposed -> 0 < q /\ 0 < q') &
  weight st * (q / tries st ts) = weight y * (q' / tries st ts')].
Proof.
have [wst wy [zt pt] ht pcd pc] := hw; have [i1 i2 es t1 t2 g1 g2] := hs.
pose d (s : state) u : dist R (option W) := [seq (p.1, omap (fun v => (i, (v, fs)) : W) p.2) | p <- mover_propose R D (lo s) (hi s) u].
have ed (s : state) u : mover_moves R (lo s) (hi s) D (Some (i, (u, fs))) = [seq (p.1, to_worm R p.2) | p <- d s u] by rewrite /d -map_comp.
have prd (s : state) u v : pr (d s u) (pred1 (Some (i, (v, fs)))) = pr (mover_propose R D (lo s) (hi s) u) (pred1 (Some v)).
  rewrite pr_map; apply: pr_sub => -[p [v'|]] _ _ //=.
  by apply/eqP/eqP => [[->]|[->]].
have n0 (s : state) u : nonneg (d s u) by rewrite nonneg_map; exact: nonneg_mover.
have pt' : (0 < size ts')%N by rewrite zt.
have [||q [q' [f1 f2 hp e]]] := plain_change (d := d st ts) (d' := d y ts') hs wst wy pcd pc (n0 _ _) (n0 _ _) (tries_gt0 st pt') (tries_gt0 st pt).
- by rewrite !prd es; apply: mover_ratio.
- rewrite prd => /(pr_supp (supp_mover _ _ _ _))[[v'|] // /hasP[t htt /and3P[o1 o2 /eqP e]] /eqP[ev]] x hx.
  rewrite {v'}ev in o2 e; move: htt; rewrite mem_iota add0n => /= htt; move: ht; rewrite all_cat => /andP[hu hv].
  have j1 : inside st (nth Z0 ts t) by have := allP hu _ (mem_nth Z0 htt); rewrite (negbTE o1).
  have j2 : inside st (nth Z0 ts' t).
    have ht' : (t < size ts')%N by rewrite zt.
    by have := allP hv _ (mem_nth Z0 ht'); rewrite (negbTE o2).
  apply: (ops_diff (P := inside st)) => [f hf k _|]; last by apply: contra hx; exact: inside_rng.
  case: (eqVneq k t) => [->|nk]; first by right; rewrite j1 j2.
  by left; rewrite e nth_set_nth /= (negbTE nk).
exists q, q'; split=> //; last by rewrite -(prd st).
by rewrite /mover_call wst wy !ed.
Qed.
(** impurity.ipp:615-621; missing: worms with several times, of which some are outside the window or near its edges,
    see C16_refuted and the next theorem. *)
Theorem C63_mover_partial : (size ts == 1)%N || (fail R D (lo st) (hi st) ts == fail R D (lo st) (hi st) ts') ->
  exists q q', [/\ mover_flows q q', (proposed -> 0 < q /\ 0 < q') & weight st * q = weight y * q'].
Proof.
have [_ _ [zt pt] _ _ _] := hw; move=> h; have [q [q' [h1 h2]]] := C63_mover_ratio.
have -> : tries st ts' = tries st ts.
  rewrite zt; case/orP: h => [/eqP ->|/eqP ->] //; by rewrite !big_ord1 !expr0.
have n0 : tries st ts != 0 by rewrite gt_eqF // tries_gt0.
rewrite !mulrA => /mulIf e; exists q, q'; split=> //; apply: e.
by rewrite invr_eq0.
Qed.
Theorem C63_mover_unbalanced : tries st ts != tries st ts' -> proposed ->
  exists q q', mover_flows q q' /\ weight st * q <> weight y * q'.
Proof.
have [_ _ [zt pt] _ _ _] := hw; have [i1 i2 _ _ _ _ _] := hs; move=> ne np; have [q [q' [h1 h2 e]]] := C63_mover_ratio.
have [_ q0] := h2 np; have nz : weight y * q' != 0 by rewrite gt_eqF // mulr_gt0 // (weight_gt0 lab_ok inR_lt nrm_ok i2).
exists q, q'; split=> // e'; move: e; rewrite !mulrA e' => /(mulfI nz) /invr_inj h.
by rewrite h eqxx in ne.
Qed.
End Mover.

(** ** EqualTimeG1_TwoTimeG2_Connector *)
Section Connector.
Variables (grid : seq Z) (L : R).
Hypothesis grid_uniq : uniq grid.
Hypothesis grid_pos : (0 < size grid)%N.
Hypothesis lab_pos : (0 < size lab)%N.
Hypothesis L_pos : 0 < L.
Record pair_added (st y : state) (j1 j2 : nat) (t0 t1 : Z) (f0 f1 f2 f3 : nat) : Prop := PairAdded {
  pa_type : wty types j1 = EqualTimeGWorm 1 /\ wty types j2 = CorrelationWorm 2;
  pa_st : worm (st_mc st) = Some (j1, ([:: t0], [:: f0; f1]));
  pa_y : worm (st_mc y) = Some (j2, ([:: t0; t1], [:: f0; f1; f2; f3]));
  pa_time : t1 \in grid;
  pa_flavor : (f2 < size lab)%N && (f3 < size lab)%N;
  pa_grid : all (inside st) grid;
  pa_cd : perm_eq (cds st) (cds y);
  pa_c : perm_eq (cs st) (cs y) }.
Lemma nonneg_up f j2 a b t0 f0 f1 : nonneg (connect_up f grid L j2 a b t0 f0 f1 : dist R _).
Proof.
apply: nonneg_bind (nonneg_unif _ _) _ => t; apply: nonneg_bind (nonneg_unif _ _) _ => -[]; last exact: nonneg_ret.
by apply: nonneg_bind (nonneg_unif _ _) _ => f2; apply: nonneg_bind (nonneg_unif _ _) _ => f3; exact: nonneg_ret.
Qed.
Lemma nonneg_down f j1 a b g us fs : nonneg (connect_down f L j1 a b g us fs : dist R _).
Proof. by rewrite /connect_down; case: ifP => _; [exact: nonneg_ret|apply: nonneg_bind (nonneg_unif _ _) _ => -[]; exact: nonneg_ret]. Qed.

(** impurity.ipp:590-598 *)
Theorem C63_connector (st y : state) j1 j2 t0 t1 f0 f1 f2 f3 : wsetup st y -> pair_added st y j1 j2 t0 t1 f0 f1 f2 f3 -> exists q q',
  [/\ flow (connect_call inR w (size lab) (lo st) (hi st) grid L j1 j2 (worm (st_mc st))) (lands st y) q,
      flow (connect_call inR w (size lab) (lo y) (hi y) grid L j1 j2 (worm (st_mc y))) (lands y st) q', 0 < q, 0 < q' &
      w j1 * weight st * (q / wcell grid L) = w j2 * weight y * q'].
Proof.
move=> hs [[y1 y2] wst wy ht1 /andP[b2 b3] hg pcd pc]; have [i1 i2 es ty1 ty2 g1 g2] := hs.
have ne : (j2 == j1) = false by apply/eqP => e; move: y2; rewrite e y1.
have hin := allP hg _ ht1.
have e1 : connect_moves w (size lab) (lo st) (hi st) grid L j1 j2 (worm (st_mc st)) = connect_up (size lab) grid L j2 (w j1) (w j2) t0 f0 f1.
  by rewrite wst /connect_moves eqxx.
have e2 : connect_moves w (size lab) (lo y) (hi y) grid L j1 j2 (worm (st_mc y)) =
    connect_down (size lab) L j1 (w j1) (w j2) (fun t => ~~ outside (lo y) (hi y) t) [:: t0; t1] [:: f0; f1; f2; f3].
  by rewrite wy /connect_moves ne eqxx.
have c0 : 0 < wcell grid L by rewrite /wcell divr_gt0 // ltr0n.
have inw : ~~ outside (lo y) (hi y) t1.
  by rewrite es; move: hin; rewrite /outside /inside; move: (lo st) (hi st); clear; lia.
have := (C14_connector grid_uniq grid_pos lab_pos L_pos j1 j2 t0 f0 f1 (w_pos j1) (w_pos j2) ht1 (inw := fun t => ~~ outside (lo y) (hi y) t) inw b2 b3).
set al0 := alpha_c _ _ _ _ => bal.
have hc x : ~~ rng_cc (lo st) (hi st) x -> count_mem x (w_ops (j1, ([:: t0], [:: f0; f1]))) = count_mem x (w_ops (j2, ([:: t0; t1], [:: f0; f1; f2; f3]))).
  move=> hx; rewrite /WormChain.w_ops /= y1 y2 /get_operators /= /get_time /get_flavor /=.
  have nx (t s : Z) ty f : t = t1 -> (Psi (OT t s) ty f == x) = false.
    by move=> ->; apply/negbTE; apply: contraNneq hx => <-; exact: inside_rng.
  by rewrite !(nx t1) // !add0n !addn0.
have n1 : w j1 != 0 by rewrite gt_eqF.
pose cm (s : state) := connect_moves w (size lab) (lo s) (hi s) grid L j1 j2 (worm (st_mc s)).
have [|||||||||q [q' [F1 F2 hp e]]] := worm_balance (n := 1) (al := fun=> al0) (rd := [::]) (ra := [::]) hs _ _ _ _ _ _ _ _ _ c0 ltr01 (e := cm st) (e' := cm y) (wt := w j2 / w j1); rewrite ?cats0 //.
- by rewrite /cm e1; exact: nonneg_up.
- by rewrite /cm e2; exact: nonneg_down.
- rewrite /cm e1; apply: supp_bind (suppT _) _ => t _; apply: supp_bind (suppT _) _ => -[] _; last exact: supp_ret.
  by apply: supp_bind (suppT _) _ => f4 _; apply: supp_bind (suppT _) _ => f5 _; exact: supp_ret.
- rewrite /cm e2 /connect_down; case: ifP => _; first exact: supp_ret.
  by apply: supp_bind (suppT _) _ => -[] _; exact: supp_ret.
- move=> x0 m _ _ ht; rewrite (warrives_takes (rd := [::]) (ra := [::]) _ _ ht) ?cats0 // => /and5P[_ hnw q1 q2 _].
  have /and4P[_ /andP[/eqP z1 /eqP z2] _ _] := ht.
  by apply: in_window_cnt => x hx; rewrite /= z1 z2 (perm_nilP q1) (perm_nilP q2) (eqP hnw) wst wy; exact: hc.
- move=> x0 m _ _ ht; rewrite (warrives_gives (rd := [::]) (ra := [::]) _ _ ht) ?cats0 // => /and5P[_ hnw _ _ /and3P[q1 q2 _]].
  have /and4P[_ /andP[/eqP z1 /eqP z2] _ _] := ht.
  apply: in_window_cnt => x; rewrite es => hx; rewrite /= z1 z2 (perm_nilP q1) (perm_nilP q2) (eqP hnw) wst wy; symmetry; exact: hc.
- by case=> // _; rewrite /cm e1 e2 wst wy; exact: balanced_kind c0 ltr01 bal.
have [_ [h1 h2] _ _] := bal; have [h3 h4] : 0 < q /\ 0 < q' by apply: (hp 0%N isT); rewrite /cm ?e1 ?e2 ?wst ?wy.
exists q, q'; split=> //; rewrite -[LHS]mulrA e divr1; move: (weight y) (w j2) => a b; kfield R.
Qed.
End Connector.
End Others.
End WormChain.
Print Assumptions C63_insertion_removal.
Print Assumptions C63_gworm.
Print Assumptions C63_flavor_changer.
Print Assumptions C63_mover_ratio.
Print Assumptions C63_mover_partial.
Print Assumptions C63_mover_unbalanced.
Print Assumptions C63_connector.
