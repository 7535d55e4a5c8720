(** * C14: worm insertion and removal are in detailed balance

    src/moves/moves.ipp:1013-1298, 1383-1518, modelled in WormProposal.v.

    Target weight of a worm configuration: [w i] times its Monte Carlo weight, so the exact correction
    of inserting a worm is [w i] * (probability of the reverse) / (density of the insertion); a density is
    a probability divided by the volume cell^n of the n drawn times.  In each theorem [alpha] is the
    correction computed by the code; the statements about [wev (pred1 alpha)] say that the code attaches
    this correction, the last equation that it is the exact ratio. *)
From Coq Require Import ZArith List.
From mathcomp Require Import all_ssreflect all_algebra.
From Verif Require Import OpContainer Select KField Dist Proposal T_Proposal Worm WormProposal T_Worm.
Set Implicit Arguments.
Unset Strict Implicit.
Unset Printing Implicit Defensive.
Import GRing.Theory Num.Theory Order.Theory.
Local Close Scope Z_scope.
Local Open Scope nat_scope.
Local Open Scope ring_scope.

Ltac wpos := repeat match goal with
  | H : is_true (0 < ?x) |- is_true (0 < ?x) => exact: H
  | |- is_true (0 < _ * _) => apply: mulr_gt0
  | |- is_true (0 < _^-1) => rewrite invr_gt0
  | |- is_true (0 < _ ^+ _) => apply: exprn_gt0
  | |- is_true (0 < _%:R) => rewrite ltr0n
  end; rewrite ?ltr01 //.

Section C14.
Variable K : realFieldType.
Add Field Kf : (kfield_theory K).
Variables (F : nat) (grid : seq Z) (L : K) (types : seq wtype) (w : nat -> K).

Notation ty i := (wty types i).
Definition wcell : K := L / (size grid)%:R.

(** The event "this branch proposes these operators and this worm, with a correction in X". *)
Definition wev (X : pred K) (kind : nat) (nw : option (nat * (seq Z * seq nat))) (rd ra ad aa : seq psi)
    (o : option (wmove K)) : bool :=
  if o is Some m then
    [&& wm_kind m == kind, wm_new m == nw, perm_eq (wm_rem_cd m) rd, perm_eq (wm_rem_c m) ra,
        perm_eq (wm_add_cd m) ad, perm_eq (wm_add_c m) aa & X (wm_corr m)]
  else false.

Hypothesis grid_uniq : uniq grid.
Hypothesis grid_pos : (0 < size grid)%N.
Hypothesis F_pos : (0 < F)%N.
Hypothesis L_pos : 0 < L.
Hypothesis w_pos : forall i, 0 < w i.

Lemma pr_pick1 (T : eqType) (C : Type) (s : seq T) (x : T) (H : T -> dist K C) E : uniq s -> x \in s ->
  (forall y, y \in s -> y != x -> pr (H y) E = 0) ->
  pr (bind (unif K s) H) E = (size s)%:R^-1 * pr (H x) E.
Proof.
move=> us hx h0; rewrite pr_unif; congr (_ * _).
rewrite (perm_big _ (perm_to_rem hx)) big_cons big_seq big1 ?[LHS]addr0 // => y hy.
have := hy; rewrite (mem_rem_uniq _ us) inE => /andP[ne _].
by apply: h0 => //; exact: mem_rem hy.
Qed.
Lemma pr_draws1 (T : eqType) (C : Type) (s : seq T) (k : nat) (S : seq T) (H : seq T -> dist K C) E :
  uniq s -> {subset S <= s} -> size S = k ->
  (forall r, r != S -> pr (H r) E = 0) ->
  pr (bind (draws K s k) H) E = ((size s)%:R ^+ k)^-1 * pr (H S) E.
Proof.
move=> us sS sz h0.
have <- : pr (draws K s k) (pred1 S) = ((size s)%:R ^+ k)^-1 by rewrite pr_draws_eq // sz eqxx mul1r.
apply: (pr_factor (suppT _)) => r _ /=.
by case: eqVneq => [->|ne]; rewrite ?mul1r // mul0r h0.
Qed.

Section Worm.
Variables (i : nat) (ts : seq Z) (fs : seq nat).
Hypothesis hi : (i < size types)%N.
Hypothesis hts : size ts = n_times (ty i) /\ {subset ts <= grid}.
Hypothesis hfs : size fs = n_flavors (ty i) /\ all (fun f => (f < F)%N) fs.

Notation nt := (n_times (ty i)).
Notation nfl := (n_flavors (ty i)).

Let n_neq0 : (nT K types) != 0.
Proof. by rewrite pnatr_eq0 -lt0n (leq_ltn_trans _ hi). Qed.
Let F_neq0 : F%:R != 0 :> K. Proof. by rewrite pnatr_eq0 -lt0n. Qed.
Let G_neq0 : (size grid)%:R != 0 :> K. Proof. by rewrite pnatr_eq0 -lt0n. Qed.
Let L_neq0 : L != 0. Proof. by rewrite gt_eqF. Qed.
Let w_neq0 : w i != 0. Proof. by rewrite gt_eqF. Qed.
Let two_neq0 : 2%:R != 0 :> K. Proof. by rewrite pnatr_eq0. Qed.
Let fs_sub : {subset fs <= iota 0 F}.
Proof. by move=> f /(allP (proj2 hfs)); rewrite mem_iota add0n. Qed.

Lemma ws_pos : 0 < weight_scaled types w i.
Proof.
rewrite /weight_scaled div1r invrK mulr_gt0 //.
by rewrite lt_neqAle eq_sym n_neq0 ler0n.
Qed.
Lemma wsE : weight_scaled types w i = w i * nT K types.
Proof. by rewrite /weight_scaled div1r invrK. Qed.

(** The kind decides which branch can produce the move. *)
Lemma hyb_ins_kind X k nw rd ra ad aa cd c : (k < 2)%N ->
  forall j, pr (hyb_ins F grid L types w j cd c) (wev X k nw rd ra ad aa) = 0.
Proof.
move=> hk j; rewrite /hyb_ins pr_bind big1 // => p _; rewrite pr_bind big1 ?mulr0 // => q _.
rewrite [X in _ * X](_ : _ = 0) ?mulr0 //; case: ifP => _; first by rewrite pr_ret.
rewrite pr_bind big1 // => r _; rewrite pr_bind_ret pr_pred0 ?mulr0 // => o /=.
by case: k hk => [|[|k]].
Qed.
Lemma trace_ins_kind X nw rd ra ad aa : forall j, pr (trace_ins F grid L types w j) (wev X 2 nw rd ra ad aa) = 0.
Proof.
move=> j; rewrite /trace_ins pr_bind big1 // => p _; rewrite pr_coin !pr_bind_ret !pr_pred0 //.
by rewrite addr0 !mulr0.
Qed.
Lemma hyb_rem_kind X k nw rd ra ad aa cd c : (k < 2)%N ->
  pr (hyb_rem F grid L types w i cd c ts fs) (wev X k nw rd ra ad aa) = 0.
Proof.
by move=> hk; rewrite /hyb_rem pr_bind_ret pr_pred0 // => o /=; case: k hk => [|[|k]].
Qed.
Lemma trace_rem_kind X nw rd ra ad aa :
  pr (trace_rem F L types w i ts fs) (wev X 2 nw rd ra ad aa) = 0.
Proof.
by rewrite /trace_rem pr_coin; case: ifP => _; rewrite !pr_ret /= addr0 mulr0.
Qed.

Lemma other_type k cd c X rd ra ad aa j : j != i ->
  pr (bind (unif K [:: true; false]) (fun coin => if coin then trace_ins F grid L types w j else hyb_ins F grid L types w j cd c))
     (wev X k (Some (i, (ts, fs))) rd ra ad aa) = 0.
Proof.
move=> ne; have no x : (Some (j, x) == Some (i, (ts, fs)) :> option _) = false.
  by apply/negbTE/eqP => -[e _]; rewrite e eqxx in ne.
rewrite pr_coin.
have -> : pr (trace_ins F grid L types w j) (wev X k (Some (i, (ts, fs))) rd ra ad aa) = 0.
  rewrite /trace_ins pr_bind big1 // => p _; rewrite pr_coin !pr_bind_ret !pr_pred0 ?addr0 ?mulr0 // => o /=.
    by rewrite no /= andbF.
  by rewrite no /= andbF.
have -> : pr (hyb_ins F grid L types w j cd c) (wev X k (Some (i, (ts, fs))) rd ra ad aa) = 0.
  rewrite /hyb_ins pr_bind big1 // => p _; rewrite pr_bind big1 ?mulr0 // => q _.
  rewrite [X in _ * X](_ : _ = 0) ?mulr0 //; case: ifP => _; first by rewrite pr_ret.
  by rewrite pr_bind big1 // => r _; rewrite pr_bind_ret pr_pred0 ?mulr0 // => o /=; rewrite no /= andbF.
by rewrite addr0 mulr0.
Qed.

Lemma step_Z k cd c X rd ra ad aa :
  pr (worm_step_Z F grid L types w cd c) (wev X k (Some (i, (ts, fs))) rd ra ad aa) =
  (nT K types)^-1 * (2%:R^-1 * (pr (trace_ins F grid L types w i) (wev X k (Some (i, (ts, fs))) rd ra ad aa) +
      pr (hyb_ins F grid L types w i cd c) (wev X k (Some (i, (ts, fs))) rd ra ad aa))).
Proof.
rewrite /worm_step_Z (pr_pick1 (x := i)) ?iota_uniq ?mem_iota ?add0n // => [|j _ ne]; last exact: other_type.
by rewrite size_iota pr_coin.
Qed.

(* ---------------------------------------------------------------------- *)
(** ** Insertion into the trace, any flavors *)
Definition alpha_trace : K := w i * nT K types * L ^+ nt * F%:R ^+ nfl.

Lemma fwd_trace X cd c :
  pr (worm_step_Z F grid L types w cd c) (wev X 0 (Some (i, (ts, fs))) [::] [::] [::] [::]) =
  (X alpha_trace)%:R * ((nT K types)^-1 * (2%:R^-1 * (2%:R^-1 * (((size grid)%:R ^+ nt)^-1 * (F%:R ^+ nfl)^-1)))).
Proof.
rewrite step_Z hyb_ins_kind // addr0.
rewrite /trace_ins (pr_draws1 grid_uniq (proj2 hts) (proj1 hts)); last first.
  move=> r ne; rewrite pr_coin !pr_bind_ret !pr_pred0 ?addr0 ?mulr0 // => o /=.
  by apply/negbTE/negP => /andP[/eqP [e _] _]; rewrite e eqxx in ne.
rewrite pr_coin [X in _ * (_ + X)](_ : _ = 0) ?addr0; last by rewrite pr_bind_ret pr_pred0.
rewrite (pr_draws1 (iota_uniq 0 F) fs_sub (proj1 hfs)); last first.
  move=> r ne; rewrite pr_ret /=; case: eqP => // -[e]; by rewrite e eqxx in ne.
rewrite size_iota pr_ret /= !eqxx /= wsE -/alpha_trace.
move: (X alpha_trace)%:R => x; kring K.
Qed.
Lemma rev_trace X cd c :
  pr (worm_step_W F grid L types w i cd c ts fs) (wev X 0 None [::] [::] [::] [::]) =
  (X alpha_trace^-1)%:R * (2%:R^-1 * 2%:R^-1).
Proof.
rewrite /worm_step_W pr_coin hyb_rem_kind // addr0 /trace_rem pr_coin.
rewrite [X in _ * (_ * (_ + X))](_ : _ = 0); last by case: ifP => _; rewrite pr_ret.
rewrite addr0 pr_ret /= wsE -/alpha_trace div1r; move: (X _)%:R => x; kring K.
Qed.

(** What every branch has to satisfy: [fwd], [rev] are the proposals (as probabilities of events with a
    constraint on the correction), [vf], [vr] the volumes of the drawn times. *)
Definition balanced (wt alpha vf vr : K) (fwd rev : pred K -> K) : Prop :=
  [/\ 0 < alpha, 0 < fwd xpredT /\ 0 < rev xpredT,
      fwd (predC (pred1 alpha)) = 0 /\ rev (predC (pred1 alpha^-1)) = 0 &
      alpha = wt * ((rev xpredT / vr) / (fwd xpredT / vf))].

Lemma balancedI (wt alpha vf vr pf pv : K) (fwd rev : pred K -> K) :
  (forall X, fwd X = (X alpha)%:R * pf) -> (forall X, rev X = (X alpha^-1)%:R * pv) ->
  0 < alpha -> 0 < pf -> 0 < pv -> 0 < vf -> 0 < vr -> alpha * pf * vr = wt * pv * vf -> balanced wt alpha vf vr fwd rev.
Proof.
move=> hf hr a0 f0 r0 v0 v0' e; split=> //; rewrite ?hf ?hr ?mul1r //.
- by rewrite /= eqxx mul0r eqxx mul0r.
- have n1 : pf != 0 by rewrite gt_eqF.
  have n2 : vr != 0 by rewrite gt_eqF.
  have n3 : vf != 0 by rewrite gt_eqF.
  apply: (mulIf n1); apply: (mulIf n2); rewrite e; kfield K.
Qed.

Lemma alpha_trace_gt0 : 0 < alpha_trace.
Proof. by rewrite /alpha_trace -wsE; do 2?apply: mulr_gt0; rewrite ?ws_pos ?exprn_gt0 ?ltr0n. Qed.

Theorem C14_trace cd c cd' c' :
  balanced (w i) alpha_trace (wcell ^+ nt) 1
    (fun X => pr (worm_step_Z F grid L types w cd c) (wev X 0 (Some (i, (ts, fs))) [::] [::] [::] [::]))
    (fun X => pr (worm_step_W F grid L types w i cd' c' ts fs) (wev X 0 None [::] [::] [::] [::])).
Proof.
have nT0 : 0 < nT K types by rewrite lt_neqAle eq_sym n_neq0 ler0n.
apply: balancedI (fun X => fwd_trace X cd c) (fun X => rev_trace X cd' c') alpha_trace_gt0 _ _ _ _ _ => //.
- by wpos.
- by wpos.
- by rewrite /wcell; wpos.
- by wpos.
rewrite /alpha_trace /wcell expr_div_n.
have h1 : (size grid)%:R ^+ nt != 0 :> K by rewrite expf_neq0.
have h2 : F%:R ^+ nfl != 0 :> K by rewrite expf_neq0.
have n_neq0' := n_neq0.
move: (nT K types) (w i) (L ^+ nt) n_neq0' ((size grid)%:R ^+ nt) (F%:R ^+ nfl) h1 h2 => a b x h0 y z h1 h2; kfield K.
Qed.

(* ---------------------------------------------------------------------- *)
(** ** Insertion into the trace, all flavors equal *)
Definition alpha_diag : K := w i * nT K types * L ^+ nt * F%:R.

Section Diag.
Variable f : nat.
Hypothesis hf : fs = nseq nfl f.
Hypothesis nfl_pos : (0 < nfl)%N.

Lemma f_lt : (f < F)%N.
Proof. by have := proj2 hfs; rewrite hf; case: (nfl) nfl_pos => [|n] //= _ /andP[]. Qed.

Lemma fwd_diag X cd c :
  pr (worm_step_Z F grid L types w cd c) (wev X 1 (Some (i, (ts, fs))) [::] [::] [::] [::]) =
  (X alpha_diag)%:R * ((nT K types)^-1 * (2%:R^-1 * (2%:R^-1 * (((size grid)%:R ^+ nt)^-1 * F%:R^-1)))).
Proof.
rewrite step_Z hyb_ins_kind // addr0.
rewrite /trace_ins (pr_draws1 grid_uniq (proj2 hts) (proj1 hts)); last first.
  move=> r ne; rewrite pr_coin !pr_bind_ret !pr_pred0 ?addr0 ?mulr0 // => o /=.
  by apply/negbTE/negP => /andP[/eqP [e _] _]; rewrite e eqxx in ne.
rewrite pr_coin [X in _ * (X + _)](_ : _ = 0) ?add0r; last by rewrite pr_bind_ret pr_pred0.
rewrite (pr_pick1 (x := f)) ?iota_uniq ?mem_iota ?add0n ?f_lt //; last first.
  move=> g _ ne; rewrite pr_ret /= hf; case: eqP => // -[e].
  by move: e; case: (nfl) nfl_pos => [|n] //= _ [e _]; rewrite e eqxx in ne.
rewrite size_iota pr_ret /= hf !eqxx /= wsE -/alpha_diag.
move: (X alpha_diag)%:R => x; kring K.
Qed.
Lemma rev_diag X cd c :
  pr (worm_step_W F grid L types w i cd c ts fs) (wev X 1 None [::] [::] [::] [::]) =
  (X alpha_diag^-1)%:R * (2%:R^-1 * 2%:R^-1).
Proof.
rewrite /worm_step_W pr_coin hyb_rem_kind // addr0 /trace_rem pr_coin pr_ret /= add0r.
have -> : is_diagonal (ty i) (MkWorm ts fs).
  rewrite /is_diagonal hf; apply/allP => j; rewrite mem_iota => /andP[h1 h2].
  rewrite /get_flavor /= !nth_nseq nfl_pos; case: ifP => //.
  by move: h2; rewrite addnC subnK // => ->.
rewrite pr_ret /= wsE -/alpha_diag div1r; move: (X _)%:R => x; kring K.
Qed.

Theorem C14_trace_diagonal cd c cd' c' :
  balanced (w i) alpha_diag (wcell ^+ nt) 1
    (fun X => pr (worm_step_Z F grid L types w cd c) (wev X 1 (Some (i, (ts, fs))) [::] [::] [::] [::]))
    (fun X => pr (worm_step_W F grid L types w i cd' c' ts fs) (wev X 1 None [::] [::] [::] [::])).
Proof.
have nT0 : 0 < nT K types by rewrite lt_neqAle eq_sym n_neq0 ler0n.
apply: balancedI (fun X => fwd_diag X cd c) (fun X => rev_diag X cd' c') _ _ _ _ _ _ => //.
- by rewrite /alpha_diag -wsE; do 2?apply: mulr_gt0; rewrite ?ws_pos ?exprn_gt0 ?ltr0n.
- by wpos.
- by wpos.
- by rewrite /wcell; wpos.
- by wpos.
rewrite /alpha_diag /wcell expr_div_n.
have h1 : (size grid)%:R ^+ nt != 0 :> K by rewrite expf_neq0.
have n_neq0' := n_neq0.
move: (nT K types) (w i) (L ^+ nt) n_neq0' ((size grid)%:R ^+ nt) h1 => a b x h0 y h1; kfield K.
Qed.
End Diag.

(** A worm that is not diagonal is neither inserted nor removed by the diagonal branch. *)
Theorem C14_diagonal_branch_closed X cd c cd' c' : ~~ is_diagonal (ty i) (MkWorm ts fs) ->
  pr (worm_step_Z F grid L types w cd c) (wev X 1 (Some (i, (ts, fs))) [::] [::] [::] [::]) = 0 /\
  pr (worm_step_W F grid L types w i cd' c' ts fs) (wev X 1 None [::] [::] [::] [::]) = 0.
Proof.
move=> nd; split.
- rewrite step_Z hyb_ins_kind // addr0 /trace_ins pr_bind big1 ?mulr0 // => p _.
  rewrite pr_coin !pr_bind_ret !pr_pred0 ?addr0 ?mulr0 // => f /=.
  apply/negbTE/negP => /andP[/eqP [_ e] _]; case/negP: nd.
  rewrite /is_diagonal -e; apply/allP => j; rewrite mem_iota => /andP[h1 h2].
  rewrite /get_flavor /= !nth_nseq.
  case: (nfl) h2 => [|n] h2; first by rewrite !ltn0.
  by rewrite ltn0Sn; move: h2; rewrite addnC subnK // => ->.
- by rewrite /worm_step_W pr_coin hyb_rem_kind // addr0 /trace_rem pr_coin (negbTE nd) !pr_ret /= addr0 !mulr0.
Qed.
(* ---------------------------------------------------------------------- *)
(** ** Hybridized operators become the worm's operators and vice versa *)
Definition of_flavor (S : seq psi) (f : nat) : seq psi := [seq x <- S | p_flavor x == f].

Lemma supp_pick_ops num ops (fl : seq nat) :
  (forall f, f \in fl -> (num f <= size (ops f))%N /\ all (fun x => p_flavor x == f) (ops f)) ->
  supp (fun r => all (fun x => p_flavor x \in fl) r) (pick_ops K num ops fl).
Proof.
elim: fl => [|f fl IH] h; first exact: supp_ret.
have [h1 h2] := h f (mem_head _ _).
apply: (supp_bind (supp_pickup K h1)) => ic /and3P[_ _ hic].
apply: (supp_bind (IH _)) => [g hg|r hr]; first by apply: h; rewrite inE hg orbT.
apply: supp_ret; rewrite all_cat; apply/andP; split.
  rewrite all_map; apply: sub_all hic => j /= hj.
  by rewrite (eqP (allP h2 _ (mem_nth _ hj))) mem_head.
by apply: sub_all hr => x hx; rewrite inE hx orbT.
Qed.

Lemma pr_pick_ops num ops (fl : seq nat) (S : seq psi) : uniq fl -> uniq S -> all (fun x => p_flavor x \in fl) S ->
  (forall f, f \in fl -> [/\ uniq (ops f), all (fun x => p_flavor x == f) (ops f), {subset of_flavor S f <= ops f} &
      size (of_flavor S f) = num f]) ->
  pr (pick_ops K num ops fl) (fun r => perm_eq r S) = \prod_(f <- fl) pck K (size (ops f)) (num f).
Proof.
elim: fl S => [|f fl IH] S ufl uS aS h.
  have -> : S = [::] by case: (S) aS.
  by rewrite /= pr_ret big_nil.
have [uo ao so zo] := h f (mem_head _ _); case/andP: ufl => nf ufl.
have hle : forall g, g \in f :: fl -> (num g <= size (ops g))%N /\ all (fun x => p_flavor x == g) (ops g).
  by move=> g /h[h1 h2 h3 <-]; split=> //; apply: uniq_leq_size; rewrite ?filter_uniq.
pose P := fun x => p_flavor x == f.
have IHr : pr (pick_ops K num ops fl) (fun r => perm_eq r (filter (predC P) S)) = \prod_(g <- fl) pck K (size (ops g)) (num g).
  apply: IH; rewrite ?filter_uniq //.
    by apply/allP => x; rewrite mem_filter => /andP[hx /(allP aS)]; rewrite inE => /orP[hx'|//]; case/negP: hx.
  move=> g hg; have [h1 h2 h3 h4] := h g (mem_behead (s := f :: fl) hg).
  suff -> : of_flavor (filter (predC P) S) g = of_flavor S g by [].
  rewrite /of_flavor -filter_predI; apply: eq_filter => x /=; rewrite /P.
  by case: eqP => //= ->; apply: contra nf => /eqP <-.
rewrite big_cons -IHr [pick_ops _ _ _ _]/=.
rewrite -(@pr_pick_list K psi_eqType psi0 (ops f) (of_flavor S f)) ?filter_uniq //.
have [hn _] := hle f (mem_head _ _).
apply: (pr_factor (supp_pickup K hn)) => ic /and3P[_ _ hic].
rewrite pr_bind_ret -pr_andl; apply: (eq_pr_supp (supp_pick_ops _)) => [g hg|r hr].
  by apply: hle; rewrite inE hg orbT.
rewrite (@perm_split P) //.
- by rewrite all_map; apply: sub_all hic => j /= hj; apply: (allP ao); rewrite mem_nth.
- by apply: sub_all hr => x hx; rewrite /P /=; apply: contra nf => /eqP <-.
Qed.

Lemma p_insE (nd na kd ka : nat -> nat) : (forall f, (f < F)%N -> (kd f <= nd f)%N /\ (ka f <= na f)%N) ->
  p_ins_inv K F nd na kd ka = \prod_(f <- iota 0 F) ((nd f ^_ kd f)%:R * (na f ^_ ka f)%:R).
Proof.
move=> h.
have {h} : forall f, f \in iota 0 F -> (kd f <= nd f)%N /\ (ka f <= na f)%N by move=> f; rewrite mem_iota add0n; apply: h.
rewrite /p_ins_inv; elim/last_ind: (iota 0 F) => [|fl f IH] h; first by rewrite big_nil.

have [h1 h2] : (kd f <= nd f)%N /\ (ka f <= na f)%N by apply: h; rewrite mem_rcons mem_head.
rewrite -cats1 foldl_cat IH => [|g hg]; last by apply: h; rewrite mem_rcons inE hg orbT.
rewrite big_cat big_seq1 [foldl _ _ _]/= !falling_nat //.
rewrite [RHS]/=; move: (\prod_(_ <- fl) _) => u.
by case: (posnP (kd f)) => [->|_]; case: (posnP (ka f)) => [->|_]; rewrite ?ffactn0 ?mul1r ?mulr1 ?mulrA.
Qed.

Section Hyb.
(** [cd0], [c0]: the hybridized operators of each flavor without the worm, [cd1], [c1] with it;
    [rd], [ra]: the operators exchanged. *)
Variables (cd0 c0 cd1 c1 : nat -> seq psi) (rd ra : seq psi).
Let ops := get_operators (ty i) (MkWorm ts fs).
Definition key (x : psi) := (p_type x, p_flavor x).
Definition movable (t : optype) (S : seq psi) : bool :=
  uniq S && all (fun x => [&& p_type x == t, (p_flavor x < F)%N, ot_small (p_time x) == Z0 & ot_time (p_time x) \in grid]) S.
Hypothesis hrd : movable CREATION_OP rd.
Hypothesis hra : movable ANNIHILATION_OP ra.
(** the worm's operators have the flavors of the exchanged ones *)
Hypothesis hkey : perm_eq (map key (rd ++ ra)) (map key ops).
Hypothesis hcd : forall f, (f < F)%N -> perm_eq (cd0 f) (cd1 f ++ of_flavor rd f).
Hypothesis hc : forall f, (f < F)%N -> perm_eq (c0 f) (c1 f ++ of_flavor ra f).
Hypothesis hcd0 : forall f, (f < F)%N -> uniq (cd0 f) && all (fun x => p_flavor x == f) (cd0 f).
Hypothesis hc0 : forall f, (f < F)%N -> uniq (c0 f) && all (fun x => p_flavor x == f) (c0 f).

Let kd f := size (of_flavor rd f).
Let ka f := size (of_flavor ra f).
Let m := (size rd + size ra)%N.
Definition alpha_hyb : K :=
  w i * nT K types * L ^+ nt * F%:R ^+ nfl / L ^+ m *
  \prod_(f <- iota 0 F) ((size (cd0 f) ^_ kd f)%:R * (size (c0 f) ^_ ka f)%:R).

Lemma typ_rd : all (fun x => p_type x == CREATION_OP) rd.
Proof. by case/andP: hrd => _; apply: sub_all => x /and4P[]. Qed.
Lemma typ_ra : all (fun x => p_type x == ANNIHILATION_OP) ra.
Proof. by case/andP: hra => _; apply: sub_all => x /and4P[]. Qed.
Lemma size_ops : size ops = m.
Proof. by have := perm_size hkey; rewrite !size_map size_cat. Qed.
Lemma num_opsE t f : num_ops t ops f = count (fun x => (p_type x == t) && (p_flavor x == f)) (rd ++ ra).
Proof.
have /permP /(_ (pred1 (t, f))) := hkey.
by rewrite !count_map => h; symmetry; apply: etrans h _; apply: eq_count.
Qed.
Lemma kdE f : num_ops CREATION_OP ops f = kd f.
Proof.
rewrite num_opsE count_cat /kd /of_flavor size_filter [X in (_ + X)%N](_ : _ = 0%N) ?addn0.
  by apply: eq_in_count => x hx; rewrite (allP typ_rd _ hx).
by apply/eqP; rewrite eqn0Ngt -has_count; apply/hasPn => x hx; rewrite (eqP (allP typ_ra _ hx)).
Qed.
Lemma kaE f : num_ops ANNIHILATION_OP ops f = ka f.
Proof.
rewrite num_opsE count_cat /ka /of_flavor size_filter [X in (X + _)%N](_ : _ = 0%N) ?add0n.
  by apply: eq_in_count => x hx; rewrite (allP typ_ra _ hx).
by apply/eqP; rewrite eqn0Ngt -has_count; apply/hasPn => x hx; rewrite (eqP (allP typ_rd _ hx)).
Qed.
Lemma le_kd f : (f < F)%N -> (kd f <= size (cd0 f))%N /\ (ka f <= size (c0 f))%N.
Proof. by move=> hf; rewrite (perm_size (hcd hf)) (perm_size (hc hf)) !size_cat !leq_addl. Qed.
Lemma size_cd1 f : (f < F)%N -> (size (cd1 f) + kd f)%N = size (cd0 f).
Proof. by move=> hf; rewrite (perm_size (hcd hf)) size_cat. Qed.
Lemma size_c1 f : (f < F)%N -> (size (c1 f) + ka f)%N = size (c0 f).
Proof. by move=> hf; rewrite (perm_size (hc hf)) size_cat. Qed.
Let prodE := \prod_(f <- iota 0 F) ((size (cd0 f) ^_ kd f)%:R * (size (c0 f) ^_ ka f)%:R) : K.
Lemma prodE_gt0 : 0 < prodE.
Proof.
rewrite /prodE big_seq; apply: prodr_gt0 => f; rewrite mem_iota add0n => hf.
by have [h1 h2] := le_kd hf; wpos; rewrite ffact_gt0.
Qed.
Lemma alpha_hyb_gt0 : 0 < alpha_hyb.
Proof. by rewrite /alpha_hyb -wsE; wpos; [apply: ws_pos|apply: prodE_gt0]. Qed.

Lemma p_ins0 : p_ins_inv K F (fun f => size (cd0 f)) (fun f => size (c0 f)) (num_ops CREATION_OP ops) (num_ops ANNIHILATION_OP ops) = prodE.
Proof.
rewrite p_insE => [|f hf]; last by rewrite kdE kaE; apply: le_kd.
by rewrite /prodE; apply: eq_bigr => f _; rewrite kdE kaE.
Qed.
Lemma p_ins1 : p_ins_inv K F (fun f => (size (cd1 f) + num_ops CREATION_OP ops f)%N) (fun f => (size (c1 f) + num_ops ANNIHILATION_OP ops f)%N)
    (num_ops CREATION_OP ops) (num_ops ANNIHILATION_OP ops) = prodE.
Proof.
rewrite p_insE => [|f hf]; last by rewrite !leq_addl.
rewrite /prodE big_seq [RHS]big_seq; apply: eq_bigr => f; rewrite mem_iota add0n => hf.
by rewrite !kdE !kaE size_cd1 // size_c1.
Qed.

Lemma flav_rd : all (fun x => p_flavor x \in iota 0 F) rd.
Proof. by case/andP: hrd => _; apply: sub_all => x /and4P[_ h _ _]; rewrite mem_iota add0n. Qed.
Lemma flav_ra : all (fun x => p_flavor x \in iota 0 F) ra.
Proof. by case/andP: hra => _; apply: sub_all => x /and4P[_ h _ _]; rewrite mem_iota add0n. Qed.

Definition pf_hyb : K := (nT K types)^-1 * (2%:R^-1 * (((size grid)%:R ^+ nt)^-1 * ((F%:R ^+ nfl)^-1 *
  \prod_(f <- iota 0 F) (pck K (size (cd0 f)) (kd f) * pck K (size (c0 f)) (ka f))))).

Lemma fwd_hyb X :
  pr (worm_step_Z F grid L types w cd0 c0) (wev X 2 (Some (i, (ts, fs))) rd ra [::] [::]) = (X alpha_hyb)%:R * pf_hyb.
Proof.
rewrite step_Z trace_ins_kind add0r.
rewrite /hyb_ins (pr_draws1 grid_uniq (proj2 hts) (proj1 hts)); last first.
  move=> r ne; rewrite pr_bind big1 // => q _; rewrite [X in _ * X](_ : _ = 0) ?mulr0 //.
  case: ifP => _; first by rewrite pr_ret.
  rewrite pr_bind big1 // => q' _; rewrite pr_bind_ret pr_pred0 ?mulr0 // => o /=.
  by apply/negbTE/negP => /and3P[/eqP [e _] _]; rewrite e eqxx in ne.
rewrite (pr_draws1 (iota_uniq 0 F) fs_sub (proj1 hfs)); last first.
  move=> r ne; case: ifP => _; first by rewrite pr_ret.
  rewrite pr_bind big1 // => q' _; rewrite pr_bind_ret pr_pred0 ?mulr0 // => o /=.
  by apply/negbTE/negP => /and3P[/eqP [e] _]; rewrite e eqxx in ne.
rewrite -/ops; case: ifP => [/hasP[f]|_].
  rewrite mem_iota add0n => /le_kd[h1 h2]; rewrite kdE kaE.
  by rewrite !ltnNge h1 h2.
rewrite size_iota p_ins0 size_ops.
have <- : alpha_hyb = 1 / L ^+ m / (1 / prodE) * weight_scaled types w i * L ^+ nt * F%:R ^+ nfl.
  rewrite /alpha_hyb wsE -/prodE !div1r invrK.
  have h0 : prodE != 0 by rewrite gt_eqF // prodE_gt0.
  have h1 : L ^+ m != 0 by rewrite expf_neq0.
  move: (L ^+ m) prodE h0 h1 (w i) (nT _ _) (L ^+ nt) (F%:R ^+ nfl) => a b h0 h1 x y z u; kfield K.
have mk fl k o (S : seq psi) : all (fun x => p_flavor x \in fl) S -> (forall f, f \in fl -> k f = size (of_flavor S f)) ->
  uniq S -> uniq fl -> (forall f, f \in fl -> uniq (o f) && all (fun x => p_flavor x == f) (o f)) ->
  (forall f, f \in fl -> {subset of_flavor S f <= o f}) ->
  pr (pick_ops K k o fl) (fun r => perm_eq r S) = \prod_(f <- fl) pck K (size (o f)) (size (of_flavor S f)).
  move=> h1 h2 h3 h4 h5 h6; rewrite pr_pick_ops //.
    by apply: eq_big_seq => f hf; rewrite h2.
  by move=> f hf; have /andP[u1 u2] := h5 f hf; split=> //; [apply: h6|rewrite h2].
have e1 : pr (pick_ops K (num_ops CREATION_OP ops) cd0 (iota 0 F)) (fun r => perm_eq r rd) =
    \prod_(f <- iota 0 F) pck K (size (cd0 f)) (kd f).
  apply: mk; rewrite ?flav_rd ?iota_uniq //; try by case/andP: hrd.
  - by move=> f _; rewrite kdE.
  - by move=> f; rewrite mem_iota add0n; apply: hcd0.
  - by move=> f; rewrite mem_iota add0n => hf x hx; rewrite (perm_mem (hcd hf)) mem_cat hx orbT.
have e2 : pr (pick_ops K (num_ops ANNIHILATION_OP ops) c0 (iota 0 F)) (fun r => perm_eq r ra) =
    \prod_(f <- iota 0 F) pck K (size (c0 f)) (ka f).
  apply: mk; rewrite ?flav_ra ?iota_uniq //; try by case/andP: hra.
  - by move=> f _; rewrite kaE.
  - by move=> f; rewrite mem_iota add0n; apply: hc0.
  - by move=> f; rewrite mem_iota add0n => hf x hx; rewrite (perm_mem (hc hf)) mem_cat hx orbT.
transitivity ((nT K types)^-1 * (2%:R^-1 * (((size grid)%:R ^+ nt)^-1 * ((F%:R ^+ nfl)^-1 *
    (pr (pick_ops K (num_ops CREATION_OP ops) cd0 (iota 0 F)) (fun r => perm_eq r rd) *
     (pr (pick_ops K (num_ops ANNIHILATION_OP ops) c0 (iota 0 F)) (fun r => perm_eq r ra) * (X alpha_hyb)%:R)))))).
  do 4 congr (_ * _); apply: (pr_factor (suppT _)) => r _; rewrite pr_bind_ret.
  rewrite [X in _ = _ * X]mulrC -!pr_andl; apply: eq_pr => r' /=; rewrite !eqxx /=.
  by case: (perm_eq r rd) => //=; case: (X _); rewrite ?andbT ?andbF.
rewrite e1 e2 /pf_hyb [in RHS]big_split /=.
move: (\prod_(_ <- _) _) (\prod_(_ <- _) _) (X _)%:R => u v x; kring K.
Qed.

Lemma rev_hyb X :
  pr (worm_step_W F grid L types w i cd1 c1 ts fs) (wev X 2 None [::] [::] rd ra) = (X alpha_hyb^-1)%:R *
  (2%:R^-1 * ((\prod_(f <- iota 0 F) (((kd f)`!)%:R * ((ka f)`!)%:R)) / (size grid)%:R ^+ m)).
Proof.
rewrite /worm_step_W pr_coin trace_rem_kind add0r /hyb_rem -/ops p_ins1 size_ops.
have <- : alpha_hyb^-1 = 1 / prodE / (1 / L ^+ m) * (1 / (weight_scaled types w i * L ^+ nt * F%:R ^+ nfl)).
  rewrite /alpha_hyb wsE -/prodE !div1r invrK.
  have h0 : prodE != 0 by rewrite gt_eqF // prodE_gt0.
  have h1 : L ^+ m != 0 by rewrite expf_neq0.
  have h2 : L ^+ nt != 0 by rewrite expf_neq0.
  have h3 : F%:R ^+ nfl != 0 :> K by rewrite expf_neq0.
  have h4 := w_neq0; have h5 := n_neq0.
  move: (L ^+ m) prodE h0 h1 (w i) (nT _ _) (L ^+ nt) (F%:R ^+ nfl) h2 h3 h4 h5 => a b h0 h1 x y z u h2 h3 h4 h5; kfield K.
rewrite pr_bind_ret mulrCA; congr (_ * _).
pose dom := [seq (CREATION_OP, f) | f <- iota 0 F] ++ [seq (ANNIHILATION_OP, f) | f <- iota 0 F].
have udom : uniq dom.
  rewrite cat_uniq !map_inj_uniq ?iota_uniq ?andbT /=; try by move=> a b [].
  by apply/hasPn => x /mapP[f _ ->]; apply/negP => /mapP[g _].
have keydom : {subset map key ops <= dom}.
  move=> k; rewrite -(perm_mem hkey) map_cat !mem_cat => /orP[] /mapP[x hx ->].
  - by apply/orP; left; apply/mapP; exists (p_flavor x); rewrite ?(allP flav_rd) // /key (eqP (allP typ_rd _ hx)).
  - by apply/orP; right; apply/mapP; exists (p_flavor x); rewrite ?(allP flav_ra) // /key (eqP (allP typ_ra _ hx)).
have facE : (factsD dom (map key ops))%:R = \prod_(f <- iota 0 F) (((kd f)`!)%:R * ((ka f)`!)%:R) :> K.
  rewrite /factsD big_cat /= !big_map natrM big_split /= !natr_prod.
  congr (_ * _); apply: eq_bigr => f _; congr (_`!)%:R.
    by rewrite -kdE /num_ops count_map; apply: eq_count.
  by rewrite -kaE /num_ops count_map; apply: eq_count.
pose hh (a : optype * nat) (t : Z) := Psi (OT t 0) a.1 a.2.
transitivity ((X alpha_hyb^-1)%:R * pr (label_draws K hh grid (map key ops)) (fun r => perm_eq r (rd ++ ra))).
  rewrite -pr_andl; apply: eq_pr => r /=.
  rewrite [perm_eq r _]perm_sym (@perm_split (fun x => p_type x == CREATION_OP)) ?typ_rd //; last first.
    by apply: sub_all typ_ra => x /= /eqP ->.
  have -> : [seq x <- r | p_type x == ANNIHILATION_OP] = [seq x <- r | predC (fun x => p_type x == CREATION_OP) x].
    by apply: eq_filter => x /=; case: (p_type x).
  rewrite ![perm_eq _ (filter _ _)]perm_sym.
  by case: (X _); rewrite ?andbT ?andbF.
congr (_ * _).
rewrite (@pr_label_draws K _ _ _ hh key (fun x => ot_time (p_time x)) grid dom) //.
- by rewrite hkey mul1r facE size_map size_ops.
- by case.
- rewrite cat_uniq; case/andP: hrd => -> _; case/andP: hra => -> _; rewrite andbT /=.
  by apply/hasPn => x hx; apply/negP => /(allP typ_rd); rewrite (eqP (allP typ_ra _ hx)).
- have one t S : movable t S -> all (fun x => (ot_time (p_time x) \in grid) && (x == hh (key x) (ot_time (p_time x)))) S.
    case/andP=> _; apply: sub_all => x /and4P[_ _ /eqP h ->] /=.
    by case: x h => -[tt sm] ty0 fl /= ->; rewrite /hh /=.
  by rewrite all_cat !(one _ _ hrd, one _ _ hra).
Qed.

Theorem C14_hyb :
  balanced (w i) alpha_hyb (wcell ^+ nt) (wcell ^+ m)
    (fun X => pr (worm_step_Z F grid L types w cd0 c0) (wev X 2 (Some (i, (ts, fs))) rd ra [::] [::]))
    (fun X => pr (worm_step_W F grid L types w i cd1 c1 ts fs) (wev X 2 None [::] [::] rd ra)).
Proof.
have nT0 : 0 < nT K types by rewrite lt_neqAle eq_sym n_neq0 ler0n.
have fac f : 0 < ((kd f)`!)%:R * ((ka f)`!)%:R :> K by wpos; rewrite fact_gt0.
have pckE f : f \in iota 0 F -> pck K (size (cd0 f)) (kd f) * pck K (size (c0 f)) (ka f) =
    ((kd f)`!)%:R * ((ka f)`!)%:R * ((size (cd0 f) ^_ kd f)%:R * (size (c0 f) ^_ ka f)%:R)^-1.
  rewrite mem_iota add0n => hf; rewrite -(size_cd1 hf) -(size_c1 hf) !pck_ff invfM.
  move: (_%:R) (_%:R) (_%:R^-1) (_%:R^-1) => a b x y; kring K.
have pE : \prod_(f <- iota 0 F) (pck K (size (cd0 f)) (kd f) * pck K (size (c0 f)) (ka f)) =
    \prod_(f <- iota 0 F) (((kd f)`!)%:R * ((ka f)`!)%:R) / prodE.
  by rewrite (eq_big_seq _ pckE) [LHS]big_split /= prodfV.
have q0 : 0 < \prod_(f <- iota 0 F) (((kd f)`!)%:R * ((ka f)`!)%:R) :> K by rewrite prodr_gt0.
apply: balancedI fwd_hyb rev_hyb alpha_hyb_gt0 _ _ _ _ _ => //.
- by rewrite /pf_hyb pE; wpos; rewrite prodE_gt0.
- by wpos.
- by rewrite /wcell; wpos.
- by rewrite /wcell; wpos.
rewrite /alpha_hyb -/prodE /pf_hyb pE /wcell !expr_div_n.
have h0 : prodE != 0 by rewrite gt_eqF // prodE_gt0.
have h1 : L ^+ m != 0 by rewrite expf_neq0.
have h3 : F%:R ^+ nfl != 0 :> K by rewrite expf_neq0.
have h4 : (size grid)%:R ^+ nt != 0 :> K by rewrite expf_neq0.
have h6 : (size grid)%:R ^+ m != 0 :> K by rewrite expf_neq0.
have h5 := n_neq0.
move: (\prod_(f <- iota 0 F) (((kd f)`!)%:R * ((ka f)`!)%:R)) => q.
move: (L ^+ m) prodE h0 h1 (w i) (nT _ _) (L ^+ nt) (F%:R ^+ nfl) h3 h5 ((size grid)%:R ^+ nt) ((size grid)%:R ^+ m) h4 h6
  => a b h0 h1 x y z u h3 h5 v v' h4 h6; kfield K.
Qed.
End Hyb.
End Worm.

(* ---------------------------------------------------------------------- *)
(** ** GWormInsertionRemover: cutting hybridization lines

    No time is drawn: a worm is a choice of operators in order.  [cds], [cs]: the hybridized operators
    without the worm; [cds'], [cs'] with it. *)
Section GWorm.
Variables (i rank : nat) (w1 : K) (cds cs cds' cs' rd ra : seq psi).
Hypothesis w1_pos : 0 < w1.
Definition plain (t : optype) (S : seq psi) : bool :=
  uniq S && all (fun x => (p_type x == t) && (ot_small (p_time x) == Z0)) S.
Hypothesis hcds : plain CREATION_OP cds.
Hypothesis hcs : plain ANNIHILATION_OP cs.
Hypothesis same_order : size cs = size cds.
Hypothesis hrd : size rd = rank.
Hypothesis hra : size ra = rank.
Hypothesis pcds : perm_eq cds (cds' ++ rd).
Hypothesis pcs : perm_eq cs (cs' ++ ra).

(** The worm whose operators are those of [ra] and [rd], alternating. *)
Definition pair_times : seq Z := flatten [seq [:: ot_time (p_time x.1); ot_time (p_time x.2)] | x <- zip ra rd].
Definition pair_flavors : seq nat := flatten [seq [:: p_flavor x.1; p_flavor x.2] | x <- zip ra rd].
Definition alpha_g : K := w1 * (size cds ^_ rank)%:R ^+ 2.

Lemma flat2_inj (T : eqType) (f g f' g' : nat -> T) m n :
  flatten [seq [:: f r; g r] | r <- iota m n] = flatten [seq [:: f' r; g' r] | r <- iota m n] ->
  forall r, (m <= r < m + n)%N -> f r = f' r /\ g r = g' r.
Proof.
elim: n m => [|n IH] m; first by move=> _ r; rewrite addn0; case: ltngtP.
move=> /= [e1 e2 /IH h] r; rewrite leq_eqVlt => /andP[/orP[/eqP <- //|hr] hr2].
by apply: h; rewrite hr addSnnS.
Qed.
Lemma flat2_zip (T : Type) (f : psi -> T) (a b : seq psi) : size a = size b ->
  flatten [seq [:: f x.1; f x.2] | x <- zip a b] = flatten [seq [:: f (nth psi0 a r); f (nth psi0 b r)] | r <- iota 0 (size a)].
Proof.
move=> e; congr flatten.
rewrite -{1}(mkseq_nth (psi0, psi0) (zip a b)) /mkseq -map_comp size_zip -e minnn.
by apply/eq_in_map => r _ /=; rewrite nth_zip.
Qed.
Lemma plain_inj t S x y : plain t S -> x \in S -> y \in S ->
  ot_time (p_time x) = ot_time (p_time y) -> p_flavor x = p_flavor y -> x = y.
Proof.
case/andP=> _ /allP h /h/andP[/eqP h1 /eqP h2] /h/andP[/eqP h3 /eqP h4].
by case: x y h1 h2 h3 h4 => -[t1 s1] y1 f1 [[t2 s2] y2 f2] /= -> -> -> -> -> ->.
Qed.
Lemma sub_rd : {subset rd <= cds}. Proof. by move=> x hx; rewrite (perm_mem pcds) mem_cat hx orbT. Qed.
Lemma sub_ra : {subset ra <= cs}. Proof. by move=> x hx; rewrite (perm_mem pcs) mem_cat hx orbT. Qed.
Lemma uniq_rd : uniq rd.
Proof. by case/andP: hcds => + _; rewrite (perm_uniq pcds) cat_uniq => /and3P[]. Qed.
Lemma uniq_ra : uniq ra.
Proof. by case/andP: hcs => + _; rewrite (perm_uniq pcs) cat_uniq => /and3P[]. Qed.
Lemma rank_le : (rank <= size cds)%N.
Proof. by rewrite (perm_size pcds) size_cat hrd leq_addl. Qed.

Lemma pick_indices (S l : seq psi) (ic : seq nat) : uniq l -> {subset S <= l} -> all (fun j => (j < size l)%N) ic ->
  ([seq nth psi0 l j | j <- ic] == S) = (ic == [seq index x l | x <- S]).
Proof.
move=> ul sS hic; apply/eqP/eqP => [<-|->]; rewrite -map_comp.
  by rewrite -[LHS]map_id; apply/eq_in_map => j hj /=; rewrite index_uniq // (allP hic).
by rewrite -[RHS]map_id; apply/eq_in_map => x hx /=; rewrite nth_index // sS.
Qed.
Lemma pr_indices (S l : seq psi) : uniq l -> uniq S -> {subset S <= l} ->
  pr (pickup K (size l) (size S)) (pred1 [seq index x l | x <- S]) = ((size l) ^_ (size S))%:R^-1.
Proof.
move=> ul uS sS; apply: pr_pickup_ord; rewrite ?size_map //.
- rewrite map_inj_in_uniq // => x y hx hy e.
  by rewrite -(nth_index psi0 (sS _ hx)) e nth_index // sS.
- by move=> j /mapP[x hx ->]; rewrite mem_iota add0n index_mem sS.
Qed.

Lemma fwd_g X : pr (gworm_ins i rank w1 cds cs) (wev X 0 (Some (i, (pair_times, pair_flavors))) rd ra [::] [::]) =
  (X alpha_g)%:R * ((size cds ^_ rank)%:R^-1 * (size cds ^_ rank)%:R^-1).
Proof.
rewrite /gworm_ins ltnNge rank_le /= falling_nat ?rank_le // -/alpha_g.
have [ucd _] := andP hcds; have [uc _] := andP hcs.
have e1 : pr (pickup K (size cds) rank) (pred1 [seq index x cds | x <- rd]) = (size cds ^_ rank)%:R^-1.
  by rewrite -hrd; apply: pr_indices; [|apply: uniq_rd|apply: sub_rd].
have e2 : pr (pickup K (size cds) rank) (pred1 [seq index x cs | x <- ra]) = (size cds ^_ rank)%:R^-1.
  by rewrite -hra -same_order; apply: pr_indices; [|apply: uniq_ra|apply: sub_ra].
transitivity (pr (pickup K (size cds) rank) (pred1 [seq index x cds | x <- rd]) *
    (pr (pickup K (size cds) rank) (pred1 [seq index x cs | x <- ra]) * (X alpha_g)%:R)); last first.
  by rewrite e1 e2 mulrA mulrC.
apply: (pr_factor (supp_pickup K rank_le)) => ic /and3P[/eqP zic _ hic].
rewrite mulrCA; apply: (pr_factor (supp_pickup K rank_le)) => ia /and3P[/eqP zia _ hia].
rewrite [X in _ = X]mulrCA.
rewrite pr_ret mulrA -!natrM !mulnb; congr (_%:R); congr nat_of_bool => /=.
rewrite -!pick_indices //; try by [apply: sub_rd|apply: sub_ra|rewrite same_order].
set rd' := [seq nth psi0 cds j | j <- ic]; set ra' := [seq nth psi0 cs j | j <- ia].
rewrite andbA; case: (X _); rewrite ?andbT ?andbF //=.
apply/idP/idP.
- case/andP=> /andP[/eqP [h1 h2] _] _; move: h1 h2.
  have z1 : size rd' = rank by rewrite size_map.
  have z2 : size ra' = rank by rewrite size_map.
  rewrite /pair_times /pair_flavors (flat2_zip (fun x => ot_time (p_time x))) ?hra ?hrd //.
  rewrite (flat2_zip p_flavor) ?hra ?hrd // => /flat2_inj h1 /flat2_inj h2.
  have s1 : {subset rd' <= cds} by move=> x /mapP[j hj ->]; rewrite mem_nth // (allP hic).
  have s2 : {subset ra' <= cs} by move=> x /mapP[j hj ->]; rewrite mem_nth // same_order (allP hia).
  apply/andP; split; apply/eqP; apply: (@eq_from_nth _ psi0); rewrite ?z1 ?z2 ?hrd ?hra // => r hr.
  + have [_ g1] := h1 r hr; have [_ g2] := h2 r hr.
    by apply: (plain_inj hcds) => //; [apply: s1|apply: sub_rd]; rewrite mem_nth ?z1 ?hrd.
  + have [g1 _] := h1 r hr; have [g2 _] := h2 r hr.
    by apply: (plain_inj hcs) => //; [apply: s2|apply: sub_ra]; rewrite mem_nth ?z2 ?hra.
- case/andP=> /eqP -> /eqP ->; rewrite !perm_refl /pair_times /pair_flavors.
  by rewrite (flat2_zip (fun x => ot_time (p_time x))) ?(flat2_zip p_flavor) ?hra ?hrd // eqxx.
Qed.

Lemma nth_flat2 (T : Type) (x0 : T) (f g : nat -> T) n r : (r < n)%N ->
  nth x0 (flatten [seq [:: f j; g j] | j <- iota 0 n]) (2 * r) = f r /\
  nth x0 (flatten [seq [:: f j; g j] | j <- iota 0 n]) (2 * r + 1) = g r.
Proof.
move=> hr.
have h : (2 * r + 1 < 2 * n)%N by apply: (@leq_trans (2 * r.+1)); rewrite ?leq_pmul2l // mulnS addn1 add2n.
rewrite !nth_pairs ?ltn_pmul2l //.
by rewrite addn1 /= !mul2n odd_double /= uphalf_double doubleK.
Qed.

Lemma rev_g X : pr (gworm_rem rank w1 cds' cs' pair_times pair_flavors) (wev X 0 None [::] [::] rd ra) = (X alpha_g^-1)%:R * 1.
Proof.
rewrite /gworm_rem pr_ret mulr1; congr (_%:R); congr nat_of_bool.
have zN : (size cds' + rank)%N = size cds by rewrite (perm_size pcds) size_cat hrd.
rewrite zN falling_nat ?rank_le // div1r -/alpha_g.
have ntht r : (r < rank)%N -> nth Z0 pair_times (2 * r) = ot_time (p_time (nth psi0 ra r)) /\
    nth Z0 pair_times (2 * r + 1) = ot_time (p_time (nth psi0 rd r)).
  move=> hr; rewrite /pair_times (flat2_zip (fun x => ot_time (p_time x))) ?hra ?hrd //.
  exact: (nth_flat2 Z0 (fun r => ot_time (p_time (nth psi0 ra r)))).
have nthf r : (r < rank)%N -> nth 0%N pair_flavors (2 * r) = p_flavor (nth psi0 ra r) /\
    nth 0%N pair_flavors (2 * r + 1) = p_flavor (nth psi0 rd r).
  move=> hr; rewrite /pair_flavors (flat2_zip p_flavor) ?hra ?hrd //.
  exact: (nth_flat2 0%N (fun r => p_flavor (nth psi0 ra r))).
have rebuild t S x : plain t S -> x \in S -> Psi (OT (ot_time (p_time x)) 0) t (p_flavor x) = x.
  by case/andP=> _ /allP h /h/andP[/eqP h1 /eqP h2]; case: x h1 h2 => -[t1 s1] y1 f1 /= -> ->.
have e1 : [seq nth psi0 (get_operators (GWorm rank) (MkWorm pair_times pair_flavors)) (2 * r + 1) | r <- iota 0 rank] = rd.
  rewrite -[RHS](mkseq_nth psi0 rd) hrd; apply/eq_in_map => r; rewrite mem_iota add0n => /= hr.
  rewrite (proj2 (nth_flat2 _ _ _ hr)) /get_time /get_flavor /= (proj2 (ntht r hr)) (proj2 (nthf r hr)).
  by apply: (rebuild _ cds) => //; apply: sub_rd; rewrite mem_nth ?hrd.
have e2 : [seq nth psi0 (get_operators (GWorm rank) (MkWorm pair_times pair_flavors)) (2 * r) | r <- iota 0 rank] = ra.
  rewrite -[RHS](mkseq_nth psi0 ra) hra; apply/eq_in_map => r; rewrite mem_iota add0n => /= hr.
  rewrite (proj1 (nth_flat2 _ _ _ hr)) /get_time /get_flavor /= (proj1 (ntht r hr)) (proj1 (nthf r hr)).
  by apply: (rebuild _ cs) => //; apply: sub_ra; rewrite mem_nth ?hra.
by rewrite /wev [wm_add_cd _]/= [wm_add_c _]/= e1 e2 !perm_refl.
Qed.

Theorem C14_gworm :
  balanced w1 alpha_g 1 1
    (fun X => pr (gworm_ins i rank w1 cds cs) (wev X 0 (Some (i, (pair_times, pair_flavors))) rd ra [::] [::]))
    (fun X => pr (gworm_rem rank w1 cds' cs' pair_times pair_flavors) (wev X 0 None [::] [::] rd ra)).
Proof.
have f0 : 0 < (size cds ^_ rank)%:R :> K by rewrite ltr0n ffact_gt0 rank_le.
apply: balancedI fwd_g rev_g _ _ _ _ _ _; rewrite ?ltr01 // /alpha_g; try by wpos.
have h : (size cds ^_ rank)%:R != 0 :> K by rewrite gt_eqF.
rewrite !mulr1 expr2; move: (_ ^_ _)%:R h => x h; kfield K.
Qed.
End GWorm.

(* ---------------------------------------------------------------------- *)
(** ** Equal-time G1 worm <-> two-time G2 worm *)
Section Connector.
Variables (iG1 iG2 : nat) (wG1 wG2 : K) (inw : Z -> bool) (t0 t1 : Z) (f0 f1 f2 f3 : nat).
Hypothesis p1 : 0 < wG1.
Hypothesis p2 : 0 < wG2.
Hypothesis ht1 : t1 \in grid.
(** the grid covers the window *)
Hypothesis hin : inw t1.
Hypothesis hf2 : (f2 < F)%N.
Hypothesis hf3 : (f3 < F)%N.
Definition alpha_c : K := wG2 / wG1 * F%:R ^+ 2 * L.

Lemma fwd_c X : pr (connect_up F grid L iG2 wG1 wG2 t0 f0 f1) (wev X 0 (Some (iG2, ([:: t0; t1], [:: f0; f1; f2; f3]))) [::] [::] [::] [::]) =
  (X alpha_c)%:R * ((size grid)%:R^-1 * (2%:R^-1 * (F%:R^-1 * F%:R^-1))).
Proof.
rewrite /connect_up (pr_pick1 (x := t1)) // => [|y _ ne]; last first.
  rewrite pr_coin pr_ret addr0 pr_bind big1 ?mulr0 // => p _; rewrite pr_bind_ret pr_pred0 ?mulr0 // => o /=.
  by apply/negbTE/negP => /andP[/eqP [e _] _]; rewrite e eqxx in ne.
rewrite pr_coin pr_ret addr0 (pr_pick1 (x := f2)) ?iota_uniq ?mem_iota ?add0n // => [|y _ ne]; last first.
  rewrite pr_bind_ret pr_pred0 // => o /=.
  by apply/negbTE/negP => /andP[/eqP [e _] _]; rewrite e eqxx in ne.
rewrite (pr_pick1 (x := f3)) ?iota_uniq ?mem_iota ?add0n // => [|y _ ne]; last first.
  rewrite pr_ret /=; case: eqP => // -[e]; by rewrite e eqxx in ne.
rewrite pr_ret size_iota /= !eqxx /= -[_ * F%:R * F%:R]mulrA -expr2 -/alpha_c.
move: (X _)%:R => x; kring K.
Qed.
Lemma rev_c X : pr (connect_down F L iG1 wG1 wG2 inw [:: t0; t1] [:: f0; f1; f2; f3]) (wev X 0 (Some (iG1, ([:: t0], [:: f0; f1]))) [::] [::] [::] [::]) =
  (X alpha_c^-1)%:R * 2%:R^-1.
Proof.
rewrite /connect_down /= hin /= pr_coin !pr_ret /= eqxx addr0 mulrC /=; congr (_%:R * _); congr nat_of_bool; congr (X _).
rewrite /alpha_c expr2 !invfM invrK; move: (wG2^-1) (F%:R^-1) (L^-1) => b x y; kring K.
Qed.

Theorem C14_connector :
  balanced (wG2 / wG1) alpha_c wcell 1
    (fun X => pr (connect_up F grid L iG2 wG1 wG2 t0 f0 f1) (wev X 0 (Some (iG2, ([:: t0; t1], [:: f0; f1; f2; f3]))) [::] [::] [::] [::]))
    (fun X => pr (connect_down F L iG1 wG1 wG2 inw [:: t0; t1] [:: f0; f1; f2; f3]) (wev X 0 (Some (iG1, ([:: t0], [:: f0; f1]))) [::] [::] [::] [::])).
Proof.
have n1 : wG1 != 0 by rewrite gt_eqF.
have n2 : (size grid)%:R != 0 :> K by rewrite pnatr_eq0 -lt0n.
have n3 : F%:R != 0 :> K by rewrite pnatr_eq0 -lt0n.
have n4 : 2%:R != 0 :> K by rewrite pnatr_eq0.
apply: balancedI fwd_c rev_c _ _ _ _ _ _; rewrite ?ltr01 /alpha_c /wcell //; try by wpos.
rewrite mulr1 expr2; move: (F%:R) (size grid)%:R n2 n3 => x y n2 n3; kfield K.
Qed.
End Connector.
End C14.
Print Assumptions C14_trace.
Print Assumptions C14_trace_diagonal.
Print Assumptions C14_diagonal_branch_closed.
Print Assumptions C14_hyb.
Print Assumptions C14_gworm.
Print Assumptions C14_connector.

(** ** A concrete worm: a G worm c_0(0) c^dag_1(1), exchanged with c_0(0), c^dag_1(2) of a configuration
    of expansion order 2. *)
Section Instance.
Let K := rat_realFieldType.
Let gr : seq Z := [:: Z0; (Zpos xH); (Zpos (xO xH))].
Let x1 := Psi (OT 2 0) CREATION_OP 1.
Let x2 := Psi (OT 0 0) CREATION_OP 1.
Let y1 := Psi (OT 0 0) ANNIHILATION_OP 0.
Let y2 := Psi (OT 1 0) ANNIHILATION_OP 0.
Let types := [:: CorrelationWorm 1; GWorm 1].
Example C14_hyb_instance : exists alpha vf vr,
  balanced (3%:R : K) alpha vf vr
    (fun X => pr (worm_step_Z 2 gr (1 : K) types (fun i => (i + 2)%:R) (fun f => if f == 1%N then [:: x1; x2] else [::]) (fun f => if f == 0%N then [:: y1; y2] else [::]))
       (wev X 2 (Some (1%N, ([:: Z0; (Zpos xH)], [:: 0%N; 1%N]))) [:: x1] [:: y1] [::] [::]))
    (fun X => pr (worm_step_W 2 gr (1 : K) types (fun i => (i + 2)%:R) 1 (fun f => if f == 1%N then [:: x2] else [::]) (fun f => if f == 0%N then [:: y2] else [::]) [:: Z0; (Zpos xH)] [:: 0%N; 1%N])
       (wev X 2 None [::] [::] [:: x1] [:: y1])).
Proof.
eexists; eexists; eexists.
refine (@C14_hyb K 2 gr 1 types (fun i => (i + 2)%:R) _ _ _ _ _ 1 [:: Z0; (Zpos xH)] [:: 0%N; 1%N] _ _ _ _ _ _ _ [:: x1] [:: y1] _ _ _ _ _ _ _).
all: try by [].
- by move=> i; rewrite ltr0n addn2.
- by split=> // t; rewrite !inE => /orP[] /eqP ->.
- by move=> f; case: f => [|[|f]].
- by move=> f; case: f => [|[|f]].
- by move=> f; case: f => [|[|f]].
- by move=> f; case: f => [|[|f]].
Qed.
Example C14_gworm_instance : exists alpha,
  balanced (3%:R : K) alpha 1 1
    (fun X => pr (gworm_ins 0 1 (3%:R : K) [:: x1; x2] [:: y1; y2]) (wev X 0 (Some (0%N, ([:: Z0; (Zpos (xO xH))], [:: 0%N; 1%N]))) [:: x1] [:: y1] [::] [::]))
    (fun X => pr (gworm_rem 1 (3%:R : K) [:: x2] [:: y2] [:: Z0; (Zpos (xO xH))] [:: 0%N; 1%N]) (wev X 0 None [::] [::] [:: x1] [:: y1])).
Proof. by eexists; apply: (@C14_gworm K 0 1 3%:R [:: x1; x2] [:: y1; y2] [:: x2] [:: y2] [:: x1] [:: y1]). Qed.
End Instance.
