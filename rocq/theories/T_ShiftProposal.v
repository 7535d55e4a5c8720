(** * C15, C16: symmetry of the shift proposals

    src/moves/moves.ipp:546-689, 911-1010, modelled in ShiftProposal.v; the step sizes are those of
    src/update_histogram.hpp (Histogram.v). *)
From Coq Require Import ZArith QArith List.
From mathcomp Require Import all_ssreflect all_algebra.
From Verif Require Import OpContainer Select KField Dist Proposal Worm ShiftProposal Histogram T_Histogram.
Set Implicit Arguments.
Unset Strict Implicit.
Unset Printing Implicit Defensive.
Import GRing.Theory Num.Theory Order.Theory.
Local Close Scope Q_scope.
Local Close Scope Z_scope.
Local Open Scope nat_scope.
Local Open Scope ring_scope.

Section Basics.
Variable K : realFieldType.
Add Field Kf : (kfield_theory K).

Lemma pr_pick (T : eqType) (C : Type) (s : seq T) (x : T) (H : T -> dist K C) E : uniq s -> 
  (forall y, y \in s -> y != x -> pr (H y) E = 0) ->
  pr (bind (unif K s) H) E = (x \in s)%:R / (size s)%:R * pr (H x) E.
Proof.
move=> us h0; rewrite pr_unif mulrC [_ / _]mulrC -mulrA mulrC; congr (_ * _).
case: (boolP (x \in s)) => hx; last first.
  rewrite mul0r big_seq big1 // => y hy; apply: h0 => //; by apply: contraNneq hx => <-.
rewrite (perm_big _ (perm_to_rem hx)) big_cons big_seq big1 ?[LHS]addr0 ?mul1r // => y hy.
have := hy; rewrite (mem_rem_uniq _ us) inE => /andP[ne _].
by apply: h0 => //; exact: mem_rem hy.
Qed.

Lemma shifts_uniq D : uniq (shifts D).
Proof.
rewrite map_inj_uniq ?iota_uniq // => a b e; apply/eqP; rewrite eqn_leq; apply/andP; split; apply/ssrnat.leP; Lia.lia.
Qed.
Lemma mem_shifts D z : (z \in shifts D) = Z.leb (Z.abs z) (Z.of_nat D).
Proof.
apply/idP/idP => [/mapP[i]|/Z.leb_le h].
  rewrite mem_iota add0n => /andP[_ /ssrnat.ltP]; rewrite -plusE -multE => h ->; apply/Z.leb_le; Lia.lia.
apply/mapP; exists (Z.to_nat (Z.add z (Z.of_nat D))); last by Lia.lia.
by rewrite mem_iota add0n; apply/ssrnat.ltP; rewrite -plusE -multE; Lia.lia.
Qed.
Lemma size_shifts D : size (shifts D) = (2 * D + 1)%N.
Proof. by rewrite size_map size_iota. Qed.
End Basics.

(* ---------------------------------------------------------------------- *)
(** ** C15: single-operator shift *)
Section C15.
Variable K : realFieldType.
Add Field Kf2 : (kfield_theory K).
Variables (blk : nat -> seq nat) (D : nat -> nat) (lo hi : Z).
Hypothesis blk_uniq : forall f, uniq (blk f).

(** The probability of proposing to replace x by y, as it should be: choice of the operator, choice of the
    flavor, uniform choice of the time. *)
Definition shift_prob (n : nat) (x y : psi) : K :=
  n%:R^-1 *
  (2%:R^-1 * ((p_flavor y == p_flavor x)%:R + (p_flavor y \in blk (p_flavor x))%:R / (size (blk (p_flavor x)))%:R)) *
  ((Z.leb (Z.abs (Z.sub (ot_time (p_time y)) (ot_time (p_time x)))) (Z.of_nat (D (p_flavor x))))%:R / (2 * D (p_flavor x) + 1)%:R).

Definition valid (y : psi) : bool := (ot_small (p_time y) == Z0) && ~~ outside lo hi (ot_time (p_time y)).

Lemma pr_time (x y it : psi) nf d : p_type x = p_type y -> valid y ->
  pr (bind (unif K (shifts d)) (fun s => let nt := Z.add s (ot_time (p_time it)) in
      if outside lo hi nt then ret K None else ret K (Some (it, Psi (OT nt 0) (p_type it) nf)))) (pred1 (Some (x, y))) =
  (it == x)%:R * ((nf == p_flavor y)%:R *
    ((Z.leb (Z.abs (Z.sub (ot_time (p_time y)) (ot_time (p_time x)))) (Z.of_nat d))%:R / (2 * d + 1)%:R)).
Proof.
case: y => -[ty sy] yy fy /= hxy /andP[/= /eqP hs hy].
rewrite (pr_pick (x := Z.sub ty (ot_time (p_time x)))) ?shifts_uniq //; last first.
  move=> s _ ne /=; case: ifP => _; rewrite pr_ret //=.
  suff -> : (Some (it, Psi (OT (Z.add s (ot_time (p_time it))) 0) (p_type it) nf) == Some (x, Psi (OT ty sy) yy fy)) = false by [].
  apply/negbTE; apply: contra ne => /eqP [-> e _ _ _]; apply/eqP; Lia.lia.
rewrite mem_shifts size_shifts /=.
case: (eqVneq it x) => [->|ne]; last first.
  rewrite mul0r; case: ifP => _; rewrite pr_ret /= ?mulr0 //.
  have -> : (Some (it, Psi (OT (Z.add (Z.sub ty (ot_time (p_time x))) (ot_time (p_time it))) 0) (p_type it) nf) == Some (x, Psi (OT ty sy) yy fy)) = false.
    by apply/negbTE; apply: contra ne => /eqP [->].
  by rewrite mulr0.
rewrite mul1r mulrC; congr (_ * _).
have -> : Z.add (Z.sub ty (ot_time (p_time x))) (ot_time (p_time x)) = ty by Lia.lia.
rewrite (negbTE hy) pr_ret /= hs -hxy; congr (_%:R); congr nat_of_bool.
by apply/eqP/eqP => [[->]|->].
Qed.

Lemma pr_shift ops x y : uniq ops -> x \in ops -> p_type x = p_type y -> valid y ->
  pr (shift_propose K blk D lo hi ops) (pred1 (Some (x, y))) = shift_prob (size ops) x y.
Proof.
move=> uo hx hxy hy; rewrite /shift_propose.
have -> : forall A (a b : A), (if ops is [::] then a else b) = b by case: ops hx {uo}.
rewrite (pr_pick (x := index x ops)) ?iota_uniq //; last first.
  move=> i; rewrite mem_iota add0n => /= hii ne.
  have ne' : (nth psi0 ops i == x) = false by apply/negbTE; apply: contra ne => /eqP <-; rewrite index_uniq.
  rewrite pr_bind big1 // => p _; rewrite pr_bind big1 ?mulr0 // => q _.
  by rewrite pr_time // ne' mul0r mulr0.
rewrite mem_iota add0n index_mem hx size_iota mul1r /= nth_index // /shift_prob -!mulrA; congr (_ * _).
rewrite pr_unif !big_cons big_nil addr0; congr (_ * _); rewrite mulrDl; congr (_ + _).
  rewrite pr_bind big_seq1 /= mul1r pr_time // eqxx mul1r eq_sym //.
rewrite (pr_pick (x := p_flavor y)) ?blk_uniq //; first by rewrite pr_time // !eqxx !mul1r mulrA.
by move=> f _ ne; rewrite pr_time // (negbTE ne) mul0r mulr0.
Qed.

(** The move x -> y and its reverse; the other operators do not change. *)
Record moved (ops ops' : seq psi) (x y : psi) : Prop := Moved {
  mv_uniq : uniq ops; mv_uniq' : uniq ops'; mv_x : x \in ops;
  mv_perm : perm_eq ops' (y :: rem x ops);
  mv_type : p_type x = p_type y;
  mv_vx : valid x; mv_vy : valid y;
  mv_blk : blk (p_flavor x) = blk (p_flavor y) }.

Theorem C15_symmetric ops ops' x y : moved ops ops' x y -> D (p_flavor x) = D (p_flavor y) ->
  (p_flavor x \in blk (p_flavor x)) -> (p_flavor y \in blk (p_flavor x)) ->
  pr (shift_propose K blk D lo hi ops) (pred1 (Some (x, y))) = pr (shift_propose K blk D lo hi ops') (pred1 (Some (y, x))).
Proof.
case=> u u' hx hp ht vx vy hb hD h1 h2.
have hy : y \in ops' by rewrite (perm_mem hp) mem_head.
have n0 : (0 < size ops)%N by case: (ops) hx.
rewrite (pr_shift u hx) // (pr_shift u' hy) // /shift_prob (perm_size hp) /= size_rem // prednK //.
rewrite -hb -hD h1 h2 eq_sym; congr (_ * _ * (_%:R / _)); congr nat_of_bool.
by congr Z.leb; Lia.lia.
Qed.

(** In general the two probabilities differ by the step sizes of the two flavors. *)
Theorem C15_ratio ops ops' x y : moved ops ops' x y ->
  (p_flavor x \in blk (p_flavor x)) -> (p_flavor y \in blk (p_flavor x)) ->
  Z.le (Z.abs (Z.sub (ot_time (p_time y)) (ot_time (p_time x)))) (Z.of_nat (minn (D (p_flavor x)) (D (p_flavor y)))) ->
  pr (shift_propose K blk D lo hi ops) (pred1 (Some (x, y))) * (2 * D (p_flavor x) + 1)%:R =
  pr (shift_propose K blk D lo hi ops') (pred1 (Some (y, x))) * (2 * D (p_flavor y) + 1)%:R /\
  0 < pr (shift_propose K blk D lo hi ops) (pred1 (Some (x, y))).
Proof.
case=> u u' hx hp ht vx vy hb h1 h2 hd.
have hy : y \in ops' by rewrite (perm_mem hp) mem_head.
have n0 : (0 < size ops)%N by case: (ops) hx.
have l1 : Z.leb (Z.abs (Z.sub (ot_time (p_time y)) (ot_time (p_time x)))) (Z.of_nat (D (p_flavor x))).
  apply/Z.leb_le; apply: (Z.le_trans _ _ _ hd); apply: inj_le; apply/ssrnat.leP; exact: geq_minl.
have l2 : Z.leb (Z.abs (Z.sub (ot_time (p_time x)) (ot_time (p_time y)))) (Z.of_nat (D (p_flavor y))).
  apply/Z.leb_le; have : Z.le (Z.abs (Z.sub (ot_time (p_time y)) (ot_time (p_time x)))) (Z.of_nat (D (p_flavor y))).
    by apply: (Z.le_trans _ _ _ hd); apply: inj_le; apply/ssrnat.leP; exact: geq_minr.
  by Lia.lia.
rewrite (pr_shift u hx) // (pr_shift u' hy) // /shift_prob (perm_size hp) /= size_rem // prednK //.
rewrite -hb l1 l2 h1 h2 eq_sym; split.
  have a1 : (2 * D (p_flavor x) + 1)%:R != 0 :> K by rewrite pnatr_eq0 addn1.
  have a2 : (2 * D (p_flavor y) + 1)%:R != 0 :> K by rewrite pnatr_eq0 addn1.
  by rewrite -!mulrA !mulVf // !mulr1.
have b0 : (0 < size (blk (p_flavor x)))%N by case: (blk (p_flavor x)) h1.
rewrite !mul1r; apply: mulr_gt0; last by rewrite invr_gt0 ltr0n addn1.
apply: mulr_gt0; first by rewrite invr_gt0 ltr0n.
apply: mulr_gt0; first by rewrite invr_gt0 ltr0n.
by apply: ltr_paddl; rewrite ?ler0n // invr_gt0 ltr0n.
Qed.
End C15.

(** The claim of C15 is false: the optimizer reaches step sizes that differ between two flavors of the same
    block (update_parameters calls update_cutoff once per flavor and each call moves the cutoffs of all), and then
    a flavor-changing shift and its reverse have different probabilities.  The step sizes are 21 and 20 ticks. *)
Section Refuted.
Let K := rat_realFieldType.
Let D (f : nat) : nat := if f == 0%N then 21%N else 20%N.
Let x := Psi (OT 0 0) CREATION_OP 0.
Let y := Psi (OT 5 0) CREATION_OP 1.
Let lo : Z := Z.of_nat 0.
Let hi : Z := Z.of_nat 100.
Theorem C15_refuted :
  exists (es : seq ev) (tick : Q) (blk : nat -> seq nat) (ops ops' : seq psi),
    let s := snd (shift_run (false, shift_init 2 2 32) es) in
    [/\ forall f, (f < 2)%N -> Qeq (List.nth f (s_dist s) (Qmake 0 1)) (Qmult (Qmake (Z.of_nat (D f)) 1) tick),
        moved blk lo hi ops ops' x y,
        (p_flavor x \in blk (p_flavor x)) && (p_flavor y \in blk (p_flavor x)) &
        pr (shift_propose K blk D lo hi ops) (pred1 (Some (x, y))) <> pr (shift_propose K blk D lo hi ops') (pred1 (Some (y, x)))].
Proof.
exists (ex_samples ++ [:: EvUpdate]), (Qmult (Qpower (Qmake 20 21) (Z.of_nat 10)) (Qmake 1 21)), (fun=> [:: 0%N; 1%N]), [:: x], [:: y].
have mv : moved (fun=> [:: 0%N; 1%N]) lo hi [:: x] [:: y] x y by split.
split=> //.
- by case=> [|[|f]] // _; vm_compute.
- have ub : forall f : nat, uniq ((fun=> [:: 0%N; 1%N]) f) by [].
  have [] := @C15_ratio K (fun=> [:: 0%N; 1%N]) D lo hi ub [:: x] [:: y] x y mv isT isT _; first by [].
  move=> e p0 e'; move: e; rewrite -e' => /(mulfI (lt0r_neq0 p0)) /eqP.
  by rewrite eqr_nat.
Qed.
End Refuted.

Example C15_instance : let K := rat_realFieldType in
  let x := Psi (OT 3 0) CREATION_OP 0 in let y := Psi (OT 4 0) CREATION_OP 0 in
  pr (shift_propose K (fun=> [:: 0%N]) (fun=> 2%N) (Z.of_nat 0) (Z.of_nat 10) [:: x]) (pred1 (Some (x, y))) = 5%:R^-1 /\
  moved (fun=> [:: 0%N]) (Z.of_nat 0) (Z.of_nat 10) [:: x] [:: y] x y.
Proof. by split; [rewrite pr_shift //; apply/eqP; vm_compute|split]. Qed.

(** ** OperatorPairFlavorUpdater *)
Section PairFlavor.
Variable K : realFieldType.
Add Field Kf3 : (kfield_theory K).
Lemma pr_pick_op (F : nat) (ops : seq psi) x f : uniq ops -> (f < F)%N ->
  pr (bind (unif K (iota 0 (size ops))) (fun i => bind (unif K (iota 0 F)) (fun f => ret K (Some (nth psi0 ops i, with_flavor (nth psi0 ops i) f)))))
    (pred1 (Some (x, with_flavor x f))) = (x \in ops)%:R / (size ops)%:R / F%:R.
Proof.
move=> uo hf; rewrite (pr_pick (x := index x ops)) ?iota_uniq //; last first.
  move=> i; rewrite mem_iota add0n => /= hii ne.
  rewrite pr_bind_ret pr_pred0 // => g /=; apply/negbTE; apply: contra ne => /eqP [<- _].
  by rewrite index_uniq.
rewrite mem_iota add0n index_mem size_iota /=.
case: (boolP (x \in ops)) => hx; last by rewrite !mul0r.
rewrite nth_index // (pr_pick (x := f)) ?iota_uniq //; last first.
  by move=> g _ ne; rewrite pr_ret /=; case: eqP => // -[e]; rewrite e eqxx in ne.
by rewrite pr_ret mem_iota add0n hf size_iota /= eqxx mulr1 !mul1r.
Qed.
(** [cd], [c] and [cd'], [c']: the operators in the window before and after x got flavor f. *)
Theorem C15_pair_flavor F cd c cd' c' x f : (p_flavor x < F)%N -> (f < F)%N ->
  uniq cd -> uniq c -> uniq cd' -> uniq c' ->
  (x \in cd -> perm_eq cd' (with_flavor x f :: rem x cd)) -> (x \notin cd -> perm_eq cd' cd /\ with_flavor x f \notin cd) ->
  (x \in c -> perm_eq c' (with_flavor x f :: rem x c)) -> (x \notin c -> perm_eq c' c /\ with_flavor x f \notin c) ->
  pr (pair_flavor_propose K F cd c) (pred1 (Some (x, with_flavor x f))) =
  pr (pair_flavor_propose K F cd' c') (pred1 (Some (with_flavor x f, x))).
Proof.
move=> hF hf u1 u2 u3 u4 h1 h2 h3 h4.
have sz (s s' : seq psi) : (x \in s -> perm_eq s' (with_flavor x f :: rem x s)) -> (x \notin s -> perm_eq s' s /\ with_flavor x f \notin s) ->
    size s' = size s /\ (with_flavor x f \in s') = (x \in s).
  move=> a1 a2; case: (boolP (x \in s)) => hx.
  - rewrite (perm_size (a1 hx)) (perm_mem (a1 hx)) mem_head /= size_rem // prednK //.
    by case: (s) hx.
  - by have [e /negbTE] := a2 hx; rewrite (perm_size e) (perm_mem e).
have [z1 m1] := sz _ _ h1 h2; have [z2 m2] := sz _ _ h3 h4.
rewrite /pair_flavor_propose z1 z2; case: ifP => _; first by rewrite !pr_ret.
have P2 s : uniq s -> pr (bind (unif K (iota 0 (size s))) (fun i => bind (unif K (iota 0 F)) (fun f => ret K (Some (nth psi0 s i, with_flavor (nth psi0 s i) f)))))
    (pred1 (Some (with_flavor x f, x))) = (with_flavor x f \in s)%:R / (size s)%:R / F%:R.
  move=> us; have := @pr_pick_op F s (with_flavor x f) (p_flavor x) us hF.
  by have -> : with_flavor (with_flavor x f) (p_flavor x) = x by case: (x).
rewrite !pr_unif !big_cons !big_nil !addr0 /= (pr_pick_op x u1 hf) (pr_pick_op x u2 hf).
by rewrite (P2 _ u3) (P2 _ u4) m1 m2 z1 z2.
Qed.
End PairFlavor.

(* ---------------------------------------------------------------------- *)
(** ** C16: worm shift *)
Section C16.
Variable K : realFieldType.
Add Field Kf4 : (kfield_theory K).
Variables (D : nat) (lo hi : Z).

Lemma pr_bindA A B C (d : dist K A) (f : A -> dist K B) (g : B -> dist K C) E :
  pr (bind (bind d f) g) E = pr (bind d (fun a => bind (f a) g)) E.
Proof.
rewrite !pr_bind [X in \sum_(p <- X) _ = _]/bind big_flatten big_map /=; apply: eq_bigr => p _.
by rewrite big_map pr_bind big_distrr /=; apply: eq_bigr => q _; rewrite mulrA.
Qed.

(** One try of the loop. *)
Definition one (ts : seq Z) : dist K (option (seq Z)) :=
  bind (unif K (iota 0 (size ts))) (fun t =>
  if outside lo hi (nth Z0 ts t) then ret K None
  else bind (coin9 K) (fun c =>
      bind (if c then bind (unif K (shifts D)) (fun d => ret K (Z.add d (nth Z0 ts t))) else unif K (inner lo hi)) (fun nt =>
        if outside lo hi nt then ret K None else ret K (Some (set_nth Z0 ts t nt))))).
Definition fail ts : K := pr (one ts) (pred1 None).

Lemma try_S n ts E : pr (mover_try K n.+1 D lo hi ts) E =
  pr (bind (one ts) (fun o => if o is Some r then ret K (Some r) else mover_try K n D lo hi ts)) E.
Proof.
rewrite /one pr_bindA; apply: pr_bind_eq => t.
case: ifP => _; first by rewrite pr_bind big_seq1 mul1r.
rewrite pr_bindA; apply: pr_bind_eq => c; rewrite pr_bindA; apply: pr_bind_eq => nt.
by case: ifP => _; rewrite pr_bind big_seq1 mul1r.
Qed.

Lemma pr_try n ts r : pr (mover_try K n D lo hi ts) (pred1 (Some r)) =
  pr (one ts) (pred1 (Some r)) * \sum_(k < n) fail ts ^+ k.
Proof.
elim: n => [|n IH]; first by rewrite big_ord0 mulr0 pr_ret.
rewrite try_S pr_bind big_ord_recl expr0 mulrDr mulr1.
have -> : \sum_(i < n) fail ts ^+ bump 0 i = fail ts * \sum_(k < n) fail ts ^+ k.
  by rewrite big_distrr; apply: eq_bigr => i _; rewrite [LHS]exprS.
rewrite mulrCA -IH /fail !prE big_distrl -big_split /=; apply: eq_bigr => -[p [z|]] _ /=.
  by rewrite pr_ret !mulr0 mul0r addr0.
by rewrite mulr0 add0r mulr1 prE.
Qed.

(** Density of the new time v given the old time u. *)
Definition qdens (u v : Z) : K :=
  9%:R / 10%:R * ((Z.leb (Z.abs (Z.sub v u)) (Z.of_nat D))%:R / (2 * D + 1)%:R) +
  10%:R^-1 * ((v \in inner lo hi)%:R / (size (inner lo hi))%:R).

Lemma inner_uniq : uniq (inner lo hi).
Proof.
rewrite map_inj_uniq ?iota_uniq // => a b e; apply/eqP; rewrite eqn_leq; apply/andP; split; apply/ssrnat.leP; Lia.lia.
Qed.
Lemma mem_inner t : (t \in inner lo hi) = Z.ltb lo t && Z.ltb t hi.
Proof.
apply/idP/idP => [/mapP[i]|/andP[/Z.ltb_lt h1 /Z.ltb_lt h2]].
  rewrite mem_iota => /andP[/ssrnat.ltP h1 /ssrnat.ltP]; rewrite -plusE -minusE => h2 ->.
  by apply/andP; split; apply/Z.ltb_lt; Lia.lia.
apply/mapP; exists (Z.to_nat (Z.sub t lo)); last by Lia.lia.
by rewrite mem_iota; apply/andP; split; apply/ssrnat.ltP; rewrite -?plusE -?minusE; Lia.lia.
Qed.
Lemma inner_outside t : t \in inner lo hi -> outside lo hi t = false.
Proof.
rewrite mem_inner => /andP[/Z.ltb_lt h1 /Z.ltb_lt h2]; apply/negbTE; rewrite negb_or; apply/andP.
by split; apply/negP => /Z.ltb_lt; Lia.lia.
Qed.

Lemma pr_one ts t v : (t < size ts)%N -> nth Z0 ts t \in inner lo hi -> v \in inner lo hi -> v != nth Z0 ts t ->
  pr (one ts) (pred1 (Some (set_nth Z0 ts t v))) = (size ts)%:R^-1 * qdens (nth Z0 ts t) v.
Proof.
move=> ht hu hv ne; set r := set_nth _ _ _ _.
have neq t' v' : (t' < size ts)%N -> (set_nth Z0 ts t' v' == r) = (t' == t) && (v' == v).
  move=> ht'; apply/eqP/idP => [e|/andP[/eqP-> /eqP->]] //.
  have := congr1 (fun s => nth Z0 s t) e; rewrite /r !nth_set_nth /= !eqxx eq_sym.
  case: eqP => [_ ->|_ e2]; first by rewrite !eqxx.
  by rewrite -e2 eqxx in ne.
rewrite /one (pr_pick (x := t)) ?iota_uniq //; last first.
  move=> t'; rewrite mem_iota add0n => /= ht' net.
  case: ifP => _; first by rewrite pr_ret.
  rewrite pr_bind big1 // => p _; rewrite pr_bind big1 ?mulr0 // => q _.
  by case: ifP => _; rewrite pr_ret /= ?mulr0 // (_ : (Some _ == Some r) = (set_nth Z0 ts t' q.2 == r)) // neq // (negbTE net) mulr0.
rewrite mem_iota add0n ht size_iota mul1r; congr (_ * _).
rewrite inner_outside // pr_bind !big_cons big_nil addr0 /= /qdens; congr (_ * _ + _ * _).
  rewrite pr_bindA (pr_pick (x := Z.sub v (nth Z0 ts t))) ?shifts_uniq //.
    rewrite mem_shifts size_shifts pr_bind big_seq1 mul1r /=.
    have -> : Z.add (Z.sub v (nth Z0 ts t)) (nth Z0 ts t) = v by Lia.lia.
    by rewrite inner_outside // pr_ret /= eqxx mulr1.
  move=> d _ ned; rewrite pr_bind big_seq1 mul1r /=; case: ifP => _; rewrite pr_ret //.
  rewrite /= (_ : (Some _ == Some r) = (set_nth Z0 ts t (Z.add d (nth Z0 ts t)) == r)) // neq // eqxx /=.
  by case: eqP => // e; case/negP: ned; apply/eqP; Lia.lia.
rewrite (pr_pick (x := v)) ?inner_uniq //; first by rewrite hv inner_outside // pr_ret /= eqxx mulr1.
move=> w hw new; rewrite inner_outside // pr_ret /= (_ : (Some _ == Some r) = (set_nth Z0 ts t w == r)) // neq // eqxx.
by rewrite (negbTE new).
Qed.

Lemma qdens_sym u v : u \in inner lo hi -> v \in inner lo hi -> qdens u v = qdens v u.
Proof.
move=> hu hv; rewrite /qdens hu hv; congr (_ * (_%:R / _) + _); congr nat_of_bool.
by congr Z.leb; Lia.lia.
Qed.

(** The proposal to move one time of the worm and its reverse: equal up to the number of tries. *)
Theorem C16_ratio ts t v : (t < size ts)%N -> nth Z0 ts t \in inner lo hi -> v \in inner lo hi -> v != nth Z0 ts t ->
  let ts' := set_nth Z0 ts t v in
  pr (mover_propose K D lo hi ts) (pred1 (Some ts')) * (\sum_(k < size ts) fail ts' ^+ k) =
  pr (mover_propose K D lo hi ts') (pred1 (Some ts)) * (\sum_(k < size ts) fail ts ^+ k).
Proof.
move=> ht hu hv ne ts'.
have sz : size ts' = size ts by rewrite size_set_nth; apply/maxn_idPr.
have e : ts = set_nth Z0 ts' t (nth Z0 ts t).
  apply: (@eq_from_nth _ Z0); first by rewrite size_set_nth sz; symmetry; apply/maxn_idPr.
  by move=> i _; rewrite nth_set_nth /=; case: (eqVneq i t) => [->|/negbTE h] //; rewrite nth_set_nth /= h.
have nt : nth Z0 ts' t = v by rewrite nth_set_nth /= eqxx.
have ht' : (t < size ts')%N by rewrite sz.
have P2 : pr (one ts') (pred1 (Some ts)) = (size ts)%:R^-1 * qdens v (nth Z0 ts t).
  have := @pr_one ts' t (nth Z0 ts t) ht'; rewrite -e nt sz; apply=> //; by rewrite eq_sym.
rewrite /mover_propose !pr_try (pr_one ht) // P2 sz.
rewrite (qdens_sym hu hv); move: (\sum_(k < _) fail ts' ^+ k) (\sum_(k < _) fail ts ^+ k) => a b.
by rewrite -!mulrA; congr (_ * (_ * _)); rewrite mulrC.
Qed.

(** A worm with one independent time: symmetric. *)
Theorem C16_single u v : u \in inner lo hi -> v \in inner lo hi -> v != u ->
  pr (mover_propose K D lo hi [:: u]) (pred1 (Some [:: v])) = pr (mover_propose K D lo hi [:: v]) (pred1 (Some [:: u])).
Proof.
move=> hu hv ne; have := @C16_ratio [:: u] 0 v isT hu hv ne.
by rewrite /= !big_ord1 !expr0 !mulr1.
Qed.

Lemma fail_ge0 ts : 0 <= fail ts.
Proof.
have nnb A B (d : dist K A) (f : A -> dist K B) : (forall p, p \in [seq q.1 | q <- d] -> 0 <= p) -> (forall a p, p \in [seq q.1 | q <- f a] -> 0 <= p) ->
    forall p, p \in [seq q.1 | q <- bind d f] -> 0 <= p.
  move=> h1 h2 p; rewrite /bind map_flatten -map_comp => /flattenP[l].
  elim: d h1 => //= -[c a] d IH h1; rewrite inE => /orP[/eqP->|hl]; last first.
    by apply: IH => // q hq; apply: h1; rewrite inE hq orbT.
  rewrite -map_comp /= (map_comp (fun z => c * z) (fun q : K * B => q.1)) => /mapP[q hq ->].
  by apply: mulr_ge0; [apply: h1; rewrite mem_head|exact: h2 hq].
have nnu A (s : seq A) : forall p, p \in [seq q.1 | q <- unif K s] -> 0 <= p.
  have h0 : 0 <= (size s)%:R^-1 :> K by rewrite invr_ge0 ler0n.
  move=> p; rewrite /unif; move: (_^-1) h0 => c h0; elim: s => //= z s IH.
  by rewrite inE => /orP[/eqP->|].
have nnr A (a : A) : forall p, p \in [seq q.1 | q <- ret K a] -> 0 <= p.
  by move=> p; rewrite inE => /eqP->; exact: ler01.
have nn1 : forall p, p \in [seq q.1 | q <- one ts] -> 0 <= p.
  apply: (nnb _ _ _ _) => [|t]; first exact: (nnu _ _).
  case: ifP => _; first exact: (nnr _ _).
  apply: (nnb _ _ _ _) => [p|c].
    rewrite !inE => /orP[/eqP->|/eqP->]; last by rewrite invr_ge0 ler0n.
    by rewrite mulr_ge0 ?invr_ge0 ?ler0n.
  apply: (nnb _ _ _ _) => [|nt]; last by case: ifP => _; exact: (nnr _ _).
  by case: c; [apply: (nnb _ _ _ _) => [|d]; [exact: (nnu _ _)|exact: (nnr _ _)]|exact: (nnu _ _)].
rewrite /fail /pr; elim: (one ts) nn1 => [|q d IH] h; first by rewrite big_nil.
rewrite big_cons; have h' : 0 <= \sum_(j <- d | pred1 None j.2) j.1 by apply: IH => p hp; apply: h; rewrite inE hp orbT.
by case: ifP => _ //; apply: addr_ge0 => //; apply: h; rewrite mem_head.
Qed.

(** Also symmetric whenever a single try fails with the same probability from both worms. *)
Theorem C16_equal_failure ts t v : (t < size ts)%N -> nth Z0 ts t \in inner lo hi -> v \in inner lo hi -> v != nth Z0 ts t ->
  let ts' := set_nth Z0 ts t v in fail ts = fail ts' ->
  pr (mover_propose K D lo hi ts) (pred1 (Some ts')) = pr (mover_propose K D lo hi ts') (pred1 (Some ts)).
Proof.
move=> ht hu hv ne ts' e; have := @C16_ratio ts t v ht hu hv ne; rewrite /= -/ts' -e.
apply: mulIf; rewrite gt_eqF //.
case: (size ts) ht => // n _; rewrite big_ord_recl expr0.
apply: ltr_paddr; last exact: ltr01.
apply: sumr_ge0 => i _; apply: exprn_ge0; exact: fail_ge0.
Qed.

(** The probability that a try fails. *)
Lemma failE ts : fail ts = (size ts)%:R^-1 * \sum_(u <- ts) (if outside lo hi u then 1
   else 9%:R / 10%:R * ((2 * D + 1)%:R^-1 * (count (fun d => outside lo hi (Z.add d u)) (shifts D))%:R)).
Proof.
rewrite /fail /one pr_unif size_iota; congr (_ * _).
rewrite -[in RHS](mkseq_nth Z0 ts) big_map; apply: eq_bigr => t _.
case: ifP => _; first by rewrite pr_ret.
rewrite pr_bind !big_cons big_nil addr0 /=.
rewrite [X in _ + X](_ : _ = 0) ?addr0.
  congr (_ * _); rewrite pr_bindA -size_shifts -pr_unif0 pr_bind prE; apply: eq_bigr => p _; congr (_ * _).
  by rewrite pr_bind big_seq1 mul1r /=; case: ifP => _; rewrite pr_ret.
rewrite pr_unif big_seq big1 ?mulr0 // => u hu; by rewrite inner_outside // pr_ret.
Qed.

(** WormFlavorChanger *)
Section Flavor.
Variables (F : nat) (y : wtype) (tms : seq Z).
Let upd (f : nat) := all (fun t => ~~ outside lo hi (nth Z0 tms t)) (time_index y f).
Definition hits (g : seq nat) (w2 : worm) : bool := (w_times w2 == tms) && (w_flavors w2 == g).

Lemma pr_change g fl h : size h = size g -> uniq fl -> all (fun f => f < size g)%N fl -> all (fun v => v < F)%N g ->
  pr (change_loop K F y lo hi (MkWorm tms h) fl) (hits g) =
  (all (fun i => ((i \in fl) && upd i) || (nth 0%N g i == nth 0%N h i)) (iota 0 (size g)))%:R * F%:R^-1 ^+ count upd fl.
Proof.
move=> + + + hF; elim: fl h => [|f fl IH] h hs.
  move=> _ _; rewrite /= pr_ret mulr1 /hits eqxx /=; congr (_%:R); congr nat_of_bool.
  apply/eqP/allP => [-> i _|e]; first by rewrite eqxx.
  apply: (@eq_from_nth _ 0%N) => // i hi2; apply/eqP; rewrite eq_sym.
  by apply: e; rewrite mem_iota add0n -hs.
move=> /= /andP[nf uf] /andP[hf hfl]; rewrite /get_time /= -/(upd f).
case: ifP => uf1; last first.
  rewrite IH // add0n; congr (_%:R * _); congr nat_of_bool; apply: eq_all => i; rewrite inE.
  by case: (eqVneq i f) => [->|] //=; rewrite uf1 andbF.
rewrite add1n exprS /set_flavor /=.
have szs v : size (set_nth 0%N h f v) = size g by rewrite size_set_nth; rewrite hs; apply/maxn_idPr.
rewrite (pr_pick (x := nth 0%N g f)) ?iota_uniq //; last first.
  move=> v _ ne; rewrite IH //.
  suff -> : all (fun i => (i \in fl) && upd i || (nth 0%N g i == nth 0%N (set_nth 0%N h f v) i)) (iota 0 (size g)) = false by rewrite mul0r.
  apply/negbTE/allPn; exists f; first by rewrite mem_iota.
  by rewrite (negbTE nf) nth_set_nth /= eqxx eq_sym.
rewrite mem_iota add0n size_iota IH // (allP hF) ?mem_nth // mul1r mulrCA; congr (_%:R * _); congr nat_of_bool.
apply: eq_all => i; rewrite inE nth_set_nth /=; case: (eqVneq i f) => [->|] //=.
by rewrite uf1 eqxx orbT.
Qed.

Theorem C16_flavor g h : size g = n_flavors y -> size h = n_flavors y ->
  all (fun v => v < F)%N g -> all (fun v => v < F)%N h ->
  pr (change_propose K F y lo hi (MkWorm tms h)) (fun o => if o is Some w then hits g w else false) =
  pr (change_propose K F y lo hi (MkWorm tms g)) (fun o => if o is Some w then hits h w else false).
Proof.
move=> sg sh Fg Fh.
have key g1 h1 : size g1 = n_flavors y -> size h1 = n_flavors y -> all (fun v => v < F)%N g1 ->
    pr (change_propose K F y lo hi (MkWorm tms h1)) (fun o => if o is Some w then hits g1 w else false) =
    (h1 != g1)%:R * ((all (fun i => upd i || (nth 0%N g1 i == nth 0%N h1 i)) (iota 0 (n_flavors y)))%:R * F%:R^-1 ^+ count upd (iota 0 (n_flavors y))).
  move=> s1 s2 F1; rewrite /change_propose pr_bind.
  have -> : \sum_(p <- change_loop K F y lo hi (MkWorm tms h1) (iota 0 (n_flavors y)))
     p.1 * pr (if worm_eqb y (MkWorm tms h1) y p.2 then ret K None else ret K (Some p.2)) (fun o : option worm => if o is Some w then hits g1 w else false)
    = pr (change_loop K F y lo hi (MkWorm tms h1) (iota 0 (n_flavors y))) (fun w => (h1 != g1) && hits g1 w).
    rewrite prE; apply: eq_bigr => -[p [t2 f2]] _ /=; congr (_ * _).
    rewrite /hits /=; case: (eqVneq t2 tms) => [->|n1] /=; last by rewrite andbF; case: ifP => _; rewrite pr_ret //= (negbTE n1).
    case: (eqVneq f2 g1) => [->|n1] /=; last by rewrite andbF; case: ifP => _; rewrite pr_ret //= (negbTE n1) andbF.
    rewrite andbT; have -> : worm_eqb y (MkWorm tms h1) y (MkWorm tms g1) = (h1 == g1).
      rewrite /worm_eqb /get_time /get_flavor /=.
      have -> : (match y with CorrelationWorm a => match y with CorrelationWorm b => a == b | _ => false end
                | GWorm a => match y with GWorm b => a == b | _ => false end
                | EqualTimeGWorm a => match y with EqualTimeGWorm b => a == b | _ => false end end) = true by case: (y) => n; rewrite eqxx.
      rewrite (_ : all _ (iota 0 (n_times y)) = true) /=; last by apply/allP => i _; exact: Z.eqb_refl.
      apply/allP/eqP => [e|-> i _]; last by [].
      apply: (@eq_from_nth _ 0%N) => [|i hi2]; first by rewrite s2.
      by apply/eqP/e; rewrite mem_iota add0n -s2.
    by case: (h1 == g1); rewrite pr_ret //= !eqxx.
  rewrite pr_andl pr_change ?iota_uniq ?s1 //; last by apply/allP => i; rewrite mem_iota.
  congr (_ * (_%:R * _)); congr nat_of_bool; apply: eq_in_all => i; by rewrite mem_iota => /= ->.
rewrite !key // eq_sym; congr (_ * (_%:R * _)); congr nat_of_bool; apply: eq_all => i.
by rewrite [nth _ g i == _]eq_sym.
Qed.
End Flavor.
End C16.

(** With two independent times the claim of C16 fails: a failed try is repeated, and the number of tries that
    fail depends on the configuration. *)
Theorem C16_refuted : let K := rat_realFieldType in
  exists (D : nat) (lo hi : Z) (ts ts' : seq Z),
    [/\ all (fun t => t \in inner lo hi) (ts ++ ts'), size ts = size ts' &
        pr (mover_propose K D lo hi ts) (pred1 (Some ts')) <> pr (mover_propose K D lo hi ts') (pred1 (Some ts))].
Proof.
exists 2%N, (Z.of_nat 0), (Z.of_nat 4), [:: Z.of_nat 2; Z.of_nat 2], [:: Z.of_nat 1; Z.of_nat 2].
split=> // e.
have := @C16_ratio rat_realFieldType 2 (Z.of_nat 0) (Z.of_nat 4) [:: Z.of_nat 2; Z.of_nat 2] 0 (Z.of_nat 1) isT isT isT isT.
have p0 : pr (mover_propose rat_realFieldType 2 (Z.of_nat 0) (Z.of_nat 4) [:: Z.of_nat 1; Z.of_nat 2]) (pred1 (Some [:: Z.of_nat 2; Z.of_nat 2])) != 0.
  have := @pr_one rat_realFieldType 2 (Z.of_nat 0) (Z.of_nat 4) [:: Z.of_nat 1; Z.of_nat 2] 0 (Z.of_nat 2) isT isT isT isT.
  rewrite /mover_propose pr_try /= => ->.
  by rewrite failE !big_cons big_nil !big_ord_recl big_ord0 /qdens; vm_compute.
rewrite /= e => /(mulfI p0).
by rewrite !failE !big_cons !big_nil !big_ord_recl !big_ord0 => /eqP; vm_compute.
Qed.

Example C16_instance : 
  pr (mover_propose rat_realFieldType 1 (Z.of_nat 0) (Z.of_nat 4) [:: Z.of_nat 2]) (pred1 (Some [:: Z.of_nat 1])) = 1 / 3%:R :> rat.
Proof.
have := @pr_one rat_realFieldType 1 (Z.of_nat 0) (Z.of_nat 4) [:: Z.of_nat 2] 0 (Z.of_nat 1) isT isT isT isT.
rewrite /mover_propose pr_try => ->; apply/eqP; by vm_compute.
Qed.
Print Assumptions C15_symmetric.
Print Assumptions C15_ratio.
Print Assumptions C15_refuted.
Print Assumptions C15_pair_flavor.
Print Assumptions C16_ratio.
Print Assumptions C16_single.
Print Assumptions C16_equal_failure.
Print Assumptions C16_flavor.
Print Assumptions C16_refuted.
