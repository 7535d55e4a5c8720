(** * C41: the operators of a worm

    src/worm.hpp, src/worm.ipp, modelled in Worm.v. The specification gives the j-th operator
    of a worm of each type directly. *)
From Coq Require Import ZArith List Lia.
From mathcomp Require Import all_ssreflect.
From Verif Require Import OpContainer Dist Proposal Worm.
Set Implicit Arguments.
Unset Strict Implicit.
Unset Printing Implicit Defensive.
Local Close Scope Z_scope.
Local Open Scope nat_scope.

(** The correlation function a worm type stands for: the type of its j-th operator, the time it sits
    at, and its rank among the operators at that time (larger = further left in the time-ordered
    product). *)
Definition spec_type (y : wtype) (j : nat) : optype :=
  match y with
  | GWorm _ => if odd j then CREATION_OP else ANNIHILATION_OP     (* c c^dag, c c^dag, ... *)
  | _ => if odd j then ANNIHILATION_OP else CREATION_OP           (* c^dag c, c^dag c, ... *)
  end.
Definition spec_time (y : wtype) (j : nat) : nat :=
  match y with CorrelationWorm _ => j./2 | GWorm _ => j | EqualTimeGWorm _ => 0 end.
Definition spec_small (y : wtype) (j : nat) : nat :=
  match y with CorrelationWorm _ => ~~ odd j | GWorm _ => 0 | EqualTimeGWorm r => 2 * r - 1 - j end.

Lemma nth_pairs (A : Type) (x0 : A) (a b : nat -> A) n m j : j < 2 * n ->
  nth x0 (flatten [seq [:: a it; b it] | it <- iota m n]) j = if odd j then b (m + j./2) else a (m + j./2).
Proof.
elim: n m j => [|n IH] m j; first by rewrite muln0.
rewrite mulnS => hj; case: j hj => [|[|j]] hj /=; rewrite ?addn0 //.
by rewrite IH ?negbK // ?addSnnS.
Qed.
Lemma size_pairs (A : Type) (a b : nat -> A) n m :
  size (flatten [seq [:: a it; b it] | it <- iota m n]) = 2 * n.
Proof. by elim: n m => [|n IH] m //=; rewrite IH mulnS. Qed.
Lemma half2 j : 2 * j./2 + odd j = j.
Proof. by rewrite mul2n addnC odd_double_half. Qed.

Theorem C41_operators y w j : j < n_flavors y ->
  size (get_operators y w) = n_flavors y /\
  nth psi0 (get_operators y w) j =
    Psi (OT (get_time w (spec_time y j)) (Z.of_nat (spec_small y j))) (spec_type y j) (get_flavor w j) /\
  time_index y j = [:: spec_time y j].
Proof.
case: y => n /= hj; rewrite size_pairs; split=> //.
- rewrite nth_pairs // add0n; have h := half2 j; split; last by rewrite divn2.
  by case: (odd j) h => /= h; rewrite ?addn0 in h; rewrite h.
- rewrite nth_pairs // add0n; have h := half2 j; split=> //.
  by case: (odd j) h => /= h; rewrite ?addn0 in h; rewrite h.
- rewrite nth_pairs // add0n; have h := half2 j; split=> //.
  case: (odd j) h => /= h; rewrite ?addn0 in h; rewrite h //.
  by congr (Psi (OT _ (Z.of_nat _)) _ _); rewrite -[in RHS]h subnDA.
Qed.
Print Assumptions C41_operators.

(** Different independent times give different operator times. *)
Theorem C41_distinct_times y w : wf_worm y w -> uniq (w_times w) ->
  uniq [seq p_time x | x <- get_operators y w].
Proof.
move=> /andP[/eqP st /eqP sf] ut.
case h0: (n_flavors y) => [|m].
  have -> : get_operators y w = [::]; last by [].
  by case: y h0 {st sf} => n /=; case: n.
have sz : size (get_operators y w) = n_flavors y by have [] := @C41_operators y w 0; rewrite ?h0.
apply/(uniqP (OT 0 0)) => i j; rewrite !inE size_map sz => hi hj.
rewrite !(nth_map psi0) ?sz //.
have [_ [-> _]] := C41_operators w hi; have [_ [-> _]] := C41_operators w hj.
move=> [et es].
have lt k : k < n_flavors y -> spec_time y k < n_times y.
  case: (y) => n //= hk; by rewrite -divn2 ltn_divLR // mulnC.
have es' : spec_small y i = spec_small y j by apply: Nat2Z.inj.
have eti : spec_time y i = spec_time y j.
  have /(uniqP 0%Z) := ut; apply; rewrite ?inE ?st ?lt //; exact: et.
case: (y) hi hj eti es' => n /= hi hj.
- move=> e1 e2; rewrite -(half2 i) -(half2 j) e1; congr (_ + _).
  by case: (odd i) (odd j) e2 => -[].
- by [].
- move=> _ e.
  have a1 : i <= 2 * n - 1 by rewrite -ltnS; case: (n) hi hj => [|n'] hi hj //; rewrite subn1 prednK.
  have a2 : j <= 2 * n - 1 by rewrite -ltnS; case: (n) hi hj => [|n'] hi hj //; rewrite subn1 prednK.
  by rewrite -(subKn a1) e subKn.
Qed.
Print Assumptions C41_distinct_times.

(** Time ordering inside the worm: at equal time the operators stand, from left to right, in the
    order of the list (c^dag c in a two-time worm, c^dag c c^dag c ... in an equal-time worm). *)
Theorem C41_order y w i j : i < j < n_flavors y -> spec_time y i = spec_time y j ->
  ot_lt (p_time (nth psi0 (get_operators y w) j)) (p_time (nth psi0 (get_operators y w) i)).
Proof.
move=> /andP[hij hj] e; have hi := ltn_trans hij hj.
have [_ [-> _]] := C41_operators w hi; have [_ [-> _]] := C41_operators w hj.
rewrite /= /ot_lt /= e Z.eqb_refl; apply/Z.ltb_lt/Nat2Z.inj_lt/ltP.
case: (y) hi hj e => n /= hi hj.
- move=> e; case oi: (odd i); case oj: (odd j) => //=; exfalso; move: hij; rewrite -(half2 i) -(half2 j) e oi oj.
  + by rewrite ltnn.
  + by rewrite addn0 ltnNge leq_addr.
  + by rewrite ltnn.
- by move=> e; rewrite e ltnn in hij.
- move=> _; move: hij hj => /ltP hij /ltP hj; apply/ltP; rewrite -?minusE -?multE in hj *; lia.
Qed.
Print Assumptions C41_order.

(** Setting a time moves exactly the operators attached to it; setting a flavor changes exactly one. *)
Theorem C41_set_time y w i t j : wf_worm y w -> i < n_times y -> j < n_flavors y ->
  wf_worm y (set_time w i t) /\
  nth psi0 (get_operators y (set_time w i t)) j =
    let x := nth psi0 (get_operators y w) j in
    if i \in time_index y j then Psi (OT t (ot_small (p_time x))) (p_type x) (p_flavor x) else x.
Proof.
move=> /andP[/eqP st /eqP sf] hi hj; split.
  by rewrite /wf_worm /= size_set_nth st sf (maxn_idPr hi) !eqxx.
have [_ [-> ->]] := C41_operators w hj; have [_ [-> _]] := C41_operators (set_time w i t) hj.
by rewrite /= inE /get_time /= nth_set_nth /= eq_sym; case: eqP.
Qed.
Theorem C41_set_flavor y w i f j : wf_worm y w -> i < n_flavors y -> j < n_flavors y ->
  wf_worm y (set_flavor w i f) /\
  nth psi0 (get_operators y (set_flavor w i f)) j =
    let x := nth psi0 (get_operators y w) j in
    if j == i then Psi (p_time x) (p_type x) f else x.
Proof.
move=> /andP[/eqP st /eqP sf] hi hj; split.
  by rewrite /wf_worm /= size_set_nth st sf (maxn_idPr hi) !eqxx.
have [_ [-> _]] := C41_operators w hj; have [_ [-> _]] := C41_operators (set_flavor w i f) hj.
by rewrite /= /get_flavor /= nth_set_nth /=; case: eqP.
Qed.
Print Assumptions C41_set_time.
Print Assumptions C41_set_flavor.

(** Comparison of worms is equality of type, times and flavors. *)
Theorem C41_worm_eq y1 w1 y2 w2 : wf_worm y1 w1 -> wf_worm y2 w2 ->
  worm_eqb y1 w1 y2 w2 = true <-> y1 = y2 /\ w1 = w2.
Proof.
move=> /andP[/eqP t1 /eqP f1] /andP[/eqP t2 /eqP f2]; split; last first.
  case=> <- <-; rewrite /worm_eqb.
  have -> : all (fun t => Z.eqb (get_time w1 t) (get_time w1 t)) (iota 0 (n_times y1)).
    by apply/allP => t _; rewrite Z.eqb_refl.
  have -> : all (fun f => get_flavor w1 f == get_flavor w1 f) (iota 0 (n_flavors y1)) by apply/allP.
  by case: (y1) => n; rewrite eqxx.
rewrite /worm_eqb => /andP[/andP[ht /allP hT] /allP hF].
have e : y1 = y2 by case: (y1) (y2) ht => [a|a|a] [b|b|b] //= /eqP ->.
split=> //; rewrite -e in t2 f2.
case: w1 w2 t1 f1 t2 f2 hT hF => T1 F1 [T2 F2] /= t1 f1 t2 f2 hT hF; congr MkWorm.
- apply: (@eq_from_nth _ 0%Z); first by rewrite t1 t2.
  move=> i hi; have := hT i; rewrite mem_iota add0n -t1 => /(_ hi); by move/Z.eqb_eq.
- apply: (@eq_from_nth _ 0); first by rewrite f1 f2.
  move=> i hi; have := hF i; rewrite mem_iota add0n -f1 => /(_ hi); by move/eqP.
Qed.
Print Assumptions C41_worm_eq.

(** The range test looks at every operator of the worm. *)
Theorem C41_in_range y w lo hi : 0 < n_flavors y ->
  is_worm_in_range y w lo hi = true <->
  forall j, j < n_flavors y -> (lo <= ot_time (p_time (nth psi0 (get_operators y w) j)) <= hi)%Z.
Proof.
move=> h0; split.
- move=> /allP h j hj; have [_ [-> _]] := C41_operators w hj; rewrite /=.
  have := h (spec_time y j); rewrite mem_iota add0n.
  have -> : spec_time y j < n_times y by case: (y) hj => n //= hk; rewrite -divn2 ltn_divLR // mulnC.
  move=> /(_ isT); rewrite negb_or => /andP[/Z.ltb_spec0 h1 /Z.ltb_spec0 h2]; lia.
- move=> h; apply/allP => t; rewrite mem_iota add0n => ht.
  have [j hj ej] : exists2 j, j < n_flavors y & spec_time y j = t.
    case: (y) ht h0 => n /= ht h0.
    + by exists t.*2; [rewrite mul2n ltn_double|rewrite doubleK].
    + by exists t.
    + by exists 0 => //; case: t ht.
  have := h _ hj; have [_ [-> _]] := C41_operators w hj; rewrite /= ej => -[h1 h2].
  by rewrite negb_or; apply/andP; split; apply/negP => /Z.ltb_lt; lia.
Qed.
Print Assumptions C41_in_range.

(** A two-particle worm with two different times. *)
Example C41_example : exists w, wf_worm (CorrelationWorm 2) w /\ uniq (w_times w) /\
  get_operators (CorrelationWorm 2) w =
  [:: Psi (OT 5 1) CREATION_OP 0; Psi (OT 5 0) ANNIHILATION_OP 1; Psi (OT 7 1) CREATION_OP 2; Psi (OT 7 0) ANNIHILATION_OP 3].
Proof. by exists (MkWorm [:: 5%Z; 7%Z] [:: 0; 1; 2; 3]). Qed.
Example C41_example_eq : get_operators (EqualTimeGWorm 2) (MkWorm [:: 5%Z] [:: 0; 1; 2; 3]) =
  [:: Psi (OT 5 3) CREATION_OP 0; Psi (OT 5 2) ANNIHILATION_OP 1; Psi (OT 5 1) CREATION_OP 2; Psi (OT 5 0) ANNIHILATION_OP 3].
Proof. by []. Qed.
