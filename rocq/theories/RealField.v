(** * RealField: the real numbers of the standard library as a field of mathcomp

    No code is modelled here.  The standard library's R is given the structures of mathcomp up to the real closed fields, so that
    the theorems about models over an arbitrary field of that kind, or over its algebraic closure R[i], apply to R and to the
    complex numbers.  The choice structure uses the standard library's axiom of indefinite description. *)
From Coq Require Import Reals ClassicalEpsilon FunctionalExtensionality Lra.
From mathcomp Require Import all_ssreflect all_algebra.
Set Implicit Arguments.
Unset Strict Implicit.
Unset Printing Implicit Defensive.
Import Order.Theory GRing.Theory Num.Theory.
Delimit Scope ring_scope with Ri.
Local Open Scope R_scope.

Definition eqr (x y : R) : bool := if Req_EM_T x y then true else false.
Lemma eqrP : Equality.axiom eqr.
Proof. by move=> x y; rewrite /eqr; case: Req_EM_T => h; constructor. Qed.
Definition R_eqMixin := EqMixin eqrP.
Canonical R_eqType := EqType R R_eqMixin.

Definition pickR (P : pred R) (n : nat) : option R :=
  let x := epsilon (inhabits 0) (fun x => P x) in if P x then Some x else None.
Lemma pickR_some P n x : pickR P n = Some x -> P x.
Proof. by rewrite /pickR; case e: (P _) => // -[<-]. Qed.
Lemma pickR_ex (P : pred R) : (exists x : R, P x) -> exists n, pickR P n.
Proof. by move=> h; exists 0%N; rewrite /pickR (epsilon_spec (inhabits 0) (fun x => P x) h). Qed.
Lemma pickR_ext (P Q : pred R) : P =1 Q -> pickR P =1 pickR Q.
Proof. by move=> h n; rewrite /pickR (functional_extensionality _ _ h). Qed.
Definition R_choiceMixin : choiceMixin R := Choice.Mixin pickR_some pickR_ex pickR_ext.
Canonical R_choiceType := ChoiceType R R_choiceMixin.

Lemma RplusA : associative Rplus. Proof. by move=> *; rewrite Rplus_assoc. Qed.
Definition R_zmodMixin := ZmodMixin RplusA Rplus_comm Rplus_0_l Rplus_opp_l.
Canonical R_zmodType := ZmodType R R_zmodMixin.
Lemma RmultA : associative Rmult. Proof. by move=> *; rewrite Rmult_assoc. Qed.
Lemma R10 : R1 != R0 :> R. Proof. by apply/eqP; exact: R1_neq_R0. Qed.
Definition R_ringMixin := RingMixin RmultA Rmult_1_l Rmult_1_r Rmult_plus_distr_r Rmult_plus_distr_l R10.
Canonical R_ringType := Eval hnf in RingType R R_ringMixin.
Canonical R_comRingType := Eval hnf in ComRingType R Rmult_comm.
Definition invR (x : R) : R := if eqr x 0 then 0 else / x.
Lemma mulVR (x : R) : x != 0 :> R -> invR x * x = 1.
Proof. by move=> h; rewrite /invR; case: eqrP => [e|h']; [move: h; rewrite e eqxx|rewrite Rinv_l]. Qed.
Lemma invR0 : invR 0 = 0. Proof. by rewrite /invR; case: eqrP. Qed.
Definition R_unitMixin := FieldUnitMixin mulVR invR0.
Canonical R_unitRing := Eval hnf in UnitRingType R R_unitMixin.
Canonical R_comUnitRingType := Eval hnf in [comUnitRingType of R].
Lemma R_fieldMixin : GRing.Field.mixin_of R_unitRing. Proof. exact. Qed.
Canonical R_idomainType := Eval hnf in IdomainType R (FieldIdomainMixin R_fieldMixin).
Canonical R_fieldType := Eval hnf in FieldType R R_fieldMixin.

Definition Rleb (x y : R) : bool := if Rle_dec x y then true else false.
Definition Rltb (x y : R) : bool := (y != x) && Rleb x y.
Lemma RlebP x y : reflect (x <= y) (Rleb x y).
Proof. by rewrite /Rleb; case: Rle_dec => h; constructor. Qed.
Lemma Rle_add x y : Rleb 0 x -> Rleb 0 y -> Rleb 0 (x + y).
Proof. by move=> /RlebP h1 /RlebP h2; apply/RlebP; lra. Qed.
Lemma Rle_mul x y : Rleb 0 x -> Rleb 0 y -> Rleb 0 (x * y).
Proof. by move=> /RlebP h1 /RlebP h2; apply/RlebP; exact: Rmult_le_pos. Qed.
Lemma Rle_anti x : Rleb 0 x -> Rleb x 0 -> x = 0.
Proof. by move=> /RlebP h1 /RlebP h2; lra. Qed.
Lemma Rsub_ge0 x y : Rleb 0 (y + - x) = Rleb x y.
Proof. by apply/RlebP/RlebP; lra. Qed.
Lemma Rle_total x : Rleb 0 x || Rleb x 0.
Proof. by apply/orP; case: (Rle_dec 0 x) => h; [left|right]; apply/RlebP; lra. Qed.
Lemma Rnorm_pos x : Rleb 0 x -> Rabs x = x.
Proof. by move=> /RlebP h; rewrite Rabs_pos_eq. Qed.
Definition R_leMixin : realLeMixin R_idomainType :=
  RealLeMixin Rle_add Rle_mul Rle_anti Rsub_ge0 Rle_total Rabs_Ropp Rnorm_pos (fun x y => erefl (Rltb x y)).
Canonical R_porderType := POrderType ring_display R R_leMixin.
Canonical R_latticeType := LatticeType R R_leMixin.
Canonical R_distrLatticeType := DistrLatticeType R R_leMixin.
Lemma R_total : totalPOrderMixin R_porderType.
Proof. by move=> x y; apply/orP; case: (Rle_dec x y) => h; [left|right]; apply/RlebP; lra. Qed.
Canonical R_orderType := OrderType R R_total.
Canonical R_numDomainType := NumDomainType R R_leMixin.
Canonical R_normedZmodType := NormedZmodType R R R_leMixin.
Canonical R_numFieldType := [numFieldType of R].
Canonical R_realDomainType := [realDomainType of R].
Canonical R_realFieldType := [realFieldType of R].

(** The operations of mathcomp are those of the standard library *)
Lemma RaddE (x y : R) : (x + y)%Ri = x + y. Proof. by []. Qed.
Lemma RoppE (x : R) : (- x)%Ri = - x. Proof. by []. Qed.
Lemma RmulE (x y : R) : (x * y)%Ri = x * y. Proof. by []. Qed.
Lemma R1E : 1%Ri = 1 :> R. Proof. by []. Qed.
Lemma R0E : 0%Ri = 0 :> R. Proof. by []. Qed.
Lemma RinvE (x : R) : x <> 0 -> (x^-1)%Ri = / x.
Proof. by move=> h; rewrite /GRing.inv /= /invR; case: eqrP. Qed.
Lemma RleP (x y : R) : reflect (x <= y) (x <= y)%Ri.
Proof. exact: RlebP. Qed.
Lemma RltP (x y : R) : reflect (x < y) (x < y)%Ri.
Proof.
rewrite lt_neqAle; apply: (iffP andP) => [[/eqP ne /RleP h]|h]; first by lra.
by split; [apply/eqP; lra|apply/RleP; lra].
Qed.
Lemma RnatE (n : nat) : (n%:R)%Ri = INR n.
Proof. by elim: n => [|n ih] //; rewrite -[in LHS]addn1 natrD ih S_INR. Qed.

Lemma horner_continuous (p : {poly R}) : continuity (fun x => horner p x).
Proof.
elim/poly_ind: p => [|p c ih].
  by apply: (continuity_const); move=> x y; rewrite !horner0.
have -> : (fun x => (p * 'X + c%:P)%Ri.[x]%Ri) = plus_fct (mult_fct (fun x => horner p x) id) (fct_cte c).
  by apply: functional_extensionality => x; rewrite hornerMXaddC.
apply: continuity_plus; last exact: continuity_const.
by apply: continuity_mult => //; exact: (derivable_continuous _ derivable_id).
Qed.
Lemma R_ivt : Num.real_closed_axiom R_numDomainType.
Proof.
move=> p a b /RleP ab /andP[/RleP pa /RleP pb].
have hc := horner_continuous p.
have hm : horner p a * horner p b <= 0.
  by have := Rmult_le_pos (- horner p a) (horner p b); rewrite R0E in pa pb; lra.
have [x [[h1 h2] h3]] := IVT_cor _ a b hc ab hm.
by exists x; [apply/andP; split; apply/RleP|apply/rootP].
Qed.
Canonical R_rcfType := RcfType R R_ivt.
Lemma R_archi : Num.archimedean_axiom R_numDomainType.
Proof.
move=> x; have [h _] := archimed (Rabs x); exists (Z.to_nat (up (Rabs x))); apply/RltP; rewrite RnatE.
have up0 : Z.le 0 (up (Rabs x)) by apply: le_IZR; have := Rabs_pos x; lra.
by rewrite INR_IZR_INZ Z2Nat.id.
Qed.
Canonical R_archiFieldType := ArchiFieldType R R_archi.
