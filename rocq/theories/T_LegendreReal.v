(** * C70 for the real numbers: coefficients, G(tau) and the tail correction in terms of integrals *)
From Coq Require Import Reals Lra FunctionalExtensionality.
From Coquelicot Require Import Hierarchy Derive RInt Continuity RInt_analysis.
From mathcomp Require Import all_ssreflect all_algebra complex.
From Verif Require Import RealField Legendre T_Legendre Postprocess T_Postprocess Matsubara T_Matsubara T_MatsubaraReal T_LegendreOrtho.
Set Implicit Arguments.
Unset Strict Implicit.
Unset Printing Implicit Defensive.
Import Order.Theory GRing.Theory Num.Theory.
Delimit Scope ring_scope with Ri.
Delimit Scope R_scope with coqR.
Local Open Scope R_scope.
Local Notation C := (complex R).

(** G(tau) from its coefficients, and the basis functions *)
Definition basis (beta : R) (l : nat) (tau : R) : C := (sqrtC (2%:R * l%:R + 1) * horner (rodrigues _ l) (rc (2 * tau / beta - 1)%coqR))%Ri.
Definition gsum (beta : R) (nl : nat) (G : nat -> C) (tau : R) : C := (\sum_(l < nl) G l / rc beta * basis beta l tau)%Ri.

Lemma real_definite (beta : R) : definite 0%Ri (rc beta) (fun p => integral (fun t => horner p (rc t)) 0 beta).
Proof.
have e p : integral (fun t => horner p (rc t)) 0 beta = trans 0 beta p.
  rewrite /trans; congr integral; apply: functional_extensionality => t.
  by rewrite (_ : cis _ = 1%Ri) ?mul1r // /cis Rmult_0_l cos_0 sin_0.
split=> [p q|c p|p]; rewrite !e; [exact: trans_D|exact: trans_Z|rewrite !transE re_parts im_parts].
have e0 : horner p 0%Ri = Complex (rp p 0) (ip p 0) by rewrite /rp /ip (_ : rc 0 = 0%Ri) //; case: (horner p _).
have eb : horner p (rc beta) = Complex (rp p beta) (ip p beta) by rewrite /rp /ip; case: (horner p _).
rewrite e0 eb /re_i /im_i !Rmult_0_l sin_0 cos_0 /GRing.opp /= /GRing.add /=.
congr Complex; rewrite /GRing.add /GRing.opp /=; lra.
Qed.
Lemma rc_conj (x : R) : ((rc x)^*)%Ri = rc x.
Proof.
have [h|h] := Rle_lt_dec 0 x.
  by apply: geC0_conj; rewrite lecE /= eqxx; apply/RleP.
have e : rc x = (- rc (- x))%Ri by rewrite -rcN Ropp_involutive.
by rewrite e rmorphN; congr (- _)%Ri; apply: geC0_conj; rewrite lecE /= eqxx; apply/RleP; rewrite R0E; lra.
Qed.
Lemma leg_conj l (x : R) : ((horner (rodrigues _ l) (rc x))^*)%Ri = horner (rodrigues (Num.ClosedField.numFieldType (complex_numClosedFieldType _)) l) (rc x) :> C.
Proof.
suff: forall k, ((horner (rodrigues _ k) (rc x))^* = horner (rodrigues _ k) (rc x) :> C)%Ri /\ ((horner (rodrigues _ k.+1) (rc x))^* = horner (rodrigues _ k.+1) (rc x) :> C)%Ri.
  by move=> h; case: (h l).
elim=> [|k [ih1 ih2]]; first by rewrite P0 P1 hornerC hornerX rc_conj rmorph1.
split=> //; rewrite P_eval_rec rmorphM rmorphB !rmorphM ih1 ih2 !conjC_nat rc_conj !div1r fmorphV conjC_nat conjC1 div1r //.
Qed.
Lemma basis_conj beta l tau : ((basis beta l tau)^*)%Ri = basis beta l tau.
Proof.
rewrite /basis rmorphM leg_conj; congr (_ * _)%Ri; apply: geC0_conj.
by rewrite sqrtC_ge0 -natrM -(natrD _ _ 1) ler0n.
Qed.
Section Real.
Variables (beta : R) (nl : nat).
Hypothesis b0 : beta <> 0.
Lemma bn : (rc beta != 0)%Ri. Proof. by rewrite rc0; apply/eqP. Qed.
Lemma basisE l tau : horner (sq _ l *: Q (rc beta) l)%Ri (rc tau) = basis beta l tau.
Proof.
rewrite hornerZ /basis /sq /Q horner_comp; congr (_ * horner _ _)%Ri.
rewrite /arg hornerD hornerN hornerZ hornerX hornerC /Rminus rcD rcN rc1 rc_div // rcM rc2; congr (_ - _)%Ri.
by rewrite mulrAC.
Qed.
Lemma gsumE G tau : horner (gpoly (rc beta) nl G) (rc tau) = gsum beta nl G tau.
Proof.
rewrite /gpoly /gsum horner_sum; apply: eq_bigr => l _; rewrite -basisE !hornerZ mulrA; congr (_ * _)%Ri.
by rewrite mulrAC.
Qed.
Lemma gsum_conj G tau : ((gsum beta nl G tau)^* = gsum beta nl (fun l => (G l)^*) tau)%Ri.
Proof. by rewrite /gsum rmorph_sum; apply: eq_bigr => l _; rewrite rmorphM basis_conj rmorphM fmorphV rc_conj. Qed.
Lemma gsumB G H tau : (gsum beta nl H tau - gsum beta nl G tau = gsum beta nl (fun l => H l - G l) tau)%Ri.
Proof. by rewrite /gsum -sumrB; apply: eq_bigr => l _; rewrite -mulrBl -mulrBl. Qed.

(** C70_real_coefficients: for every beta other than zero, every number of coefficients and all complex coefficients, the integral of the
    basis function with which coefficient l is measured times G(tau) is the coefficient, and zero for higher l *)
Theorem C70_real_coefficients (G : nat -> C) l :
  integral (fun tau => basis beta l tau * gsum beta nl G tau)%Ri 0 beta = if (l < nl)%N then G l else 0%Ri.
Proof.
rewrite -(C70_coefficients bn (real_definite beta) nl G l); congr integral; apply: functional_extensionality => tau.
by rewrite hornerM basisE gsumE.
Qed.
(** C70_real_norm: the integrated squared distance of two functions G(tau) is that of the coefficients over beta *)
Theorem C70_real_norm (G H : nat -> C) :
  integral (fun tau => `|gsum beta nl H tau - gsum beta nl G tau| ^+ 2)%Ri 0 beta = ((\sum_(l < nl) `|H l - G l| ^+ 2) / rc beta)%Ri.
Proof.
rewrite (eq_bigr (fun l : 'I_nl => (H l - G l) * (H l - G l)^*)%Ri) => [|l _]; last by rewrite normCK.
rewrite -(C70_norm bn (real_definite beta) nl (fun l => (H l - G l)^*)%Ri (fun l => H l - G l)%Ri).
congr integral; apply: functional_extensionality => tau.
by rewrite hornerM !gsumE normCK gsumB gsum_conj.
Qed.
End Real.
(** C70_real_least: for every positive beta, the function built from the corrected coefficients is, among all functions built from the
    same number of coefficients whose values at 0 and beta add up to minus one on the diagonal and to zero off it, the one with the smallest
    integrated squared distance from the measured one *)
Theorem C70_real_least (beta : R) (nf nl f1 f2 : nat) (G : arr3 _) (H : nat -> C) : 0 < beta -> (0 < nl)%N -> (f1 < nf)%N -> (f2 < nf)%N ->
  (gsum beta nl H 0 + gsum beta nl H beta = - (f1 == f2)%:R)%Ri ->
  let Gc := correct_G1_tail (rc beta) nf nl G f1 f2 in
  (gsum beta nl Gc 0 + gsum beta nl Gc beta = - (f1 == f2)%:R)%Ri /\
  (integral (fun tau => `|gsum beta nl Gc tau - gsum beta nl (G f1 f2) tau| ^+ 2) 0%coqR beta <=
   integral (fun tau => `|gsum beta nl H tau - gsum beta nl (G f1 f2) tau| ^+ 2) 0%coqR beta)%Ri.
Proof.
move=> bp h0 h1 h2 hj Gc; have b0 : beta <> 0 by lra.
have jump (A : nat -> C) : (gsum beta nl A 0 + gsum beta nl A beta = - ((\sum_(l < nl) tl1 _ l * A l) / rc beta))%Ri.
  rewrite /gsum -big_split /= mulr_suml -sumrN; apply: eq_bigr => l _.
  rewrite -mulrDr; have -> : (basis beta l 0 + basis beta l beta = - tl1 _ l)%Ri.
    rewrite /basis (_ : 2 * 0 / beta - 1 = -1); last by field.
    rewrite (_ : 2 * beta / beta - 1 = 1); last by field.
    rewrite rcN !rc1 P_parity !P_at_one mulr1 mulr1 /tl1 modn2 -signr_odd.
    case: (odd l); rewrite /= ?expr1 ?expr0 ?mulrN1 ?mulr1; first by rewrite addrC subrr oppr0.
    by rewrite mulNr opprK -mulr2n -[LHS]mulr_natl.
  by rewrite mulrN mulrC mulrA.
split; first by rewrite jump (C48_moment _ _ h0 h1 h2) mulrAC mulfV ?mul1r ?bn.
have rp : (0 < rc beta)%Ri by rewrite ltcE /= eqxx; apply/RltP.
have hm : (\sum_(l < nl) tl1 _ l * H l = rc beta * (f1 == f2)%:R)%Ri.
  by move: hj; rewrite jump => /oppr_inj h; rewrite mulrC -h divfK ?bn.
rewrite !C70_real_norm // ler_pmul2r ?invr_gt0 //.
by have [le _] := C70_least G h0 h1 h2 hm.
Qed.

(** One coefficient of two flavors, beta = 2: the measured value 1 becomes 0 off the diagonal *)
Example C70_instance : let G : arr3 _ := fun _ _ _ => 1%Ri : C in
  integral (fun tau => basis 2 0 tau * gsum 2 1 (G 0%N 1%N) tau)%Ri 0 2 = 1%Ri /\
  (gsum 2 1 (fun _ => 0) 0%coqR + gsum 2 1 (fun _ => 0) 2 = - (0%N == 1%N)%:R)%Ri /\
  (integral (fun tau => `|gsum 2 1 (fun _ => 0) tau - gsum 2 1 (G 0%N 1%N) tau| ^+ 2) 0%coqR 2 = rc (1 / 2)%coqR)%Ri.
Proof.
move=> G; have t0 : 2 <> 0 by lra.
split; first by rewrite C70_real_coefficients.
split; first by rewrite /gsum !big1 ?addr0 ?oppr0 // => l _; rewrite !mul0r.
by rewrite C70_real_norm // big_ord_recl big_ord0 addr0 sub0r normrN normr1 expr1n rc_div.
Qed.
Print Assumptions C70_real_coefficients.
Print Assumptions C70_real_norm.
Print Assumptions C70_real_least.
