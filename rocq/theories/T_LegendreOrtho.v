(** * C70: the Legendre coefficients and G(tau) determine each other, and the tail correction is the smallest one *)
From mathcomp Require Import all_ssreflect all_algebra zify.
From Verif Require Import Legendre T_Legendre Postprocess T_Postprocess Matsubara T_Matsubara KField KRing.
Import Order.Theory GRing.Theory Num.Theory.
Set Implicit Arguments.
Unset Strict Implicit.
Unset Printing Implicit Defensive.
Local Open Scope ring_scope.

(** ** Specification: the integral of a polynomial over a <= x <= b *)
Definition definite (K : numClosedFieldType) (a b : K) (I : {poly K} -> K) : Prop :=
  [/\ forall p q, I (p + q) = I p + I q, forall c p, I (c *: p) = c * I p & forall p, I p^`() = p.[b] - p.[a]].

Section Ortho.
Variable K : numClosedFieldType.
Let L : comRingType := [comRingType of {poly K}].
Add Ring Lr : (cring_theory L).
Local Notation P := (rodrigues K).
Lemma wronski l m : (l * l.+1)%N%:R * (P l * P m) - (m * m.+1)%N%:R * (P l * P m) =
  ((1 - 'X^2) * (P l * (P m)^`() - (P l)^`() * P m))^`().
Proof.
have key (x y : {poly K}) : x + y = 0 -> y = - x by move/eqP; rewrite addrC addr_eq0 => /eqP.
have hl := key _ _ (P_ode K l); have hm := key _ _ (P_ode K m).
have d : ((1 - 'X^2)^`() = - (2%:R * 'X) :> {poly K}) by rewrite derivB derivC derivXn sub0r /= expr1 mulr_natl.
rewrite derivM d derivB !derivM.
have -> : (l * l.+1)%N%:R * (P l * P m) - (m * m.+1)%N%:R * (P l * P m) =
   ((l * l.+1)%N%:R * P l) * P m - P l * ((m * m.+1)%N%:R * P m) :> {poly K}.
  by move: ((l * l.+1)%N%:R : {poly K}) ((m * m.+1)%N%:R : {poly K}) => a b; cring L.
rewrite hl hm expr2 (_ : 2%:R = 1 + 1 :> {poly K}) //; move: (deriv (deriv (P l))) (deriv (deriv (P m))) (deriv (P l)) (deriv (P m)) (P l) (P m) 'X => l2 m2 l1 m1 l0 m0 x.
cring L.
Qed.
End Ortho.

Section Norms.
Variable K : numClosedFieldType.
Add Field Kf : (kfield_theory K).
Local Notation P := (rodrigues K).
Variable J : {poly K} -> K.
Hypothesis dJ : definite (-1) 1 J.
Lemma J0 : J 0 = 0.
Proof. by have [_ s _] := dJ; rewrite -(scale0r (0 : {poly K})) s mul0r. Qed.
Lemma JB p q : J (p - q) = J p - J q.
Proof. by have [a s _] := dJ; rewrite -scaleN1r a s mulN1r. Qed.
Lemma Jnat (n : nat) p : J (n%:R * p) = n%:R * J p.
Proof. by have [_ s _] := dJ; rewrite -polyC_natr mul_polyC s. Qed.
Lemma ortho l m : l != m -> J (P l * P m) = 0.
Proof.
move=> ne; have [_ _ dd] := dJ; have := dd ((1 - 'X^2) * (P l * (P m)^`() - (P l)^`() * P m)).
rewrite -wronski JB !Jnat -mulrBl !hornerM.
have -> : (1 - 'X^2).[1] = 0 :> K by rewrite hornerD hornerN hornerXn hornerC expr1n subrr.
have -> : (1 - 'X^2).[-1] = 0 :> K by rewrite hornerD hornerN hornerXn hornerC sqrrN expr1n subrr.
rewrite !mul0r subrr => /eqP; rewrite mulf_eq0 => /orP[|/eqP //].
rewrite subr_eq0 eqr_nat => /eqP h; case/eqP: ne.
by case: (ltngtP l m) => // hlt; exfalso; move: h; nia.
Qed.
Lemma recX l : (2 * l + 3)%N%:R * ('X * P l.+1) = l.+2%:R * P l.+2 + l.+1%:R * P l.
Proof. rewrite (Prec K l) subrK mulrA; congr (_%:R * _ * _); lia. Qed.
Lemma norm0 : J (P 0 * P 0) = 2%:R.
Proof.
have [_ _ dd] := dJ; rewrite P0 mulr1 -(derivX K) dd !hornerX opprK //.
Qed.
Lemma norm1 : J (P 1 * P 1) = 2%:R / 3%:R.
Proof.
have [_ s dd] := dJ; have t0 : 3%:R != 0 :> K by rewrite pnatr_eq0.
apply: (mulfI t0); rewrite -Jnat P1 -expr2 [RHS]mulrC divfK // -[LHS]/(J _) mulr_natl -(derivXn K 3) dd !hornerXn expr1n.
by rewrite -signr_odd expr1 opprK.
Qed.
Lemma normS_ l : (2 * l + 5)%N%:R * J (P l.+2 * P l.+2) = (2 * l + 3)%N%:R * J (P l.+1 * P l.+1).
Proof.
have [a _ _] := dJ.
have h1 : (2 * l + 3)%N%:R * J ('X * P l.+1 * P l.+2) = l.+2%:R * J (P l.+2 * P l.+2).
  by rewrite -Jnat mulrA recX mulrDl a -!mulrA !Jnat (@ortho l l.+2) ?mulr0 ?addr0 //; lia.
have h2 : (2 * l + 5)%N%:R * J ('X * P l.+1 * P l.+2) = l.+2%:R * J (P l.+1 * P l.+1).
  rewrite -Jnat -mulrA (mulrC (P l.+1)) !mulrA -(mulrA _ 'X) (_ : 2 * l + 5 = 2 * l.+1 + 3)%N; last by lia.
  by rewrite recX mulrDl a -!mulrA !Jnat (@ortho l.+3 l.+1) ?mulr0 ?add0r //; lia.
have t0 : l.+2%:R != 0 :> K by rewrite pnatr_eq0.
apply: (mulfI t0); rewrite mulrCA -h1 mulrCA h2; by rewrite mulrCA.
Qed.
Lemma normE l : J (P l * P l) = 2%:R / (2 * l + 1)%N%:R.
Proof.
case: l => [|l]; first by rewrite norm0 muln0 add0n divr1.
elim: l => [|l ih]; first by rewrite norm1 muln1.
have t0 : (2 * l + 5)%N%:R != 0 :> K by rewrite pnatr_eq0; lia.
have t1 : (2 * l.+1 + 1)%N%:R != 0 :> K by rewrite pnatr_eq0; lia.
have e : (2 * l + 3 = 2 * l.+1 + 1)%N by lia.
have e2 : (2 * l.+2 + 1 = 2 * l + 5)%N by lia.
by apply: (mulfI t0); rewrite normS_ ih e e2 ![_ * (2%:R / _)]mulrCA !mulfV.
Qed.
End Norms.

(** ** On 0 <= tau <= beta *)
Section Expansion.
Variable K : numClosedFieldType.
Add Field Kf2 : (kfield_theory K).
Variables (beta : K) (I : {poly K} -> K).
Hypotheses (b0 : beta != 0) (dI : definite 0 beta I).
Definition Jof (p : {poly K}) : K := 2%:R / beta * I (p \Po arg beta).
Lemma Jof_ok : definite (-1) 1 Jof.
Proof.
have [a s d] := dI; split=> [p q|c p|p]; rewrite /Jof.
- by rewrite comp_polyD a mulrDr.
- by rewrite comp_polyZ s mulrCA.
- have := d (p \Po arg beta); rewrite deriv_comp argd mulrC mul_polyC s => ->.
  by rewrite !horner_comp arg_beta // arg_0.
Qed.
Lemma Q_ortho l m : I (Q beta l * Q beta m) = if l == m then beta / (2 * l + 1)%N%:R else 0.
Proof.
have t0 : 2%:R != 0 :> K by rewrite pnatr_eq0.
have tb : 2%:R / beta != 0 :> K by rewrite mulf_neq0 // invr_neq0.
apply: (mulfI tb); rewrite /Q -comp_polyM -/(Jof _); case: eqP => [->|/eqP ne].
  by rewrite (normE Jof_ok) mulrA divfK.
by rewrite (ortho Jof_ok ne) mulr0.
Qed.
Definition sq (l : nat) : K := sqrtC (2%:R * l%:R + 1).
Lemma sq2 l : sq l * sq l = (2 * l + 1)%N%:R.
Proof. by rewrite -expr2 sqrtCK natrD natrM. Qed.
Lemma Isum n (g : nat -> {poly K}) : I (\sum_(l < n) g l) = \sum_(l < n) I (g l).
Proof.
have [a s _] := dI; elim: n => [|n ih]; first by rewrite !big_ord0 -(scale0r (0 : {poly K})) s mul0r.
by rewrite !big_ord_recr /= a ih.
Qed.
Lemma odd_n0 l : (2 * l + 1)%N%:R != 0 :> K. Proof. by rewrite pnatr_eq0; lia. Qed.
(** C70_coefficients: projecting G(tau) on the polynomials with which the coefficients are measured gives the coefficients back *)
Theorem C70_coefficients (nl : nat) (G : nat -> K) l : I (sq l *: Q beta l * gpoly beta nl G) = if (l < nl)%N then G l else 0.
Proof.
have [_ s _] := dI.
have -> : sq l *: Q beta l * gpoly beta nl G = \sum_(m < nl) (sq l * (G m * sq m / beta)) *: (Q beta l * Q beta m).
  rewrite /gpoly mulr_sumr; apply: eq_bigr => m _.
  by rewrite -scalerAl -scalerAr scalerA.
rewrite (Isum nl (fun m => (sq l * (G m * sq m / beta)) *: (Q beta l * Q beta m))).
rewrite (eq_bigr (fun m : 'I_nl => if m == l :> nat then G l else 0)).
  case: ltnP => hl.
    by rewrite (bigD1 (Ordinal hl)) //= eqxx big1 ?addr0 // => m ne; rewrite ifF //; apply/negbTE.
  by rewrite big1 // => m _; rewrite ifF //; apply/negbTE; rewrite neq_ltn (leq_trans (ltn_ord m) hl).
move=> m _; rewrite s Q_ortho eq_sym; case: eqP => [->|_]; last by rewrite mulr0.
have := sq2 l; have := odd_n0 l; move: (_%:R) (sq l) (G l) => c d g c0 e.
transitivity (d * d * g / c); first by kfield K.
by rewrite e; kfield K.
Qed.
(** C70_norm: the square of G(tau) over the interval is the sum of the squares of the coefficients divided by beta *)
Theorem C70_norm (nl : nat) (G H : nat -> K) : I (gpoly beta nl H * gpoly beta nl G) = (\sum_(l < nl) H l * G l) / beta.
Proof.
have [_ s _] := dI.
have -> : gpoly beta nl H * gpoly beta nl G = \sum_(l < nl) (H l / beta) *: (sq l *: Q beta l * gpoly beta nl G).
  rewrite {1}/gpoly mulr_suml; apply: eq_bigr => l _; rewrite scalerAl scalerA.
  by rewrite -/(arg beta) -/(Q beta l) -/(sq l) mulrAC.
rewrite (Isum nl (fun l => (H l / beta) *: (sq l *: Q beta l * gpoly beta nl G))) mulr_suml; apply: eq_bigr => l _.
by rewrite s C70_coefficients ltn_ord mulrAC.
Qed.
End Expansion.

(** C70_least: among all coefficients with the required first moment the corrected ones are the closest to the measured ones, and the
    only ones at this distance *)
Section Least.
Variable K : numClosedFieldType.
Add Field Kf3 : (kfield_theory K).
Variables (beta : K) (nf nl f1 f2 : nat) (G : arr3 K).
Hypotheses (h0 : (0 < nl)%N) (h1 : (f1 < nf)%N) (h2 : (f2 < nf)%N).
Let Gc : nat -> K := correct_G1_tail beta nf nl G f1 f2.
Lemma tl1_conj l : (tl1 K l)^* = tl1 K l.
Proof.
rewrite /tl1; case: ifP => _; rewrite ?conjC0 // rmorphM rmorphN conjC_nat; congr (_ * _).
by apply: geC0_conj; rewrite sqrtC_ge0 -natrM -(natrD _ _ 1) ler0n.
Qed.
Lemma moment_diff (H : nat -> K) : \sum_(l < nl) tl1 K l * H l = beta * (f1 == f2)%:R -> \sum_(l < nl) tl1 K l * (H l - Gc l) = 0.
Proof.
move=> hm; rewrite (eq_bigr (fun l : 'I_nl => tl1 K l * H l - tl1 K l * Gc l)) => [|l _]; last by rewrite mulrBr.
by rewrite sumrB hm (C48_moment beta G h0 h1 h2) subrr.
Qed.
Theorem C70_pythagoras (H : nat -> K) : \sum_(l < nl) tl1 K l * H l = beta * (f1 == f2)%:R ->
  \sum_(l < nl) `|H l - G f1 f2 l| ^+ 2 = \sum_(l < nl) `|H l - Gc l| ^+ 2 + \sum_(l < nl) `|Gc l - G f1 f2 l| ^+ 2.
Proof.
move=> hm; have hd := moment_diff hm; set c := dif beta nl G f1 f2 / S2 K nl.
have e (l : 'I_nl) : Gc l - G f1 f2 l = c * tl1 K l by rewrite /Gc correctE h1 h2 ltn_ord /= /corr addrC addKr.
have k (l : 'I_nl) : `|H l - G f1 f2 l| ^+ 2 = (`|H l - Gc l| ^+ 2 + `|Gc l - G f1 f2 l| ^+ 2) +
    (c^* * (tl1 K l * (H l - Gc l)) + c * (tl1 K l * (H l - Gc l))^*).
  have -> : H l - G f1 f2 l = (H l - Gc l) + (Gc l - G f1 f2 l) by rewrite addrA subrK.
  rewrite e !normCK rmorphD !rmorphM /= tl1_conj; move: (H l - Gc l) => x; move: x^* c^* (tl1 K l) => x' c' y.
  kring K.
rewrite (eq_bigr _ (fun l _ => k l)) big_split /= big_split /=; rewrite -[RHS]addr0; congr (_ + _).
rewrite big_split /= -!mulr_sumr hd mulr0 add0r -rmorph_sum hd rmorph0 mulr0 //.
Qed.
Theorem C70_least (H : nat -> K) : \sum_(l < nl) tl1 K l * H l = beta * (f1 == f2)%:R ->
  \sum_(l < nl) `|Gc l - G f1 f2 l| ^+ 2 <= \sum_(l < nl) `|H l - G f1 f2 l| ^+ 2 ?= iff [forall l : 'I_nl, H l == Gc l].
Proof.
move=> hm; rewrite (C70_pythagoras hm); split.
  by rewrite ler_addr; apply: sumr_ge0 => l _; rewrite exprn_ge0.
rewrite -subr_eq0 opprD addrCA subrr addr0 oppr_eq0 psumr_eq0; last by move=> l _; rewrite exprn_ge0.
apply/allP/forallP => [h l|h l _]; first by have := h l (mem_index_enum _); rewrite expf_eq0 /= normr_eq0 subr_eq0.
by rewrite (eqP (h l)) subrr normr0 expr0n /= eqxx.
Qed.
End Least.
Print Assumptions C70_coefficients.
Print Assumptions C70_norm.
Print Assumptions C70_pythagoras.
Print Assumptions C70_least.
