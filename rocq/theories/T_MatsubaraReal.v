(** * C69 for the real numbers: gf is the integral over imaginary time

    Here the field is R[i] over the real numbers of the standard library, pi, sine and cosine are those of the standard library, and
    the integral is Coquelicot's Riemann integral. *)
From Coq Require Import Reals Lra FunctionalExtensionality.
From Coquelicot Require Import Hierarchy Derive RInt Continuity RInt_analysis ElemFct AutoDerive Rcomplements.
From mathcomp Require Import all_ssreflect all_algebra complex.
From Verif Require Import RealField Legendre T_Legendre Postprocess T_Postprocess Matsubara T_Matsubara.
Set Implicit Arguments.
Unset Strict Implicit.
Unset Printing Implicit Defensive.
Import Order.Theory GRing.Theory Num.Theory.
Delimit Scope ring_scope with Ri.
Delimit Scope R_scope with coqR.
Local Open Scope R_scope.
Local Notation C := (complex R).

(** ** Specification *)
Definition integral (f : R -> C) (a b : R) : C :=
  Complex (RInt (fun t => complex.Re (f t)) a b) (RInt (fun t => complex.Im (f t)) a b).
Definition cis (t : R) : C := Complex (cos t) (sin t).
Definition rc (x : R) : C := Complex x 0.
(** The spherical Bessel functions at a real argument *)
Fixpoint bes2 (z : R) (l : nat) : R * R :=
  if l is k.+1 then let: (a, b) := bes2 z k in (b, (2 * INR k + 3) / z * b - a) else (sin z / z, sin z / (z * z) - cos z / z).
Definition sphb (l : nat) (z : C) : C := rc (bes2 (complex.Re z) l).1.

Ltac sides := repeat match goal with |- _ /\ _ => split | |- True => exact I | |- ex_derive _ _ => eexists; eassumption end.
Section Deriv.
Implicit Types p q : {poly C}.
Definition rp p (t : R) : R := complex.Re (horner p (rc t)).
Definition ip p (t : R) : R := complex.Im (horner p (rc t)).
Lemma hornerS p c t : horner (p * 'X + c%:P)%Ri (rc t) =
  Complex (rp p t * t + complex.Re c) (ip p t * t + complex.Im c).
Proof.
rewrite hornerMXaddC /rp /ip; case: (horner p (rc t)) => a b; case: c => c d /=.
rewrite /rc /GRing.mul /= /GRing.add /=; congr Complex; rewrite /GRing.add /GRing.mul /GRing.opp /GRing.zero /=; lra.
Qed.
Lemma rp_S p c t : rp (p * 'X + c%:P)%Ri t = rp p t * t + complex.Re c. Proof. by rewrite /rp hornerS. Qed.
Lemma ip_S p c t : ip (p * 'X + c%:P)%Ri t = ip p t * t + complex.Im c. Proof. by rewrite /ip hornerS. Qed.
Lemma rp_D p q t : rp (p + q)%Ri t = rp p t + rp q t.
Proof. by rewrite /rp hornerD; case: (horner p _) => a b; case: (horner q _). Qed.
Lemma ip_D p q t : ip (p + q)%Ri t = ip p t + ip q t.
Proof. by rewrite /ip hornerD; case: (horner p _) => a b; case: (horner q _). Qed.
Lemma poly_derive p t : is_derive (rp p) t (rp p^`()%Ri t) /\ is_derive (ip p) t (ip p^`()%Ri t).
Proof.
elim/poly_ind: p t => [|p c ih] t.
  rewrite linear0; split; apply: (is_derive_ext (fun _ => 0)); rewrite /rp /ip ?horner0 //=; try exact: is_derive_const.
    by move=> u; rewrite horner0.
  by move=> u; rewrite horner0.
have e : ((p * 'X + c%:P)^`() = p^`() * 'X + p)%Ri by rewrite derivMXaddC addrC.
have [h1 h2] := ih t; rewrite e rp_D ip_D; split.
  apply: (is_derive_ext (fun t => rp p t * t + complex.Re c)); first by move=> u; rewrite rp_S.
  have -> : rp (p^`() * 'X)%Ri t = rp p^`()%Ri t * t.
    by rewrite -[(p^`() * 'X)%Ri]addr0 -(polyC0) rp_S /=; apply: Rplus_0_r.
  auto_derive; first by sides.
  by rewrite (is_derive_unique _ _ _ h1) /=; lra.
apply: (is_derive_ext (fun t => ip p t * t + complex.Im c)); first by move=> u; rewrite ip_S.
have -> : ip (p^`() * 'X)%Ri t = ip p^`()%Ri t * t.
  by rewrite -[(p^`() * 'X)%Ri]addr0 -(polyC0) ip_S /=; apply: Rplus_0_r.
auto_derive; first by sides.
by rewrite (is_derive_unique _ _ _ h2) /=; lra.
Qed.
Variable w : R.
(** Real and imaginary part of exp(i w t) p(t) *)
Definition re_i p (t : R) : R := cos (w * t) * rp p t - sin (w * t) * ip p t.
Definition im_i p (t : R) : R := cos (w * t) * ip p t + sin (w * t) * rp p t.
Lemma cis_mul p t : (cis (w * t) * horner p (rc t))%Ri = Complex (re_i p t) (im_i p t).
Proof. by rewrite /re_i /im_i /rp /ip; case: (horner p _) => a b. Qed.
Lemma re_derive p t : is_derive (re_i p) t (re_i p^`()%Ri t - w * im_i p t).
Proof.
have [h1 h2] := poly_derive p t; rewrite /re_i; auto_derive.
  by sides.
by rewrite (is_derive_unique _ _ _ h1) (is_derive_unique _ _ _ h2) /im_i /=; lra.
Qed.
Lemma im_derive p t : is_derive (im_i p) t (im_i p^`()%Ri t + w * re_i p t).
Proof.
have [h1 h2] := poly_derive p t; rewrite /im_i; auto_derive.
  by sides.
by rewrite (is_derive_unique _ _ _ h1) (is_derive_unique _ _ _ h2) /re_i /=; lra.
Qed.
Lemma re_cont p t : continuous (re_i p) t.
Proof. by apply: ex_derive_continuous; eexists; exact: re_derive. Qed.
Lemma im_cont p t : continuous (im_i p) t.
Proof. by apply: ex_derive_continuous; eexists; exact: im_derive. Qed.
Lemma re_int p a b : ex_RInt (re_i p) a b.
Proof. by apply: ex_RInt_continuous => t _; exact: re_cont. Qed.
Lemma im_int p a b : ex_RInt (im_i p) a b.
Proof. by apply: ex_RInt_continuous => t _; exact: im_cont. Qed.
Lemma re_parts p a b : RInt (re_i p^`()%Ri) a b = re_i p b - re_i p a + w * RInt (im_i p) a b.
Proof.
have h : is_RInt (fun t => re_i p^`()%Ri t - w * im_i p t) a b (re_i p b - re_i p a).
  apply: (is_RInt_derive (re_i p)) => t _; first exact: re_derive.
  apply: (continuous_minus (re_i p^`()%Ri) (fun t => w * im_i p t)); first exact: re_cont.
  by apply: (continuous_scal_r w (im_i p)); exact: im_cont.
have h2 : is_RInt (fun t => re_i p^`()%Ri t - w * im_i p t) a b (RInt (re_i p^`()%Ri) a b - w * RInt (im_i p) a b).
  apply: (is_RInt_minus (re_i p^`()%Ri) (fun t => w * im_i p t)); first by apply: RInt_correct; exact: re_int.
  by apply: (is_RInt_scal (im_i p) a b w); apply: RInt_correct; exact: im_int.
have := is_RInt_unique _ _ _ _ h; rewrite (is_RInt_unique _ _ _ _ h2); lra.
Qed.
Lemma im_parts p a b : RInt (im_i p^`()%Ri) a b = im_i p b - im_i p a - w * RInt (re_i p) a b.
Proof.
have h : is_RInt (fun t => im_i p^`()%Ri t + w * re_i p t) a b (im_i p b - im_i p a).
  apply: (is_RInt_derive (im_i p)) => t _; first exact: im_derive.
  apply: (continuous_plus (im_i p^`()%Ri) (fun t => w * re_i p t)); first exact: im_cont.
  by apply: (continuous_scal_r w (re_i p)); exact: re_cont.
have h2 : is_RInt (fun t => im_i p^`()%Ri t + w * re_i p t) a b (RInt (im_i p^`()%Ri) a b + w * RInt (re_i p) a b).
  apply: (is_RInt_plus (im_i p^`()%Ri) (fun t => w * re_i p t)); first by apply: RInt_correct; exact: im_int.
  by apply: (is_RInt_scal (re_i p) a b w); apply: RInt_correct; exact: re_int.
have := is_RInt_unique _ _ _ _ h; rewrite (is_RInt_unique _ _ _ _ h2); lra.
Qed.
Definition trans (b : R) p : C := integral (fun t => cis (w * t) * horner p (rc t))%Ri 0 b.
Lemma transE b p : trans b p = Complex (RInt (re_i p) 0 b) (RInt (im_i p) 0 b).
Proof. by rewrite /trans /integral; congr Complex; apply: RInt_ext => t _; rewrite cis_mul. Qed.
End Deriv.

(** ** The functional and the special functions meet the specification of T_Matsubara.v *)
Lemma rcD x y : rc (x + y) = (rc x + rc y)%Ri. Proof. by rewrite /rc /GRing.add /=; congr Complex; rewrite /GRing.add /=; lra. Qed.
Lemma rcN x : rc (- x) = (- rc x)%Ri. Proof. by rewrite /rc /GRing.opp /=; congr Complex; rewrite /GRing.opp /=; lra. Qed.
Lemma rcM x y : rc (x * y) = (rc x * rc y)%Ri.
Proof. by rewrite /rc /GRing.mul /=; congr Complex; rewrite /GRing.add /GRing.opp /GRing.mul /=; lra. Qed.
Lemma rc1 : rc 1 = 1%Ri. Proof. by []. Qed.
Lemma rc0 x : (rc x == 0)%Ri = (x == 0 :> R).
Proof. by rewrite /rc eq_complex /= eqxx andbT. Qed.
Lemma rcV x : x <> 0 -> rc (/ x) = ((rc x)^-1)%Ri.
Proof.
move=> h; have n0 : (rc x != 0)%Ri by rewrite rc0; apply/eqP.
by apply: (mulfI n0); rewrite mulfV // -rcM Rinv_r.
Qed.
Lemma rc_div x y : y <> 0 -> rc (x / y) = (rc x / rc y)%Ri.
Proof. by move=> h; rewrite /Rdiv rcM rcV. Qed.
Lemma rc_nat n : rc (INR n) = (n%:R)%Ri.
Proof. by elim: n => [|n ih] //; rewrite S_INR rcD ih rc1 -[n.+1]addn1 natrD. Qed.
Lemma rc2 : rc 2 = (2%:R)%Ri. Proof. by rewrite -rc_nat /=; congr rc; lra. Qed.
Lemma rc3 : rc 3 = (3%:R)%Ri. Proof. by rewrite -rc_nat /=; congr rc; lra. Qed.
Definition freq (beta : R) (n : nat) : R := (2 * INR n + 1) * PI / beta.
Lemma freqE beta n : beta <> 0 -> matsubara (rc PI) (rc beta) n = rc (freq beta n).
Proof. by move=> b0; rewrite /matsubara /freq rc_div // rcM rcD rcM rc2 rc_nat. Qed.
Definition zreal (n : nat) : R := (2 * INR n + 1) * PI / 2.
Lemma zE n : ((2%:R * n%:R + 1) * rc PI / 2%:R)%Ri = rc (zreal n).
Proof. by rewrite /zreal rc_div ?rcM ?rcD ?rcM ?rc2 ?rc_nat //; lra. Qed.
Lemma z_pos n : 0 < zreal n.
Proof. by rewrite /zreal; have := PI_RGT_0; have := pos_INR n => h1 h2; apply: Rdiv_lt_0_compat; [apply: Rmult_lt_0_compat; lra|lra]. Qed.
Lemma zS n : zreal n.+1 = zreal n + PI.
Proof. by rewrite /zreal S_INR; field. Qed.
Lemma sin_z n : sin (zreal n) = ((-1) ^+ n)%Ri /\ cos (zreal n) = 0.
Proof.
elim: n => [|n [ih1 ih2]].
  have -> : zreal 0 = PI / 2 by rewrite /zreal /=; field.
  by rewrite sin_PI2 cos_PI2 expr0.
by rewrite zS neg_sin neg_cos ih1 ih2 exprS; split; rewrite ?RmulE ?RoppE ?R1E; lra.
Qed.
Definition sinC (z : C) : C := rc (sin (complex.Re z)).
Definition cosC (z : C) : C := rc (cos (complex.Re z)).
Lemma C69_half_odd : half_odd (rc PI) sinC cosC.
Proof.
move=> n; rewrite !zE /sinC /cosC /=; have [-> ->] := sin_z n; split=> //.
by elim: n => [|n ih]; rewrite ?expr0 // !exprS -ih RmulE rcM RoppE rcN rc1.
Qed.
Lemma C69_bessel n : bessel sinC cosC sphb ((2%:R * n%:R + 1) * rc PI / 2%:R)%Ri.
Proof.
rewrite zE; have := z_pos n; move: (zreal n) => z z0; have zn : z <> 0 by lra.
have zz : z * z <> 0 by apply: Rmult_integral_contrapositive.
rewrite /bessel /sphb /sinC /cosC /=; split.
- by rewrite rc_div.
- by rewrite /Rminus rcD rcN !rc_div // rcM -expr2.
move=> l; case: (bes2 z l) => a b /=.
by rewrite /Rminus rcD rcN rcM rc_div // rcD rcM rc2 rc3 rc_nat.
Qed.
(** The integral is linear *)
Lemma trans_D w beta p q : trans w beta (p + q)%Ri = (trans w beta p + trans w beta q)%Ri.
Proof.
rewrite !transE.
rewrite /GRing.add /=; congr Complex.
  rewrite -[RHS](RInt_plus (re_i w p) (re_i w q)); try exact: re_int.
  by apply: RInt_ext => t _; rewrite /re_i rp_D ip_D /plus /=; lra.
rewrite -[RHS](RInt_plus (im_i w p) (im_i w q)); try exact: im_int.
by apply: RInt_ext => t _; rewrite /im_i rp_D ip_D /plus /=; lra.
Qed.
Lemma trans_Z w beta c p : trans w beta (c *: p)%Ri = (c * trans w beta p)%Ri.
Proof.
rewrite !transE.
case: c => a b; have hr t : re_i w (Complex a b *: p)%Ri t = a * re_i w p t - b * im_i w p t.
  rewrite /re_i /im_i /rp /ip hornerZ; case: (horner p (rc t)) => c d /=.
  by rewrite /GRing.add /GRing.opp /GRing.mul /=; lra.
have hi t : im_i w (Complex a b *: p)%Ri t = a * im_i w p t + b * re_i w p t.
  rewrite /re_i /im_i /rp /ip hornerZ; case: (horner p (rc t)) => c d /=.
  by rewrite /GRing.add /GRing.opp /GRing.mul /=; lra.
have ir := RInt_correct _ _ _ (re_int w p 0 beta); have ii := RInt_correct _ _ _ (im_int w p 0 beta).
rewrite (RInt_ext _ _ _ _ (fun t _ => hr t)) (RInt_ext _ _ _ _ (fun t _ => hi t)).
have e1 := is_RInt_minus _ _ _ _ _ _ (is_RInt_scal _ _ _ a _ ir) (is_RInt_scal _ _ _ b _ ii).
have e2 := is_RInt_plus _ _ _ _ _ _ (is_RInt_scal _ _ _ a _ ii) (is_RInt_scal _ _ _ b _ ir).
have f1 := is_RInt_unique _ _ _ _ e1; have f2 := is_RInt_unique _ _ _ _ e2.
rewrite /plus /minus /scal /= /mult /opp /plus /= in f1 f2.
rewrite [RInt (fun t => _ - _) _ _]f1 f2 /GRing.mul /=; congr Complex; rewrite /GRing.add /GRing.opp /GRing.mul /=; lra.
Qed.
(** C69_real_integral: for every beta other than zero and every Matsubara frequency, the integral of exp(i omega tau) p(tau) over
    0 <= tau <= beta is a functional as required *)
Theorem C69_real_integral (beta : R) (n : nat) : beta <> 0 ->
  fourier (rc beta) (matsubara (rc PI) (rc beta) n) (fun p => integral (fun t => cis (freq beta n * t) * horner p (rc t))%Ri 0 beta).
Proof.
move=> b0; rewrite freqE //; set w := freq beta n.
have wb : w * beta = zreal n + zreal n by rewrite /w /freq /zreal; field.
have [sz cz] := sin_z n.
have s2 : sin (w * beta) = 0 by rewrite wb sin_plus cz; lra.
have c2 : cos (w * beta) = -1.
  by rewrite wb cos_plus cz; have := sin2_cos2 (zreal n); rewrite cz /Rsqr; lra.
split=> [p q|c p|p]; rewrite -!/(trans w beta _); [exact: trans_D|exact: trans_Z|rewrite !transE].
rewrite re_parts im_parts -complexiE.
  have e0 : horner p 0%Ri = Complex (rp p 0) (ip p 0) by rewrite /rp /ip (_ : rc 0 = 0%Ri) //; case: (horner p _).
  have eb : horner p (rc beta) = Complex (rp p beta) (ip p beta) by rewrite /rp /ip; case: (horner p _).
  rewrite e0 eb /re_i /im_i s2 c2 Rmult_0_r sin_0 cos_0.
  rewrite /rc /GRing.mul /= /GRing.opp /= /GRing.add /=; congr Complex; rewrite /GRing.add /GRing.opp /GRing.mul /GRing.zero /GRing.one /=; lra.
Qed.
(** C69_real: for the real numbers.  For every beta other than zero, every number of frequencies and coefficients, all complex coefficients
    and every frequency: gf is the integral of exp(i omega tau) G(tau) over 0 <= tau <= beta, where G is the sum of the Legendre
    polynomials with the coefficients, and gtau holds the values of the same G on the mesh *)
Theorem C69_real (beta : R) (nm nl : nat) (T0 : arr2 _) (G : arr3 _) (im f1 f2 : nat) (t : transformer _) : beta <> 0 -> (im < nm)%N ->
  make_transformer sqrtC nl = Some t ->
  let g (tau : R) : C := (\sum_(l < nl) G f1 f2 l * sqrtC (2%:R * l%:R + 1) / rc beta * horner (rodrigues _ l) (rc (2 * tau / beta - 1)%coqR))%Ri in
  gomega (tnl_table (rc PI) sphb nm nl T0) nl G im f1 f2 = integral (fun tau => cis (freq beta im * tau) * g tau)%Ri 0 beta /\
  forall n_tau itau, (0 < n_tau)%N -> gtau t (rc beta) n_tau nl G itau f1 f2 = Some (g (INR itau * (beta / INR n_tau))).
Proof.
move=> b0 him made g.
have bn : (rc beta != 0)%Ri by rewrite rc0; apply/eqP.
have pn : (rc PI != 0)%Ri by rewrite rc0; apply/eqP; have := PI_RGT_0; lra.
have gE tau : horner (gpoly (rc beta) nl (G f1 f2)) (rc tau) = g tau.
  rewrite /gpoly /g horner_sum; apply: eq_bigr => l _; rewrite hornerZ horner_comp; congr (_ * horner _ _)%Ri.
  rewrite hornerD hornerN hornerZ hornerX hornerC /Rminus rcD rcN rc1 rc_div // rcM rc2; congr (_ - _)%Ri.
  by rewrite mulrAC.
split.
  rewrite (C69_gf bn pn C69_half_odd C69_bessel nl T0 G f1 f2 him (C69_real_integral im b0)).
  by congr integral; apply: functional_extensionality => tau; rewrite gE.
move=> n_tau itau nt; rewrite C69_gtau // -gE; congr (Some (horner _ _)).
by rewrite rcM rc_div ?rc_nat // => /(congr1 rc); rewrite rc_nat => /eqP; rewrite pnatr_eq0; move: nt; case: n_tau.
Qed.
(** One coefficient, equal to one: G(tau) = 1 / beta, and gf at the lowest frequency is 2 i / pi; and the tail of three coefficients of two flavors *)
Example C69_instance T0 : gomega (tnl_table (rc PI) sphb 3 1 T0) 1 (fun _ _ _ => 1%Ri) 0 0 0 = Complex 0 (2 / PI).
Proof.
rewrite /gomega big_ord_recl big_ord0 addr0 mulr1 tnlE //= expr0 mul1r expr1 mulr0 add0r sqrtC1 mulr1 /sphb /znum.
have -> : ((1 / 2%:R) * (2%:R * 0%:R + 1) * rc PI)%Ri = rc (PI / 2).
  by rewrite mulr0 add0r mulr1 div1r mulrC rc_div ?rc2 //; lra.
rewrite /= sin_PI2 -complexiE /GRing.mul /=; have := PI_RGT_0 => h.
by congr Complex; rewrite /GRing.mul /GRing.add /GRing.opp /GRing.one /GRing.zero /=; field; lra.
Qed.
Example C69_tail_instance T0 (G : arr3 _) : exists c : nat -> C, c 0%N = 1%Ri /\ forall im, (im < 5)%N ->
  gomega (tnl_table (rc PI) sphb 5 3 T0) 3 (correct_G1_tail (rc 1) 2 3 G) im 1 1 = (\sum_(k < 3) c k / ('i * rc (freq 1 im)) ^+ k.+1)%Ri.
Proof.
have bn : (rc 1 != 0)%Ri by rewrite rc0; apply/eqP; lra.
have pn : (rc PI != 0)%Ri by rewrite rc0; apply/eqP; have := PI_RGT_0; lra.
have [c [c0 h]] := C69_tail bn pn C69_half_odd C69_bessel 5 T0 G (isT : (0 < 3)%N) (isT : (1 < 2)%N) (isT : (1 < 2)%N).
by exists c; split=> // im him; rewrite h // freqE //; lra.
Qed.
Print Assumptions C69_real_integral.
Print Assumptions C69_real.
