(** * C69: the Green's function at Matsubara frequencies is the Fourier transform of the one in imaginary time *)
From mathcomp Require Import all_ssreflect all_algebra zify.
From Verif Require Import Legendre T_Legendre Postprocess T_Postprocess Matsubara KField KRing.
Import Order.Theory GRing.Theory Num.Theory.
Set Implicit Arguments.
Unset Strict Implicit.
Unset Printing Implicit Defensive.
Local Open Scope ring_scope.

(** ** Specification *)
Section Spec.
Variable K : numClosedFieldType.
(** The functional p -> integral of exp(i w tau) p(tau) over 0 <= tau <= beta, on polynomials, for a frequency with
    exp(i w beta) = -1: it is linear, and integration by parts holds.  C69_real_integral (T_MatsubaraReal.v) shows that the
    integral is such a functional *)
Definition fourier (beta w : K) (F : {poly K} -> K) : Prop :=
  [/\ forall p q, F (p + q) = F p + F q, forall c p, F (c *: p) = c * F p &
      forall p, F p^`() = - (p.[beta] + p.[0]) - 'i * w * F p].
(** The spherical Bessel functions of the first kind at z, by their first two members and the recursion *)
Definition bessel (sinf cosf : K -> K) (j : nat -> K -> K) (z : K) : Prop :=
  [/\ j 0%N z = sinf z / z, j 1%N z = sinf z / z ^+ 2 - cosf z / z &
      forall l, j l.+2 z = (2%:R * l%:R + 3%:R) / z * j l.+1 z - j l z].
(** Sine and cosine at the odd multiples of pi/2 *)
Definition half_odd (m_pi : K) (sinf cosf : K -> K) : Prop :=
  forall n, sinf ((2%:R * n%:R + 1) * m_pi / 2%:R) = (-1) ^+ n /\ cosf ((2%:R * n%:R + 1) * m_pi / 2%:R) = 0.
Definition matsubara (m_pi beta : K) (n : nat) : K := (2%:R * n%:R + 1) * m_pi / beta.
(** G(tau) as a polynomial in tau: the sum of sqrt(2l+1) / beta * G_l * P_l(2 tau / beta - 1) *)
Definition gpoly (beta : K) (nl : nat) (G : nat -> K) : {poly K} :=
  \sum_(l < nl) (G l * sqrtC (2%:R * l%:R + 1) / beta) *: (rodrigues K l \Po ((2%:R / beta) *: 'X - 1)).
End Spec.

Section Fourier.
Variable K : numClosedFieldType.
Add Field Kf : (kfield_theory K).
Variables (beta w : K).
Hypothesis w0 : w != 0.
Lemma iw0 : 'i * w != 0. Proof. by rewrite mulf_neq0 ?neq0Ci. Qed.

Lemma fourier0 F : fourier beta w F -> F 0 = 0.
Proof. by case=> _ fs _; rewrite -(scale0r (0 : {poly K})) fs mul0r. Qed.
Lemma fourier_sum F n (g : nat -> {poly K}) : fourier beta w F -> F (\sum_(l < n) g l) = \sum_(l < n) F (g l).
Proof.
move=> fF; elim: n => [|n ih]; first by rewrite !big_ord0 fourier0.
by case: fF => fa _ _; rewrite !big_ord_recr /= fa ih.
Qed.
Lemma fourier_step F p : fourier beta w F -> F p = - (p.[beta] + p.[0]) / ('i * w) - F p^`() / ('i * w).
Proof.
case=> _ _ ->; move: (_ + _) (F p) ('i * w) iw0 => a b c c0.
by rewrite -mulrBl opprB addrCA subrr addr0 mulrC mulKf.
Qed.
Lemma sd (p : {poly K}) : (size p^`() <= (size p).-1)%N. Proof. exact: size_poly. Qed.
(** The value of a functional of this kind on a polynomial of degree below n *)
Definition coef_k (p : {poly K}) (k : nat) : K := (-1) ^+ k.+1 * (p^`(k).[beta] + p^`(k).[0]).
Lemma fourier_val F n (p : {poly K}) : fourier beta w F -> (size p <= n)%N -> F p = \sum_(k < n) coef_k p k / ('i * w) ^+ k.+1.
Proof.
move=> fF; elim: n p => [|n ih] p; first by rewrite leqn0 size_poly_eq0 => /eqP ->; rewrite big_ord0 fourier0.
move=> hp; rewrite (fourier_step p fF) big_ord_recl /= /coef_k derivn0 expr1 mulN1r; congr (_ + _).
rewrite ih; last by apply: leq_trans (sd _) _; lia.
rewrite mulr_suml -sumrN; apply: eq_bigr => k _; rewrite /coef_k -!derivSn /bump /= add1n.
rewrite (exprS (-1) k.+1) (exprS ('i * w) k.+1); move: ('i * w) => x; rewrite invfM.
by move: ((-1) ^+ k.+1) (_ + _) (x ^+ k.+1)^-1 (x^-1) => a b c d; kring K.
Qed.
(** There is exactly one such functional *)
Lemma coef_sum (p : {poly K}) n m : (size p <= n)%N -> (n <= m)%N ->
  \sum_(k < m) coef_k p k / ('i * w) ^+ k.+1 = \sum_(k < n) coef_k p k / ('i * w) ^+ k.+1.
Proof.
move=> hp hm; rewrite -(subnKC hm) big_split_ord /= [X in _ + X]big1 ?addr0 // => k _.
by rewrite /coef_k (_ : p^`(n + k) = 0) ?horner0 ?addr0 ?mulr0 ?mul0r // derivn_poly0 //; lia.
Qed.
Definition the_fourier (p : {poly K}) : K := \sum_(k < size p) coef_k p k / ('i * w) ^+ k.+1.
Lemma the_fourier_ok : fourier beta w the_fourier.
Proof.
split.
- move=> p q; set n := maxn (size p) (size q).
  rewrite /the_fourier -(coef_sum (leqnn _) (size_add p q)) -(coef_sum (leqnn _) (leq_maxl (size p) (size q))).
  rewrite -(coef_sum (leqnn _) (leq_maxr (size p) (size q))) -big_split /=; apply: eq_bigr => k _.
  rewrite -mulrDl /coef_k linearD /= !hornerD; congr (_ / _); kring K.
- move=> c p; rewrite /the_fourier -(coef_sum (leqnn _) (size_scale_leq c p)) mulr_sumr; apply: eq_bigr => k _.
  rewrite /coef_k linearZ /= !hornerZ; move: (_^-1) => d; kring K.
- move=> p; rewrite /the_fourier; case e: (size p) => [|n].
    by move/eqP: e; rewrite size_poly_eq0 => /eqP ->; rewrite linear0 size_poly0 !big_ord0 !horner0 addr0 oppr0 mulr0 subr0.
  have hd : (size p^`() <= n)%N by apply: leq_trans (sd _) _; lia.
  rewrite -(coef_sum (leqnn _) hd) big_ord_recl /= expr1.
  have -> : coef_k p 0 = - (p.[beta] + p.[0]) by rewrite /coef_k derivn0 expr1 mulN1r.
  move: (p.[beta] + p.[0]) => A; rewrite mulrDr [X in _ - (X + _)]mulrC divfK ?iw0 // opprD opprK addKr mulr_sumr -sumrN; apply: eq_bigr => k _.
  rewrite /coef_k -derivSn /bump /= add1n (exprS (-1) k.+1) (exprS ('i * w) k.+1); move: ('i * w) iw0 => x x0.
  by move: ((-1) ^+ k.+1) (_ + _) (x ^+ k.+1) (expf_neq0 k.+1 x0) => a b u u0; kfield K; split; apply/eqP.
Qed.
End Fourier.

(** C69_fourier_unique: for every beta and every frequency other than zero there is exactly one linear functional on the polynomials
    that obeys integration by parts, so that the specification determines the Fourier transform *)
Theorem C69_fourier_unique (K : numClosedFieldType) (beta w : K) : w != 0 ->
  exists F, fourier beta w F /\ forall F', fourier beta w F' -> forall p, F' p = F p.
Proof.
move=> w0; exists (the_fourier beta w); split; first exact: the_fourier_ok.
by move=> F' h p; rewrite (fourier_val w0 h (leqnn _)).
Qed.

(** ** The recursion for the transforms of the Legendre polynomials *)
Section Legendre.
Variable K : numClosedFieldType.
Let L : comRingType := [comRingType of {poly K}].
Add Ring Lr : (cring_theory L).
Lemma P_deriv l : (2 * l.+1 + 1)%N%:R * rodrigues K l.+1 = (rodrigues K l.+2)^`() - (rodrigues K l)^`().
Proof.
rewrite (PA K l.+1) (PB K l) natrD natrM; move: (rodrigues K l.+1) (_^`()) => p q.
rewrite -[l.+2]addn1 natrD [l.+1%:R]lock; move: (locked _) => a.
by rewrite (_ : 2%:R = 1 + 1) //; cring L.
Qed.
End Legendre.
Section Transforms.
Variable K : numClosedFieldType.
Add Field Kf2 : (kfield_theory K).
Variables (beta : K).
Hypothesis b0 : beta != 0.
Definition arg : {poly K} := (2%:R / beta) *: 'X - 1.
Definition Q (l : nat) : {poly K} := rodrigues K l \Po arg.
Lemma argd : arg^`() = (2%:R / beta)%:P.
Proof. by rewrite /arg derivB derivZ derivX derivC subr0 alg_polyC. Qed.
Lemma arg_beta : arg.[beta] = 1.
Proof. by rewrite /arg !hornerE divfK // (_ : 2%:R = 1 + 1) // addrK. Qed.
Lemma arg_0 : arg.[0] = -1.
Proof. by rewrite /arg !hornerE /= ?add0r ?sub0r. Qed.
Lemma Q_beta l : (Q l).[beta] = 1.
Proof. by rewrite /Q horner_comp arg_beta P_at_one. Qed.
Lemma Q_0 l : (Q l).[0] = (-1) ^+ l.
Proof. by rewrite /Q horner_comp arg_0 P_parity P_at_one mulr1. Qed.
Lemma Q_deriv l : (2 * l.+1 + 1)%N%:R *: Q l.+1 = (beta / 2%:R) *: ((Q l.+2)^`() - (Q l)^`()).
Proof.
rewrite /Q !deriv_comp argd -mulrBl -comp_polyB -P_deriv [X in _ = _ *: X]mulrC mul_polyC scalerA.
rewrite mulrA divfK ?pnatr_eq0 // mulfV // scale1r -polyC_natr mul_polyC; exact: (esym (comp_polyZ _ _ _)).
Qed.
Variables (m_pi : K) (n : nat).
Hypothesis pi0 : m_pi != 0.
Let z : K := (2%:R * n%:R + 1) * m_pi / 2%:R.
Let w : K := matsubara m_pi beta n.
Lemma odd0 : 2%:R * n%:R + 1 != 0 :> K. Proof. by rewrite -natrM -(natrD _ _ 1) addn1 pnatr_eq0. Qed.
Lemma z0 : z != 0. Proof. by rewrite /z !mulf_neq0 ?odd0 ?invr_neq0 ?pnatr_eq0. Qed.
Lemma ww0 : w != 0. Proof. by rewrite /w /matsubara !mulf_neq0 ?odd0 ?invr_neq0. Qed.
Lemma wz : w * beta / 2%:R = z. Proof. by rewrite /w /matsubara divfK. Qed.
Variables (F : {poly K} -> K).
Hypothesis fF : fourier beta w F.
Lemma F_rec l : F (Q l.+2) = F (Q l) + 'i * (2%:R * l%:R + 3%:R) / z * F (Q l.+1).
Proof.
have [fa fs fd] := fF; have := congr1 F (Q_deriv l); rewrite !fs -scaleN1r fa fs !fd !Q_beta !Q_0.
rewrite !exprS !mulN1r opprK -(wz) => e.
have -> : 2%:R * l%:R + 3%:R = (2 * l.+1 + 1)%N%:R :> K by rewrite -natrM -natrD; congr (_%:R); lia.
have ii : 'i * 'i = -1 :> K by rewrite -expr2 sqrCi.
have t0 : 2%:R != 0 :> K by rewrite pnatr_eq0.
rewrite mulrAC -(mulrA 'i) e; have := ww0.
move: (F (Q l.+2)) (F (Q l)) ((-1) ^+ l) => x y s w00.
transitivity (y - 'i * 'i * (x - y)); first by symmetry; rewrite ii; kring K.
by kfield K.
Qed.
Lemma F_0 : F (Q 0) = 'i * beta / z.
Proof.
have e : F (Q 0) = - (1 + 1) / ('i * w).
  rewrite (fourier_step ww0 (Q 0) fF) Q_beta Q_0 expr0 /Q P0 comp_polyC derivC.
  by rewrite (fourier0 fF) mul0r subr0.
have ii : 'i * 'i = -1 :> K by rewrite -expr2 sqrCi.
have t0 : 2%:R != 0 :> K by rewrite pnatr_eq0.
have i0 : 'i != 0 :> K by rewrite neq0Ci.
have w0' := ww0; rewrite e -wz.
have -> : - (1 + 1) = 2%:R * ('i * 'i) :> K by rewrite ii mulrN1.
by kfield K.
Qed.
Lemma F_1 : F (Q 1) = - beta / z ^+ 2.
Proof.
have e : F (Q 1) = - (2%:R / beta * F (Q 0)) / ('i * w).
  rewrite (fourier_step ww0 (Q 1) fF) Q_beta Q_0 expr1 subrr oppr0 mul0r sub0r /Q P1 comp_polyX argd P0 comp_polyC.
  by rewrite -alg_polyC; have [_ -> _] := fF; rewrite mulNr.
have t0 : 2%:R != 0 :> K by rewrite pnatr_eq0.
have i0 : 'i != 0 :> K by rewrite neq0Ci.
have w0' := ww0; rewrite e F_0 -wz expr2.
by kfield K.
Qed.
Variables (sinf cosf : K -> K) (j : nat -> K -> K).
Hypothesis jb : bessel sinf cosf j z.
Hypothesis jh : half_odd m_pi sinf cosf.
Lemma F_bessel l : F (Q l) = beta * (-1) ^+ n * 'i ^+ l.+1 * j l z.
Proof.
have [j0 j1 jr] := jb; have [sn cs] := jh n; rewrite -/z in sn cs.
have ii : 'i * 'i = -1 :> K by rewrite -expr2 sqrCi.
have ss : (-1) ^+ n * (-1) ^+ n = 1 :> K by rewrite -exprD addnn -muln2 mulnC exprM expr2 mulrNN mulr1 expr1n.
have z00 := z0.
suff: F (Q l) = beta * (-1) ^+ n * 'i ^+ l.+1 * j l z /\ F (Q l.+1) = beta * (-1) ^+ n * 'i ^+ l.+2 * j l.+1 z by case.
elim: l => [|l [h1 h2]].
  rewrite F_0 F_1 j0 j1 sn cs mul0r subr0 expr1 !expr2 ii; split.
    by transitivity ('i * beta / z * ((-1) ^+ n * (-1) ^+ n)); [rewrite ss mulr1|kring K].
  by transitivity (- beta / (z * z) * ((-1) ^+ n * (-1) ^+ n)); [rewrite ss mulr1|kring K].
split=> //; rewrite F_rec h1 h2 jr (exprS _ l.+2).
have e : 'i ^+ l.+1 = - 'i * 'i ^+ l.+2 :> K by rewrite (exprS _ l.+1) mulrA mulNr ii opprK mul1r.
by rewrite e; kfield K.
Qed.
End Transforms.

(** ** The table *)
Section Table.
Variables (K : numClosedFieldType) (m_pi : K) (sph_bessel : nat -> K -> K) (nl : nat).
Definition znum (im : nat) : K := (1 / 2%:R) * (2%:R * im%:R + 1) * m_pi.
Lemma entries s im m T : let r := foldl (tnl_entry m_pi sph_bessel s im) (T, 'i) (iota 0 m) in r.2 = 'i ^+ m.+1 /\
  forall a b, r.1 a b = if (a == im) && (b < m)%N then s * 'i ^+ b.+1 * sqrtC (2%:R * b%:R + 1) * sph_bessel b (znum im) else T a b.
Proof.
elim: m => [|m [ih1 ih2]]; first by split=> //= a b; rewrite andbF.
rewrite -addn1 iotaD foldl_cat; set r := foldl _ _ (iota 0 m) in ih1 ih2 *.
rewrite [r]surjective_pairing /= add0n ih1 addn1 (exprSr _ m.+1); split=> // a b; rewrite /put_nl ih2.
case: (a =P im) => [->|] //=; case: (ltngtP b m) => hb.
- by rewrite ltnS ltnW.
- by rewrite ltnNge hb.
- by rewrite hb ltnSn.
Qed.
Lemma tnlE nm T0 im il : (im < nm)%N -> (il < nl)%N ->
  tnl_table m_pi sph_bessel nm nl T0 im il = (-1) ^+ im * 'i ^+ il.+1 * sqrtC (2%:R * il%:R + 1) * sph_bessel il (znum im).
Proof.
move=> him hil; rewrite /tnl_table.
suff: forall m, let r := foldl (tnl_row m_pi sph_bessel nl) (T0, 1) (iota 0 m) in r.2 = (-1) ^+ m /\
  forall a b, (a < m)%N -> (b < nl)%N -> r.1 a b = (-1) ^+ a * 'i ^+ b.+1 * sqrtC (2%:R * b%:R + 1) * sph_bessel b (znum a).
  by move=> h; have [_ h2] := h nm; apply: h2.
elim=> [|m [ih1 ih2]] //; rewrite -addn1 iotaD foldl_cat; set r := foldl _ _ (iota 0 m) in ih1 ih2 *.
rewrite [r]surjective_pairing /= add0n ih1 addn1 (exprSr _ m); split=> // a b ha hb.
have [_ ->] := entries ((-1) ^+ m) m nl r.1; rewrite hb andbT; case: eqP => [->//|ne]; apply: ih2 => //; lia.
Qed.
End Table.

(** C69_gf: for every number of frequencies and of Legendre coefficients and for every table of coefficients, gf at a frequency is the
    Fourier transform, at that frequency, of a polynomial in tau, and the values of this polynomial at the points of the mesh are gtau.
    The functional is any that is linear and obeys integration by parts (by C69_fourier_unique there is one and only one) *)
Section C69.
Variable K : numClosedFieldType.
Add Field Kf3 : (kfield_theory K).
Variables (m_pi beta : K) (sinf cosf : K -> K) (sph_bessel : nat -> K -> K).
Hypotheses (b0 : beta != 0) (pi0 : m_pi != 0) (jh : half_odd m_pi sinf cosf).
Hypothesis jb : forall n, bessel sinf cosf sph_bessel ((2%:R * n%:R + 1) * m_pi / 2%:R).
Theorem C69_gf nm nl T0 (G : arr3 K) im f1 f2 F : (im < nm)%N -> fourier beta (matsubara m_pi beta im) F ->
  gomega (tnl_table m_pi sph_bessel nm nl T0) nl G im f1 f2 = F (gpoly beta nl (G f1 f2)).
Proof.
move=> him fF; rewrite /gomega /gpoly.
rewrite (fourier_sum nl (fun l => (G f1 f2 l * sqrtC (2%:R * l%:R + 1) / beta) *: (rodrigues K l \Po arg beta)) fF).
apply: eq_bigr => l _; rewrite tnlE //; have [_ -> _] := fF.
rewrite -/(Q beta l) (F_bessel b0 pi0 fF (jb im) jh l).
have -> : znum m_pi im = (2%:R * im%:R + 1) * m_pi / 2%:R by rewrite /znum div1r -mulrA mulrC.
move: ((-1) ^+ _) ('i ^+ _) (sqrtC _) (sph_bessel _ _) (G _ _ _) => s i q j g; kfield K.
Qed.
Theorem C69_gtau nl t n_tau (G : arr3 K) itau f1 f2 : make_transformer sqrtC nl = Some t ->
  gtau t beta n_tau nl G itau f1 f2 = Some (gpoly beta nl (G f1 f2)).[itau%:R * (beta / n_tau%:R)].
Proof.
move=> made; have [h0 en _ sq0 sq] := make_ok made; rewrite /gtau; set x := _ - 1.
have hz : (nl <= size (nseq nl (0%R : K)))%N by rewrite size_nseq.
have [r [-> [hr _]]] := C47_legendre made x hz.
rewrite /= gtau_fold; congr Some; rewrite /gpoly horner_sum; apply: eq_bigr => l _; rewrite hr // [RHS]hornerZ horner_comp.
have -> : ((2%:R / beta) *: 'X - 1).[itau%:R * (beta / n_tau%:R)] = x.
  rewrite hornerD hornerN hornerZ hornerX hornerC /x; congr (_ - _); move: itau%:R n_tau%:R^-1 => c d; kring K.
have -> : nth 0 (sqrt_2l_1 t) l = sqrtC (2%:R * l%:R + 1).
  by case: (nat_of_ord l) (ltn_ord l) => [|k] hk; rewrite ?sq0 ?mulr0 ?add0r ?sqrtC1 ?sq.
by rewrite div1r -!mulrA mulrC -!mulrA.
Qed.

(** C69_tail: with the corrected coefficients gf is, at all frequencies of the mesh, a polynomial in 1/(i omega) with coefficients that do not
    depend on the frequency, without constant term, and the coefficient of 1/(i omega) is exactly 1 on the diagonal and 0 elsewhere *)
Theorem C69_tail nm nf nl T0 (G : arr3 K) f1 f2 : (0 < nl)%N -> (f1 < nf)%N -> (f2 < nf)%N ->
  exists c : nat -> K, c 0%N = (f1 == f2)%:R /\ forall im, (im < nm)%N ->
    gomega (tnl_table m_pi sph_bessel nm nl T0) nl (correct_G1_tail beta nf nl G) im f1 f2 =
    \sum_(k < nl) c k / ('i * matsubara m_pi beta im) ^+ k.+1.
Proof.
move=> h0 h1 h2; set H := correct_G1_tail beta nf nl G; set p := gpoly beta nl (H f1 f2).
exists (coef_k beta p); split; last first.
  move=> im him; have w0 := ww0 b0 im pi0; have fF := the_fourier_ok beta w0.
  rewrite (C69_gf nl T0 H f1 f2 him fF) (fourier_val w0 fF (n := nl)) //.
  rewrite /p /gpoly; apply: (leq_trans (size_sum _ _ _)); apply/bigmax_leqP => l _.
  apply: (leq_trans (size_scale_leq _ _)); apply: (leq_trans (size_comp_poly_leq _ _)).
  rewrite P_size /=; have : (size ((2%:R / beta) *: 'X - 1 : {poly K})%R <= 2)%N.
    apply: (leq_trans (size_add _ _)); rewrite geq_max size_opp size_poly1 andbT.
    by apply: (leq_trans (size_scale_leq _ _)); rewrite size_polyX.
  by case: (size _) => [|[|[|s]]] // _; rewrite ?muln0 ?muln1 //; apply: ltn_ord.
rewrite /coef_k derivn0 expr1 mulN1r /p /gpoly !horner_sum -big_split /=.
have e (l : 'I_nl) : ((H f1 f2 l * sqrtC (2%:R * l%:R + 1) / beta) *: (rodrigues K l \Po ((2%:R / beta) *: 'X - 1))).[beta] +
   ((H f1 f2 l * sqrtC (2%:R * l%:R + 1) / beta) *: (rodrigues K l \Po ((2%:R / beta) *: 'X - 1))).[0] = - (1 / beta) * (tl1 K l * H f1 f2 l).
  rewrite !hornerZ -/(arg beta) -/(Q beta l) Q_beta // Q_0 // /tl1 modn2 -signr_odd.
  case: (odd l); rewrite /= ?expr1 ?expr0 ?mulr1.
    by rewrite mulrN1 subrr mul0r mulr0.
  rewrite div1r; move: (sqrtC _) (H _ _ _) beta^-1 => x y z.
  by rewrite (_ : 2%:R = 1 + 1) //; kring K.
rewrite (eq_bigr _ (fun l _ => e l)) -mulr_sumr C48_moment // mulNr opprK div1r mulKf //.
Qed.
End C69.
Print Assumptions C69_fourier_unique.
Print Assumptions C69_gf.
Print Assumptions C69_gtau.
Print Assumptions C69_tail.
