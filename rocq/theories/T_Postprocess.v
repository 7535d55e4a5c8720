(** * C48, C49, C50, C58: tail correction, basis rotation, signed averages *)
From mathcomp Require Import all_ssreflect all_algebra zify.
From Verif Require Import Legendre T_Legendre Postprocess KField.
Import Order.Theory GRing.Theory Num.Theory.
Set Implicit Arguments.
Unset Strict Implicit.
Unset Printing Implicit Defensive.
Local Open Scope ring_scope.

(** ** C48 *)
Section C48.
Variable K : numClosedFieldType.
Add Field Kf : (kfield_theory K).
Variables (beta : K) (nf nl : nat).
Implicit Types G : arr3 K.

Lemma tl1_odd l : odd l -> tl1 K l = 0.
Proof. by rewrite /tl1 modn2 => ->. Qed.
Lemma tl1_even l : ~~ odd l -> tl1 K l = - 2%:R * sqrtC (2%:R * l%:R + 1).
Proof. by rewrite /tl1 modn2 => /negbTE ->. Qed.

Definition S2 : K := \sum_(l < nl) tl1 K l * tl1 K l.
Definition dif G f1 f2 : K := beta * (if f1 == f2 then 1 else 0) - \sum_(l < nl) tl1 K l * G f1 f2 l.
Definition corr G f1 f2 l : K := G f1 f2 l + dif G f1 f2 / S2 * tl1 K l.

Lemma fold_dif G f1 f2 d s m : foldl (fun ds l => (ds.1 - tl1 K l * G f1 f2 l, ds.2 + tl1 K l * tl1 K l)) (d, s) (iota 0 m) =
  (d - \sum_(l < m) tl1 K l * G f1 f2 l, s + \sum_(l < m) tl1 K l * tl1 K l).
Proof.
elim: m => [|m ih]; first by rewrite !big_ord0 subr0 addr0.
by rewrite -addn1 iotaD foldl_cat ih /= add0n addn1 !big_ord_recr /= opprD !addrA.
Qed.
Lemma correct_pairE f1 f2 G a b c : correct_pair beta nl f1 f2 G a b c =
  if [&& a == f1, b == f2 & (c < nl)%N] then corr G a b c else G a b c.
Proof.
rewrite /correct_pair fold_dif -/(dif G f1 f2) add0r -/S2.
set x := dif G f1 f2 / S2.
have h m : foldl (fun H l => put3 H f1 f2 l (H f1 f2 l + x * tl1 K l)) G (iota 0 m) a b c =
  if [&& a == f1, b == f2 & (c < m)%N] then G a b c + x * tl1 K c else G a b c.
  elim: m a b c => [|m ih] a' b' c'; first by rewrite /= !andbF.
  rewrite -addn1 iotaD foldl_cat /= add0n {1}/put3 !ih !eqxx ltnn /=.
  case: (eqVneq a' f1) => [->|_] //=; case: (eqVneq b' f2) => [->|_] //=; case: (ltngtP c' m) => h'.
  - by rewrite ltn_addr.
  - by rewrite ltnNge addn1 h'.
  - by rewrite h' addn1 ltnSn.
rewrite h /corr; by case: (eqVneq a f1) => [->|//]; case: (eqVneq b f2) => [->|].
Qed.
Lemma corr_ext G H a b c : (forall l, G a b l = H a b l) -> corr G a b c = corr H a b c.
Proof. by move=> e; rewrite /corr /dif e; congr (_ + (_ - _) / _ * _); apply: eq_bigr => l _; rewrite e. Qed.
Lemma correctE G a b c : correct_G1_tail beta nf nl G a b c =
  if [&& (a < nf)%N, (b < nf)%N & (c < nl)%N] then corr G a b c else G a b c.
Proof.
rewrite /correct_G1_tail.
have inner m f1 H : forall a b c, foldl (fun G f2 => correct_pair beta nl f1 f2 G) H (iota 0 m) a b c =
  if [&& a == f1, (b < m)%N & (c < nl)%N] then corr H a b c else H a b c.
  elim: m => [|m ih] a' b' c'; first by rewrite /= andbF.
  rewrite -addn1 iotaD foldl_cat /= add0n correct_pairE.
  have [->|na] := eqVneq a' f1; rewrite /=; last by rewrite ih (negbTE na).
  have [->|nb] := eqVneq b' m; rewrite /=.
    have e l : foldl (fun G f2 => correct_pair beta nl f1 f2 G) H (iota 0 m) f1 m l = H f1 m l by rewrite ih ltnn andbF.
    by rewrite (corr_ext _ e) e addn1 ltnSn.
  rewrite ih eqxx /=; have -> // : (b' < m + 1)%N = (b' < m)%N by move/eqP: nb; lia.
have outer m : forall a b c, foldl (fun G f1 => foldl (fun G f2 => correct_pair beta nl f1 f2 G) G (iota 0 nf)) G (iota 0 m) a b c =
  if [&& (a < m)%N, (b < nf)%N & (c < nl)%N] then corr G a b c else G a b c.
  elim: m => [|m ih] a' b' c'; first by [].
  rewrite -addn1 iotaD foldl_cat /= add0n inner.
  set H := foldl _ G _ in ih *.
  have [->|na] := eqVneq a' m; rewrite /=.
    have e l : H m b' l = G m b' l by rewrite ih ltnn.
    by rewrite (corr_ext _ e) e addn1 ltnSn.
  rewrite ih; have -> // : (a' < m + 1)%N = (a' < m)%N by move/eqP: na; lia.
exact: outer.
Qed.

Lemma S2_pos : (0 < nl)%N -> 0 < S2.
Proof.
rewrite /S2; case: nl => [//|m] _; rewrite big_ord_recl ltr_paddr //.
  apply: sumr_ge0 => i _; rewrite /tl1; case: ifP => _; last by rewrite mulr0.
  rewrite -expr2 exprMn sqrrN sqrtCK; apply: mulr_ge0; first by rewrite exprn_ge0 // ler0n.
  by apply: addr_ge0; rewrite ?ler01 // -natrM ler0n.
by rewrite /tl1 /= mulr0 add0r sqrtC1 mulr1 mulrNN mulr_gt0 // ltr0n.
Qed.

(** The moment condition, for every pair of flavors *)
Theorem C48_moment G f1 f2 : (0 < nl)%N -> (f1 < nf)%N -> (f2 < nf)%N ->
  \sum_(l < nl) tl1 K l * correct_G1_tail beta nf nl G f1 f2 l = beta * (f1 == f2)%:R.
Proof.
move=> h0 h1 h2; under eq_bigr => l _ do rewrite correctE h1 h2 ltn_ord /= /corr mulrDr mulrCA.
have s2 : S2 != 0 by rewrite gt_eqF // S2_pos.
rewrite big_split /= -mulr_sumr -/S2 divfK //.
by rewrite /dif addrC subrK; case: eqP.
Qed.
(** Coefficients of odd order, and everything outside the array, are not changed *)
Theorem C48_odd G f1 f2 l : odd l || (nl <= l)%N || (nf <= f1)%N || (nf <= f2)%N -> correct_G1_tail beta nf nl G f1 f2 l = G f1 f2 l.
Proof.
rewrite correctE; case: ifP => // /and3P[h1 h2 h3].
rewrite (leqNgt nl l) h3 (leqNgt nf f1) h1 (leqNgt nf f2) h2 /= !orbF => o.
by rewrite /corr tl1_odd // mulr0 addr0.
Qed.
(** A second correction changes nothing; nor does the first if the condition holds already *)
Theorem C48_idempotent G a b c : (0 < nl)%N ->
  correct_G1_tail beta nf nl (correct_G1_tail beta nf nl G) a b c = correct_G1_tail beta nf nl G a b c.
Proof.
move=> h0; set H := correct_G1_tail beta nf nl G; rewrite (correctE H).
case: ifP => // /and3P[h1 h2 h3]; rewrite /corr /dif.
rewrite (C48_moment G h0 h1 h2); case: eqP => _; by rewrite ?mulr1 ?mulr0 subrr mul0r mul0r addr0.
Qed.
Theorem C48_fixed G a b c : (forall f1 f2, \sum_(l < nl) tl1 K l * G f1 f2 l = beta * (f1 == f2)%:R) ->
  correct_G1_tail beta nf nl G a b c = G a b c.
Proof.
move=> h; rewrite correctE; case: ifP => // _; rewrite /corr /dif h.
by case: eqP => _; rewrite ?mulr1 ?mulr0 subrr mul0r mul0r addr0.
Qed.

(** What the condition means: the G(tau) computed from the corrected coefficients jumps by exactly -1 (0 off the diagonal) from
    one period to the next: G(0) + G(beta) = - delta *)
Lemma gtau_fold (g : nat -> K) m : foldl (fun s il => s + g il) 0 (iota 0 m) = \sum_(l < m) g l.
Proof.
elim: m => [|m ih]; first by rewrite big_ord0.
by rewrite -addn1 iotaD foldl_cat ih /= add0n addn1 big_ord_recr.
Qed.
Theorem C48_jump t n_tau G f1 f2 : make_transformer sqrtC nl = Some t -> beta != 0 -> (0 < n_tau)%N -> (f1 < nf)%N -> (f2 < nf)%N ->
  exists g0 gb, [/\ gtau t beta n_tau nl (correct_G1_tail beta nf nl G) 0 f1 f2 = Some g0,
    gtau t beta n_tau nl (correct_G1_tail beta nf nl G) n_tau f1 f2 = Some gb & g0 + gb = - (f1 == f2)%:R].
Proof.
move=> made b0 nt h1 h2; have [h0 en _ sq0 sq] := make_ok made.
set H := correct_G1_tail beta nf nl G.
have val itau x : 2%:R * (itau%:R * (beta / n_tau%:R)) / beta - 1 = x ->
    gtau t beta n_tau nl H itau f1 f2 = Some (\sum_(l < nl) (rodrigues K l).[x] * H f1 f2 l * sqrtC (2%:R * l%:R + 1) * (1 / beta)).
  move=> e; rewrite /gtau e.
  have hz : (nl <= size (nseq nl (0%R : K)))%N by rewrite size_nseq.
  have [r [-> [hr _]]] := C47_legendre made x hz.
  rewrite /= gtau_fold; congr Some; apply: eq_bigr => l _; rewrite hr //; congr (_ * _ * _).
  by case: (nat_of_ord l) (ltn_ord l) => [|k] hk; rewrite ?sq0 ?mulr0 ?add0r ?sqrtC1 ?sq.
have x0 : 2%:R * (0%:R * (beta / n_tau%:R)) / beta - 1 = -1 by rewrite mul0r mulr0 mul0r sub0r.
have x1 : 2%:R * (n_tau%:R * (beta / n_tau%:R)) / beta - 1 = 1.
  by rewrite (mulrC n_tau%:R) divfK ?pnatr_eq0 -?lt0n // mulfK // (_ : 2%:R = 1 + 1) ?addrK.
have -> := val _ _ x0; have -> := val _ _ x1; do 2 eexists; split; try reflexivity.
rewrite -big_split /=.
have e (l : 'I_nl) : (rodrigues K l).[-1] * H f1 f2 l * sqrtC (2%:R * l%:R + 1) * (1 / beta) +
   (rodrigues K l).[1] * H f1 f2 l * sqrtC (2%:R * l%:R + 1) * (1 / beta) = - (1 / beta) * (tl1 K l * H f1 f2 l).
  rewrite P_parity !P_at_one !mulr1 /tl1 modn2 -signr_odd.
  case: (odd l); rewrite /= ?expr1 ?expr0.
    by rewrite mul0r mulr0; kring K.
  by rewrite (_ : 2%:R = 1 + 1) //; move: (sqrtC _) (H _ _ _) (1 / beta) => x y z; kring K.
rewrite (eq_bigr _ (fun l _ => e l)) -mulr_sumr C48_moment // mulNr mul1r mulrA mulVf // mul1r //.
Qed.
End C48.
(** Two flavors, three coefficients, beta = 2, all coefficients 1: the corrected ones *)
Example C48_instance (K : numClosedFieldType) : let G : arr3 K := fun _ _ _ => 1 in
  \sum_(l < 3) tl1 K l * correct_G1_tail 2%:R 2 3 G 0%N 0%N l = 2%:R /\ \sum_(l < 3) tl1 K l * correct_G1_tail 2%:R 2 3 G 0%N 1%N l = 0 /\
  \sum_(l < 3) tl1 K l * G 0%N 1%N l != 0.
Proof.
move=> G; split; [|split]; rewrite ?C48_moment //= ?mulr1 ?mulr0 //.
rewrite !big_ord_recl big_ord0 /G /tl1 /= !mulr1 !addr0 add0r mulr0 add0r sqrtC1.
rewrite lt_eqF // -oppr_gt0 opprD -!mulNr opprK !addr_gt0 ?mulr_gt0 ?ltr0n ?ltr01 ?sqrtC_gt0 //.
by rewrite -natrM -(natrD _ _ 1) ltr0n.
Qed.

(** ** C49 *)
Section C49.
Variables (K : numClosedFieldType) (n : nat).
Implicit Types (R G D : 'M[K]_n).

Definition unitary R : Prop := adjoint R *m R = 1%:M.
Lemma adjE R i j : adjoint R i j = (R j i)^*. Proof. by rewrite !mxE. Qed.
Lemma unitary_inv R : unitary R -> invmx R = adjoint R.
Proof.
move=> u; have [_ ru] := mulmx1_unit u.
by rewrite -[LHS]mul1mx -u -mulmxA mulmxV // mulmx1.
Qed.
Lemma unitary_rows R : unitary R -> R *m adjoint R = 1%:M.
Proof. by move=> u; exact: mulmx1C. Qed.
(** Sums over rows and columns of a unitary matrix *)
Lemma col_orth R i j : unitary R -> \sum_k (R k i)^* * R k j = (i == j)%:R.
Proof.
move=> u; have := congr1 (fun A : 'M_n => A i j) u; rewrite !mxE => <-.
by apply: eq_bigr => k _; rewrite adjE.
Qed.
Lemma row_orth R i j : unitary R -> \sum_k R i k * (R j k)^* = (i == j)%:R.
Proof.
move=> u; have := congr1 (fun A : 'M_n => A i j) (unitary_rows u); rewrite !mxE => <-.
by apply: eq_bigr => k _; rewrite adjE.
Qed.

(** *** Reading: the columns are brought to norm 1, in the direction of the input, and the program goes on exactly when their
    scalar products are within the tolerance *)
Lemma conjM_E m1 m2 (A : 'M[K]_(m1, m2)) i j : conjM A i j = (A i j)^*. Proof. by rewrite mxE. Qed.
Definition norm2 (A : 'M[K]_n) (j : 'I_n) : K := \sum_k `|A k j| ^+ 2.
Lemma norm2_pos (A : 'M[K]_n) j : (exists k, A k j != 0) -> 0 < norm2 A j.
Proof.
case=> k hk; rewrite /norm2 (bigD1 k) //= ltr_paddr ?exprn_gt0 ?normr_gt0 //.
by apply: sumr_ge0 => i _; rewrite exprn_ge0.
Qed.
Lemma normalizeE (A : 'M[K]_n) i j : conjM (normalize (read_basis A)) i j = A i j / sqrtC (norm2 A j).
Proof.
rewrite !mxE rmorphM conjCK mul1r; congr (_ * _).
have -> : \sum_k `|read_basis A k j| * `|read_basis A k j| = norm2 A j.
  by apply: eq_bigr => k _; rewrite mxE norm_conjC expr2.
rewrite fmorphV; congr (_^-1); apply: conj_Creal; rewrite ger0_real // sqrtC_ge0.
by apply: sumr_ge0 => k _; rewrite exprn_ge0.
Qed.
Theorem C49_reading (A : 'M[K]_n) F R : (forall j, exists k, A k j != 0) -> make_rotation A = Some (F, R) ->
  [/\ F = conjM R, forall i j, R i j = A i j / sqrtC (norm2 A j), forall j, (adjoint R *m R) j j = 1 &
      forall i j, i != j -> `|(adjoint R *m R) i j| <= tolerance K].
Proof.
move=> nz; rewrite /make_rotation; set F0 := normalize _; case: ifP => // ok [<- <-].
have e : forall i j, conjM F0 i j = A i j / sqrtC (norm2 A j) by move=> i j; exact: normalizeE.
split=> //; first by apply/matrixP => i j; rewrite !mxE conjCK.
- move=> j; rewrite mxE.
  have p := norm2_pos (nz j); rewrite -[RHS](divff (lt0r_neq0 p)) {2}/norm2 mulr_suml.
  apply: eq_bigr => k _; rewrite adjE -normCKC e normf_div exprMn exprVn; congr (_ * _^-1).
  by rewrite ger0_norm ?sqrtC_ge0 ?(ltW p) // sqrtCK.
- move=> i j ne.
  have h : forall a b : 'I_n, (b < a)%N -> `|\sum_k (F0 k a)^* * F0 k b| <= tolerance K.
    move=> a b lt; move/forallP: ok => /(_ a)/forallP/(_ b); rewrite lt /= real_ltNge ?negbK //.
    by rewrite realV ger0_real // ler0n.
  have sw : forall a b : 'I_n, (adjoint (conjM F0) *m conjM F0) a b = \sum_k (F0 k b)^* * F0 k a.
    by move=> a b; rewrite mxE; apply: eq_bigr => k _; rewrite adjE !conjM_E conjCK mulrC.
  have cs : forall a b : 'I_n, `|\sum_k (F0 k a)^* * F0 k b| = `|\sum_k (F0 k b)^* * F0 k a|.
    move=> a b; rewrite -norm_conjC rmorph_sum /=; congr `|_|; apply: eq_bigr => k _.
    by rewrite rmorphM conjCK mulrC.
  rewrite sw; case: (ltngtP i j) => h'; [exact: h|by rewrite cs; exact: h|by case/eqP: ne; exact: val_inj].
Qed.
(** An input with orthogonal columns is accepted and gives a unitary matrix *)
Theorem C49_accepted (A : 'M[K]_n) : (forall j, exists k, A k j != 0) ->
  (forall i j, i != j -> \sum_k (A k i)^* * A k j = 0) -> exists F R, make_rotation A = Some (F, R) /\ unitary R.
Proof.
move=> nz orth; rewrite /make_rotation; set F0 := normalize _.
have e : forall i j, conjM F0 i j = A i j / sqrtC (norm2 A j) by move=> i j; exact: normalizeE.
have nr j : (sqrtC (norm2 A j))^* = sqrtC (norm2 A j).
  by apply: conj_Creal; rewrite ger0_real // sqrtC_ge0 ltW // norm2_pos.
have z i j : i != j -> \sum_k (conjM F0 k i)^* * conjM F0 k j = 0.
  move=> ne; under eq_bigr => k _ do rewrite !e rmorphM fmorphV nr mulrACA.
  by rewrite -mulr_suml orth // mul0r.
have ok : is_orthogonal F0.
  apply/forallP => i; apply/forallP => j; apply/implyP => lt.
  have -> : \sum_(k < n) (F0 k i)^* * F0 k j = 0.
    rewrite -[LHS]conjCK -[RHS]conjCK; congr (_^*); rewrite rmorph_sum conjC0 -[RHS](z i j).
      by apply: eq_bigr => k _; rewrite rmorphM /= !conjM_E.
    by apply/eqP => ij; rewrite ij ltnn in lt.
  have t0 : 0 <= tolerance K by rewrite invr_ge0 ler0n.
  by rewrite normr0 (le_gtF t0).
rewrite ok; eexists; eexists; split; first reflexivity.
have [|/= _ _ d _] := @C49_reading A F0 (conjM F0) nz; first by rewrite /make_rotation -/F0 ok.
apply/matrixP => i j; rewrite [RHS]mxE.
have [<-|ne] := eqVneq i j; first exact: d.
by rewrite mxE; under eq_bigr => k _ do rewrite adjE; rewrite z.
Qed.

(** *** The operators of the two bases.  The input matrix holds the new basis states as columns, so the operators of the
    original basis are c_a = sum_f R(a,f) c'_f and c^+_a = sum_f conj(R(a,f)) c'^+_f.  A correlation function is a form that is
    linear in each operator; nothing else is assumed about it *)
Definition linear1 (V : lmodType K) (phi : V -> K) : Prop := forall a x y, phi (a *: x + y) = a * phi x + phi y.
Definition linear2 (V : lmodType K) (phi : V -> V -> K) : Prop :=
  (forall y, linear1 (phi^~ y)) /\ (forall x, linear1 (phi x)).
Definition linear4 (V : lmodType K) (phi : V -> V -> V -> V -> K) : Prop :=
  [/\ forall y z w, linear1 (fun x => phi x y z w), forall x z w, linear1 (fun y => phi x y z w),
      forall x y w, linear1 (fun z => phi x y z w) & forall x y z, linear1 (phi x y z)].
Section Forms.
Variables (V : lmodType K) (R : 'M[K]_n) (c cd : 'I_n -> V).
Definition ann (a : 'I_n) : V := \sum_f R a f *: c f.
Definition cre (a : 'I_n) : V := \sum_f (R a f)^* *: cd f.
Lemma lin_sum (phi : V -> K) (g : 'I_n -> K) (v : 'I_n -> V) : linear1 phi -> phi (\sum_f g f *: v f) = \sum_f g f * phi (v f).
Proof.
move=> l; have z : phi 0 = 0.
  by have := l (-1) 0 0; rewrite scaleN1r addNr mulN1r addNr.
elim/big_rec2: _ => [//|f x y _ <-]; exact: l.
Qed.

(** One-particle functions <c_a c^+_b> and <c^+_a c_b> *)
Theorem C49_operators_G1 phi : linear2 phi -> unitary R ->
  (forall a b, rotate_back_G1 R (\matrix_(f, g) phi (c f) (cd g)) a b = phi (ann a) (cre b)) /\
  (forall a b, rotate_back_Z R (\matrix_(f, g) phi (c f) (cd g)) a b = phi (ann a) (cre b)) /\
  (forall a b, rotate_equal_time_G1 R (\matrix_(f, g) phi (cd f) (c g)) a b = phi (cre a) (ann b)).
Proof.
move=> [l1 l2] u; have z a b : rotate_back_Z R (\matrix_(f, g) phi (c f) (cd g)) a b = phi (ann a) (cre b).
  rewrite /rotate_back_Z mxE /cre (lin_sum _ _ (l2 _)); apply: eq_bigr => g _.
  rewrite adjE mulrC; congr (_ * _); rewrite mxE /ann (lin_sum (phi := phi^~ _) _ _ (l1 _)).
  by apply: eq_bigr => f _; rewrite mxE.
split=> [a b|]; first by rewrite -z /rotate_back_G1 unitary_inv.
split=> // a b; rewrite mxE /cre (lin_sum (phi := phi^~ _) _ _ (l1 _)); apply: eq_bigr => f _.
rewrite /ann (lin_sum _ _ (l2 _)) mulr_sumr; apply: eq_bigr => g _.
by rewrite mxE -mulrA mulrC -mulrA.
Qed.
(** Two-particle functions <c_a c^+_b c_c c^+_d> (G2) and <c^+_a c_b c^+_c c_d> (equal-time and two-time) *)
Theorem C49_operators_G2 phi : linear4 phi -> forall f1 f2 f3 f4,
  rotate_back_G2 R (fun g1 g2 g3 g4 => phi (c g1) (cd g2) (c g3) (cd g4)) f1 f2 f3 f4 = phi (ann f1) (cre f2) (ann f3) (cre f4) /\
  rotate_equal_time_G2 R (fun g1 g2 g3 g4 => phi (cd g1) (c g2) (cd g3) (c g4)) f1 f2 f3 f4 = phi (cre f1) (ann f2) (cre f3) (ann f4).
Proof.
move=> [l1 l2 l3 l4] f1 f2 f3 f4; split.
  rewrite /rotate_back_G2 /back4 {2}/cre (lin_sum _ _ (l4 _ _ _)); apply: eq_bigr => g4 _; congr (_ * _).
  rewrite /back3 {2}/ann (lin_sum (phi := fun z => phi _ _ z _) _ _ (l3 _ _ _)); apply: eq_bigr => g3 _; congr (_ * _).
  rewrite /back2 /cre (lin_sum (phi := fun y => phi _ y _ _) _ _ (l2 _ _ _)); apply: eq_bigr => g2 _; congr (_ * _).
  by rewrite /back1 /ann (lin_sum (phi := fun x => phi x _ _ _) _ _ (l1 _ _ _)).
rewrite /rotate_equal_time_G2 {1}/cre (lin_sum (phi := fun x => phi x _ _ _) _ _ (l1 _ _ _)); apply: eq_bigr => g1 _.
rewrite {1}/ann (lin_sum (phi := fun y => phi _ y _ _) _ _ (l2 _ _ _)) mulr_sumr; apply: eq_bigr => g2 _.
rewrite /cre (lin_sum (phi := fun z => phi _ _ z _) _ _ (l3 _ _ _)) !mulr_sumr; apply: eq_bigr => g3 _.
rewrite /ann (lin_sum _ _ (l4 _ _ _)) !mulr_sumr; apply: eq_bigr => g4 _.
by rewrite -!mulrA mulrC -!mulrA.
Qed.
(** The hybridization: the program reads Delta into F = - Delta^T (time reversed; C26), rotates F and hands it on; the action
    sum Delta(a,b) c^+_a c_b is the same in the new operators with the Delta' that F' stands for *)
Theorem C49_hybridization (D : 'M[K]_n) phi : linear2 phi -> unitary R ->
  \sum_a \sum_b D a b * phi (cre a) (ann b) = \sum_f \sum_g - rotate_F (conjM R) (- D^T) g f * phi (cd f) (c g).
Proof.
move=> [l1 l2] u.
have e : - (rotate_F (conjM R) (- D^T))^T = rotate_hopping R D.
  have h : R^T *m conjM R = 1%:M by apply: trmx_inj; rewrite trmx_mul trmxK trmx1.
  have iv : invmx (conjM R) = R^T.
    have [_ cu] := mulmx1_unit h.
    by rewrite -[LHS]mul1mx -h -mulmxA mulmxV // mulmx1.
  by rewrite /rotate_F iv mulNmx mulmxN linearN /= opprK !trmx_mul !trmxK -mulmxA /rotate_hopping mulmxA.
have -> : \sum_f \sum_g - rotate_F (conjM R) (- D^T) g f * phi (cd f) (c g) = \sum_f \sum_g rotate_hopping R D f g * phi (cd f) (c g).
  by apply: eq_bigr => f _; apply: eq_bigr => g _; rewrite -e !mxE.
have x a b : D a b * phi (cre a) (ann b) = \sum_f \sum_g (R a f)^* * D a b * R b g * phi (cd f) (c g).
  rewrite /cre (lin_sum (phi := phi^~ _) _ _ (l1 _)) mulr_sumr; apply: eq_bigr => f _.
  rewrite /ann (lin_sum _ _ (l2 _)) !mulr_sumr; apply: eq_bigr => g _.
  by rewrite !mulrA (mulrC (D a b)).
under eq_bigr => a _ do (under eq_bigr => b _ do rewrite x; rewrite exchange_big /=; under eq_bigr => f _ do rewrite exchange_big /=).
rewrite exchange_big /=; apply: eq_bigr => f _; rewrite exchange_big /=; apply: eq_bigr => g _.
rewrite /rotate_hopping mxE mulr_suml exchange_big /=; apply: eq_bigr => b _.
rewrite mxE !mulr_suml; apply: eq_bigr => a _; by rewrite adjE.
Qed.
End Forms.

(** *** Composition to the identity *)
Theorem C49_roundtrip_G1 R G : R \in unitmx ->
  rotate_back_G1 R (invmx R *m G *m R) = G /\ invmx R *m rotate_back_G1 R G *m R = G /\
  (unitary R -> rotate_back_Z R (rotate_hopping R G) = G /\ rotate_hopping R (rotate_back_G1 R G) = G /\
     rotate_equal_time_G1 R (rotate_hopping R G^T)^T = G).
Proof.
move=> u; split; [|split].
- by rewrite /rotate_back_G1 !mulmxA mulmxV // mul1mx mulmxK.
- by rewrite /rotate_back_G1 !mulmxA mulVmx // mul1mx mulmxKV.
- move=> un; have r := unitary_rows un; split; [|split].
  + by rewrite /rotate_back_Z /rotate_hopping !mulmxA r mul1mx -mulmxA r mulmx1.
  + by rewrite /rotate_hopping /rotate_back_G1 unitary_inv // !mulmxA un mul1mx -mulmxA un mulmx1.
  + have -> : rotate_equal_time_G1 R (rotate_hopping R G^T)^T = (rotate_back_Z R (rotate_hopping R G^T))^T.
      apply/matrixP => a b; rewrite [RHS]mxE /rotate_back_Z !mxE; apply: eq_bigr => f _.
      rewrite mxE mulr_suml; apply: eq_bigr => g _.
      by rewrite adjE [in LHS]mxE mulrAC (mulrC (R b g)).
    by rewrite /rotate_back_Z /rotate_hopping !mulmxA r mul1mx -mulmxA r mulmx1 trmxK.
Qed.

(** The four steps equal the simultaneous rotation *)
Definition simultaneous R (G : tensor4 K n) : tensor4 K n := fun f1 f2 f3 f4 =>
  \sum_g1 \sum_g2 \sum_g3 \sum_g4 R f1 g1 * (R f2 g2)^* * R f3 g3 * (R f4 g4)^* * G g1 g2 g3 g4.
Theorem C49_simultaneous R (G : tensor4 K n) f1 f2 f3 f4 : rotate_back_G2 R G f1 f2 f3 f4 = simultaneous R G f1 f2 f3 f4.
Proof.
rewrite /rotate_back_G2 /back4 /back3 /back2 /back1 /simultaneous.
under eq_bigr => g4 _ do rewrite mulr_sumr; under eq_bigr => g4 _ do (under eq_bigr => g3 _ do rewrite !mulr_sumr).
under eq_bigr => g4 _ do (under eq_bigr => g3 _ do (under eq_bigr => g2 _ do rewrite !mulr_sumr)).
under eq_bigr => g4 _ do (under eq_bigr => g3 _ do rewrite exchange_big /=).
under eq_bigr => g4 _ do rewrite exchange_big /=.
rewrite exchange_big /=; apply: eq_bigr => g1 _.
under eq_bigr => g4 _ do rewrite exchange_big /=.
rewrite exchange_big /=; apply: eq_bigr => g2 _.
rewrite exchange_big /=; apply: eq_bigr => g3 _; apply: eq_bigr => g4 _.
rewrite !mulrA; congr (_ * _); rewrite mulrC -!mulrA; congr (_ * _).
by rewrite mulrCA [in RHS]mulrC -!mulrA; congr (_ * _); rewrite mulrC.
Qed.
(** Rotating into the solver basis is the same with the adjoint matrix *)
Lemma nested R (G : tensor4 K n) f1 f2 f3 f4 : simultaneous R G f1 f2 f3 f4 = back1 R (back2 R (back3 R (back4 R G))) f1 f2 f3 f4.
Proof.
rewrite /back1 /back2 /back3 /back4 /simultaneous; apply: eq_bigr => g1 _; rewrite mulr_sumr; apply: eq_bigr => g2 _.
rewrite !mulr_sumr; apply: eq_bigr => g3 _; rewrite !mulr_sumr; apply: eq_bigr => g4 _; by rewrite !mulrA.
Qed.
Lemma sum_inv (A B : 'M[K]_n) (x : 'I_n -> K) f : A *m B = 1%:M -> \sum_g A f g * (\sum_h B g h * x h) = x f.
Proof.
move=> ab; under eq_bigr => g _ do rewrite mulr_sumr; rewrite exchange_big /=.
have e h : \sum_g A f g * (B g h * x h) = (f == h)%:R * x h.
  have := congr1 (fun M : 'M_n => M f h) ab; rewrite !mxE => <-; rewrite mulr_suml.
  by apply: eq_bigr => g _; rewrite mulrA.
under eq_bigr => h _ do rewrite e.
rewrite (bigD1 f) //= eqxx mul1r big1 ?addr0 // => h ne.
by rewrite eq_sym (negbTE ne) mul0r.
Qed.
Lemma sum_inv_conj (A B : 'M[K]_n) (x : 'I_n -> K) f : A *m B = 1%:M -> \sum_g (A f g)^* * (\sum_h (B g h)^* * x h) = x f.
Proof.
move=> ab; have ab' : conjM A *m conjM B = 1%:M by rewrite /conjM -map_mxM ab map_mx1.
rewrite -[RHS](sum_inv x f ab'); apply: eq_bigr => g _; rewrite conjM_E; congr (_ * _).
by apply: eq_bigr => h _; rewrite conjM_E.
Qed.
Lemma rotate_inv (A B : 'M[K]_n) (G : tensor4 K n) f1 f2 f3 f4 : A *m B = 1%:M -> rotate_back_G2 A (simultaneous B G) f1 f2 f3 f4 = G f1 f2 f3 f4.
Proof.
move=> ab; rewrite /rotate_back_G2 /back4.
have e1 g1 g2 g3 g4 : back1 A (simultaneous B G) g1 g2 g3 g4 = back2 B (back3 B (back4 B G)) g1 g2 g3 g4.
  rewrite /back1; under eq_bigr => g _ do rewrite nested.
  exact: (sum_inv (fun h => back2 B (back3 B (back4 B G)) h g2 g3 g4)).
have e2 g1 g2 g3 g4 : back2 A (back1 A (simultaneous B G)) g1 g2 g3 g4 = back3 B (back4 B G) g1 g2 g3 g4.
  rewrite {1}/back2; under eq_bigr => g _ do rewrite e1.
  exact: (sum_inv_conj (fun h => back3 B (back4 B G) g1 h g3 g4)).
have e3 g1 g2 g3 g4 : back3 A (back2 A (back1 A (simultaneous B G))) g1 g2 g3 g4 = back4 B G g1 g2 g3 g4.
  rewrite {1}/back3; under eq_bigr => g _ do rewrite e2.
  exact: (sum_inv (fun h => back4 B G g1 g2 h g4)).
under eq_bigr => g _ do rewrite e3.
exact: (sum_inv_conj (fun h => G f1 f2 f3 h)).
Qed.
Lemma simultaneous_ext R (G H : tensor4 K n) f1 f2 f3 f4 : (forall a b c d, G a b c d = H a b c d) ->
  simultaneous R G f1 f2 f3 f4 = simultaneous R H f1 f2 f3 f4.
Proof. by move=> e; do 4 (apply: eq_bigr => ? _); rewrite e. Qed.
Lemma equal_time_E R (G : tensor4 K n) f1 f2 f3 f4 : rotate_equal_time_G2 R G f1 f2 f3 f4 = simultaneous (conjM R) G f1 f2 f3 f4.
Proof.
rewrite /rotate_equal_time_G2 /simultaneous; do 4 (apply: eq_bigr => ? _).
by rewrite !conjM_E !conjCK -!mulrA mulrC -!mulrA.
Qed.
Theorem C49_roundtrip_G2 R (G : tensor4 K n) f1 f2 f3 f4 : unitary R ->
  [/\ rotate_back_G2 R (simultaneous (adjoint R) G) f1 f2 f3 f4 = G f1 f2 f3 f4,
      simultaneous (adjoint R) (rotate_back_G2 R G) f1 f2 f3 f4 = G f1 f2 f3 f4,
      rotate_equal_time_G2 R (simultaneous R^T G) f1 f2 f3 f4 = G f1 f2 f3 f4 &
      simultaneous R^T (rotate_equal_time_G2 R G) f1 f2 f3 f4 = G f1 f2 f3 f4].
Proof.
move=> u; have r := unitary_rows u.
have h : R^T *m conjM R = 1%:M by apply: trmx_inj; rewrite trmx_mul trmxK trmx1.
split.
- exact: rotate_inv.
- rewrite (simultaneous_ext _ _ _ _ _ (C49_simultaneous R G)) -C49_simultaneous; exact: rotate_inv.
- rewrite equal_time_E -C49_simultaneous; apply: rotate_inv; exact: mulmx1C.
- rewrite (simultaneous_ext _ _ _ _ _ (equal_time_E R G)) -C49_simultaneous; exact: rotate_inv.
Qed.
End C49.

(** A rotation that is neither real nor the identity: 3/5 on the diagonal and 4i/5 beside it *)
Definition rot_ex (K : numClosedFieldType) : 'M[K]_2 := \matrix_(i, j) (if (i : nat) == j then 3%:R / 5%:R else 'i * 4%:R / 5%:R).
Lemma rot_ex_unitary K : unitary (rot_ex K).
Proof.
have n5 : 5%:R != 0 :> K by rewrite pnatr_eq0.
have e : 3%:R / 5%:R * (3%:R / 5%:R) + 4%:R / 5%:R * (4%:R / 5%:R) = 1 :> K.
  by rewrite !mulf_div -mulrDl -!natrM -natrD divff // pnatr_eq0.
apply/matrixP => i j; rewrite mxE !big_ord_recl big_ord0 addr0 !adjE !mxE.
case: i => -[|[|i]] hi //; case: j => -[|[|j]] hj //=;
  rewrite /bump /= -?mulrA ?rmorphM ?conjCi ?fmorphV ?rmorph_nat /=;
  move: (3%:R / 5%:R) (4%:R / 5%:R) e => x y e.
- by rewrite [- 'i * y * _]mulrACA mulNr -(expr2 'i) sqrCi opprK mul1r.
- by rewrite !mulNr (mulrC x) subrr.
- by rewrite !mulNr (mulrC x) addNr.
- by rewrite [- 'i * y * _]mulrACA mulNr -(expr2 'i) sqrCi opprK mul1r addrC.
Qed.
Example C49_instance (K : numClosedFieldType) : unitary (rot_ex K) /\ rot_ex K != 1%:M /\ conjM (rot_ex K) != rot_ex K.
Proof.
split; first exact: rot_ex_unitary.
split.
- apply/eqP => /matrixP/(_ 0 1); rewrite !mxE /= => /eqP; by rewrite !mulf_eq0 invr_eq0 !pnatr_eq0 (negbTE (neq0Ci K)).
- apply/eqP => /matrixP/(_ 0 1); rewrite !mxE /= -!mulrA rmorphM conjCi rmorphM fmorphV !rmorph_nat mulNr => /eqP.
  by rewrite eq_sym -addr_eq0 -mulr2n mulrn_eq0 /= !mulf_eq0 invr_eq0 !pnatr_eq0 (negbTE (neq0Ci K)).
Qed.

(** *** C58: the local Hamiltonian built from the rotated tensors is the one that was read, in terms of the rotated operators *)
Section C58.
Variables (K : numClosedFieldType) (n : nat) (V : algType K) (R : 'M[K]_n) (d dd : 'I_n -> V) (eps : K).
Add Field Kf58 : (kfield_theory K).
(** No entry that is not zero falls below the cutoff *)
Definition above (U : tensor4 K n) (h : 'M[K]_n) : Prop :=
  (forall a b c e, U a b c e = 0 \/ eps < `|U a b c e|) /\ forall a b, h a b = 0 \/ eps < `|h a b|.
Lemma rotate_U_E vals f0 f1 f2 f3 : rotate_U R vals f0 f1 f2 f3 =
  \sum_(e <- vals) e.2 * (R e.1.1.1.1 f0)^* * (R e.1.1.1.2 f1)^* * R e.1.1.2 f2 * R e.1.2 f3.
Proof.
rewrite /rotate_U -[RHS]add0r.
have : forall U0 : tensor4 K n, foldl (fun (U : tensor4 K n) e => let: (a, b, ap, bp, u) := e in
           fun f0 f1 f2 f3 => U f0 f1 f2 f3 + u * (R^T f0 a)^* * (R^T f1 b)^* * R^T f2 ap * R^T f3 bp) U0 vals f0 f1 f2 f3 =
  U0 f0 f1 f2 f3 + \sum_(e <- vals) e.2 * (R e.1.1.1.1 f0)^* * (R e.1.1.1.2 f1)^* * R e.1.1.2 f2 * R e.1.2 f3.
  elim: vals => [|[[[[a b] ap] bp] u] vals ih] U0 /=; first by rewrite big_nil addr0.
  by rewrite ih big_cons /= addrA !mxE.
by move=> ->.
Qed.
Lemma hopping_E (vals : seq ('I_n * 'I_n * K)) i j : uniq [seq e.1 | e <- vals] -> hopping_org vals i j = \sum_(e <- vals | e.1 == (i, j)) e.2.
Proof.
rewrite /hopping_org => un.
have : forall h : 'M[K]_n, (forall e, e \in [seq e.1 | e <- vals] -> h e.1 e.2 = 0) ->
  foldl (fun (h : 'M[K]_n) e => let: (i, j, x) := e in \matrix_(a, b) (if (a == i) && (b == j) then x else h a b)) h vals i j =
  h i j + \sum_(e <- vals | e.1 == (i, j)) e.2.
  elim: vals un => [|[[a b] x] vals ih] /=; first by move=> _ h _; rewrite big_nil addr0.
  case/andP=> nin un h h0; rewrite ih //.
    rewrite big_cons /= mxE xpair_eqE (eq_sym i) (eq_sym j).
    case: ifP => // /andP[/eqP<- /eqP<-].
    by rewrite (h0 (a, b)) ?add0r //= inE eqxx.
  move=> e ie; rewrite mxE; case: ifP => [/andP[/eqP e1 /eqP e2]|_]; last by apply: h0; rewrite inE ie orbT.
  by case/negP: nin; rewrite -e1 -e2 -surjective_pairing.
by move=> /(_ 0) ->; rewrite ?mxE ?add0r // => e _; rewrite mxE.
Qed.
Lemma rotate_hopping_E (vals : seq ('I_n * 'I_n * K)) f1 f2 : uniq [seq e.1 | e <- vals] ->
  rotate_hopping R (hopping_org vals) f1 f2 = \sum_(e <- vals) e.2 * (R e.1.1 f1)^* * R e.1.2 f2.
Proof.
move=> un; have -> : hopping_org vals = \sum_(e <- vals) e.2 *: delta_mx e.1.1 e.1.2.
  apply/matrixP => i j; rewrite hopping_E // summxE big_mkcond; apply: eq_bigr => -[[a b] x] _ /=.
  by rewrite !mxE xpair_eqE (eq_sym i) (eq_sym j); case: ifP => _; rewrite ?mulr1 ?mulr0.
rewrite /rotate_hopping mulmx_sumr mulmx_suml summxE; apply: eq_bigr => -[[a b] x] _ /=.
rewrite -scalemxAr -scalemxAl mxE -mulrA; congr (_ * _).
rewrite mxE (bigD1 b) //= big1 ?addr0 => [|j nj]; last first.
  rewrite mxE big1 ?mul0r // => i _; by rewrite !mxE (negbTE nj) andbF mulr0.
rewrite mxE (bigD1 a) //= big1 ?addr0 => [|j nj]; last by rewrite !mxE (negbTE nj) mulr0.
by rewrite !mxE !eqxx mulr1.
Qed.
Definition ann_op (a : 'I_n) : V := \sum_f R a f *: d f.
Definition cre_op (a : 'I_n) : V := \sum_f (R a f)^* *: dd f.
Theorem C58_hamiltonian (uvals : seq ('I_n * 'I_n * 'I_n * 'I_n * K)) (tvals : seq ('I_n * 'I_n * K)) : uniq [seq e.1 | e <- tvals] ->
  above (rotate_U R uvals) (rotate_hopping R (hopping_org tvals)) ->
  hamiltonian dd d eps (rotate_U R uvals) (rotate_hopping R (hopping_org tvals)) =
  \sum_(e <- uvals) e.2 *: (cre_op e.1.1.1.1 * cre_op e.1.1.1.2 * ann_op e.1.1.2 * ann_op e.1.2) +
  \sum_(e <- tvals) e.2 *: (cre_op e.1.1 * ann_op e.1.2).
Proof.
move=> un [aU ah]; rewrite /hamiltonian; congr (_ + _).
- rewrite /ham_U.
  have e a b c e : (if eps < `|rotate_U R uvals a b c e| then rotate_U R uvals a b c e *: (dd a * dd b * d c * d e) else 0) =
    rotate_U R uvals a b c e *: (dd a * dd b * d c * d e).
    by case: ifP => // h; case: (aU a b c e) => [->|h']; [rewrite scale0r|rewrite h' in h].
  under eq_bigr => a _ do (under eq_bigr => b _ do (under eq_bigr => c _ do (under eq_bigr => f _ do rewrite e rotate_U_E scaler_suml; rewrite exchange_big /=); rewrite exchange_big /=); rewrite exchange_big /=).
  rewrite exchange_big /=; apply: eq_bigr => x _.
  rewrite [cre_op x.1.1.1.1]/cre_op !mulr_suml scaler_sumr; apply: eq_bigr => a _.
  rewrite /cre_op [_ * \sum_(_ < _) _ *: dd _]mulr_sumr !mulr_suml scaler_sumr; apply: eq_bigr => b _.
  rewrite [ann_op x.1.2]lock [ann_op x.1.1.2]/ann_op mulr_sumr mulr_suml scaler_sumr; apply: eq_bigr => c _.
  rewrite -lock /ann_op mulr_sumr scaler_sumr; apply: eq_bigr => f _.
  rewrite -?scalerAl -?scalerAr -?scalerAl -?scalerAr -?scalerAl -?scalerAr -?scalerAl -?scalerAl -?scalerAr ?scalerA; congr (_ *: _); kring K.
- rewrite /ham_t exchange_big /=.
  have e a b : (if eps < `|rotate_hopping R (hopping_org tvals) a b| then rotate_hopping R (hopping_org tvals) a b *: (dd a * d b) else 0) =
    rotate_hopping R (hopping_org tvals) a b *: (dd a * d b).
    by case: ifP => // h; case: (ah a b) => [->|h']; [rewrite scale0r|rewrite h' in h].
  under eq_bigr => a _ do (under eq_bigr => b _ do rewrite e rotate_hopping_E // scaler_suml; rewrite exchange_big /=).
  rewrite exchange_big /=; apply: eq_bigr => x _.
  rewrite /cre_op mulr_suml scaler_sumr; apply: eq_bigr => a _.
  rewrite /ann_op mulr_sumr scaler_sumr; apply: eq_bigr => b _.
  by rewrite -!scalerAl -!scalerAr !scalerA; congr (_ *: _); rewrite mulrA.
Qed.
End C58.

(** One interaction term and the hopping between two flavors, seen in the basis [rot_ex]: nothing falls below a cutoff of 1/100 *)
Example C58_instance (K : numClosedFieldType) : let f0 : 'I_2 := 0 in let f1 : 'I_2 := 1 in
  let uvals : seq ('I_2 * 'I_2 * 'I_2 * 'I_2 * K) := [:: (f0, f1, f1, f0, 1)] in
  let tvals : seq ('I_2 * 'I_2 * K) := [:: (f0, f1, 1); (f1, f0, 1)] in
  uniq [seq e.1 | e <- tvals] /\ above (100%:R^-1) (rotate_U (rot_ex K) uvals) (rotate_hopping (rot_ex K) (hopping_org tvals)).
Proof.
move=> f0 f1 uvals tvals; split=> //.
have nR a b : 3%:R / 5%:R <= `|rot_ex K a b|.
  rewrite mxE; case: ifP => _; rewrite !normrM ?normCi ?mul1r normfV !normr_nat // ler_pmul2r ?invr_gt0 ?ltr0n //.
  by rewrite ler_nat.
have nR' a b : 3%:R / 5%:R <= `|(rot_ex K a b)^*| by rewrite norm_conjC.
have p : 0 <= 3%:R / 5%:R :> K by rewrite divr_ge0 ?ler0n.
split=> [a b c e|a b]; last first.
  have e : hopping_org tvals = \matrix_(i, j) ((i : nat) != j)%:R.
    by apply/matrixP => -[[|[|i]] hi] // [[|[|j]] hj] //; rewrite !mxE.
  have -> : rotate_hopping (rot_ex K) (hopping_org tvals) = hopping_org tvals.
    rewrite /rotate_hopping; have -> : adjoint (rot_ex K) *m hopping_org tvals = hopping_org tvals *m adjoint (rot_ex K).
      rewrite e; apply/matrixP => -[[|[|i]] hi] // [[|[|j]] hj] //;
        by rewrite !mxE !big_ord_recl !big_ord0 !mxE /= ?(mulr1, mul1r, mulr0, mul0r, add0r, addr0).
    by rewrite -mulmxA rot_ex_unitary mulmx1.
  rewrite e mxE; case: (_ != _) => /=; [right|by left].
  by rewrite normr1 invf_lt1 ?ltr0n // ltr1n.
right; rewrite rotate_U_E big_seq1 /= !normrM normr1 mul1r.
apply: (@lt_le_trans _ _ (3%:R / 5%:R * (3%:R / 5%:R) * (3%:R / 5%:R) * (3%:R / 5%:R))); last first.
  have q4 (q x y z w : K) : 0 <= q -> q <= x -> q <= y -> q <= z -> q <= w -> q * q * q * q <= x * y * z * w.
    by move=> q0 *; rewrite !ler_pmul ?mulr_ge0.
  exact: q4.
rewrite !mulf_div -!natrM ltr_pdivl_mulr ?ltr0n // mulrC ltr_pdivr_mulr ?ltr0n // -natrM ltr_nat.
by vm_compute.
Qed.

(** ** C50 *)
Arguments Report {K I J} _ _ _.
Section C50.
Variables (K : numClosedFieldType) (I J : Type) (weight : nat -> K).
Notation event := (mcevent K I J).
Notation stepK := (mcstep K I).
Add Field Kf50 : (kfield_theory K).

(** What happened during the run: the steps in space [w], the reports made in the partition-function space *)
Definition steps_in (w : nat) (es : seq event) : seq stepK :=
  [seq s <- pmap (fun e => if e is Every s then Some s else None) es | st_space s == w].
Definition z_reports (es : seq event) : seq (K * (J -> K)) :=
  pmap (fun e => if e is Report 0 s c then Some (s, c) else None) es.
Definition num_reports (es : seq event) : nat := count (fun e => if e is Report _ _ _ then true else false) es.

Lemma steps_in_rcons w es e : steps_in w (rcons es e) =
  if e is Every s then if st_space s == w then rcons (steps_in w es) s else steps_in w es else steps_in w es.
Proof.
rewrite /steps_in -cats1 pmap_cat filter_cat; case: e => [s|v s c] /=; last by rewrite cats0.
by case: ifP => _; rewrite ?cats1 ?cats0.
Qed.
Lemma z_reports_rcons es e : z_reports (rcons es e) =
  if e is Report 0 s c then rcons (z_reports es) (s, c) else z_reports es.
Proof. by rewrite /z_reports -cats1 pmap_cat; case: e => [s|[|v] s c] /=; rewrite ?cats0 ?cats1. Qed.
Lemma num_reports_rcons es e : num_reports (rcons es e) = (num_reports es + (if e is Report _ _ _ then 1 else 0))%N.
Proof. by rewrite /num_reports -cats1 count_cat; case: e. Qed.
Lemma run_rcons (es : seq event) (e : event) : mc_run weight (rcons es e) = mc_event weight (mc_run weight es) e.
Proof. by rewrite /mc_run foldl_rcons. Qed.

Lemma run_sums (es : seq event) : let a := mc_run weight es in
  [/\ forall w, w != 0%N -> a_worm a w = [seq (fun i => st_sign s * st_worm s i) | s <- steps_in w es],
      a_kLkR a = [seq st_kLkR s * st_sign s | s <- steps_in 0 es], a_k a = [seq st_k s * st_sign s | s <- steps_in 0 es],
      a_corr a = [seq (fun j => r.1 * r.2 j) | r <- z_reports es] & a_sign a = [seq r.1 | r <- z_reports es]].
Proof.
elim/last_ind: es => [|es e ih] //=; rewrite run_rcons z_reports_rcons.
case: ih => iw iL ik ic isg; case: e => [s|v s c] /=; rewrite /every_step /report.
- case: eqP => [e0|n0]; split => //=.
  + by move=> w w0; rewrite steps_in_rcons e0 eq_sym (negbTE w0) iw.
  + by rewrite steps_in_rcons e0 eqxx map_rcons iL.
  + by rewrite steps_in_rcons e0 eqxx map_rcons ik.
  + by move=> w w0; rewrite steps_in_rcons /at_space eq_sym; case: eqP => [->|_]; rewrite ?map_rcons iw.
  + by rewrite steps_in_rcons; case: eqP.
  + by rewrite steps_in_rcons; case: eqP.
- case: v => [|v] /=; split => //=.
  + by move=> w w0; rewrite steps_in_rcons iw.
  + by rewrite steps_in_rcons.
  + by rewrite steps_in_rcons.
  + by rewrite map_rcons ic.
  + by rewrite map_rcons isg.
  + by move=> w w0; rewrite steps_in_rcons iw.
  + by rewrite steps_in_rcons.
  + by rewrite steps_in_rcons.
Qed.
Lemma run_volume (es : seq event) v : weight v != 0 -> let a := mc_run weight es in
  (\sum_(x <- a_volume a v) x) * weight v + num_steps a v = (size (steps_in v es))%:R /\ size (a_volume a v) = num_reports es.
Proof.
move=> w0; elim/last_ind: es => [|es e /= [ih1 ih2]] /=; first by rewrite big_nil mul0r addr0.
rewrite run_rcons num_reports_rcons steps_in_rcons; case: e => [s|w s c] /=; rewrite /every_step /report.
- rewrite addn0; case: ifP => _ /=; rewrite /at_space (eq_sym v); case: eqP => [->|_] //;
    by rewrite size_rcons -addn1 natrD addrA ih1.
- have e : (\sum_(x <- rcons (a_volume (mc_run weight es) v) (num_steps (mc_run weight es) v / weight v)) x) * weight v + 0 = (size (steps_in v es))%:R.
    by rewrite addr0 -cats1 big_cat big_seq1 mulrDl mulfVK.
  by case: ifP => _ /=; rewrite size_rcons ih2 addn1.
Qed.
Lemma report_last (es : seq event) v s c w : num_steps (mc_run weight (rcons es (Report v s c))) w = 0.
Proof. by rewrite run_rcons /= /report; case: ifP. Qed.

(** A function measured in a worm space *)
Theorem C50_worm (es : seq event) v s c (w : nat) factor : let run := rcons es (Report v s c) in
  w != 0%N -> weight w != 0 -> weight 0%N != 0 -> (0 < size (steps_in w run))%N -> (0 < size (steps_in 0 run))%N -> (0 < size (z_reports run))%N ->
  exists2 f, worm_average factor w (mc_run weight run) = Some f & forall i,
    f i = factor * ((\sum_(x <- steps_in w run) st_sign x * st_worm x i) / weight w) /
          (((size (steps_in 0 run))%:R / weight 0%N) * ((\sum_(r <- z_reports run) r.1) / (size (z_reports run))%:R)).
Proof.
move=> run w0 ww wz sw sz z0.
have [vw nw] := run_volume run ww; have [vz nz] := run_volume run wz.
have [iw _ _ _ isg] := run_sums run.
rewrite report_last addr0 in vw; rewrite report_last addr0 in vz.
have nr : num_reports run = (num_reports es).+1 by rewrite num_reports_rcons addn1.
have mE (A : Type) (t : seq (A -> K)) : (0 < size t)%N -> means t = Some (fun i => (\sum_(x <- t) x i) / (size t)%:R) by case: t.
have m1 (t : seq K) : (0 < size t)%N -> mean t = Some ((\sum_(x <- t) x) / (size t)%:R) by case: t.
rewrite /worm_average m1 ?nw ?nr // isg m1 ?size_map // m1 ?nz ?nr // iw // mE ?size_map //.
eexists; first by reflexivity.
move=> i /=; rewrite ?nw ?nz ?nr !big_map ?size_map.
have {}vw : \sum_(x <- a_volume (mc_run weight run) w) x = (size (steps_in w run))%:R / weight w by rewrite -vw mulfK.
have {}vz : \sum_(x <- a_volume (mc_run weight run) 0%N) x = (size (steps_in 0 run))%:R / weight 0%N by rewrite -vz mulfK.
rewrite vw vz.
have n0 : ((num_reports es).+1)%:R != 0 :> K by rewrite pnatr_eq0.
have s0 : (size (steps_in w run))%:R != 0 :> K by rewrite pnatr_eq0 -lt0n.
have t0 : (size (steps_in 0 run))%:R != 0 :> K by rewrite pnatr_eq0 -lt0n.
have r0 : (size (z_reports run))%:R != 0 :> K by rewrite pnatr_eq0 -lt0n.
have [->|q0] := eqVneq (\sum_(r <- z_reports run) r.1) 0; first by rewrite !(mul0r, mulr0, invr0).
move: (\sum_(j <- steps_in w run) _) (\sum_(r <- z_reports run) _) q0 ww wz s0 t0 r0 n0 => X Y q0.
move: (weight w) (weight 0%N) (_%:R) (_%:R) (_%:R) (_%:R) => A B C D E F a0 b0 c0 d0 e0 f0.
kfield K.
Qed.

(** The correlation functions *)
Theorem C50_corr (es : seq event) : (0 < size (z_reports es))%N -> \sum_(r <- z_reports es) r.1 != 0 ->
  exists2 f, compute_nn_corr (mc_run weight es) = Some f & forall j,
    f j = (\sum_(r <- z_reports es) r.1 * r.2 j) / (\sum_(r <- z_reports es) r.1).
Proof.
move=> zr s0; have [_ _ _ ic isg] := run_sums es.
have z0 : (size (z_reports es))%:R != 0 :> K by rewrite pnatr_eq0 -lt0n.
rewrite /compute_nn_corr ic isg.
have -> : mean [seq r.1 | r <- z_reports es] = Some ((\sum_(r <- z_reports es) r.1) / (size (z_reports es))%:R).
  by case: (z_reports es) zr => // r rs _; rewrite /= big_cons big_map big_cons size_map.
have -> : means [seq (fun j => r.1 * r.2 j) | r <- z_reports es] =
   Some (fun j => (\sum_(x <- [seq (fun j => r.1 * r.2 j) | r <- z_reports es]) x j) / (size [seq (fun j => r.1 * r.2 j) | r <- z_reports es])%:R).
  by case: (z_reports es) zr.
eexists; first by reflexivity.
by move=> j /=; rewrite big_map size_map; kfield K.
Qed.

(** The fidelity susceptibility: what is reported, the value that the claim asks for, and where they agree *)
Definition sign_weighted (f : stepK -> K) (es : seq event) : K :=
  (\sum_(x <- steps_in 0 es) st_sign x * f x) / (\sum_(x <- steps_in 0 es) st_sign x).
Definition fidelity_spec (es : seq event) : K :=
  2%:R^-1 * (sign_weighted (@st_kLkR _ _) es - 4%:R^-1 * sign_weighted (@st_k _ _) es ^+ 2).
Theorem C50_fidelity_partial (es : seq event) : (0 < size (steps_in 0 es))%N -> (forall x, List.In x (steps_in 0 es) -> st_sign x = 1) ->
  compute_fidelity (mc_run weight es) = Some (fidelity_spec es).
Proof.
move=> ne s1; have [_ iL ik _ _] := run_sums es.
rewrite /compute_fidelity iL ik /fidelity_spec /sign_weighted.
have mE (f : stepK -> K) t : (forall x, List.In x t -> st_sign x = 1) -> (0 < size t)%N ->
   mean [seq f x * st_sign x | x <- t] = Some ((\sum_(x <- t) st_sign x * f x) / (\sum_(x <- t) st_sign x)).
  move=> h nt; have -> : \sum_(x <- t) st_sign x = (size t)%:R.
    elim: t h {nt} => [|x t ih] h; first by rewrite big_nil.
    by rewrite big_cons ih => [|y iy]; [rewrite h -?(natrD _ 1) ?add1n //; left|apply: h; right].
  have e : \sum_(x <- [seq f x * st_sign x | x <- t]) x = \sum_(x <- t) st_sign x * f x.
    by rewrite big_map; apply: eq_bigr => x _; rewrite mulrC.
  by rewrite -e -(size_map (fun x => f x * st_sign x) t); case: t nt {h e}.
by rewrite !(mE _ _ s1 ne) expr2 -[in LHS](mulrA 4%:R^-1).
Qed.
End C50.

(** Neither average is divided by the average sign: with signs 1, 1, -1 and kLkR = 1 throughout, 1/6 is reported instead of 1/2 *)
Theorem C50_fidelity_refuted (K : numClosedFieldType) (weight : nat -> K) : exists es : seq (mcevent K unit unit),
  \sum_(x <- steps_in 0 es) st_sign x != 0 /\
  compute_fidelity (mc_run weight es) = Some (6%:R^-1) /\ fidelity_spec es = 2%:R^-1.
Proof.
pose step s : mcevent K unit unit := Every unit (MCStep 0 s (fun _ => 0) 1 0).
exists [:: step 1; step 1; step (-1)].
rewrite /fidelity_spec /sign_weighted /steps_in /= !big_cons !big_nil /= !addr0 !mulr1 subrr !addr0 oner_eq0; split=> //.
have [_ iL ik _ _] := run_sums weight [:: step 1; step 1; step (-1)].
rewrite /compute_fidelity iL ik /steps_in /= !big_cons !big_nil /= !(addr0, mul1r, mul0r, subrr, mulr0, subr0, divr1, mulr1, expr0n).
by split=> //; rewrite -invfM -natrM.
Qed.

(** Two steps in space 2 with weight 4, three in the Z space with signs 1, 1, -1; two reports in the Z space *)
Example C50_instance (K : numClosedFieldType) :
  let weight (v : nat) : K := if v == 0%N then 1 else 4%:R in
  let e w s x : mcevent K unit unit := Every unit (MCStep w s (fun _ => x) 0 0) in
  let run := rcons [:: e 0%N 1 0; Report 0%N 1 (fun _ => 3%:R); e 2%N 1 5%:R; e 2%N (-1) 7%:R; Report 2%N (-1) (fun _ => 0); e 0%N 1 0; e 0%N (-1) 0]
                   (Report 0%N (-1) (fun _ => 2%:R)) in
  [/\ [seq (st_sign x, st_worm x tt) | x <- steps_in 2 run] = [:: (1, 5%:R); (-1, 7%:R)], size (steps_in 0 run) = 3%N,
      [seq (r.1, r.2 tt) | r <- z_reports run] = [:: (1, 3%:R); (-1, 2%:R)],
      [seq v * weight 2%N | v <- a_volume (mc_run weight run) 2%N] = [:: 0; 2%:R; 0] & a_volume (mc_run weight run) 0%N = [:: 1; 0; 2%:R]].
Proof.
move=> weight e run; split=> //; rewrite /mc_run /= /report /every_step /at_space /= /at_space /= /weight /=.
- by rewrite !mul0r !add0r mulfVK ?pnatr_eq0 // -(natrD _ 1 1).
- by rewrite !divr1 !add0r -(natrD _ 1 1).
Qed.
Print Assumptions C48_moment.
Print Assumptions C48_odd.
Print Assumptions C48_idempotent.
Print Assumptions C48_fixed.
Print Assumptions C48_jump.
Print Assumptions C49_reading.
Print Assumptions C49_accepted.
Print Assumptions C49_operators_G1.
Print Assumptions C49_operators_G2.
Print Assumptions C49_hybridization.
Print Assumptions C49_roundtrip_G1.
Print Assumptions C49_simultaneous.
Print Assumptions C49_roundtrip_G2.
Print Assumptions C58_hamiltonian.
Print Assumptions C50_worm.
Print Assumptions C50_corr.
Print Assumptions C50_fidelity_partial.
Print Assumptions C50_fidelity_refuted.
