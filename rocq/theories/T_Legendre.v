(** * C47: Legendre polynomials *)
From mathcomp Require Import all_ssreflect all_algebra zify.
From Verif Require Import KField KRing Legendre.
Import Order.Theory GRing.Theory Num.Theory.
Set Implicit Arguments.
Unset Strict Implicit.
Unset Printing Implicit Defensive.
Local Open Scope ring_scope.

(** ** Specification: Rodrigues' formula *)
Definition rodrigues (K : numFieldType) (l : nat) : {poly K} := ((2 ^ l * l`!)%N%:R)^-1 *: (('X^2 - 1) ^+ l)^`(l).

Section Poly.
Variable K : numFieldType.
Let L : comRingType := [comRingType of {poly K}].
Add Ring Lr : (cring_theory L).
Add Field Kf : (kfield_theory K).
Implicit Types (p q : {poly K}).
Let u : {poly K} := 'X^2 - 1.
Let Q (l : nat) : {poly K} := (u ^+ l)^`(l).
(** w l = the (l-1)-th derivative of u^l, for l > 0 *)
Let w (l : nat) : {poly K} := (u ^+ l.+1)^`(l).

Lemma derivnMX p n : ('X * p)^`(n.+1) = 'X * p^`(n.+1) + n.+1%:R * p^`(n).
Proof.
have e := derivnMXaddC n p 0; rewrite polyC0 addr0 in e.
by rewrite mulrC e addrC mulrC mulr_natl.
Qed.
Lemma deriv_u : u^`() = 2%:R * 'X.
Proof. by rewrite /u derivB derivXn derivC subr0 expr1 mulr_natl. Qed.
Lemma deriv_ul l : (u ^+ l.+1)^`() = (2%:R * l.+1%:R) * ('X * u ^+ l).
Proof. rewrite deriv_exp deriv_u /= -mulr_natl; cring L. Qed.
Lemma derivn_natM m p n : (m%:R * p)^`(n) = m%:R * p^`(n).
Proof. by rewrite !mulr_natl derivnMn. Qed.
Lemma Q1 l : Q l.+2 = (2%:R * l.+2%:R) * ('X * Q l.+1 + l.+1%:R * w l).
Proof. by rewrite /Q derivSn deriv_ul -natrM derivn_natM derivnMX. Qed.
Lemma Q2 l : Q l.+2 = (2%:R * l.+2%:R) * ((2%:R * l.+1%:R + 1) * w l + 2%:R * l.+1%:R * Q l).
Proof.
rewrite /Q derivSn deriv_ul -natrM derivn_natM derivSn derivM derivX mul1r deriv_ul; congr (_ * _).
have -> : u ^+ l.+1 + 'X * (2%:R * l.+1%:R * ('X * u ^+ l)) = (2 * l.+1 + 1)%N%:R * u ^+ l.+1 + (2 * l.+1)%N%:R * u ^+ l.
  have -> : 'X * (2%:R * l.+1%:R * ('X * u ^+ l)) = 2%:R * l.+1%:R * (('X^2 - 1) * u ^+ l + u ^+ l) by rewrite expr2; cring L.
  rewrite -/u -exprS natrD !natrM mulr1n; cring L.
rewrite derivnD !derivn_natM -/(w l) natrD !natrM mulr1n; cring L.
Qed.
Lemma polyC_natr (n : nat) : (n%:R : K)%:P = n%:R.
Proof. exact: rmorph_nat. Qed.
Lemma nat_neq0 n : n.+1%:R != 0 :> {poly K}.
Proof. by rewrite -polyC_natr polyC_eq0 pnatr_eq0. Qed.
Lemma natS n : n.+1%:R = n%:R + 1 :> {poly K}.
Proof. by rewrite -addn1 natrD. Qed.
Lemma wE l : l.+2%:R * w l = 'X * Q l.+1 - 2%:R * l.+1%:R * Q l.
Proof.
have h : (2%:R * l.+2%:R : {poly K}) != 0 by rewrite mulf_neq0 // nat_neq0.
have := Q1 l; rewrite Q2 => /(mulfI h) e.
have -> : l.+2%:R * w l = ((2%:R * l.+1%:R + 1) * w l + 2%:R * l.+1%:R * Q l) - l.+1%:R * w l - 2%:R * l.+1%:R * Q l.
  rewrite (natS l.+1); have -> : 2%:R = 1 + 1 :> {poly K} by rewrite (natS 1) mulr1n. cring L.
rewrite e; cring L.
Qed.
(** the recursion for the unscaled derivatives *)
Lemma Qrec l : Q l.+2 = 2%:R * (2%:R * l.+1%:R + 1) * ('X * Q l.+1) - (2%:R * l.+1%:R) ^+ 2 * Q l.
Proof.
rewrite Q1; have -> : (2%:R * l.+2%:R) * ('X * Q l.+1 + l.+1%:R * w l) = (2%:R * l.+2%:R) * ('X * Q l.+1) + 2%:R * l.+1%:R * (l.+2%:R * w l) by cring L.
rewrite wE (natS l.+1) expr2; have -> : 2%:R = 1 + 1 :> {poly K} by rewrite (natS 1) mulr1n. cring L.
Qed.
Lemma dw l : (w l)^`() = Q l.+1. Proof. by rewrite /w /Q derivnS. Qed.
Lemma deriv_natM m p : (m%:R * p)^`() = m%:R * p^`().
Proof. by rewrite -!derivn1 derivn_natM. Qed.
Lemma QA l : (Q l.+2)^`() = 2%:R * l.+2%:R * ('X * (Q l.+1)^`() + l.+2%:R * Q l.+1).
Proof.
rewrite Q1 -natrM deriv_natM natrM derivD deriv_natM dw derivM derivX mul1r (natS l.+1); cring L.
Qed.
Lemma QB l : 'X * (Q l.+1)^`() = l.+1%:R * Q l.+1 + 2%:R * l.+1%:R * (Q l)^`().
Proof.
have e : (l.+2%:R * w l)^`() = ('X * Q l.+1 - 2%:R * l.+1%:R * Q l)^`() by rewrite wE.
move: e; rewrite -natrM derivB !deriv_natM derivM derivX mul1r dw natrM => e.
have -> : 'X * (Q l.+1)^`() = (Q l.+1 + 'X * (Q l.+1)^`() - 2%:R * l.+1%:R * (Q l)^`()) - Q l.+1 + 2%:R * l.+1%:R * (Q l)^`() by cring L.
rewrite -e (natS l.+1); cring L.
Qed.

Notation P := (rodrigues K).
Definition norm_l (l : nat) : K := ((2 ^ l * l`!)%N%:R)^-1.
Lemma normS l : norm_l l.+1 = norm_l l / (2 * l.+1)%N%:R.
Proof. by rewrite /norm_l expnS factS -invfM -natrM; congr (_%:R^-1); lia. Qed.
Lemma PE l : P l = (norm_l l)%:P * Q l.
Proof. by rewrite /rodrigues -mul_polyC. Qed.

Lemma n1 l : (norm_l l)%:P = (norm_l l.+1)%:P * (2%:R * l.+1%:R).
Proof.
rewrite -natrM -polyC_natr -polyCM normS divfK //.
by rewrite pnatr_eq0 muln_eq0.
Qed.
(** Bonnet's recursion *)
Lemma Prec l : l.+2%:R * P l.+2 = (2 * l.+1 + 1)%N%:R * 'X * P l.+1 - l.+1%:R * P l.
Proof.
apply: (mulfI (nat_neq0 1)).
rewrite !PE (n1 l) (n1 l.+1) Qrec natrD natrM mulr1n expr2; cring L.
Qed.
Lemma P0 : P 0 = 1. Proof. by rewrite PE /norm_l /Q expr0 /= invr1 mul1r. Qed.
Lemma P1 : P 1 = 'X.
Proof.
rewrite PE /Q expr1 /= /derivn /= deriv_u /norm_l mulrA -polyC_natr -polyCM mulVf ?mul1r //.
by rewrite pnatr_eq0.
Qed.
Lemma PA l : (P l.+1)^`() = 'X * (P l)^`() + l.+1%:R * P l.
Proof.
case: l => [|l]; first by rewrite P0 P1 derivX derivC mulr0 add0r mulr1.
rewrite !PE !derivM !derivC !mul0r !add0r QA (n1 l.+1); cring L.
Qed.
Lemma PB l : 'X * (P l.+1)^`() = l.+1%:R * P l.+1 + (P l)^`().
Proof. rewrite !PE !derivM !derivC !mul0r !add0r (n1 l) mulrCA QB; cring L. Qed.
(** (1-X^2) P' = l (P_{l-1} - X P_l) *)
Lemma P_lower l : (1 - 'X^2) * (P l.+1)^`() = l.+1%:R * (P l - 'X * P l.+1).
Proof.
have -> : (1 - 'X^2) * (P l.+1)^`() = (P l.+1)^`() - 'X * ('X * (P l.+1)^`()) by rewrite expr2; cring L.
rewrite PB PA; cring L.
Qed.
Lemma P_ode l : (1 - 'X^2) * (P l)^`()^`() - 2%:R * 'X * (P l)^`() + (l * l.+1)%N%:R * P l = 0.
Proof.
case: l => [|l]; first by rewrite P0 mul0n mul0r addr0 /= !derivC !mulr0 subr0.
have e := congr1 (@deriv K) (P_lower l); move: e.
rewrite deriv_natM derivB !derivM derivX derivB derivC sub0r derivXn expr1 mul1r PB /= => e.
have -> : (1 - 'X^2) * (P l.+1)^`()^`() = (- ('X *+ 2) * (P l.+1)^`() + (1 - 'X^2) * (P l.+1)^`()^`()) + 2%:R * 'X * (P l.+1)^`().
  by rewrite -(mulr_natl 'X); cring L.
rewrite e natrM (natS l.+1); cring L.
Qed.

(** values *)
Lemma P_eval_rec l x : (P l.+2).[x] = ((2 * l.+1 + 1)%N%:R * x * (P l.+1).[x] - l.+1%:R * (P l).[x]) * (1 / l.+2%:R).
Proof.
have h : l.+2%:R != 0 :> K by rewrite pnatr_eq0.
apply: (mulfI h); move: (Prec l); move: (P l.+2) (P l.+1) (P l) => p2 p1 p0 e.
have e2 := congr1 (horner^~ x) e; rewrite -!polyC_natr !hornerE in e2; rewrite e2.
by rewrite div1r mulrCA mulfV // mulr1.
Qed.
Lemma P_at_one l : (P l).[1] = 1.
Proof.
elim/ltn_ind: l => -[|[|l]] ih; [by rewrite P0 hornerC|by rewrite P1 hornerX|].
rewrite P_eval_rec !ih // !mulr1 natrD natrM mulr1n.
have h : l.+2%:R != 0 :> K by rewrite pnatr_eq0.
have -> : 2%:R * l.+1%:R + 1 - l.+1%:R = l.+2%:R :> K.
  have -> : l.+2%:R = l.+1%:R + 1 :> K by rewrite -(natrD _ _ 1) addn1.
  have -> : 2%:R = 1 + 1 :> K by rewrite (natrD _ 1 1). kring K.
by rewrite div1r mulfV.
Qed.
Lemma P_parity l x : (P l).[- x] = (-1) ^+ l * (P l).[x].
Proof.
elim/ltn_ind: l => -[|[|l]] ih; first by rewrite P0 !hornerC mulr1.
  by rewrite P1 !hornerX mulN1r.
rewrite !P_eval_rec !ih // !exprS; kring K.
Qed.
Lemma P_size l : size (P l) = l.+1.
Proof.
elim/ltn_ind: l => -[|[|l]] ih; first by rewrite P0 size_poly1.
  by rewrite P1 size_polyX.
have h n : n.+1%:R != 0 :> K by rewrite pnatr_eq0.
have -> : P l.+2 = (l.+2%:R)^-1 *: ((2 * l.+1 + 1)%N%:R *: ('X * P l.+1) + (- l.+1%:R) *: P l).
  have e : l.+2%:R * (l.+2%:R^-1)%:P = 1 :> {poly K} by rewrite -polyC_natr -polyCM divff.
  apply: (mulfI (nat_neq0 l.+1)); rewrite Prec -!mul_polyC polyCN !polyC_natr [RHS]mulrA e mul1r; cring L.
have ne : P l.+1 != 0 by rewrite -size_poly_eq0 ih.
have gen (a b c : K) (p q : {poly K}) : c != 0 -> a != 0 -> b != 0 -> p != 0 -> (size q < (size p).+1)%N ->
    size (c *: (a *: ('X * p) + b *: q)) = (size p).+1.
  move=> hc ha hb hp hq; have sx : size ('X * p) = (size p).+1 by rewrite mulrC size_mulX.
  by rewrite size_scale // size_addl !size_scale // sx.
have h1 : (2 * l.+1 + 1)%N%:R != 0 :> K by rewrite addn1.
by rewrite gen ?invr_neq0 ?oppr_eq0 // !ih.
Qed.
End Poly.

(** ** The tables *)
Section Tables.
Variables (K : numFieldType) (sqrtf : K -> K).
Lemma fill_nth (f g : nat -> K) a n st : let r := foldl (fun st l => (set_nth 0 st.1 l (f l), set_nth 0 st.2 l (g l))) st (iota a n) in
  forall i, (nth 0 r.1 i = if (a <= i < a + n)%N then f i else nth 0 st.1 i) /\ (nth 0 r.2 i = if (a <= i < a + n)%N then g i else nth 0 st.2 i).
Proof.
elim: n a st => [|n ih] a st /= i; first by rewrite addn0; have -> : (a <= i < a)%N = false by lia.
have [-> ->] := ih a.+1 (set_nth 0 st.1 a (f a), set_nth 0 st.2 a (g a)) i; rewrite !nth_set_nth /=.
case: (eqVneq i a) => [->|ne]; first by rewrite ltnn leqnn /= addnS ltnS leq_addr.
have -> : (a < i < a.+1 + n)%N = (a <= i < a + n.+1)%N by move/eqP: ne; lia.
by [].
Qed.
Lemma make_ok n t : make_transformer sqrtf n = Some t ->
  [/\ (0 < n)%N, n_legendre t = n, (forall l, (1 <= l < n)%N -> nth 0 (inv_l_ t) l = 1 / l%:R),
      nth 0 (sqrt_2l_1 t) 0 = 1 & forall l, (1 <= l < n)%N -> nth 0 (sqrt_2l_1 t) l = sqrtf (2%:R * l%:R + 1)].
Proof.
case: n => [//|n]; rewrite /make_transformer /= subn1 /=.
set st := (_, _); have := fill_nth (fun l => 1 / l%:R) (fun l => sqrtf (2%:R * l%:R + 1)) 1 n st.
case: (foldl _ st _) => inv sq /= h [<-]; split=> //=.
- by move=> l hl; have [-> _] := h l; rewrite add1n hl.
- by have [_ ->] := h 0%N.
- by move=> l hl; have [_ ->] := h l; rewrite add1n hl.
Qed.
End Tables.

(** C47. For every x, every length n > 0 and every buffer that is long enough, entry l of the result is the value at x of the
    Legendre polynomial given by Rodrigues' formula, for all l < n; the rest of the buffer is unchanged *)
Section C47.
Variables (K : numFieldType) (sqrtf : K -> K) (n : nat) (t : transformer K).
Hypothesis made : make_transformer sqrtf n = Some t.

Lemma leg_fold x m val : (m <= n)%N -> let r := foldl (leg_step t x) val (iota 0 m) in
  (forall l, (l < m)%N -> nth 0 r l = (rodrigues K l).[x]) /\ (forall l, (m <= l)%N -> nth 0 r l = nth 0 val l).
Proof.
have [_ _ inv _ _] := make_ok made.
elim: m => [|m ih] hm //; rewrite -addn1 iotaD foldl_cat /= add0n.
have [h1 h2] := ih (ltnW hm); set r := foldl _ _ _ in h1 h2 *.
have e : leg_step t x r m = set_nth 0 r m (rodrigues K m).[x].
  rewrite /leg_step; move: r h1 h2; clear ih; case: m hm => [|[|m]] hm r h1 h2 /=; [by rewrite P0 hornerC|by rewrite P1 hornerX|].
  rewrite subn1 subn2 /= !h1 // inv; last by lia.
  by rewrite P_eval_rec; congr (set_nth _ _ _ ((_%:R * _ * _ - _) * _)); lia.
rewrite e; split=> l hl; rewrite nth_set_nth /=.
  by case: (eqVneq l m) => [->//|ne]; apply: h1; move/eqP: ne; lia.
by case: (eqVneq l m) => [ee|ne]; [lia|apply: h2; lia].
Qed.
Theorem C47_legendre (x : K) (val : seq K) : (n <= size val)%N -> exists r, compute_legendre t x val = Some r /\
  (forall l, (l < n)%N -> nth 0 r l = (rodrigues K l).[x]) /\ (forall l, (n <= l)%N -> nth 0 r l = nth 0 val l).
Proof.
move=> hs; have [_ en _ _ _] := make_ok made; rewrite /compute_legendre en ltnNge hs /=.
by eexists; split; [reflexivity|apply: leg_fold].
Qed.

(** The vector version fills row l with the same values *)
Lemma put2_at (val : seq (seq K)) l ix a l' ix' : at2 (put2 val l ix a) l' ix' = if (l' == l) && (ix' == ix) then a else at2 val l' ix'.
Proof.
rewrite /at2 /put2 nth_set_nth /=; case: (eqVneq l' l) => [->|//] /=; by rewrite nth_set_nth.
Qed.
Lemma row_fold l (f : seq (seq K) -> nat -> K) (g : nat -> K) val nx :
  (forall v ix, (forall j i, j != l -> at2 v j i = at2 val j i) -> f v ix = g ix) ->
  let r := foldl (fun v ix => put2 v l ix (f v ix)) val (iota 0 nx) in
  forall j i, at2 r j i = if (j == l) && (i < nx)%N then g i else at2 val j i.
Proof.
move=> hf; elim: nx => [|nx ih]; first by move=> /= j i; rewrite ltn0 andbF.
cbv zeta => j i.
rewrite -addn1 iotaD foldl_cat /= add0n; set r := foldl _ _ _ in ih *.
have e : f r nx = g nx by apply: hf => j' i' ne; rewrite ih (negbTE ne).
rewrite put2_at ih e addn1 ltnS; case: (eqVneq j l) => [->|//] /=.
by case: (ltngtP i nx) => [h|h|->] //=; rewrite eqxx.
Qed.
Theorem C47_vector (xval : seq K) (val : seq (seq K)) : (n <= size val)%N -> exists r, vcompute_legendre t xval val = Some r /\
  (forall l ix, (l < n)%N -> (ix < size xval)%N -> at2 r l ix = (rodrigues K l).[nth 0 xval ix]) /\
  (forall l ix buf s, (l < n)%N -> (ix < size xval)%N -> compute_legendre t (nth 0 xval ix) buf = Some s -> at2 r l ix = nth 0 s l).
Proof.
move=> hs; have [_ en inv _ _] := make_ok made; rewrite /vcompute_legendre en ltnNge hs /=.
eexists; split; first reflexivity.
set r := foldl _ _ _.
suff H : forall l ix, (l < n)%N -> (ix < size xval)%N -> at2 r l ix = (rodrigues K l).[nth 0 xval ix].
  split=> // l ix buf s hl hx; rewrite (H l ix) //.
  case hb : (size buf < n)%N; first by rewrite /compute_legendre en hb.
  have := @C47_legendre (nth 0 xval ix) buf; rewrite leqNgt hb => /(_ isT) [s' [-> [h _]]] [<-]; by rewrite h.
have K1 : forall m, (m <= n)%N -> forall l ix, (l < m)%N -> (ix < size xval)%N ->
    at2 (foldl (vleg_step t xval) val (iota 0 m)) l ix = (rodrigues K l).[nth 0 xval ix].
  elim=> [|m ih] hm; first by []. move=> l ix; rewrite -(addn1 m) iotaD foldl_cat /= add0n addn1 ltnS.
  have {}ih := ih (ltnW hm); set v := foldl _ _ _ in ih *.
  have e : forall j i, (i < size xval)%N -> at2 (vleg_step t xval v m) j i = if j == m then (rodrigues K m).[nth 0 xval i] else at2 v j i.
    move=> j i hi; rewrite /vleg_step; move: v ih; clear l; case: m hm => [|[|m]] hm v ih /=.
    - by rewrite (@row_fold 0%N (fun _ _ => 1) (fun _ => 1)) // hi andbT P0 hornerC.
    - by rewrite (@row_fold 1%N (fun _ i => nth 0 xval i) (fun i => nth 0 xval i)) // hi andbT P1 hornerX.
    - rewrite (@row_fold m.+2 (fun v ix => ((2 * m.+2 - 1)%N%:R * nth 0 xval ix * at2 v (m.+2 - 1) ix - (m.+2 - 1)%N%:R * at2 v (m.+2 - 2) ix) * nth 0 (inv_l_ t) m.+2)
        (fun ix => ((2 * m.+2 - 1)%N%:R * nth 0 xval ix * at2 v (m.+2 - 1) ix - (m.+2 - 1)%N%:R * at2 v (m.+2 - 2) ix) * nth 0 (inv_l_ t) m.+2)).
        rewrite hi andbT; case: eqP => // _; rewrite subn1 subn2 /= !ih // inv; last by lia.
        by rewrite P_eval_rec; congr ((_%:R * _ * _ - _) * _); lia.
      by move=> v' ix' h; rewrite !h //; apply/eqP; lia.
  move=> hl hx; rewrite e //; case: (eqVneq l m) => [->//|ne]; apply: ih => //; move/eqP: ne; lia.
exact: K1.
Qed.
End C47.

(** The polynomials so computed: value 1 at 1, parity (-1)^l, degree l, Legendre's differential equation, and Bonnet's
    recursion between neighbours *)
Theorem C47_properties (K : numFieldType) (l : nat) (x : K) :
  [/\ (rodrigues K l).[1] = 1, (rodrigues K l).[- x] = (-1) ^+ l * (rodrigues K l).[x], size (rodrigues K l) = l.+1,
      (1 - x ^+ 2) * (rodrigues K l)^`()^`().[x] - 2%:R * x * (rodrigues K l)^`().[x] + (l * l.+1)%N%:R * (rodrigues K l).[x] = 0 &
      l.+2%:R * (rodrigues K l.+2).[x] = (2 * l + 3)%N%:R * x * (rodrigues K l.+1).[x] - l.+1%:R * (rodrigues K l).[x]].
Proof.
split; [exact: P_at_one|exact: P_parity|exact: P_size| |].
  move: (P_ode K l); move: (rodrigues K l) => p e.
  by have := congr1 (horner^~ x) e; rewrite -!polyC_natr !hornerE expr2.
rewrite P_eval_rec mulrCA div1r mulfV ?mulr1 ?pnatr_eq0 //; congr (_%:R * _ * _ - _); lia.
Qed.

(** The other table: sqrt_2l_1[l] is the non-negative square root of 2l+1, also for l = 0 *)
Theorem C47_tables (K : rcfType) (n : nat) (t : transformer K) : make_transformer Num.sqrt n = Some t ->
  forall l, (l < n)%N -> 0 <= nth 0 (sqrt_2l_1 t) l /\ nth 0 (sqrt_2l_1 t) l ^+ 2 = (2 * l + 1)%N%:R.
Proof.
move=> /make_ok [_ _ _ h0 h] [|l] hl; first by rewrite h0 ler01 expr1n muln0.
have e : 2%:R * l.+1%:R + 1 = (2 * l.+1 + 1)%N%:R :> K by rewrite natrD natrM.
by rewrite h // e sqrtr_ge0 sqr_sqrtr // ler0n.
Qed.
(** A transformer for zero coefficients writes outside its table *)
Theorem C47_zero_refuted (K : numFieldType) (sqrtf : K -> K) : make_transformer sqrtf 0 = None.
Proof. by []. Qed.

Example C47_instance : let t := LT 4 [:: 0; 1; 1 / 2%:Q; 1 / 3%:Q] [:: 1; 2%:Q; 3%:Q; 4%:Q] in
  [/\ omap (@inv_l_ _) (make_transformer (fun x : rat => (x + 1) / 2%:Q) 4) == Some (inv_l_ t),
      omap (@sqrt_2l_1 _) (make_transformer (fun x : rat => (x + 1) / 2%:Q) 4) == Some (sqrt_2l_1 t),
      compute_legendre t (1 / 2%:Q) (nseq 4 7%:Q) == Some [:: 1; 1 / 2%:Q; - (1 / 8%:Q); - (7%:Q / 16%:Q)] &
      vcompute_legendre t [:: 1 / 2%:Q; 1] (nseq 4 [:: 7%:Q; 7%:Q]) == Some [:: [:: 1; 1]; [:: 1 / 2%:Q; 1]; [:: - (1 / 8%:Q); 1]; [:: - (7%:Q / 16%:Q); 1]]].
Proof. by split; vm_compute. Qed.

Print Assumptions C47_legendre.
Print Assumptions C47_vector.
Print Assumptions C47_properties.
Print Assumptions C47_tables.
Print Assumptions C47_zero_refuted.
