(** * C65: a concrete case over every algebraically closed field with conjugation, in particular the algebraic numbers *)
From Coq Require Import ZArith.
From mathcomp Require Import all_ssreflect all_algebra zify ssrZ.
From mathcomp Require Import realalg complex.
From Verif Require Import KField OpContainer EigenBasis T_EigenBasis Window T_Window T_WindowTrace LazyTrace T_LazyTrace T_Braket OpNorm SpecNorm SpecThm T_SpecNorm.
Import Order.Theory GRing.Theory Num.Theory.
Set Implicit Arguments.
Unset Strict Implicit.
Unset Printing Implicit Defensive.
Local Close Scope Z_scope.
Local Open Scope nat_scope.
Local Open Scope ring_scope.
Delimit Scope Z_scope with coqZ.

Section Instance.
Variable A : numClosedFieldType.
Notation K := (Num.ClosedField.numFieldType A).
Definition cj : {rmorphism K -> K} := [rmorphism of @conjC A].
Lemma cjE (x : K) : x * cj x = `|x| ^+ 2.
Proof. exact: conjE. Qed.

(** An eigensolver: some unitary matrix and eigenvalues that diagonalize the argument *)
Section Solver.
Variable h : mat K.
Definition hm : 'M[K]_(mr h) := tomx (mr h) (mr h) h.
Definition solves (p : 'M[K]_(mr h) * 'rV[K]_(mr h)) : bool :=
  (adj cj p.1 *m p.1 == 1%:M) && (hm == p.1 *m diag_mx p.2 *m adj cj p.1).
Lemma solvable : adj cj hm == hm -> exists p, solves p.
Proof. by move/eqP => /(@spectral A) [U [d [h1 h2]]]; exists (U, d); rewrite /solves /= h1 -h2 !eqxx. Qed.
Definition solver : seq K :=
  match @idP (adj cj hm == hm) with
  | ReflectT e => let d := (xchoose (solvable e)).2 in [seq d 0 i | i <- enum 'I_(mr h)]
  | ReflectF _ => [::]
  end.
Lemma solver_ok : adj cj hm = hm -> eig_ok cj h solver.
Proof.
move/eqP => e; rewrite /solver; case: {-}_ / idP => // e'.
have /andP[/eqP h1 /eqP h2] := xchooseP (solvable e'); set p := xchoose _ in h1 h2 *.
split; first by rewrite size_map size_enum_ord.
exists p.1; split=> //; rewrite -/hm [LHS]h2; congr (_ *m diag_mx _ *m _); apply/rowP => i.
by rewrite !mxE (nth_map i) ?size_enum_ord // nth_ord_enum.
Qed.
End Solver.
Lemma solverP : esolv_ok cj solver.
Proof. by move=> h _ e; exact: solver_ok. Qed.
Definition root2 (x : A) : K := sqrtC x.
Lemma sqrtCP : sqrt_ok root2.
Proof. by move=> x h; rewrite /root2 sqrtC_ge0 sqrtCK. Qed.

(** ** Two sectors with energies 0, 3 and 1, a rotated basis in the first, a creation operator from the first to the second; the inner
    cutoff 2 removes the state with energy 3 *)
Definition evals : seq (seq int) := [:: [:: 0; 3%:Z]; [:: 1]].
Definition rot : mat K := Mat 2 2 (fun i j => match i, j with 0%N, 0%N => 3%:R / 5%:R | 0%N, _ => - (4%:R / 5%:R) | _, 0%N => 4%:R / 5%:R | _, _ => 3%:R / 5%:R end).
Definition one1 : mat K := Mat 1 1 (fun _ _ => 1).
Definition evecs : seq (mat K) := [:: rot; one1].
Definition conn : conn_t := fun o _ s => match o, s with CREATION_OP, 0%N => Some 1%N | ANNIHILATION_OP, 1%N => Some 0%N | _, _ => None end.
Definition rev : conn_t := fun o _ s => match o, s with CREATION_OP, 1%N => Some 0%N | ANNIHILATION_OP, 0%N => Some 1%N | _, _ => None end.
Definition ops (o : optype) (_ s : nat) : mat K :=
  match o with CREATION_OP => Mat 1 2 (fun _ j => if j == 0%N then 1 else 0) | ANNIHILATION_OP => Mat 2 1 (fun i _ => if i == 0%N then 1 else 0) end.
Definition expf (z : int) : K := 2%:R ^ z.
Lemma expD (x y : int) : expf (x + y) = expf x * expf y.
Proof. by rewrite /expf expfzDr // pnatr_eq0. Qed.
Lemma exp_pos (x : int) : 0 < expf x.
Proof. by case: x => n; rewrite /expf /exprz ?invr_gt0 exprn_gt0 // ltr0n. Qed.
Lemma exp_mono (x y : int) : x <= y -> expf x <= expf y.
Proof.
move=> h; have [n e] : exists n : nat, y = x + n%:Z by exists `|y - x|%N; lia.
by rewrite e expD -[X in X <= _]mulr1 ler_pmul2l ?exp_pos // /expf /exprz exprn_ege1 // ler1n.
Qed.
Lemma tickD (s t : Z) : int_of_Z (s + t)%coqZ = int_of_Z s + int_of_Z t.
Proof. lia. Qed.
Lemma tick_ge0 (t : Z) : (0 <= t)%coqZ -> 0 <= int_of_Z t.
Proof. lia. Qed.
Lemma dims s : mc (nth (mat0 K) evecs s) = size (nth [::] evals s).
Proof. by case: s => [|[|s]] //=; rewrite !nth_nil. Qed.
Lemma inv_tables o (f : nat) s d : conn o f s = Some d <-> rev o f d = Some s.
Proof. by case: o; case: s => [|[|s]]; case: d => [|[|d]]. Qed.
Lemma ops_dims o f s d : conn o f s = Some d ->
  mc (ops o f s) = mr (nth (mat0 K) evecs s) /\ mr (ops o f s) = mr (nth (mat0 K) evecs d).
Proof. by case: o; case: s => [|[|s]] //= [<-]. Qed.
Lemma orthonormal s : let U := nth (mat0 K) evecs s in adj cj (tomx (mr U) (mc U) U) *m tomx (mr U) (mc U) U = 1%:M.
Proof.
have q (n : nat) : (n%:R : A)^* = n%:R by exact: conjC_nat.
case: s => [|[|s]] /=; apply/matrixP => i j; last by rewrite nth_nil in i j *; case: i.
  rewrite !mxE !big_ord_recl big_ord0 !mxE /=.
  have [ca cb] : cj (3%:R / 5%:R) = 3%:R / 5%:R /\ cj (4%:R / 5%:R) = 4%:R / 5%:R by split; rewrite rmorphM fmorphV; congr (_ * _^-1); exact: q.
  have ab : 3%:R / 5%:R * (3%:R / 5%:R) + 4%:R / 5%:R * (4%:R / 5%:R) = 1 :> K.
    rewrite !mulf_div -mulrDl -!natrM -natrD; apply: divff; by rewrite pnatr_eq0.
  set a := 3%:R / 5%:R in ca ab *; set b := 4%:R / 5%:R in cb ab *.
  case: i => -[|[|i]] // hi; case: j => -[|[|j]] // hj /=; rewrite ?rmorphN /= ?ca ?cb addr0 ?mulrNN ?mulNr ?mulrN //.
  - by rewrite [b * a]mulrC addNr.
  - by rewrite [b * a]mulrC addNr.
  - by rewrite addrC.
by rewrite !mxE !big_ord_recl big_ord0 !mxE /= !ord1 rmorph1 mulr1 addr0.
Qed.
Lemma ops_contract o f s d : conn o f s = Some d ->
  bounded cj (tomx (mr (nth (mat0 K) evecs d)) (mr (nth (mat0 K) evecs s)) (ops o f s)) 1.
Proof.
have h : bounded cj (tomx 1 2 (ops CREATION_OP 0 0) : 'M[K]_(1, 2)) 1.
  split=> [|v]; first exact: ler01.
  rewrite expr1n mul1r !(sqE cjE) !big_ord_recl !big_ord0 !mxE !big_ord_recl big_ord0 !mxE /= mul1r mul0r !addr0.
  by rewrite ler_addl exprn_ge0.
case: o => /=; case: s => [|[|s]] // -[<-] //=.
have -> : tomx 2 1 (ops ANNIHILATION_OP f 1) = adj cj (tomx 1 2 (ops CREATION_OP 0 0)) :> 'M[K]_(2, 1); last exact: (bounded_adj cjE).
by apply/matrixP => i j; rewrite !mxE /=; case: eqP => _; rewrite ?rmorph1 ?rmorph0.
Qed.
Lemma tiny0 : 0 < (1 / 2%:R : K). Proof. by rewrite div1r invr_gt0 ltr0n. Qed.
Lemma tiny1 : (1 / 2%:R : K) <= 1. Proof. by rewrite div1r invf_le1 ?ler1n ?ltr0n. Qed.

Definition C65_contract_instance := C65_contract 100%:Z 2%:Z cjE rev expD exp_pos exp_mono tick_ge0 dims ops_dims
  orthonormal ops_contract solverP sqrtCP tiny0 tiny1.
Definition C65_lazy_trace_instance := C65_lazy_trace (big := 100%:Z) (inner := 2%:Z) (exp_pos := exp_pos) (dims := dims) (inv_tables := inv_tables) (ops_dims := ops_dims) cjE expD exp_mono tickD tick_ge0
  orthonormal ops_contract solverP sqrtCP tiny0 tiny1.

(** The norm of the row (3, 4) with coefficient 2 is 10; the lowest energies of the sectors are 0 and 1. *)
Example C65_instance :
  compute_spectral_norm cj solver root2 0 (1 / 2%:R) 0 (Braket (Some 0%N) (Mat 1 2 (fun _ j => if j == 0%N then 3%:R else 4%:R)) 2%:R) = 10%:R /\
  (min_energy 100%:Z 2%:Z evals evecs 0 = 0 /\ min_energy 100%:Z 2%:Z evals evecs 1 = 1).
Proof.
split; last by split; vm_compute.
set k := Braket _ _ _.
have h1 := @csn_ok K cj cjE _ _ _ solverP sqrtCP tiny0 tiny1 k erefl (ltr0n _ 2 : 0 < coeff k = true).
apply: opnorm_uniq h1 _.
have -> : (10%:R : K) = `|2%:R| * 5%:R by rewrite normr_nat -natrM.
apply: (opnorm_scale cjE); first by rewrite pnatr_eq0.
set M := tomx _ _ _.
have hM (v : 'cV[K]_2) : sq cj (M *m v) = `|3%:R * v 0 0 + 4%:R * v 1 0| ^+ 2.
  rewrite (sqE cjE) big_ord_recl big_ord0 addr0 !mxE !big_ord_recl big_ord0 !mxE /= addr0.
  by congr (`|_ + _| ^+ 2); congr (_ * v _ _); apply: val_inj.
have hw : sq cj (\col_(i < 2) (if (i : nat) == 0%N then 3%:R else 4%:R : K)) = 25%:R.
  by rewrite (sqE cjE) !big_ord_recl big_ord0 addr0 !mxE /= !normr_nat -!natrX -natrD.
split.
  split=> [|v]; first by rewrite ler0n.
  rewrite hM; have := cauchy cjE (\col_(i < 2) (if (i : nat) == 0%N then 3%:R else 4%:R : K)) v.
  rewrite hw dotE !big_ord_recl big_ord0 addr0 !mxE /= !conjC_nat -natrX.
  by congr (`|_ + _| ^+ 2 <= _); congr (_ * v _ _); apply: val_inj.
move=> c [c0 hc]; have := hc (\col_(i < 2) (if (i : nat) == 0%N then 3%:R else 4%:R : K)).
rewrite hw hM !mxE /= -!natrM -natrD normr_nat => h.
apply: le_of_sq => //.
have p : 0 < (25%:R : K) by rewrite ltr0n.
by rewrite -(ler_pmul2r p); apply: le_trans h; rewrite -!natrX -natrM ler_nat.
Qed.
End Instance.

(** The algebraic numbers as pairs of real algebraic numbers *)
Definition alg : numClosedFieldType := [numClosedFieldType of complex realalg].
Definition C65_contract_algebraic := @C65_contract_instance alg.
Definition C65_lazy_trace_algebraic := @C65_lazy_trace_instance alg.
Print Assumptions C65_lazy_trace_algebraic.
