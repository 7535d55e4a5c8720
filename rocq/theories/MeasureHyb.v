(** * MeasureHyb: the worm-space measurement of G1 and G2 by removal of operators
    Model of GMeasurement::measure_via_hyb (src/measurement/measurement.ipp:148-310) and of
    MeasureGHelper<SCALAR, 2>::perform (ipp:386-533).  MeasureGHelper<SCALAR, 1>::perform and the batches are in Measure.v.
    - Numbers are exact.  [rnd i j] is the random number drawn for the entry (i, j) of D; [shuf] is what
      std::random_shuffle does to the flags of the operators in the configuration (one for rows, one for columns).
    - [expi tau] is exp(2 pi i tau / beta).
    - Assertions are left out.  max_num_ops is not negative.
    - M.block(...) = compute_inverse_matrix(ib) for all blocks (ipp:169-174) is compute_inverse_matrix of
      DetPartitioned.v (the same loop over a matrix of zeros). *)
From Coq Require Import ZArith.
From mathcomp Require Import all_ssreflect all_algebra zify ssrZ.
From Verif Require Import OpContainer Dist Proposal EigenBasis FastUpdate Legendre DetMatrix DetPartitioned Measure.
Import Order.Theory GRing.Theory Num.Theory.
Set Implicit Arguments.
Unset Strict Implicit.
Unset Printing Implicit Defensive.
Local Close Scope Z_scope.
Local Open Scope nat_scope.
Local Open Scope ring_scope.
Delimit Scope Z_scope with coqZ.

Section MeasureHyb.
Variable K : numFieldType.
(** the hybridization function, p_gf->operator() *)
Variable F : psi -> psi -> K.
(** the template parameter Rank; n_aux_lines = Rank (ipp:164) *)
Variable R : nat.

(** ipp:175-183 *)
Definition ext_B (c w : seq psi) : mat K :=
  Mat (size c) (R + R) (fun i j => if (j < R)%N then F (nth psi0 c i) (nth psi0 w (2 * j + 1)) else 0).
(** ipp:184-188 *)
Definition ext_C (cd w : seq psi) : mat K :=
  Mat (R + R) (size cd) (fun i j => if (i < R)%N then F (nth psi0 w (2 * i)) (nth psi0 cd j) else 0).
(** ipp:189-198 *)
Definition ext_D (eps : K) (rnd : nat -> nat -> K) (w : seq psi) : mat K :=
  Mat (R + R) (R + R) (fun i j =>
    if (i < R)%N && (j < R)%N then F (nth psi0 w (2 * i)) (nth psi0 w (2 * j + 1)) else eps * rnd i j).

(** ipp:211-214 *)
Definition with_c (c w : seq psi) : seq psi := c ++ [seq nth psi0 w (2 * i) | i <- iota 0 R].
Definition with_cd (cd w : seq psi) : seq psi := cd ++ [seq nth psi0 w (2 * i + 1) | i <- iota 0 R].

(** ipp:222-236: the flags; [n] operators of each kind in the configuration *)
Definition flags (n max_num_ops : nat) (shuf : seq bool -> seq bool) : seq bool :=
  shuf [seq (i < max_num_ops - R)%N | i <- iota 0 n] ++ nseq (R + R) true.
(** the positions of the flags that are set *)
Definition active (fl : seq bool) : seq nat := [seq i <- iota 0 (size fl) | nth false fl i].
(** ipp:240-254 *)
Definition keep_ops (fl : seq bool) (ops : seq psi) : seq psi := mask (take (size ops) fl) ops.
(** ipp:256-276 *)
Definition keep_mat (max_num_ops : nat) (rows cols : seq bool) (M : mat K) : mat K :=
  Mat (max_num_ops + R) (max_num_ops + R)
      (fun i j => me M (nth 0%N (active rows) i) (nth 0%N (active cols) j)).

(** ipp:279-287 *)
Definition cutoff (tiny : K) (M : mat K) : mat K :=
  let cut := tiny * maxabs M in Mat (mr M) (mc M) (fun i j => if `|me M i j| < cut then 0 else me M i j).

(** What is handed to perform *)
Record removal := Removal { rm_cd : seq psi; rm_c : seq psi; rm_M : mat K; rm_weight : K }.
(** VSkip: the intermediate state has weight 0, nothing is measured (ipp:201-204) *)
Inductive vres := VOk of removal | VSkip | VUB.

(** ipp:200-214 *)
Definition extend (cd c w : seq psi) (eps : K) (rnd : nat -> nat -> K) (invM : mat K) : vres :=
  let B := ext_B c w in
  let C := ext_C cd w in
  let D := ext_D eps rnd w in
  let det_rat := compute_det_ratio_up B C D invM in
  if det_rat == 0 then VSkip
  else VOk (Removal (with_cd cd w) (with_c c w) (compute_inverse_matrix_up B C D invM).2 det_rat).
(** ipp:219-277.  With max_num_ops < Rank more entries are active than M_reduced has *)
Definition reduce (n max_num_ops : nat) (shuf_r shuf_c : seq bool -> seq bool) (x : removal) : vres :=
  if (n + R <= max_num_ops)%N then VOk x
  else if (max_num_ops < R)%N then VUB
  else
    let rows := flags n max_num_ops shuf_r in
    let cols := flags n max_num_ops shuf_c in
    VOk (Removal (keep_ops rows (rm_cd x)) (keep_ops cols (rm_c x)) (keep_mat max_num_ops rows cols (rm_M x)) (rm_weight x)).
(** ipp:156-287 *)
Definition intermediate (tiny eps : K) (rnd : nat -> nat -> K) (max_num_ops : nat) (shuf_r shuf_c : seq bool -> seq bool)
    (pm : pm K) (w : seq psi) : vres :=
  if (size w < 2 * R)%N then VUB else
  match extend (pm_cd_order pm) (pm_c_order pm) w eps rnd (compute_inverse_matrix pm) with
  | VOk x =>
    match reduce (psize pm) max_num_ops shuf_r shuf_c x with
    | VOk y => VOk (Removal (rm_cd y) (rm_c y) (cutoff tiny (rm_M y)) (rm_weight y))
    | e => e
    end
  | e => e
  end.

(** ** ipp:386-533: MeasureGHelper<SCALAR, 2>::perform *)
Section Helper2.
Variable tick : K.
Variable beta : Z.
Variable t : transformer K.
Variable expi : Z -> K.
Variables (n_freq : nat) (sign weight_rat : K) (cd c : seq psi) (M : mat K).
(** result[flavor_a][flavor_b][flavor_c][flavor_d][il][il_p][im] *)
Definition arr2 : Type := seq nat -> seq nat -> K.
(** ipp:437-449: expiomega[k][l][freq] *)
Definition expiomega (k l freq : nat) : K :=
  iter freq (fun z => expi (tdiff (nth psi0 c k) (nth psi0 cd l)) * z) 1.
(** ipp:456-463, 481-490: the matrix of which the determinant is taken *)
Definition tmp_mat (a b c' d : nat) : 'M[K]_4 :=
  let last i := (mr M - 2 + i)%N in
  let rows3 := [:: b; d; last 0%N; last 1%N] in
  let cols3 := [:: a; c'; last 0%N; last 1%N] in
  \matrix_(i < 4, j < 4) me M (nth 0%N rows3 i) (nth 0%N cols3 j).
Definition coeffs2 (q : nat * nat * nat * nat) : K :=
  let: (a, b, c', d) := q in sign * weight_rat * \det (tmp_mat a b c' d).
(** the loops over a, b, c, d with the two continue statements (ipp:465-475, 502-514) *)
Definition quads (n : nat) : seq (nat * nat * nat * nat) :=
  [seq q <- [seq (x.1.1, x.1.2, x.2, d) | x <- [seq (y.1, y.2, c') | y <- [seq (a, b) | a <- iota 0 n, b <- iota 0 n], c' <- iota 0 n],
                                          d <- iota 0 n] | (q.1.1.1 != q.1.2) && (q.1.1.2 != q.2)].
(** ipp:493 *)
Definition norm2 (n : nat) : K := foldl (fun s q => s + `|coeffs2 q|) 0 (quads n).
(** ipp:520-529; the values of the tables (ipp:417-435) are computed where they are used *)
Definition add2 (coeff : K) (q : nat * nat * nat * nat) (pl plp : nat -> K) (r : arr2) : arr2 :=
  let: (a, b, c', d) := q in
  let fl := [:: p_flavor (nth psi0 c a); p_flavor (nth psi0 cd b); p_flavor (nth psi0 c c'); p_flavor (nth psi0 cd d)] in
  foldl (fun r ls => fun fs l => if (fs == fl) && (l == ls)
           then r fs l + coeff * pl (nth 0%N ls 0) * plp (nth 0%N ls 1) * expiomega a d (nth 0%N ls 2) else r fs l)
    r [seq [:: x.1; x.2; im] | x <- [seq (il, ilp) | il <- iota 0 (n_legendre t), ilp <- iota 0 (n_legendre t)], im <- iota 0 n_freq].
Definition table (f : nat -> option K) (il : nat) : K := if f il is Some x then x else 0.
Definition perform2 (result : arr2) : mres arr2 :=
  let n := size cd in
  if (size cd != size c) || (size cd != mr M - 2)%N then MThrow
  else if has (fun k => has (fun l => has (fun il => ~~ isSome (pl2 tick beta t (nth psi0 c k) (nth psi0 cd l) il))
                 (iota 0 (n_legendre t))) (iota 0 n)) (iota 0 n) then MUB
  else
    let scale_fact := 1 / (norm2 n * val tick beta) in
    MOk (foldl (fun r q =>
      if coeffs2 q == 0 then r
      else add2 (coeffs2 q * scale_fact) q
             (table (pl2 tick beta t (nth psi0 c q.1.1.1) (nth psi0 cd q.1.1.2)))
             (table (pl2p tick beta t (nth psi0 c q.1.2) (nth psi0 cd q.2))) r) result (quads n)).
End Helper2.
End MeasureHyb.
