(** * Postprocess: the rotation of the single-particle basis, and what is computed from the accumulated observables

    Model of src/postprocess.hpp, of the reading and use of the basis in src/model/model.ipp:306-434 and 513-587, and of the
    way the observables reach the accumulators (src/impurity.ipp:262-442, src/accumulator.hpp).

    Scalars form a field with complex conjugation and square roots; there is no rounding.  For the solver with real numbers
    the matrices have real entries and conjugation does nothing.  Matrices of Eigen and the flavor indices of multi_arrays are
    matrices and functions on 'I_n; a loop that only adds to an entry that was set to zero is written as a sum.  The vectors
    of real and imaginary parts in which results are stored are one vector of complex numbers; the mean of an accumulator
    is the arithmetic mean of the values put into it.  Not modelled: verbose output.  gf (Matsubara
    frequencies, table Tnl) is in Matsubara.v, the reading of the file in Input.v. *)
From mathcomp Require Import all_ssreflect all_algebra.
From Verif Require Import Legendre.
Import GRing.Theory Num.Theory.
Set Implicit Arguments.
Unset Strict Implicit.
Unset Printing Implicit Defensive.
Local Open Scope ring_scope.

(** ** The tail correction and G(tau) *)
Section Tail.
Variable K : numClosedFieldType.
(** 83-85 *)
Definition tl1 (l : nat) : K := if (l %% 2 == 0)%N then - 2%:R * sqrtC (2%:R * l%:R + 1) else 0.
(** boost::multi_array<T, 3> *)
Definition arr3 : Type := nat -> nat -> nat -> K.
Definition put3 (G : arr3) (f1 f2 l : nat) (x : K) : arr3 :=
  fun a b c => if [&& a == f1, b == f2 & c == l] then x else G a b c.
(** 96-107: the body of the loops over the flavors *)
Definition correct_pair (beta : K) (nl f1 f2 : nat) (G : arr3) : arr3 :=
  let c1 : K := if f1 == f2 then 1 else 0 in
  let: (diff, sum_t2) := foldl (fun ds l => (ds.1 - tl1 l * G f1 f2 l, ds.2 + tl1 l * tl1 l)) (beta * c1, 0) (iota 0 nl) in
  foldl (fun H l => put3 H f1 f2 l (H f1 f2 l + (diff / sum_t2) * tl1 l)) G (iota 0 nl).
(** 89-110 *)
Definition correct_G1_tail (beta : K) (nf nl : nat) (G : arr3) : arr3 :=
  foldl (fun G f1 => foldl (fun G f2 => correct_pair beta nl f1 f2 G) G (iota 0 nf)) G (iota 0 nf).

(** 183-198: one value of gtau.  None: compute_legendre refuses the vector *)
Definition gtau (t : transformer K) (beta : K) (n_tau nl : nat) (G : arr3) (itau f1 f2 : nat) : option K :=
  let tau := itau%:R * (beta / n_tau%:R) in
  let x := 2%:R * tau / beta - 1 in
  omap (fun Pvals => foldl (fun s il => s + nth 0 Pvals il * G f1 f2 il * nth 0 (sqrt_2l_1 t) il * (1 / beta)) 0 (iota 0 nl))
       (compute_legendre t x (nseq nl 0)).
End Tail.

(** ** Basis rotation *)
Section Rotation.
Variables (K : numClosedFieldType) (n : nat).
Implicit Types (R : 'M[K]_n).
Definition conjM (m1 m2 : nat) (A : 'M[K]_(m1, m2)) : 'M[K]_(m1, m2) := map_mx conjC A.
Definition adjoint (A : 'M[K]_n) : 'M[K]_n := (conjM A)^T.

(** model.ipp:337-339: the sign of the imaginary part *)
Definition read_basis (input : 'M[K]_n) : 'M[K]_n := conjM input.
(** model.ipp:351-361 *)
Definition normalize (F : 'M[K]_n) : 'M[K]_n :=
  \matrix_(i, j) (F i j * (1 / sqrtC (\sum_(k < n) `|F k j| * `|F k j|))).
(** model.ipp:372-384; false: the program exits *)
Definition tolerance : K := (10 ^ 8)%N%:R^-1.
Definition is_orthogonal (F : 'M[K]_n) : bool :=
  [forall i : 'I_n, forall j : 'I_n, (j < i)%N ==> ~~ (tolerance < `|\sum_(k < n) (F k i)^* * F k j|)].
(** model.ipp:306-392: rotmat_F and rotmat_Delta; None: the program exits *)
Definition make_rotation (input : 'M[K]_n) : option ('M[K]_n * 'M[K]_n) :=
  let F := normalize (read_basis input) in
  if is_orthogonal F then Some (F, conjM F) else None.
(** model.ipp:416-432: the hybridization function at one time *)
Definition rotate_F (rotmat_F F : 'M[K]_n) : 'M[K]_n := invmx rotmat_F *m (F *m rotmat_F).
(** model.ipp:555 *)
Definition rotate_hopping (R h : 'M[K]_n) : 'M[K]_n := adjoint R *m h *m R.
(** model.ipp:516-537; [vals] is nonzero_U_vals *)
Definition tensor4 : Type := 'I_n -> 'I_n -> 'I_n -> 'I_n -> K.
Definition rotate_U (R : 'M[K]_n) (vals : seq ('I_n * 'I_n * 'I_n * 'I_n * K)) : tensor4 :=
  let Rt := R^T in
  foldl (fun (U : tensor4) e => let: (a, b, ap, bp, u) := e in
           fun f0 f1 f2 f3 => U f0 f1 f2 f3 + u * (Rt f0 a)^* * (Rt f1 b)^* * Rt f2 ap * Rt f3 bp)
        (fun _ _ _ _ => 0) vals.
(** model.ipp:540-547 *)
Definition hopping_org (vals : seq ('I_n * 'I_n * K)) : 'M[K]_n :=
  foldl (fun (h : 'M[K]_n) e => let: (i, j, x) := e in \matrix_(a, b) (if (a == i) && (b == j) then x else h a b)) (0 : 'M[K]_n) vals.
(** model.ipp:548-554; false: runtime_error *)
Definition is_hermitian (tol : K) (h : 'M[K]_n) : bool :=
  [forall i : 'I_n, forall j : 'I_n, ~~ (tol < `|h i j - (h j i)^*|)].
(** model.ipp:568-587: the terms of the Hamiltonian, for operators [dd] and [d] in some algebra; entries of magnitude
    up to [eps] are left out *)
Section Ham.
Variables (V : algType K) (dd d : 'I_n -> V) (eps : K).
Definition ham_U (U : tensor4) : V :=
  \sum_f1 \sum_f2 \sum_f3 \sum_f4
    (if eps < `|U f1 f2 f3 f4| then U f1 f2 f3 f4 *: (dd f1 * dd f2 * d f3 * d f4) else 0).
Definition ham_t (h : 'M[K]_n) : V :=
  \sum_f2 \sum_f1 (if eps < `|h f1 f2| then h f1 f2 *: (dd f1 * d f2) else 0).
Definition hamiltonian (U : tensor4) (h : 'M[K]_n) : V := ham_U U + ham_t h.
End Ham.

(** postprocess.hpp:147-161 (and impurity.ipp:837-852): one Legendre coefficient *)
Definition rotate_back_G1 (R G : 'M[K]_n) : 'M[K]_n := R *m G *m invmx R.
(** measurement.hpp:119-132 *)
Definition rotate_back_Z (R G : 'M[K]_n) : 'M[K]_n := R *m G *m adjoint R.
(** postprocess.hpp:229-295 *)
Definition back1 (R : 'M[K]_n) (G : tensor4) : tensor4 := fun f1 f2 f3 f4 => \sum_g1 R f1 g1 * G g1 f2 f3 f4.
Definition back2 (R : 'M[K]_n) (G : tensor4) : tensor4 := fun f1 f2 f3 f4 => \sum_g2 (R f2 g2)^* * G f1 g2 f3 f4.
Definition back3 (R : 'M[K]_n) (G : tensor4) : tensor4 := fun f1 f2 f3 f4 => \sum_g3 R f3 g3 * G f1 f2 g3 f4.
Definition back4 (R : 'M[K]_n) (G : tensor4) : tensor4 := fun f1 f2 f3 f4 => \sum_g4 (R f4 g4)^* * G f1 f2 f3 g4.
Definition rotate_back_G2 (R : 'M[K]_n) (G2 : tensor4) : tensor4 := back4 R (back3 R (back2 R (back1 R G2))).
(** postprocess.hpp:385-394 *)
Definition rotate_equal_time_G1 (R data : 'M[K]_n) : 'M[K]_n :=
  \matrix_(f0, f1) \sum_g0 \sum_g1 data g0 g1 * (R f0 g0)^* * R f1 g1.
(** postprocess.hpp:430-450, and 56-78 for each Legendre coefficient *)
Definition rotate_equal_time_G2 (R : 'M[K]_n) (data : tensor4) : tensor4 := fun f0 f1 f2 f3 =>
  \sum_g0 \sum_g1 \sum_g2 \sum_g3 data g0 g1 g2 g3 * (R f0 g0)^* * R f1 g1 * (R f2 g2)^* * R f3 g3.
End Rotation.

(** ** The way to the accumulators *)
Section Observables.
Variables (K : numClosedFieldType) (I J : Type).
(** One Monte Carlo step as measure_every_step (impurity.ipp:262-310) finds it: the configuration space (0: the Z space), the sign,
    the value that the worm measurement finds without the sign, the value of measure_kLkR and the number of operators *)
Record mcstep := MCStep { st_space : nat; st_sign : K; st_worm : I -> K; st_kLkR : K; st_k : K }.
(** Each call of measure (313-369) comes with the space, the sign and the correlation functions (result / trace) *)
Inductive mcevent := Every (s : mcstep) | Report (space : nat) (sign : K) (corr : J -> K).
Record acc := Acc { num_steps : nat -> K; (* num_steps_in_config_space *)
  a_worm : nat -> seq (I -> K); a_kLkR : seq K; a_k : seq K; a_volume : nat -> seq K; a_corr : seq (J -> K); a_sign : seq K }.
Definition acc0 : acc := Acc (fun _ => 0) (fun _ => [::]) [::] [::] (fun _ => [::]) [::] [::].
Definition at_space A (f : nat -> A) (w : nat) (x : A) : nat -> A := fun v => if v == w then x else f v.
(** impurity.ipp:262-310.  The worm measurements are those that put one value per step into the accumulator
    (measurement.ipp:111, 546, 561) *)
Definition every_step (a : acc) (s : mcstep) : acc :=
  let w := st_space s in
  let counts := at_space (num_steps a) w (num_steps a w + 1) in
  if w == 0%N then
    Acc counts (a_worm a) (rcons (a_kLkR a) (st_kLkR s * st_sign s)) (rcons (a_k a) (st_k s * st_sign s)) (a_volume a) (a_corr a) (a_sign a)
  else
    Acc counts (at_space (a_worm a) w (rcons (a_worm a w) (fun i => st_sign s * st_worm s i))) (a_kLkR a) (a_k a) (a_volume a) (a_corr a) (a_sign a).
(** impurity.ipp:319-333, 357-362, 473-489, 440; [weight] is config_space_extra_weight *)
Definition report (weight : nat -> K) (a : acc) (space : nat) (sign : K) (corr : J -> K) : acc :=
  let volume v := rcons (a_volume a v) (num_steps a v / weight v) in
  if space == 0%N then
    Acc (fun _ => 0) (a_worm a) (a_kLkR a) (a_k a) volume (rcons (a_corr a) (fun j => sign * corr j)) (rcons (a_sign a) sign)
  else Acc (fun _ => 0) (a_worm a) (a_kLkR a) (a_k a) volume (a_corr a) (a_sign a).
Definition mc_event (weight : nat -> K) (a : acc) (e : mcevent) : acc :=
  match e with Every s => every_step a s | Report w s c => report weight a w s c end.
Definition mc_run (weight : nat -> K) (es : seq mcevent) : acc := foldl (mc_event weight) acc0 es.

(** mean<double>() and mean<std::vector<double> >(); None: an accumulator without values throws *)
Definition mean (s : seq K) : option K := if s is [::] then None else Some ((\sum_(x <- s) x) / (size s)%:R).
Definition means (A : Type) (s : seq (A -> K)) : option (A -> K) :=
  if s is [::] then None else Some (fun i => (\sum_(x <- s) x i) / (size s)%:R).

(** postprocess.hpp:32-49, 130-144, 309-319, 371-384, 413-428: the data before rotation.  [factor] is the temperature for
    the equal-time functions and the two-time function (32-33, 371-372, 413-414), and 1 for G1 and G2 *)
Definition worm_average (factor : K) (w : nat) (a : acc) : option (I -> K) :=
  if (mean (a_volume a w), mean (a_sign a), mean (a_volume a 0%N), means (a_worm a w)) is (Some v, Some s, Some z, Some d) then
    Some (fun i => factor * v / (s * z) * d i)
  else None.
(** 455-483 *)
Definition compute_nn_corr (a : acc) : option (J -> K) :=
  if (mean (a_sign a), means (a_corr a)) is (Some s, Some d) then Some (fun j => 1 / s * d j) else None.
(** 486-495 without taking the real part *)
Definition compute_fidelity (a : acc) : option K :=
  if (mean (a_kLkR a), mean (a_k a)) is (Some kLkR, Some k) then Some (2%:R^-1 * (kLkR - 4%:R^-1 * k * k)) else None.
End Observables.
