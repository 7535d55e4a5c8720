(** * Matsubara: the table Tnl and the Green's function at Matsubara frequencies

    Model of src/legendre.cpp:6-14 and of src/postprocess.hpp:200-226.  Numbers are exact; M_PI and boost::math::sph_bessel are
    parameters (a number and a function), the square root of a complex number stands for std::sqrt of a positive real one.
    Matrices of Eigen are functions on pairs of indices; the mesh objects of ALPSCore, which only label the output, are left out. *)
From mathcomp Require Import all_ssreflect all_algebra.
From Verif Require Import Legendre Postprocess.
Import GRing.Theory Num.Theory.
Set Implicit Arguments.
Unset Strict Implicit.
Unset Printing Implicit Defensive.
Local Open Scope ring_scope.

Section Table.
Variables (K : numClosedFieldType) (m_pi : K) (sph_bessel : nat -> K -> K).
Definition arr2 : Type := nat -> nat -> K.
Definition put_nl (T : arr2) (im il : nat) (x : K) : arr2 := fun a b => if (a == im) && (b == il) then x else T a b.
(** legendre.cpp:9-12: one row; the state is the table and ztmp *)
Definition tnl_entry (sign_tmp : K) (im : nat) (st : arr2 * K) (il : nat) : arr2 * K :=
  let: (T, ztmp) := st in
  let z := (1 / 2%:R) * (2%:R * im%:R + 1) * m_pi in
  (put_nl T im il (sign_tmp * ztmp * sqrtC (2%:R * il%:R + 1) * sph_bessel il z), ztmp * 'i).
Definition tnl_row (nl : nat) (st : arr2 * K) (im : nat) : arr2 * K :=
  let: (T, sign_tmp) := st in
  ((foldl (tnl_entry sign_tmp im) (T, 'i) (iota 0 nl)).1, sign_tmp * -1).
(** legendre.cpp:6-14; the matrix starts with arbitrary entries T0 (Eigen does not initialise it) *)
Definition tnl_table (nm nl : nat) (T0 : arr2) : arr2 := (foldl (tnl_row nl) (T0, 1) (iota 0 nm)).1.

(** postprocess.hpp:213-225: gf at (im, flavor, flavor2) *)
Definition gomega (T : arr2) (nl : nat) (G : arr3 K) (im f1 f2 : nat) : K :=
  let tmp_mat := fun il => G f1 f2 il in
  \sum_(il < nl) T im il * tmp_mat il.
End Table.
