(** * WideScalar: the extended-range complex numbers

    Model of src/wide_scalar.hpp:49-325 (class wcomplex and its operators, compiled with USE_QUAD_PRECISION).  The component
    type T is taken to be the real numbers: no rounding, no overflow, no NaN.  std::complex<S> is a pair of reals. *)
From Coq Require Import Reals.
Open Scope R_scope.

(** hpp:54-59, 104 *)
Record wcomplex := W { a_ : R; b_ : R }.
Definition w_default : wcomplex := W 0 0.
Definition w_of_real (re : R) : wcomplex := W re 0.
Record std_complex := SC { sc_re : R; sc_im : R }.
(** hpp:61-62 *)
Definition w_of_std (z : std_complex) : wcomplex := W (sc_re z) (sc_im z).
(** hpp:90-101, 303-324: conversions *)
Definition to_std (z : wcomplex) : std_complex := SC (a_ z) (b_ z).
Definition convert_to_double (z : wcomplex) : R := a_ z.

(** hpp:107-117 *)
Definition w_add (z w : wcomplex) : wcomplex :=
  let a := a_ z in let b := b_ z in let c := a_ w in let d := b_ w in W (a + c) (b + d).
(** hpp:119-129 *)
Definition w_add_std (z : wcomplex) (w : std_complex) : wcomplex :=
  let a := a_ z in let b := b_ z in let c := sc_re w in let d := sc_im w in W (a + c) (b + d).
(** hpp:134-144 *)
Definition w_mul (z w : wcomplex) : wcomplex :=
  let a := a_ z in let b := b_ z in let c := a_ w in let d := b_ w in W (a * c - b * d) (a * d + b * c).
(** hpp:146-162 *)
Definition w_mul_std (z : wcomplex) (w : std_complex) : wcomplex :=
  let a := a_ z in let b := b_ z in let c := sc_re w in let d := sc_im w in W (a * c - b * d) (a * d + b * c).
Definition std_mul_w (z : std_complex) (w : wcomplex) : wcomplex := w_mul_std w z.
(** hpp:164-190 *)
Definition w_mul_real (z : wcomplex) (w : R) : wcomplex := W (a_ z * w) (b_ z * w).
Definition real_mul_w (z : R) (w : wcomplex) : wcomplex := w_mul_real w z.
(** hpp:67-71 *)
Definition w_mul_assign_real (z : wcomplex) (re : R) : wcomplex := W (a_ z * re) (b_ z * re).
(** hpp:73-88 *)
Definition w_mul_assign_std (z : wcomplex) (w : std_complex) : wcomplex := w_mul_std z w.
Definition w_add_assign_std (z : wcomplex) (w : std_complex) : wcomplex := w_add_std z w.
Definition w_add_assign (z w : wcomplex) : wcomplex := w_add z w.
(** hpp:195-205 *)
Definition w_sub (z w : wcomplex) : wcomplex :=
  let a := a_ z in let b := b_ z in let c := a_ w in let d := b_ w in W (a - c) (b - d).
(** hpp:210-221 *)
Definition w_div (z w : wcomplex) : wcomplex :=
  let a := a_ z in let b := b_ z in let c := a_ w in let d := b_ w in
  let coeff := 1 / (c * c + d * d) in W ((a * c + b * d) * coeff) ((- a * d + b * c) * coeff).
(** hpp:223-234 *)
Definition w_div_std (z : wcomplex) (w : std_complex) : wcomplex :=
  let a := a_ z in let b := b_ z in let c := sc_re w in let d := sc_im w in
  let coeff := 1 / (c * c + d * d) in W ((a * c + b * d) * coeff) ((- a * d + b * c) * coeff).
(** hpp:236-240 *)
Definition w_div_real (z : wcomplex) (w : R) : wcomplex := W (a_ z / w) (b_ z / w).
(** hpp:242-246: the imaginary part of z is compared with itself *)
Definition Reqb (x y : R) : bool := if Req_EM_T x y then true else false.
Definition w_eq (z w : wcomplex) : bool := Reqb (a_ z) (a_ w) && Reqb (b_ z) (b_ z).
(** hpp:280-283 *)
Definition myabs (x : wcomplex) : R := sqrt (a_ x * a_ x + b_ x * b_ x).
