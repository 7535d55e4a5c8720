(** Norms, dimensions and energies from which the bounds of the trace are made.

    Modelled code: src/util.hpp:153-203 (spectral_norm_diag), src/model/model.hpp:84-96 (compute_spectral_norm), 369-382
    (dim_sector, min_energy), src/model/eigenbasis.ipp:97-114 and 199-206 (min_eigenval_sector),
    src/sliding_window/sliding_window.hpp:93-101 (compute_exp).

    Simplifications.
    - Matrix elements are an arbitrary numFieldType with conjugation [cj], without rounding; NaN does not occur.
    - Eigen::SelfAdjointEigenSolver and std::sqrt are the parameters [esolv] and [sqrtf].
    - The cutoffs 1E-15 and 1E-300 are the parameters [cut15] and [tiny]. The limit of compute_exp is left out; with it the
      bounds are wrong (C24_bound_refuted).
    - min_eigenval_sector of a sector without states is 0 here; the code keeps the value computed before the removal of
      states. It is not used: get_dst_sector_ket never returns such a sector. *)
From Coq Require Import ZArith.
From mathcomp Require Import all_ssreflect all_algebra.
From Verif Require Import OpContainer EigenBasis.
Import Order.Theory GRing.Theory Num.Theory.
Set Implicit Arguments.
Unset Strict Implicit.
Unset Printing Implicit Defensive.
Local Close Scope Z_scope.
Local Open Scope nat_scope.
Local Open Scope ring_scope.
Delimit Scope Z_scope with coqZ.

Section Norm.
Variables (K : numFieldType) (cj : K -> K) (esolv : mat K -> seq K) (sqrtf : K -> K) (cut15 tiny eps : K).
(** util.hpp:173-180, 188-194: small elements are replaced by zero *)
Definition chop (m : mat K) : mat K := Mat (mr m) (mc m) (fun i j => if `|me m i j| < cut15 then 0 else me m i j).
Definition mscale (a : K) (m : mat K) : mat K := Mat (mr m) (mc m) (fun i j => me m i j * a).
(** cwiseAbs().maxCoeff() of a vector *)
Definition vmaxabs (v : seq K) : K := foldl (fun m x => if m < `|x| then `|x| else m) 0 v.
(** util.hpp:153-203 *)
Definition spectral_norm_diag (m : mat K) : K :=
  if (mr m == 0%N) || (mc m == 0%N) then 0 else
  let max_abs := maxabs m in
  if `|max_abs| < tiny then 0 else
  let coeff := 1 / max_abs in
  let t := chop (mscale coeff m) in
  let h := chop (if (mc t < mr t)%N then mmul (madj cj t) t else mmul t (madj cj t)) in
  sqrtf (vmaxabs (esolv h)) / coeff.
(** model.hpp:84-96 *)
Definition compute_spectral_norm (b : braket K) : K :=
  let b := normalize eps b in
  if invalid b then 0 else coeff b * spectral_norm_diag (obj b).
End Norm.

Section Energy.
Variables (E : realDomainType) (K : numFieldType).
(** eigenbasis.ipp:97-114, 199-206: [evals] before the reference energy is subtracted *)
Definition min_eigenval_sector (big : E) (evals : seq (seq E)) : seq E :=
  [seq (if l is x :: l' then min_of x l' - eigenvalue_min big evals else 0) | l <- evals].
(** model.hpp:379-382 *)
Definition min_energy (big inner_cutoff : E) (evals : seq (seq E)) (evecs : seq (mat K)) (s : nat) : E :=
  nth 0 (min_eigenval_sector big (remove_high_energy_states evals evecs (eigenvalue_min big evals + inner_cutoff)).1) s.
(** sliding_window.hpp:93-101 without the limit *)
Definition exp_min (expf : E -> K) (emin : nat -> E) (s : nat) (tau : E) : K := expf (- tau * emin s).
End Energy.
