(** * SanityCheck: the check of the configuration in a debug build

    Model of MonteCarloConfiguration::sanity_check (src/mc_config.hpp:116-170), called by HybridizationSimulation::sanity_check
    (src/impurity.ipp:855-861) and src/moves/moves.ipp:90, 808, 890, compiled without NDEBUG.
    - Numbers are exact.  An assertion that fails ends the run: [SAssert] with the number of the assertion.
    - [SFail]: an exception or undefined behaviour in the determinant object, in the window or in compute_permutation_sign.
    - The first assertion (135) repeats the test before it and is left out; check_nan is left out. *)
From Coq Require Import ZArith List Bool.
From mathcomp Require Import all_ssreflect all_algebra.
From Verif Require Import OpContainer CombSort PermSign Updater Dist Proposal EigenBasis FastUpdate DetMatrix DetPartitioned
  HybDet GlobalUpdate Window LazyTrace T_WindowTrace T_LazyTrace Assembly.
Import Order.Theory GRing.Theory Num.Theory.
Set Implicit Arguments.
Unset Strict Implicit.
Unset Printing Implicit Defensive.
Local Close Scope Z_scope.
Local Open Scope nat_scope.
Delimit Scope Z_scope with coqZ.
Local Open Scope ring_scope.

Section Sanity.
Variable K : numFieldType.
Variables (W : Type) (w_ops : W -> seq psi).
Variable F : psi -> psi -> K.
Variable luv : forall n, 'M[K]_n -> seq K.
Variables (Ket Bra : Type).
Variables (ket_invalid : Ket -> bool) (bra_invalid : Bra -> bool) (ket_nil : Ket) (bra_nil : Bra).
Variables (apply_ket : optype -> nat -> Ket -> Ket) (apply_bra : optype -> nat -> Bra -> Bra).
Variables (prop_ket : Z -> Ket -> Ket) (prop_bra : Z -> Bra -> Bra).
Variables (normalize_ket : Ket -> Ket) (normalize_bra : Bra -> Bra).
Variables (norm_ket : Ket -> K) (norm_bra : Bra -> K).
Variables (sec_ket : Ket -> nat) (sec_bra : Bra -> nat).
Variable product : Bra -> Ket -> K.
Variable tau : nat -> nat -> Z.
Variable cut : K.
Variables (min_dim : Ket -> nat) (dst : optype -> nat -> nat -> option nat) (dim_sector : nat -> nat) (cexp : nat -> Z -> K).
Variable eps : K.
Variable order : seq K -> seq nat.
(** 1E-4 *)
Variable tol : K.

Notation sw := (sw K Ket Bra).
Notation config := (config K W (ms K)).
Notation setw := (set_window_size ket_invalid bra_invalid ket_nil bra_nil apply_ket apply_bra prop_ket prop_bra
  normalize_ket normalize_bra norm_ket norm_bra tau cut).
Notation restorew := (restore_state ket_invalid bra_invalid ket_nil bra_nil apply_ket apply_bra prop_ket prop_bra
  normalize_ket normalize_bra norm_ket norm_bra tau cut).
Notation lazy_at := (lazy_at ket_invalid bra_invalid apply_ket prop_ket normalize_ket sec_ket sec_bra product tau
  min_dim dst dim_sector cexp eps order).

Inductive sres := SOk of config & sw | SThrow | SAssert of nat | SFail.

(** 141-144: each round of the loop overwrites det_rat.  None: det_old is shorter than det_new *)
Definition det_ratio (det_old det_new : seq K) : option K :=
  if (size det_old < size det_new)%N then None else Some (foldl (fun _ p => p.1 / p.2) 1 (zip det_old det_new)).
(** 162-166 *)
Definition sign_from (det_new : seq K) (trace_recomputed : K) (perm_sign2 : bool) : K :=
  foldl (fun s x => s * mysign K x) 1 det_new * mysign K trace_recomputed * sgK K perm_sign2.
(** 148 *)
Definition check_window (s : sw) : nat := maxn (nwin s) 10.

(** 118-170 *)
Definition sanity_check (mc : config) (s : sw) : sres :=
  let: Conf ops m worm tr sg ps := mc in
  let worm_l := worm_ops W w_ops worm in
  if insert_all (ms_cd m ++ ms_c m ++ worm_l) != ops then SThrow
  else if m is Some M then
    if rebuild_inverse_matrix F M is POk _ M2 then
      if det_ratio (pm_det_vec luv M) (pm_det_vec luv M2) is Some det_rat then
        if ~~ (`|det_rat - 1| < tol) then SAssert 1
        else if setw (check_window s) ops 0 (Some ITIME_LEFT) s is WOk s1 then
          let trace_recomputed := (lazy_at s1 ops 0).2 in
          if restorew ops (get_state s) s1 is WOk s2 then
            if ~~ (`|trace_recomputed - tr| < tol * `|tr|) then SAssert 2
            else if compute_permutation_sign_impl (pm_cd_order M2) (pm_c_order M2) worm_l is Some perm_sign2 then
              if perm_sign2 != ps then SAssert 3
              else if ~~ (`|sign_from (pm_det_vec luv M2) trace_recomputed perm_sign2 / sg - 1| < tol) then SAssert 4
              else SOk (Conf K W (ms K) ops (Some M2) worm tr sg ps) s2
            else SFail
          else SFail
        else SFail
      else SFail
    else SFail
  else SFail.
End Sanity.
