(** Measurements that use the sliding window: two-time correlations and static observables.

    Modelled code: src/sliding_window/meas_correlation.ipp:4-104, meas_static_obs.ipp:6-39.

    Simplifications: one pair of observables (the code keeps a list of distinct left and right observables and
    treats each pair the same way); an observable is a pair of maps on bras and kets
    (ModelHolder::apply_op_bra/ket). *)
From Coq Require Import ZArith List Bool.
From mathcomp Require Import all_ssreflect all_algebra.
From Verif Require Import OpContainer Window.
Import ListNotations.
Set Implicit Arguments.
Unset Strict Implicit.
Unset Printing Implicit Defensive.
Local Close Scope Z_scope.
Local Open Scope nat_scope.
Delimit Scope Z_scope with coqZ.

Section MeasWindow.
Variable K : numFieldType.
Variables (Ket Bra : Type).
Variables (ket_invalid : Ket -> bool) (bra_invalid : Bra -> bool).
Variables (apply_ket : optype -> nat -> Ket -> Ket) (apply_bra : optype -> nat -> Bra -> Bra).
Variables (prop_ket : Z -> Ket -> Ket) (prop_bra : Z -> Bra -> Bra).
Variables (normalize_ket : Ket -> Ket) (normalize_bra : Bra -> Bra).
Variable product : Bra -> Ket -> K.
Variable tau : nat -> nat -> Z.

(** meas_correlation.ipp:7-9 *)
Definition num_win (ntau : nat) : nat := 2 * (ntau - 1).
Definition right_edge_pos (ntau : nat) : nat := num_win ntau %/ 2.
Definition left_edge_pos (ntau : nat) : nat := num_win ntau %/ 2 + 2 * (ntau - 1).
(** meas_correlation.ipp:46-49 *)
Definition tau_point (ntau itau : nat) : Z := tau (num_win ntau) (right_edge_pos ntau + 2 * itau).
(** meas_correlation.ipp:56-60 *)
Definition ops_from_right (ntau : nat) (ops : container) (itau : nat) : list psi :=
  range (rng_co (tau_point ntau itau) (tau_point ntau itau.+1)) ops.
Definition ops_from_left (ntau : nat) (ops : container) (itau : nat) : list psi :=
  range (rng_cc (tau_point ntau itau) (tau_point ntau itau.+1)) ops.

(** meas_correlation.ipp:70-80: the ket at tau point itau *)
Fixpoint ket_at (ntau : nat) (ops : container) (obs : Ket -> Ket) (k : Ket) (itau : nat) : Ket :=
  match itau with
  | 0 => obs k
  | S i => evolve_ket ket_invalid apply_ket prop_ket normalize_ket (ops_from_right ntau ops i)
             (tau_point ntau i) (tau_point ntau i.+1) (ket_at ntau ops obs k i)
  end.
(** meas_correlation.ipp:82-93: the bra after [m] steps down from the last tau point *)
Fixpoint bra_down (ntau : nat) (ops : container) (b : Bra) (m : nat) : Bra :=
  match m with
  | 0 => b
  | S m' => let i := ntau - 1 - m in
            evolve_bra bra_invalid apply_bra prop_bra normalize_bra (ops_from_left ntau ops i)
              (tau_point ntau i.+1) (tau_point ntau i) (bra_down ntau ops b m')
  end.
(** meas_correlation.ipp:95-103 *)
Definition corr_braket (ntau : nat) (ops : container) (obsL : Bra -> Bra) (obsR : Ket -> Ket) (itau : nat) (e : (Bra * K) * (Ket * K)) : K :=
  product (obsL (bra_down ntau ops (fst (fst e)) (ntau - 1 - itau))) (ket_at ntau ops obsR (fst (snd e)) itau).
Definition corr_value (ntau : nat) (ops : container) (obsL : Bra -> Bra) (obsR : Ket -> Ket) (itau : nat) (s : sw K Ket Bra) : K :=
  sumK (List.map (corr_braket ntau ops obsL obsR itau) (combine (top (left_states s)) (top (right_states s)))).

(** meas_static_obs.ipp:20-34 *)
Definition static_braket (obs : Ket -> Ket) (e : (Bra * K) * (Ket * K)) : K :=
  if bra_invalid (fst (fst e)) || ket_invalid (fst (snd e)) then 0%R
  else product (fst (fst e)) (obs (fst (snd e))).
Definition static_value (obs : Ket -> Ket) (s : sw K Ket Bra) : K :=
  sumK (List.map (static_braket obs) (combine (top (left_states s)) (top (right_states s)))).
End MeasWindow.
