(** * EqualTime: products of operators at one time

    Model of src/operator.hpp:318-359 (EqualTimeOperator), src/model/model.ipp:731-748 (apply_op_bra, apply_op_ket) and the
    constructor src/sliding_window/meas_correlation.ipp:3-26, which collects the different operators in std::sets.

    Flavors are natural numbers (the -1 of the default constructor is left out); the stored time is an integer. *)
From Coq Require Import ZArith.
From mathcomp Require Import all_ssreflect all_algebra.
From Verif Require Import OpContainer EigenBasis.
Set Implicit Arguments.
Unset Strict Implicit.
Unset Printing Implicit Defensive.
Local Close Scope Z_scope.
Local Open Scope nat_scope.

(** operator.hpp:318-344: c^+(f0) c(f1) c^+(f2) c(f3) ...; [et_flavors] has 2 N entries *)
Record eqtop := EqTimeOp { et_flavors : seq nat; et_time : Z }.
Definition flavor (op : eqtop) (idx : nat) : nat := nth 0 (et_flavors op) idx.
Definition wf_op (N : nat) (op : eqtop) : bool := size (et_flavors op) == 2 * N.

(** operator.hpp:348-359: the loop over idigit < N *)
Fixpoint lt_from (op1 op2 : eqtop) (idigits : seq nat) : bool :=
  if idigits is idigit :: r then
    if flavor op1 idigit < flavor op2 idigit then true
    else if flavor op2 idigit < flavor op1 idigit then false
    else lt_from op1 op2 r
  else false.
Definition op_lt (N : nat) (op1 op2 : eqtop) : bool := lt_from op1 op2 (iota 0 N).

(** std::set<EqualTimeOperator<N>>: the elements in increasing order *)
Fixpoint set_insert (N : nat) (x : eqtop) (s : seq eqtop) : seq eqtop :=
  if s is y :: r then
    if op_lt N x y then x :: s
    else if op_lt N y x then y :: set_insert N x r
    else s                                                     (* an equivalent element is there: nothing is inserted *)
  else [:: x].
(** std::distance(s.begin(), s.find(x)); the size of the set if x is not found *)
Fixpoint set_find (N : nat) (x : eqtop) (s : seq eqtop) : nat :=
  if s is y :: r then
    if op_lt N y x then (set_find N x r).+1
    else if op_lt N x y then size s
    else 0
  else 0.
Definition set_of (N : nat) (l : seq eqtop) : seq eqtop := foldl (fun s x => set_insert N x s) [::] l.

(** meas_correlation.ipp:10-25: the unique lists and the positions of each correlator's two operators *)
Record unique_obs := Unique { left_obs : seq eqtop; right_obs : seq eqtop; obs_pos : seq (nat * nat) }.
Definition collect_obs (N : nat) (correlators : seq (eqtop * eqtop)) : unique_obs :=
  let l := set_of N [seq c.1 | c <- correlators] in
  let r := set_of N [seq c.2 | c <- correlators] in
  Unique l r [seq (set_find N c.1 l, set_find N c.2 r) | c <- correlators].

Section Apply.
Variables (E : realDomainType) (K : numFieldType) (eps : K) (B : basis E K).
(** model.ipp:731-738 *)
Definition apply_op_bra (N : nat) (op : eqtop) (bra : braket K) : braket K :=
  foldl (fun b i => apply_bra eps B ANNIHILATION_OP (flavor op (2 * i + 1)) (apply_bra eps B CREATION_OP (flavor op (2 * i)) b))
    bra (iota 0 N).
(** model.ipp:740-748 *)
Definition apply_op_ket (N : nat) (op : eqtop) (ket : braket K) : braket K :=
  foldl (fun k i => apply_ket eps B CREATION_OP (flavor op (2 * N - 2 - 2 * i))
                      (apply_ket eps B ANNIHILATION_OP (flavor op (2 * N - 1 - 2 * i)) k))
    ket (iota 0 N).
End Apply.
