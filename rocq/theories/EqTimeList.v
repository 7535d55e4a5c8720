(** * EqTimeList: the list of equal-time two-particle functions as it is read

    Model of HybridizationSimulation::read_eq_time_two_particle_greens_meas (src/impurity_init.ipp:354-400), called at
    src/impurity.ipp:160.  Text and streams are those of Input.v.  The parameter with the name of the file and the opening of the file
    are not modelled.  The list is stored in eq_time_two_particle_greens_meas (src/impurity.hpp:253); no other line of the code uses it. *)
From Coq Require Import ZArith.
From mathcomp Require Import all_ssreflect all_algebra.
From Verif Require Import Input.
Set Implicit Arguments.
Unset Strict Implicit.
Unset Printing Implicit Defensive.
Local Delimit Scope Z_scope with coqZ.

Section Model.
Variables (K : numClosedFieldType) (n : nat).
Notation stream := (stream K).
(** impurity_init.ipp:389-397: [k] flavors are still to be read; each is checked before the next one is read *)
Fixpoint read_flavors (A : Type) (k : nat) (s : stream) (acc : seq 'I_n) (cont : seq 'I_n -> stream -> outcome A) : outcome A :=
  if k is k'.+1 then
    let: (f, s) := get_int s None in
    check_flavor f (fun f => read_flavors k' s (rcons acc f) cont)
  else cont acc s.
(** impurity_init.ipp:381-399 *)
Fixpoint read_list_lines (k : nat) (i : Z) (s : stream) (acc : seq (seq 'I_n)) : outcome (seq (seq 'I_n)) :=
  if k is k'.+1 then
    let: (line, s) := get_int s None in
    use line (fun line => if ~~ (line =? i)%coqZ then Throw else
    read_flavors 4 s [::] (fun flavors_array s => read_list_lines k' (i + 1)%coqZ s (rcons acc flavors_array)))
  else Done acc.
(** impurity_init.ipp:371-400.  A negative number is not refused at 374 (the exception is made, not thrown); reserve (380) is
    called with the number as a size_t and throws length_error. *)
Definition read_list (s : stream) : outcome (seq (seq 'I_n)) :=
  let: (num_elem, s) := get_int s None in
  use num_elem (fun num_elem => if (num_elem <? 0)%coqZ then Throw else read_list_lines (Z.to_nat num_elem) 0%coqZ s [::]).
End Model.
