(** * TwoTime: the measurement of two-time correlation functions

    Model of TwoTimeG2Measurement::measure (src/measurement/measurement.ipp:3-115) with measure_impl (118-146) from Measure.v and
    safe_insert, safe_erase (src/operator.hpp:221-275).
    - Times are integers (ticks), numbers are exact; the times drawn by open_random are a list, the flavors drawn are a list.
    - The sliding window is a parameter here: set_window_size(n, ops, 0, ITIME_LEFT), move_window_to_next_position, get_tau_high,
      get_n_window, restore_state and the number returned by lazy_eval_trace(ops, 0, compute_trace_bound(ops)).  T_TwoTime.v
      inserts the window of Window.v.
    - Left out: assertions, the test of the configuration space (12-14), the accumulator (111). *)
From Coq Require Import ZArith.
From mathcomp Require Import all_ssreflect all_algebra zify ssrZ.
From Verif Require Import OpContainer Dist Proposal EigenBasis Legendre Measure.
Import Order.Theory GRing.Theory Num.Theory.
Set Implicit Arguments.
Unset Strict Implicit.
Unset Printing Implicit Defensive.
Local Close Scope Z_scope.
Local Open Scope nat_scope.
Local Open Scope ring_scope.
Delimit Scope Z_scope with coqZ.

Definition mbind (A B : Type) (x : mres A) (f : A -> mres B) : mres B :=
  match x with MOk a => f a | MThrow => MThrow | MUB => MUB end.

(** operator.hpp:260-268, 221-227 *)
Definition safe_insert (x : psi) (ops : container) : mres container := let: (l, b) := cinsert x ops in if b then MOk l else MThrow.
Definition safe_erase (x : psi) (ops : container) : mres container := let: (l, n) := cerase x ops in if n == 1%N then MOk l else MThrow.
(** 270-275, 229-234: a range *)
Fixpoint safe_inserts (l : seq psi) (ops : container) : mres container :=
  match l with [::] => MOk ops | x :: r => mbind (safe_insert x ops) (safe_inserts r) end.
Fixpoint safe_erases (l : seq psi) (ops : container) : mres container :=
  match l with [::] => MOk ops | x :: r => mbind (safe_erase x ops) (safe_erases r) end.

(** std::set<double>::insert *)
Fixpoint zins (x : Z) (l : seq Z) : seq Z :=
  match l with
  | [::] => [:: x]
  | y :: r => if (x <? y)%coqZ then x :: l else if (y <? x)%coqZ then y :: zins x r else l
  end.
(** measurement.ipp:26-39: [n] is num_times, [draws] the values of open_random in the order in which they are drawn; None: there
    are not enough of them *)
Fixpoint gather (n : nat) (draws times dup : seq Z) : option (seq Z) :=
  if (n <= size times)%N then Some times
  else match draws with
       | [::] => None
       | x :: r => if x \in dup then gather n r times dup else gather n r (zins x times) (zins x dup)
       end.
(** measurement.ipp:22-40 *)
Definition new_times (n : nat) (draws : seq Z) (t0 : Z) (operators : container) : option (seq Z) :=
  gather n draws [:: t0] (foldl (fun d x => zins (ot_time (p_time x)) d) [::] operators).

(** operator.hpp: set_time, set_flavor *)
Definition set_time (o : optime) (x : psi) : psi := Psi o (p_type x) (p_flavor x).
Definition set_flavor (x : psi) (f : nat) : psi := Psi (p_time x) (p_type x) f.

Section TwoTime.
Variable K : numFieldType.
Variable tick : K.
Variable beta : Z.
Variable t : transformer K.
Variable St : Type.
Variables (set_window : nat -> container -> St -> mres St) (next : container -> St -> mres St) (tau_high : St -> Z)
  (n_window : St -> nat) (trace_of : container -> St -> K) (restore : container -> St -> St -> mres St).
(** the cutoff 1.0E-30 *)
Variable small : K.
Notation darr := (darr K).

(** 75-77: the loop ends after at most as many moves as there are positions, or never *)
Fixpoint seek (fuel : nat) (x : Z) (ops : container) (s : St) : mres St :=
  if (x <=? tau_high s)%coqZ then MOk s
  else match fuel with 0 => MUB | S f => mbind (next ops s) (seek f x ops) end.

(** 73-95: one time; the window, the operators, the data and the norm *)
Definition state : Type := (St * container * darr * K)%type.
Definition one (trace0 sign : K) (worm : seq psi) (x : Z) (q : state) : mres state :=
  let: (s, ops, data, norm) := q in
  mbind (seek (2 * n_window s) x ops s) (fun s =>
  let w0 := set_time (OT x 1) (nth psi0 worm 0) in
  let w1 := set_time (OT x 0) (nth psi0 worm 1) in
  mbind (safe_insert w0 ops) (fun ops =>
  mbind (safe_insert w1 ops) (fun ops =>
  let r := trace_of ops s in
  mbind (if small * `|trace0| < `|r|
         then mbind (measure_impl tick beta t (w0 :: w1 :: drop 2 worm) (sign * (r / trace0)) data)
                    (fun data => MOk (data, norm + `|r / trace0|))
         else MOk (data, norm)) (fun dn =>
  mbind (safe_erase w0 ops) (fun ops =>
  mbind (safe_erase w1 ops) (fun ops => MOk (s, ops, dn.1, dn.2))))))).
Fixpoint scan (trace0 sign : K) (worm : seq psi) (xs : seq Z) (q : state) : mres state :=
  match xs with [::] => MOk q | x :: r => mbind (one trace0 sign worm x q) (scan trace0 sign worm r) end.
(** 57-101: one of the two sweeps, with the flavors of the worm already set; [n_win] is the size of the window before *)
Definition pass (n n_win : nat) (trace0 sign : K) (xs : seq Z) (worm : seq psi) (q : state) : mres state :=
  let: (s, ops, data, norm) := q in
  mbind (safe_inserts (drop 2 worm) ops) (fun ops =>
  mbind (set_window (maxn n n_win) ops s) (fun s =>
  mbind (scan trace0 sign worm xs (s, ops, data, norm)) (fun q =>
  let: (s, ops, data, norm) := q in
  mbind (safe_erases (drop 2 worm) ops) (fun ops => MOk (s, ops, data, norm))))).
(** 24: num_times *)
Definition num_times (average_pert_order : Z) : nat := Z.to_nat (Z.max 20 average_pert_order).
(** 16-114; [operators], [worm], [trace0] and [sign] are those of mc_config, [flavors] the flavors drawn for the second sweep.
    None: the draws are used up. *)
Definition measure (n : nat) (operators : container) (worm : seq psi) (trace0 sign : K) (draws : seq Z) (flavors : seq nat)
    (s : St) : option (mres (darr * St)) :=
  match safe_erases worm operators with
  | MOk ops =>
      omap (fun xs =>
        mbind (pass n (n_window s) trace0 sign xs worm (s, ops, (fun _ _ => 0), 0)) (fun q =>
        mbind (pass n (n_window s) trace0 sign xs [seq set_flavor p.1 p.2 | p <- zip worm flavors] q) (fun q =>
        let: (s1, _, data, norm) := q in
        mbind (restore operators s s1) (fun s2 => MOk ((fun fs l => data fs l / norm), s2)))))
      (new_times n draws (ot_time (p_time (nth psi0 worm 0))) operators)
  | MThrow => Some MThrow
  | MUB => Some MUB
  end.
End TwoTime.
