(** The transformations of global_updates() at a state of the run.

    Modelled code: src/impurity.ipp:637-691 (global_updates: flavor exchanges in a random order, then a shift of all
    operators); src/moves/moves.hpp:22-64, 553-589 (the transformations of operators and worm).

    A worm is the position of its type in worm_types with its times and flavors, as in WormChain.v.

    Simplifications.
    - Times are integers (ticks); the shift random() * BETA is drawn from a finite set of values with equal probabilities.
    - std::random_shuffle is any permutation of the exchanges with equal probabilities.
    - The counters of accepted updates and the sanity checks are left out. *)
From Coq Require Import ZArith List Bool.
From mathcomp Require Import all_ssreflect all_algebra.
From Verif Require Import OpContainer CombSort PermSign Updater Dist Proposal Worm GlobalUpdate Assembly WormChain.
Import GRing.Theory Num.Theory.
Set Implicit Arguments.
Unset Strict Implicit.
Unset Printing Implicit Defensive.
Local Close Scope Z_scope.
Local Open Scope nat_scope.
Local Open Scope ring_scope.

(** What one call of global_update does with an operator and with the worm *)
Definition gtrans := ((psi -> psi) * (wdata -> wdata))%type.
Definition on_worm (f : worm -> worm) (x : wdata) : wdata := let y := f (MkWorm x.2.1 x.2.2) in (x.1, (w_times y, w_flavors y)).

(** impurity.ipp:656-658: ExchangeFlavor, WormExchangeFlavor *)
Definition exchange_all (v : seq nat) : gtrans := (exchange_flavor v, on_worm (worm_exchange v)).
(** impurity.ipp:678-680: OperatorShift, WormShift *)
Definition shift_all (beta s : Z) : gtrans := (operator_shift beta s, on_worm (worm_shift beta s)).

Section Calls.
Variable R : realFieldType.
(** impurity.ipp:671-680; [vals] are the possible shifts *)
Definition shift_call (beta : Z) (vals : seq Z) : dist R gtrans := [seq (p.1, shift_all beta p.2) | p <- unif R vals].

(** impurity.ipp:639-667 as transition probabilities: [P v i j] is the probability that update number [v] leads from configuration
    [i] to [j]; each of the [k] updates is called once *)
Definition in_order (n : nat) (P : nat -> 'M[R]_n) (s : seq nat) : 'M[R]_n := foldr (fun v A => P v *m A) 1%:M s.
Definition random_order (n k : nat) (P : nat -> 'M[R]_n) : 'M[R]_n :=
  (k`!%:R)^-1 *: \sum_(s <- permutations (iota 0 k)) in_order P s.
End Calls.
