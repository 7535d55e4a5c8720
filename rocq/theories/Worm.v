(** Worms: the operators of a worm as a function of its times and flavors.

    Modelled code: src/worm.hpp:89-125, 132-340; src/worm.ipp.
    A worm of a given type is its array of independent times (doubles, here Z as in OpContainer.v)
    and its array of flavors; reading outside the arrays (asserted in the code) gives 0. *)
From Coq Require Import ZArith List.
From mathcomp Require Import all_ssreflect.
From Verif Require Import OpContainer.
Set Implicit Arguments.
Unset Strict Implicit.
Unset Printing Implicit Defensive.
Local Close Scope Z_scope.
Local Open Scope nat_scope.

Lemma Z_eqbP : Equality.axiom Z.eqb.
Proof. by move=> x y; apply: (iffP idP) => [/Z.eqb_eq|/Z.eqb_eq]. Qed.
Canonical Z_eqType := EqType Z (EqMixin Z_eqbP).

(** worm.hpp:204-340 (template parameters NumTimes, Rank, Rank) *)
Inductive wtype := CorrelationWorm of nat | GWorm of nat | EqualTimeGWorm of nat.

Record worm := MkWorm { w_times : seq Z; w_flavors : seq nat }.

(** num_independent_times: worm.hpp:152, 223, 294 *)
Definition n_times (w : wtype) : nat :=
  match w with CorrelationWorm n => n | GWorm r => 2 * r | EqualTimeGWorm r => 1 end.
(** num_independent_flavors, num_operators: worm.hpp:148, 164; 219, 235; 290, 306 *)
Definition n_flavors (w : wtype) : nat :=
  match w with CorrelationWorm n => 2 * n | GWorm r => 2 * r | EqualTimeGWorm r => 2 * r end.

(** get_time, get_flavor *)
Definition get_time (w : worm) i : Z := nth 0%Z (w_times w) i.
Definition get_flavor (w : worm) i : nat := nth 0 (w_flavors w) i.
(** set_time, set_flavor *)
Definition set_time (w : worm) i t : worm := MkWorm (set_nth 0%Z (w_times w) i t) (w_flavors w).
Definition set_flavor (w : worm) i f : worm := MkWorm (w_times w) (set_nth 0 (w_flavors w) i f).

(** get_time_index: worm.hpp:138-142, 208-212, 280-282 *)
Definition time_index (y : wtype) (f : nat) : seq nat :=
  match y with CorrelationWorm _ => [:: f %/ 2] | GWorm _ => [:: f] | EqualTimeGWorm _ => [:: 0] end.

(** get_operators: worm.ipp:3-23, 28-48, 53-79 *)
Definition get_operators (y : wtype) (w : worm) : seq psi :=
  match y with
  | CorrelationWorm n =>
      flatten [seq [:: Psi (OT (get_time w it) 1) CREATION_OP (get_flavor w (2 * it));
                       Psi (OT (get_time w it) 0) ANNIHILATION_OP (get_flavor w (2 * it + 1))] | it <- iota 0 n]
  | GWorm r =>
      flatten [seq [:: Psi (OT (get_time w (2 * it)) 0) ANNIHILATION_OP (get_flavor w (2 * it));
                       Psi (OT (get_time w (2 * it + 1)) 0) CREATION_OP (get_flavor w (2 * it + 1))] | it <- iota 0 r]
  | EqualTimeGWorm r =>
      flatten [seq [:: Psi (OT (get_time w 0) (Z.of_nat (2 * r - 1 - 2 * it))) CREATION_OP (get_flavor w (2 * it));
                       Psi (OT (get_time w 0) (Z.of_nat (2 * r - 1 - 2 * it - 1))) ANNIHILATION_OP (get_flavor w (2 * it + 1))]
               | it <- iota 0 r]
  end.

(** worm.hpp:89-98 *)
Definition is_worm_in_range (y : wtype) (w : worm) (lo hi : Z) : bool :=
  all (fun t => ~~ (Z.ltb (get_time w t) lo || Z.ltb hi (get_time w t))) (iota 0 (n_times y)).

(** worm.hpp:100-109 *)
Definition is_diagonal (y : wtype) (w : worm) : bool :=
  all (fun f => get_flavor w f == get_flavor w 0) (iota 1 (n_flavors y - 1)).

(** worm.hpp:111-125 *)
Definition worm_eqb (y1 : wtype) (w1 : worm) (y2 : wtype) (w2 : worm) : bool :=
  let same_type := match y1, y2 with
    | CorrelationWorm a, CorrelationWorm b => a == b
    | GWorm a, GWorm b => a == b
    | EqualTimeGWorm a, EqualTimeGWorm b => a == b
    | _, _ => false end in
  same_type && all (fun t => Z.eqb (get_time w1 t) (get_time w2 t)) (iota 0 (n_times y1))
    && all (fun f => get_flavor w1 f == get_flavor w2 f) (iota 0 (n_flavors y1)).

Definition wf_worm (y : wtype) (w : worm) : bool :=
  (size (w_times w) == n_times y) && (size (w_flavors w) == n_flavors y).
