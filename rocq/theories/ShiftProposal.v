(** Proposals that move one operator, the worm, or change flavors.

    Modelled code: src/moves/moves.ipp:546-589 (OperatorPairFlavorUpdater), 592-647 and 684-689
    (SingleOperatorShiftUpdater), 933-972 (WormMover), 975-1010 (WormFlavorChanger).

    Times are integers (ticks of an arbitrarily fine lattice); a step size of D ticks means a shift drawn
    uniformly from -D..D.  Proposals are distributions as in Proposal.v; all corrections are 1.  *)
From Coq Require Import ZArith List.
From mathcomp Require Import all_ssreflect all_algebra.
From Verif Require Import OpContainer Select KField Dist Proposal Worm.
Set Implicit Arguments.
Unset Strict Implicit.
Unset Printing Implicit Defensive.
Import GRing.Theory Num.Theory.
Local Close Scope Z_scope.
Local Open Scope nat_scope.
Local Open Scope ring_scope.

Section Shift.
Variable K : realFieldType.

(** (2 * rng() - 1.0) * max_distance *)
Definition shifts (D : nat) : seq Z := [seq Z.sub (Z.of_nat i) (Z.of_nat D) | i <- iota 0 (2 * D + 1)].
Definition outside (lo hi t : Z) : bool := Z.ltb t lo || Z.ltb hi t.

(** moves.ipp:592-647. [ops]: the operators in the window, creation operators first; [blk f]: the flavors of
    the block of f (gen_new_flavor, 684-689); [D f]: max_distance_.  The result is the removed and the added operator. *)
Definition shift_propose (blk : nat -> seq nat) (D : nat -> nat) (lo hi : Z) (ops : seq psi) : dist K (option (psi * psi)) :=
  if ops is [::] then ret K None
  else
    bind (unif K (iota 0 (size ops))) (fun idx =>
    let it := nth psi0 ops idx in
    bind (unif K [:: true; false]) (fun coin =>
    bind (if coin then ret K (p_flavor it) else unif K (blk (p_flavor it))) (fun nf =>
    bind (unif K (shifts (D (p_flavor it)))) (fun d =>
      let nt := Z.add d (ot_time (p_time it)) in
      if outside lo hi nt then ret K None
      else ret K (Some (it, Psi (OT nt 0) (p_type it) nf)))))).

(** moves.ipp:546-589 *)
Definition with_flavor (x : psi) (f : nat) : psi := Psi (p_time x) (p_type x) f.
Definition pair_flavor_propose (F : nat) (cd c : seq psi) : dist K (option (psi * psi)) :=
  if (size cd == 0%N) || (size c == 0%N) then ret K None
  else bind (unif K [:: true; false]) (fun coin =>
    let ops := if coin then cd else c in
    bind (unif K (iota 0 (size ops))) (fun i =>
    bind (unif K (iota 0 F)) (fun f => ret K (Some (nth psi0 ops i, with_flavor (nth psi0 ops i) f))))).

(** moves.ipp:950-953 (rng() < 0.9) *)
Definition coin9 : dist K bool := [:: (9%:R / 10%:R, true); (10%:R^-1, false)].
(** moves.ipp:945-963: [n] tries for a worm with times [ts]; [D] ticks step size; open_random draws from the
    points strictly between the window edges. *)
Definition inner (lo hi : Z) : seq Z := [seq Z.add lo (Z.of_nat i) | i <- iota 1 (Z.to_nat (Z.sub hi lo) - 1)].
Fixpoint mover_try (n D : nat) (lo hi : Z) (ts : seq Z) : dist K (option (seq Z)) :=
  if n is n'.+1 then
    bind (unif K (iota 0 (size ts))) (fun t =>
    if outside lo hi (nth Z0 ts t) then mover_try n' D lo hi ts
    else
      bind coin9 (fun c =>
      bind (if c then bind (unif K (shifts D)) (fun d => ret K (Z.add d (nth Z0 ts t))) else unif K (inner lo hi)) (fun nt =>
        if outside lo hi nt then mover_try n' D lo hi ts
        else ret K (Some (set_nth Z0 ts t nt)))))
  else ret K None.
Definition mover_propose (D : nat) (lo hi : Z) (ts : seq Z) : dist K (option (seq Z)) := mover_try (size ts) D lo hi ts.

(** moves.ipp:975-1010: flavors in order, each redrawn when all its times are in the window *)
Fixpoint change_loop (F : nat) (y : wtype) (lo hi : Z) (w : worm) (fl : seq nat) : dist K worm :=
  if fl is f :: fl' then
    if all (fun t => ~~ outside lo hi (get_time w t)) (time_index y f)
    then bind (unif K (iota 0 F)) (fun v => change_loop F y lo hi (set_flavor w f v) fl')
    else change_loop F y lo hi w fl'
  else ret K w.
Definition change_propose (F : nat) (y : wtype) (lo hi : Z) (w : worm) : dist K (option worm) :=
  bind (change_loop F y lo hi w (iota 0 (n_flavors y))) (fun w' =>
    if worm_eqb y w y w' then ret K None else ret K (Some w')).
End Shift.
