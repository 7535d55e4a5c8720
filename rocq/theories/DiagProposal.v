(** Insertion and removal of pairs of a single flavor.

    Modelled code: src/moves/moves.ipp:407-500 (InsertionRemovalDiagonalUpdater::propose),
    in the setting of Proposal.v (finite uniform time grid). The final sorting of the operator
    lists (lines 476-477, 494-495) and distance_ are left out: they do not change the set of
    operators or the correction. *)
From Coq Require Import ZArith List.
From mathcomp Require Import all_ssreflect all_algebra.
From Verif Require Import OpContainer Select KField Dist Proposal.
Set Implicit Arguments.
Unset Strict Implicit.
Unset Printing Implicit Defensive.
Import GRing.Theory Num.Theory.
Local Close Scope Z_scope.
Local Open Scope nat_scope.
Local Open Scope ring_scope.

Section Diag.
Variable K : realFieldType.
Variables (F : nat) (grid : seq optime) (L : K).

(** moves.ipp:451-464 *)
Definition diag_insertion (k : nat) (f : nat) (cd c : seq psi) : dist K (option (move K)) :=
  bind (draws2 K grid k) (fun o =>
    ret K (Some (Move [::] [::] [seq Psi x.1 CREATION_OP f | x <- o] [seq Psi x.2 ANNIHILATION_OP f | x <- o]
      (L ^+ (2 * k) / ('C(size cd + k, k)%:R * 'C(size c + k, k)%:R * (k`!)%:R))))).

(** moves.ipp:472-499 *)
Definition diag_removal (k : nat) (cd c : seq psi) : dist K (option (move K)) :=
  if (size cd < k)%N || (size c < k)%N then ret K None
  else bind (pickup K (size cd) k) (fun ic => bind (pickup K (size c) k) (fun ia =>
    ret K (Some (Move [seq nth psi0 cd i | i <- ic] [seq nth psi0 c i | i <- ia] [::] [::]
      ('C(size cd, k)%:R * 'C(size c, k)%:R * (k`!)%:R / L ^+ (2 * k)))))).

(** moves.ipp:407-500; [cd f], [c f]: the operators of flavor f in the window (lines 424-447). *)
Definition diag_propose (k : nat) (cd c : nat -> seq psi) : dist K (option (move K)) :=
  bind (unif K (iota 0 F)) (fun f =>
  bind (unif K [:: true; false]) (fun b =>
    if b then diag_insertion k f (cd f) (c f) else diag_removal k (cd f) (c f))).
End Diag.
