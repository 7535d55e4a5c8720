(** The proposals of the updaters at a state of the run.

    Modelled code: src/moves/moves.ipp:277-292 and 418-447 (the operators of a block, or of a flavor, inside the window), 556-562 and
    602-613 (all operators inside the window), 84-116 (what update() reads from a proposal);
    include/alps/fastupdate/determinant_matrix_partitioned.hpp:163-182 and determinant_matrix.hpp:103-129
    (get_cdagg_ops_set, get_c_ops_set).

    The random choices are the distributions of Proposal.v, DiagProposal.v and ShiftProposal.v; here they are applied to
    the operators that the determinant object of Assembly.v has in the window.

    Simplifications.
    - Times are drawn from a finite grid in the window, as in Proposal.v.
    - The correction factor is a real number [R]; [inR] converts it to the scalars of the determinant. *)
From Coq Require Import ZArith List Bool.
From mathcomp Require Import all_ssreflect all_algebra.
From Verif Require Import OpContainer CombSort PermSign Updater Dist Proposal DiagProposal ShiftProposal DetMatrix DetPartitioned
  Window Assembly.
Import Order.Theory GRing.Theory Num.Theory.
Set Implicit Arguments.
Unset Strict Implicit.
Unset Printing Implicit Defensive.
Local Close Scope Z_scope.
Local Open Scope nat_scope.
Local Open Scope ring_scope.

Section Ranges.
Variable K : numFieldType.
Implicit Types m : ms K.
(** determinant_matrix_partitioned.hpp:173-182: the operators of block [b] in time order *)
Definition set_cd m (b : nat) : container := if m is Some M then nth [::] [seq s_set (d_cdagg d) | d <- pm_mats M] b else [::].
Definition set_c m (b : nat) : container := if m is Some M then nth [::] [seq s_set (d_c d) | d <- pm_mats M] b else [::].
(** determinant_matrix_partitioned.hpp:163-170: all operators in time order *)
Definition all_cd m : container := if m is Some M then t_all (pm_cd M) else [::].
Definition all_c m : container := if m is Some M then t_all (pm_c M) else [::].

Variables lo hi : Z.
(** moves.ipp:284-292 *)
Definition win_cd m b : seq psi := range (rng_cc lo hi) (set_cd m b).
Definition win_c m b : seq psi := range (rng_cc lo hi) (set_c m b).
(** moves.ipp:422-447; [bl] = block_belonging_to *)
Definition flavor_cd (bl : nat -> nat) m f : seq psi := [seq x <- win_cd m (bl f) | p_flavor x == f].
Definition flavor_c (bl : nat -> nat) m f : seq psi := [seq x <- win_c m (bl f) | p_flavor x == f].
(** moves.ipp:559-560, 605-611 *)
Definition range_cd m : seq psi := range (rng_cc lo hi) (all_cd m).
Definition range_c m : seq psi := range (rng_cc lo hi) (all_c m).
End Ranges.

Section Proposals.
Variables (K : numFieldType) (R : realFieldType) (inR : R -> K) (W : Type).
Implicit Types m : ms K.
Variables (lab : seq nat) (nb : nat).
Variables (lo hi : Z) (grid : seq optime) (L : R).

(** The members of LocalUpdater that update() reads; the worm is left as it is. *)
Definition of_move (o : option (move R)) : option (proposal K W) :=
  omap (fun x => Prop_ K W (HU (m_rem_cd x) (m_rem_c x) (m_add_cd x) (m_add_c x)) None (inR (m_corr x))) o.
(** moves.ipp:571-586, 616-645: one operator is replaced, a creation operator if it is in the first range *)
Definition of_replace (cds : seq psi) (o : option (psi * psi)) : option (proposal K W) :=
  omap (fun x => Prop_ K W (if x.1 \in cds then HU [:: x.1] [::] [:: x.2] [::] else HU [::] [:: x.1] [::] [:: x.2]) None 1) o.

(** moves.ipp:266-405, rank [k] *)
Definition insertion_removal (k : nat) m : dist R (option (proposal K W)) :=
  [seq (p.1, of_move p.2) | p <- propose (size lab) nb (blk lab nb) grid L k (win_cd lo hi m) (win_c lo hi m)].
(** moves.ipp:407-500, rank [k] *)
Definition diagonal (k : nat) m : dist R (option (proposal K W)) :=
  [seq (p.1, of_move p.2) | p <- diag_propose (size lab) grid L k (flavor_cd lo hi (blk lab nb) m) (flavor_c lo hi (blk lab nb) m)].
(** moves.ipp:592-647; [D f] = max_distance_[f] *)
Definition shift (D : nat -> nat) m : dist R (option (proposal K W)) :=
  [seq (p.1, of_replace (range_cd lo hi m) p.2) | p <- shift_propose R (fun f => flavors (size lab) (blk lab nb) (blk lab nb f)) D lo hi
     (range_cd lo hi m ++ range_c lo hi m)].
(** moves.ipp:546-589 *)
Definition pair_flavor m : dist R (option (proposal K W)) :=
  [seq (p.1, of_replace (range_cd lo hi m) p.2) | p <- pair_flavor_propose R (size lab) (range_cd lo hi m) (range_c lo hi m)].
End Proposals.
