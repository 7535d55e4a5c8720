(** Partitioning of the Fock space into sectors.

    Modelled code: src/model/model.ipp:437-464 (merge_according_to_c_or_cdag), 468-506 (split_op_into_sectors,
    destination part), 509-730 (hilbert_space_partioning).

    Simplifications: matrices enter through the positions of their stored entries, in the column-major order in
    which Eigen iterates. The Hamiltonian of a given Coulomb tensor and hopping matrix ([hamiltonian]) is modelled
    over the integers; the rotation of the basis and the threshold 1E-12 on single tensor elements are left out.
    A destination -1 (nirvana) is [None]. Clusterings are those of Clustering.v; the theorems show that the [None]
    of [clustering] (a loop that does not end) does not occur. *)
From Coq Require Import ZArith.
From mathcomp Require Import all_ssreflect.
From Verif Require Import Fermion Clustering.
Set Implicit Arguments.
Unset Strict Implicit.
Unset Printing Implicit Defensive.

Definition pattern : Type := seq (nat * nat).             (* (row, column) *)

(** Stored entries of a sparse matrix, column by column *)
Definition stored (d : nat) (m : nat -> nat -> bool) : pattern :=
  flatten [seq [seq (r, c) | r <- iota 0 d & m r c] | c <- iota 0 d].
Definition c_pattern (n f : nat) : pattern := let m := c_op n f in stored (2 ^ n) (fun r c => ~~ Z.eqb (m r c) 0).
Definition cdag_pattern (n f : nat) : pattern := stored (2 ^ n) (fun r c => ~~ Z.eqb (cdag_op n f r c) 0).

(** A matrix held as a table of its entries *)
Definition tab (d : nat) (m : Fermion.matrix) : Fermion.matrix :=
  let t := [seq [seq m r c | c <- iota 0 d] | r <- iota 0 d] in fun r c => nth 0%Z (nth [::] t r) c.
(** model.ipp:562-589: U d+ d+ d d + t d+ d, pruned. [us] and [ts] list the nonzero elements. *)
Definition hamiltonian (n : nat) (us : seq (nat * nat * nat * nat * Z)) (ts : seq (nat * nat * Z)) : Fermion.matrix :=
  let d := 2 ^ n in
  let c := fun i => tab d (c_op n i) in
  let cdag := fun i => tab d (cdag_op n i) in
  let mul := fun a b => tab d (mmul d a b) in
  let terms := [seq (match u with (i, j, k, l, v) => (v, mul (mul (mul (cdag i) (cdag j)) (c k)) (c l)) end) | u <- us]
            ++ [seq (match t with (i, j, v) => (v, mul (cdag i) (c j)) end) | t <- ts] in
  fun r c => foldl (fun s t => Z.add s (Z.mul t.1 (t.2 r c))) 0%Z terms.
Definition ham_pattern (n : nat) us ts (cutoff : Z) : pattern :=
  let h := hamiltonian n us ts in stored (2 ^ n) (fun r c => Z.ltb cutoff (Z.abs (h r c))).

(** model.ipp:441-451: block_mat(i, j) != 0 *)
Definition block_nonzero (pat : pattern) (labels : seq nat) (i j : nat) : bool :=
  has (fun e => (nth 0 labels e.1 == i) && (nth 0 labels e.2 == j)) pat.
(** model.ipp:454-463: calls of connect_vertices *)
Definition merge_calls (pat : pattern) (labels : seq nat) (nc : nat) : seq (nat * nat) :=
  flatten [seq (let rows := [seq j <- iota 0 nc | block_nonzero pat labels i j] in
                [seq (head 0 rows, j) | j <- behead rows]) | i <- iota 0 nc].

(** model.ipp:592-630 *)
Record sectors := Sectors { num_sectors : nat; sector_of_state : seq nat; index_in_sector : seq nat; sector_members : seq (seq nat) }.
Definition all_merge_calls (n : nat) (labels : seq nat) (nc : nat) : seq (nat * nat) :=
  flatten [seq merge_calls (cdag_pattern n f) labels nc ++ merge_calls (c_pattern n f) labels nc | f <- iota 0 n].
Fixpoint assign (lab1 lab2 : seq nat) (todo : seq nat) (S : sectors) : sectors :=
  if todo is s :: todo' then
    let k := nth 0 lab2 (nth 0 lab1 s) in
    let mem := nth [::] (sector_members S) k in
    assign lab1 lab2 todo' (Sectors (num_sectors S) (rcons (sector_of_state S) k) (rcons (index_in_sector S) (size mem))
                                    (set_nth [::] (sector_members S) k (rcons mem s)))
  else S.
Definition partition (n : nat) (ham : pattern) : option sectors :=
  if clustering (2 ^ n) ham is Some (lab1, mem1) then
    if clustering (size mem1) (all_merge_calls n lab1 (size mem1)) is Some (lab2, mem2) then
      Some (assign lab1 lab2 (iota 0 (2 ^ n)) (Sectors (size mem2) [::] [::] (nseq (size mem2) [::])))
    else None
  else None.

(** model.ipp:484-494: destination sectors, last write wins *)
Definition destinations (S : sectors) (pat : pattern) : seq (option nat) :=
  foldl (fun dst e => set_nth None dst (nth 0 (sector_of_state S) e.2) (Some (nth 0 (sector_of_state S) e.1)))
        (nseq (num_sectors S) None) pat.
(** model.ipp:646-683 *)
Definition sector_connection (n : nat) (S : sectors) (creation : bool) (f : nat) : seq (option nat) :=
  destinations S (if creation then cdag_pattern n f else c_pattern n f).
