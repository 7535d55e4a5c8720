(** Matrices of creation and annihilation operators in the occupation basis.

    Modelled code: src/model/hybfermion.hpp:17-103 (constructor, orbital_mask, create_creation_ops, validate,
    anti_commutator) and src/util.hpp:84-94 (maxAbsCoeff).

    Simplifications: Fock states are natural numbers below 2^orbitals (1 << orbitals is undefined behaviour in the
    code for 31 orbitals and more); matrix elements are exact integers; a sparse matrix is its list of triplets and
    is read through [entry], which adds up repeated positions as setFromTriplets does. *)
From Coq Require Import Arith ZArith List Bool Lia.
Import ListNotations.

Definition triplet : Type := nat * nat * Z.                 (* row, column, value *)
Definition matrix : Type := nat -> nat -> Z.

(** hybfermion.hpp:26 *)
Definition orbital_mask (i : nat) : nat := 2 ^ i.

(** hybfermion.hpp:61-62 *)
Definition perm_sign (n i source : nat) : Z :=
  fold_left (fun s k => if Nat.testbit source k then Z.mul s (-1) else s) (seq (S i) (n - S i)) 1%Z.

(** hybfermion.hpp:56-66; [source & orbital_mask(i)] is the i-th bit *)
Definition c_triplets (n i : nat) : list triplet :=
  flat_map (fun source => if Nat.testbit source i
                          then [(source, Nat.lxor source (orbital_mask i), perm_sign n i source)] else [])
           (seq 0 (2 ^ n)).

(** Eigen setFromTriplets *)
Definition entry (ts : list triplet) : matrix := fun r c =>
  fold_left (fun s t => match t with (r', c', v) => if (r' =? r) && (c' =? c) then Z.add s v else s end) ts 0%Z.

(** hybfermion.hpp:67-70 *)
Definition c_op (n i : nat) : matrix := entry (c_triplets n i).
Definition cdag_op (n i : nat) : matrix := fun r c => c_op n i c r.

(** Sparse matrix arithmetic *)
Definition msum (d : nat) (f : nat -> Z) : Z := fold_left (fun s k => Z.add s (f k)) (seq 0 d) 0%Z.
Definition mmul (d : nat) (a b : matrix) : matrix := fun r c => msum d (fun k => Z.mul (a r k) (b k c)).
(** hybfermion.hpp:95 *)
Definition anti_commutator (d : nat) (a b : matrix) : matrix := fun r c => (mmul d a b r c + mmul d b a r c)%Z.

(** util.hpp:84-94. [count] is never incremented. [None]: no entry, the returned double is uninitialised. *)
Definition maxAbsCoeff (vals : list Z) : option Z :=
  fold_left (fun (m : option Z) v => if 0 =? 0 then Some (Z.abs v)
                                     else match m with Some x => Some (Z.max (Z.abs v) x) | None => Some (Z.abs v) end)
            vals None.
