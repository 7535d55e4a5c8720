(** The hybridization function: table, interpolation, and reading from input.

    Modelled code: src/mc_config.hpp:13-63 (HybridizationFunction), src/model/model.ipp:232-304
    (read_hybridization_function).

    Simplifications: doubles are rationals without rounding; complex tables are treated component by component;
    the cast to int is the floor (arguments are not negative). Reading past the end of a row is [None]: for most rows the
    code reads the first element of the next row of the multi_array there, for the last row memory outside. *)
From Coq Require Import ZArith QArith Qround Qabs List Bool Lia.
Import ListNotations.
Local Open Scope Q_scope.

(** mc_config.hpp:25-35: F[flavor][flavor2] for n_tau + 1 times *)
Definition is_connected (eps : Q) (row : list Q) : bool := existsb (fun x => negb (Qle_bool (Qabs x) eps)) row.

(** mc_config.hpp:40-53; [row] is F_[c_op.flavor()][cdagger_op.flavor()], [dt] = c_op.time() - cdagger_op.time(). *)
Definition interpolate (row : list Q) (n : Q) : option Q :=
  let n_lower := Z.to_nat (Qfloor n) in
  match nth_error row n_lower, nth_error row (S n_lower) with
  | Some a, Some b => Some (a + (n - inject_Z (Z.of_nat n_lower)) * (b - a))
  | _, _ => None
  end.
Definition hyb_value (beta : Q) (n_tau : nat) (row : list Q) (dt : Q) : option Q :=
  let neg := negb (Qle_bool 0 dt) in
  let t := if neg then dt + beta else dt in
  match interpolate row (t / beta * inject_Z (Z.of_nat n_tau)) with
  | Some v => Some (if neg then - v else v)
  | None => None
  end.

(** ** Reading *)
Section Read.
Variable S : Type.
Variable neg : S -> S.
Variable zero : S.
Definition table := nat -> nat -> nat -> S.
Definition tset (F : table) (i j k : nat) (v : S) : table :=
  fun i' j' k' => if Nat.eqb i' i && Nat.eqb j' j && Nat.eqb k' k then v else F i' j' k'.

(** The index triples in the order of the loops, time outermost. *)
Definition loop3 (np1 n : nat) : list (nat * nat * nat) :=
  flat_map (fun t => flat_map (fun i => map (fun j => (t, i, j)) (seq 0 n)) (seq 0 n)) (seq 0 np1).
(** model.ipp:270-301: one line of the file per triple, (it, i, j, value). [None]: runtime_error.
    At the end of the file the numbers keep the values of the previous line, so an index differs: a missing line is refused.
    A file that ends inside a line (indices present, value missing) is not modelled. *)
Fixpoint read_file (np1 : nat) (trip : list (nat * nat * nat)) (lines : list (nat * nat * nat * S)) (F : table) : option table :=
  match trip with
  | [] => Some F
  | (t, i, j) :: trip' =>
      match lines with
      | [] => None
      | (it, di, dj, v) :: lines' =>
          if Nat.eqb it t && Nat.eqb di i && Nat.eqb dj j
          then read_file np1 trip' lines' (tset F j i (np1 - t - 1) (neg v)) else None
      end
  end.
Definition read_hybridization (np1 n : nat) (lines : list (nat * nat * nat * S)) : option table :=
  read_file np1 (loop3 np1 n) lines (fun _ _ _ => zero).
(** model.ipp:236-258: the values on the command line, consumed in loop order; [None]: wrong number of values *)
Fixpoint read_cmd (np1 : nat) (trip : list (nat * nat * nat)) (vals : list S) (F : table) : table :=
  match trip, vals with
  | (t, f1, f2) :: trip', v :: vals' => read_cmd np1 trip' vals' (tset F f2 f1 (np1 - t - 1) (neg v))
  | _, _ => F
  end.
Definition read_command_line (np1 n : nat) (vals : list S) : option table :=
  if Nat.eqb (length vals) (n * n * np1) then Some (read_cmd np1 (loop3 np1 n) vals (fun _ _ _ => zero)) else None.
End Read.
