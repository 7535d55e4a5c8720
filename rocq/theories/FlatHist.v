(** * FlatHist: the flat-histogram (Wang-Landau) weights of the configuration spaces

    Model of src/wang_landau.hpp (class FlatHistogram).  Doubles are real numbers (no rounding, no overflow).
    [has_guess_] is set to true by both constructors and never assigned again, so the tests of it are left out;
    [top_index_], [log_dos_guess_] and [init_log_lambda_] (after construction) are never read; [max_index_] equals
    [max_val_] from the constructor on, but both are kept because both are tested. *)
From Coq Require Import Reals List Lra Lia Bool.
Import ListNotations.
Open Scope R_scope.

(** hpp:21-26, 41-46: the constants *)
Definition criterion : R := 8 / 10.
Definition min_count : R := Rmax 10 (1 / ((1 - criterion) * (1 - criterion))).
Definition init_log_lambda : R := 993251773010283 / 1000000000000000.
Definition min_log_lambda : R := 99995000334 / 1000000000000000.

(** hpp:198-213: the members *)
Record fh := FH { max_val : nat; max_index : nat; target : list R; log_lambda : R; log_f : list R; counter : list R;
  done : bool; num_updates : nat }.

(** A call returns or throws std::runtime_error *)
Inductive fres (A : Type) := FOk (a : A) | FThrow.
Arguments FOk {A}. Arguments FThrow {A}.

(** [v(n, x)] *)
Definition fill (n : nat) (x : R) : list R := repeat x n.

(** hpp:38-57 *)
Definition create (mv : nat) (tf : list R) : fres fh :=
  if Nat.eqb (length tf) (mv + 1) then
    FOk (FH mv mv tf init_log_lambda (fill (mv + 1) 0) (fill (mv + 1) 0) false 0)
  else FThrow.
(** hpp:18-33: the constructor without target fractions *)
Definition create_flat (mv : nat) : fres fh := create mv (fill (mv + 1) 1).

(** hpp:226-236 *)
Definition log_weight (s : fh) (v : nat) : fres R :=
  if Nat.leb v (max_index s) then FOk (- nth v (log_f s) 0) else FThrow.

(** hpp:67-68: log(1E+50) as written in the code *)
Definition max_log_val : R := 1151292546497023 / 10000000000000.
Definition big : R := 10 ^ 50.

Definition Rltb (x y : R) : bool := if Rlt_dec x y then true else false.

(** hpp:62-77 *)
Definition weight_ratio (s : fh) (v_new v_old : nat) : fres R :=
  if Nat.ltb (max_index s) v_new then FOk 0
  else match log_weight s v_new, log_weight s v_old with
       | FOk a, FOk b =>
         let l := a - b in
         if Rltb max_log_val l then FOk big
         else if Rltb l (- max_log_val) then FOk (/ big)
         else FOk (exp l)
       | _, _ => FThrow
       end.

(** std::max_element, std::min_element and std::accumulate (of a non-empty vector) *)
Definition max_element (l : list R) : R := match l with [] => 0 | x :: l' => fold_left Rmax l' x end.
Definition min_element (l : list R) : R := match l with [] => 0 | x :: l' => fold_left Rmin l' x end.
Definition sum (l : list R) : R := fold_left Rplus l 0.

Fixpoint upd (l : list R) (i : nat) (f : R -> R) : list R :=
  match l, i with
  | [], _ => []
  | x :: l', O => f x :: l'
  | x :: l', S i' => x :: upd l' i' f
  end.
Definition set_f (s : fh) (g : list R) := FH (max_val s) (max_index s) (target s) (log_lambda s) g (counter s) (done s) (num_updates s).
Definition set_counter (s : fh) (c : list R) := FH (max_val s) (max_index s) (target s) (log_lambda s) (log_f s) c (done s) (num_updates s).

(** hpp:97-106 with check_range (215-219) *)
Definition measure (s : fh) (v : nat) : fres fh :=
  if done s then FOk s
  else if Nat.ltb (max_val s) v then FThrow
  else if Nat.ltb (max_index s) v then FOk s
  else FOk (set_counter (set_f s (upd (log_f s) v (fun x => x + log_lambda s / nth v (target s) 0)))
                        (upd (counter s) v (fun x => x + 1 / nth v (target s) 0))).

(** hpp:111-118 *)
Definition flat_enough (s : fh) : bool :=
  let mean := sum (counter s) / INR (max_index s + 1) in
  let mn := min_element (counter s) in
  if Rltb mn min_count then false else Rltb criterion (mn / mean).

(** hpp:220-224: for (i = 0; i < max_index_ + 1; ++i) log_f_[i] -= max_log_f *)
Definition rescale_f (s : fh) : fh :=
  let m := max_element (log_f s) in
  set_f s (fold_left (fun g i => upd g i (fun x => x - m)) (seq 0 (max_index s + 1)) (log_f s)).

(** hpp:124-147 *)
Definition update_lambda (s : fh) : fh :=
  if done s then s
  else
    let n := S (num_updates s) in
    let ll := Rmax (- 2 * ln (INR n)) (Rmax (1 / 2 * log_lambda s) min_log_lambda) in
    let s1 := rescale_f (FH (max_val s) (max_index s) (target s) ll (log_f s) (counter s) (done s) n) in
    set_counter s1 (fill (length (counter s1)) 0).

(** hpp:152-161 *)
Definition is_learning_done (s : fh) : bool := done s.
Definition converged (s : fh) : bool := Rltb (log_lambda s) (101 / 100 * min_log_lambda).

(** hpp:166-181: the MPI sum over all processes, then the division by their number; [all] are the states of all
    processes (of equal length), every one of which makes this call *)
Definition addl (a b : list R) : list R := map (fun p => fst p + snd p) (combine a b).
Definition allreduce_sum (all : list (list R)) : list R :=
  match all with [] => [] | x :: r => fold_left addl r x end.
Definition synchronize (all : list fh) (s : fh) : fres fh :=
  if done s then FThrow
  else FOk (set_f s (map (fun x => x / INR (length all)) (allreduce_sum (map log_f all)))).

(** hpp:186-196 *)
Definition finish_learning (s : fh) : fh :=
  let s1 := rescale_f (FH (max_val s) (max_index s) (target s) (log_lambda s) (log_f s) (counter s) true (num_updates s)) in
  set_counter s1 (fill (length (counter s1)) 0).

(** hpp:82-92 *)
Definition get_histogram (s : fh) (v : nat) : fres R :=
  if negb (done s) then FThrow
  else if Rltb (nth v (log_f s) 0) (ln (/ 10 ^ 10)) then FOk 0 else FOk (exp (nth v (log_f s) 0)).

(** src/impurity.ipp:875-880: what adjust_worm_space_weight does to the histogram when the current space has position [v] *)
Definition adjust_hist (s : fh) (v : nat) : fres fh :=
  match measure s v with
  | FOk s1 => FOk (if flat_enough s1 then update_lambda s1 else s1)
  | FThrow => FThrow
  end.
