(** Bounds on the contributions to the trace and the early-terminating evaluation.

    Modelled code: src/sliding_window/sliding_window.ipp:247-301 (lazy_eval_trace), 381-445
    (compute_trace_bound), sliding_window.hpp:93-101 (compute_exp).

    Simplifications.
    - Extended-precision scalars are an arbitrary numFieldType without rounding, 1E-15 is [eps].
    - std::sort leaves the order of equal bounds open: [order] is any permutation of the braket indices
      with decreasing bounds; the theorems hold for all of them.
    - Sectors are natural numbers, nirvana is [None] as the result of get_dst_sector_ket. *)
From Coq Require Import ZArith List Bool.
From mathcomp Require Import all_ssreflect all_algebra.
From Verif Require Import OpContainer Window.
Import GRing.Theory Num.Theory.
Set Implicit Arguments.
Unset Strict Implicit.
Unset Printing Implicit Defensive.
Local Close Scope Z_scope.
Local Open Scope nat_scope.
Delimit Scope Z_scope with coqZ.
Local Open Scope ring_scope.

Section Lazy.
Variable K : numFieldType.
Variable eps : K.

Definition asum (s : seq K) : K := foldl (fun a x => a + x) 0 s.  (* std::accumulate *)

(** ipp:281-300: the loop over the sorted indices; [cs] are the values of compute_trace_braket, [bs] is
    trace_bound, which the loop overwrites. *)
Fixpoint lazy_loop (cs : seq K) (cutoff : K) (idx : seq nat) (bs : seq K) (sum : K) : bool * K :=
  if idx is i :: r then
    if nth 0 bs i < eps * `|sum| then (cutoff < `|sum|, sum)
    else
      let t := nth 0 cs i in
      let sum' := sum + t in
      let bs' := set_nth 0 bs i `|t| in
      if asum bs' < cutoff then (false, 0) else lazy_loop cs cutoff r bs' sum'
  else (cutoff < `|sum|, sum).
(** ipp:256-301 *)
Definition lazy_eval_trace (order : seq nat) (bs cs : seq K) (cutoff : K) : bool * K := lazy_loop cs cutoff order bs 0.
End Lazy.

Section Bound.
Variable K : numFieldType.
Variables (Ket Bra : Type).
Variables (ket_invalid : Ket -> bool) (bra_invalid : Bra -> bool).
Variables (sec_ket : Ket -> nat) (sec_bra : Bra -> nat).
Variable min_dim : Ket -> nat.                               (* Braket::min_dim *)
Variable dst : optype -> nat -> nat -> option nat.           (* get_dst_sector_ket *)
Variable dim_sector : nat -> nat.
Variable cexp : nat -> Z -> K.                               (* compute_exp *)

(** ipp:402-429: sector, product of exponentials and smallest dimension after all operators. *)
Fixpoint bound_steps (s : nat) (t : Z) (ops : seq psi) (t_new : Z) (np : K) (d : nat) : option (nat * K * nat) :=
  match ops with
  | [::] => Some (s, np * cexp s (t_new - t)%coqZ, d)
  | x :: r =>
      match dst (p_type x) (p_flavor x) s with
      | None => None
      | Some s' => bound_steps s' (ptau x) r t_new (np * cexp s (ptau x - t)%coqZ) (minn d (dim_sector s'))
      end
  end.
(** ipp:395-438 *)
Definition braket_bound (ops : seq psi) (tr tl : Z) (e : (Bra * K) * (Ket * K)) : K :=
  let: ((b, nb), (k, nk)) := e in
  if ket_invalid k || bra_invalid b then 0
  else match bound_steps (sec_ket k) tr ops tl 1 (min_dim k) with
       | Some (s, np, d) => if s == sec_bra b then np * nb * nk * d%:R else 0
       | None => 0
       end.
End Bound.

(** sliding_window.hpp:93-101. [limit] = log(DBL_MIN)/2, [ex] the exponential, [emin] the lowest energy of a sector. *)
Definition compute_exp (K : numFieldType) (limit : K) (ex : K -> K) (emin : nat -> K) (sector : nat) (tau : K) : K :=
  let prod := - (tau * emin sector) in
  if prod < limit then 0 else ex prod.
