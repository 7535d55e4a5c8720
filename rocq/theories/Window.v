(** The sliding window over imaginary time and the trace computed from its cached brakets.

    Modelled code: src/sliding_window/sliding_window.hpp:18-117, sliding_window.ipp:1-232, 304-379, 448-517.

    Simplifications.
    - Times are integers (a common grid). The edge of position p for n windows, BETA*p/(2.0*n)
      (sliding_window.hpp:52), is a function [tau n p] that the theorems only assume to be increasing
      with tau n 0 = 0 and tau n (2n) = BETA.
    - left_states[braket][depth] and norm_left_states are one stack of frames; a frame lists braket and
      norm for every braket index. The code always pushes and pops all brakets together. The head of the
      list is the top of the stack.
    - Kets, bras, their products and norms are parameters; src/model/eigenbasis.ipp is modelled separately.
    - A failed assert, an exception and the use of an uninitialized or missing object are outcomes. *)
From Coq Require Import ZArith List Bool.
From mathcomp Require Import all_ssreflect all_algebra.
From Verif Require Import OpContainer.
Import ListNotations.
Set Implicit Arguments.
Unset Strict Implicit.
Unset Printing Implicit Defensive.
Local Close Scope Z_scope.
Local Open Scope nat_scope.
Delimit Scope Z_scope with coqZ.

(** Results of the window operations. *)
Inductive wres (A : Type) := WOk (a : A) | WThrow | WAssert | WUB.
Arguments WThrow {A}. Arguments WAssert {A}. Arguments WUB {A}.
Definition wbind (A B : Type) (x : wres A) (f : A -> wres B) : wres B :=
  match x with WOk a => f a | WThrow => WThrow | WAssert => WAssert | WUB => WUB end.

(** sliding_window.hpp:10-13 *)
Inductive itime := ITIME_LEFT | ITIME_RIGHT.

(** operators.range(...): a double t is compared as OperatorTime(t,0) (src/operator.hpp:161-196). *)
Definition at_ (t : Z) : optime := OT t 0%coqZ.
Definition rng_co (a b : Z) (x : psi) : bool := ot_le (at_ a) (p_time x) && ot_lt (p_time x) (at_ b). (* a <= _1 < b *)
Definition rng_oc (a b : Z) (x : psi) : bool := ot_lt (at_ a) (p_time x) && ot_le (p_time x) (at_ b). (* a < _1 <= b *)
Definition rng_cc (a b : Z) (x : psi) : bool := ot_le (at_ a) (p_time x) && ot_le (p_time x) (at_ b). (* a <= _1 <= b *)
Definition range (f : psi -> bool) (ops : container) : list psi := List.filter f ops.

Section Window.
Variable K : numFieldType.
Variables (Ket Bra : Type) (outer : list (Bra * Ket)).       (* get_outer_bra, get_outer_ket *)
Variables (ket_invalid : Ket -> bool) (bra_invalid : Bra -> bool) (ket_nil : Ket) (bra_nil : Bra).
Variables (apply_ket : optype -> nat -> Ket -> Ket) (apply_bra : optype -> nat -> Bra -> Bra).
Variables (prop_ket : Z -> Ket -> Ket) (prop_bra : Z -> Bra -> Bra).
Variables (normalize_ket : Ket -> Ket) (normalize_bra : Bra -> Bra).
Variables (norm_ket : Ket -> K) (norm_bra : Bra -> K).       (* compute_spectral_norm *)
Variables (sec_ket : Ket -> nat) (sec_bra : Bra -> nat).
Variable product : Bra -> Ket -> K.
Variable tau : nat -> nat -> Z.
Variable cut : K.                                            (* 1E-100 *)

(** ** Imaginary-time evolution *)
Definition ptau (x : psi) : Z := ot_time (p_time x).

(** sliding_window.ipp:354-377: propagate to the next operator, apply it, ..., propagate to the end. *)
Fixpoint ket_steps (t : Z) (ops : list psi) (t_new : Z) (k : Ket) : Ket :=
  match ops with
  | [] => prop_ket (t_new - t)%coqZ k
  | x :: r => ket_steps (ptau x) r t_new (apply_ket (p_type x) (p_flavor x) (prop_ket (ptau x - t)%coqZ k))
  end.
(** sliding_window.ipp:341-379 *)
Definition evolve_ket (ops : list psi) (t_old t_new : Z) (k : Ket) : Ket :=
  if ket_invalid k then k else normalize_ket (ket_steps t_old ops t_new (normalize_ket k)).

(** sliding_window.ipp:318-336: from the operator with the largest time downwards. *)
Fixpoint bra_steps (t : Z) (ops : list psi) (t_new : Z) (b : Bra) : Bra :=
  match ops with
  | [] => prop_bra (t - t_new)%coqZ b
  | x :: r => bra_steps (ptau x) r t_new (apply_bra (p_type x) (p_flavor x) (prop_bra (t - ptau x)%coqZ b))
  end.
(** sliding_window.ipp:304-338 *)
Definition evolve_bra (ops : list psi) (t_old t_new : Z) (b : Bra) : Bra :=
  if bra_invalid b then b else normalize_bra (bra_steps t_old (rev ops) t_new (normalize_bra b)).

(** ** State *)
Definition kframe := list (Ket * K).
Definition bframe := list (Bra * K).
Record sw := SW { right_states : list kframe; left_states : list bframe;
                  posL : nat; posR : nat; nwin : nat;
                  dirn : option itime }.                     (* None: not initialized *)

(** get_state, sliding_window.hpp:40-45 *)
Definition state_t := (nat * nat * option itime * nat)%type.
Definition get_state (s : sw) : state_t := (posL s, posR s, dirn s, nwin s).

(** The largest norm, starting from -1 (ipp:118-126, 160-168) *)
Definition max_norm (l : list K) : K := fold_left (fun m x => if (m < x)%R then x else m) l (-1)%R.

(** ipp:119-133 *)
Definition push_ket (ops : list psi) (t_old t_new : Z) (f : kframe) : kframe :=
  let g := List.map (fun e => let k := normalize_ket (evolve_ket ops t_old t_new (fst e)) in (k, norm_ket k)) f in
  let m := max_norm (List.map snd g) in
  List.map (fun e => if (snd e < m * cut)%R then (ket_nil, 0%R) else e) g.
(** ipp:161-174 *)
Definition push_bra (ops : list psi) (t_old t_new : Z) (f : bframe) : bframe :=
  let g := List.map (fun e => let b := normalize_bra (evolve_bra ops t_old t_new (fst e)) in (b, norm_bra b)) f in
  let m := max_norm (List.map snd g) in
  List.map (fun e => if (snd e < m * cut)%R then (bra_nil, 0%R) else e) g.

(** pop_back_bra, pop_back_ket (ipp:491-507): resize(size - num); the last element must stay. *)
Definition pop {A} (num : nat) (l : list A) : wres (list A) :=
  if num < length l then WOk (skipn num l) else WUB.

(** ipp:82-100 *)
Definition move_backward_edge (e : itime) (num : nat) (s : sw) : wres sw :=
  match e with
  | ITIME_RIGHT =>
      if posR s < num then WThrow
      else wbind (pop num (right_states s)) (fun r => WOk (SW r (left_states s) (posL s) (posR s - num) (nwin s) (dirn s)))
  | ITIME_LEFT =>
      if 2 * nwin s < posL s + num then WThrow
      else wbind (pop num (left_states s)) (fun l => WOk (SW (right_states s) l (posL s + num) (posR s) (nwin s) (dirn s)))
  end.

(** One turn of the loop ipp:109-137 *)
Definition forward_right1 (ops : container) (s : sw) : wres sw :=
  if 2 * nwin s < posR s + 2 then WAssert
  else match right_states s with
       | [] => WUB
       | f :: _ =>
           let t0 := tau (nwin s) (posR s) in
           let t1 := tau (nwin s) (posR s + 1) in
           WOk (SW (push_ket (range (rng_co t0 t1) ops) t0 t1 f :: right_states s) (left_states s)
                   (posL s) (posR s + 1) (nwin s) (dirn s))
       end.
(** One turn of the loop ipp:147-176 *)
Definition forward_left1 (ops : container) (s : sw) : wres sw :=
  if (posL s < 2) || (2 * nwin s < posL s) then WAssert
  else match left_states s with
       | [] => WUB
       | f :: _ =>
           let t0 := tau (nwin s) (posL s) in
           let t1 := tau (nwin s) (posL s - 1) in
           WOk (SW (right_states s) (push_bra (range (rng_oc t1 t0) ops) t0 t1 f :: left_states s)
                   (posL s - 1) (posR s) (nwin s) (dirn s))
       end.
Fixpoint witer (n : nat) (f : sw -> wres sw) (s : sw) : wres sw :=
  match n with 0 => WOk s | S n' => wbind (f s) (witer n' f) end.
(** ipp:105-138, 144-179 *)
Definition move_forward_right_edge (ops : container) (num : nat) (s : sw) : wres sw := witer num (forward_right1 ops) s.
Definition move_forward_left_edge (ops : container) (num : nat) (s : sw) : wres sw := witer num (forward_left1 ops) s.

(** ipp:183-202 *)
Definition move_right_edge_to (ops : container) (pos : nat) (s : sw) : wres sw :=
  if 2 * nwin s < pos then WAssert
  else if pos < posR s then move_backward_edge ITIME_RIGHT (posR s - pos) s
  else if posR s < pos then move_forward_right_edge ops (pos - posR s) s else WOk s.
Definition move_left_edge_to (ops : container) (pos : nat) (s : sw) : wres sw :=
  if 2 * nwin s < pos then WAssert
  else if pos < posL s then move_forward_left_edge ops (posL s - pos) s
  else if posL s < pos then move_backward_edge ITIME_LEFT (pos - posL s) s else WOk s.

(** ipp:44-50: while the depth exceeds one move the edge back. *)
Definition reset (s : sw) : wres sw :=
  wbind (witer (length (right_states s) - 1) (move_backward_edge ITIME_RIGHT 1) s)
        (fun s1 => witer (length (left_states s1) - 1) (move_backward_edge ITIME_LEFT 1) s1).

(** ipp:38-78 *)
Definition set_window_size (n : nat) (ops : container) (r : nat) (d : option itime) (s : sw) : wres sw :=
  if n == 0 then WAssert
  else
  wbind (reset s) (fun s1 =>
    let s2 := SW (right_states s1) (left_states s1) (2 * n) 0 n (dirn s1) in
    if 2 <= n then
      wbind (witer r (forward_right1 ops) s2) (fun s3 =>
      wbind (witer (2 * n - 2 - r) (forward_left1 ops) s3) (fun s4 =>
      if ~~ (posL s4 == posR s4 + 2) || ~~ (posR s4 == r) then WAssert
      else
        let d' := if posR s4 == 0 then Some ITIME_LEFT
                  else if posR s4 == 2 * n - 2 then Some ITIME_RIGHT else d in
        WOk (SW (right_states s4) (left_states s4) (posL s4) (posR s4) n d')))
    else WOk s2).

(** ipp:12-35. The outer brakets are pushed together with their norms. *)
Definition outer_kets : kframe := List.map (fun e => let k := normalize_ket (snd e) in (k, norm_ket k)) outer.
Definition outer_bras : bframe := List.map (fun e => let b := normalize_bra (fst e) in (b, norm_bra b)) outer.
Definition init_stacks (n : nat) (ops : container) (s : sw) : wres sw :=
  set_window_size n ops 0 (Some ITIME_LEFT) (SW [outer_kets] [outer_bras] (posL s) (posR s) (nwin s) (dirn s)).

(** ipp:476-489 *)
Definition move_window_to (ops : container) (d : itime) (s : sw) : wres sw :=
  match d with
  | ITIME_LEFT => wbind (forward_right1 ops s) (move_backward_edge ITIME_LEFT 1)
  | ITIME_RIGHT => wbind (move_backward_edge ITIME_RIGHT 1 s) (forward_left1 ops)
  end.

Definition set_dir (d : itime) (s : sw) : sw :=
  SW (right_states s) (left_states s) (posL s) (posR s) (nwin s) (Some d).
(** ipp:448-472 *)
Definition move_window_to_next_position (ops : container) (s : sw) : wres sw :=
  if nwin s == 1 then WOk s
  else match dirn s with
  | None => WUB
  | Some ITIME_LEFT =>
      if posL s == 2 * nwin s then move_window_to ops ITIME_RIGHT (set_dir ITIME_RIGHT s)
      else move_window_to ops ITIME_LEFT s
  | Some ITIME_RIGHT =>
      if posR s == 0 then move_window_to ops ITIME_LEFT (set_dir ITIME_LEFT s)
      else move_window_to ops ITIME_RIGHT s
  end.

(** ipp:510-517 *)
Definition restore_state (ops : container) (st : state_t) (s : sw) : wres sw :=
  let: (l, r, d, n) := st in
  wbind (set_window_size n ops r d s) (fun s1 =>
  wbind (move_left_edge_to ops l s1) (fun s2 =>
  if (posR s2 == r) && (posL s2 == l) then WOk s2 else WAssert)).

(** ** Trace *)
Definition top {A} (l : list (list A)) : list A := hd [] l.
(** ipp:207-232; None: no state *)
Definition trace_braket_checked (win : list psi) (tr tl : Z) (e : (Bra * K) * (Ket * K)) : K :=
  let: ((b, _), (k, _)) := e in
  if ket_invalid k || bra_invalid b then 0%R
  else let k' := evolve_ket win tr tl k in
       if sec_bra b == sec_ket k' then product b k' else 0%R.
Definition sumK (l : list K) : K := fold_left (fun a x => (a + x)%R) l 0%R.
Definition compute_trace (ops : container) (s : sw) : K :=
  let tr := tau (nwin s) (posR s) in
  let tl := tau (nwin s) (posL s) in
  sumK (List.map (trace_braket_checked (range (rng_cc tr tl) ops) tr tl) (combine (top (left_states s)) (top (right_states s)))).
End Window.
