(** * Legendre: Legendre polynomials by recursion

    Model of src/legendre.cpp (LegendreTransformer); the table Tnl (cpp:6-14) is in Matsubara.v.  Not modelled:
    the assertions on the range of x (cpp:27, 47-51), which are only compiled in debug builds.  Numbers are exact. *)
From mathcomp Require Import all_ssreflect all_algebra.
Import GRing.Theory.
Set Implicit Arguments.
Unset Strict Implicit.
Unset Printing Implicit Defensive.
Local Open Scope ring_scope.

Section Tables.
Variables (K : numFieldType) (sqrtf : K -> K).
(** cpp:3-22: the members; None: writing sqrt_2l_1[0] of an empty vector is undefined *)
Record transformer := LT { n_legendre : nat; inv_l_ : seq K; sqrt_2l_1 : seq K }.
Definition make_transformer (n : nat) : option transformer :=
  let inv0 := nseq n 0 in                                         (* inv_l_(n_legendre) *)
  let sq0 := nseq n 0 in                                          (* resize *)
  if n == 0%N then None else
  let sq1 := set_nth 0 sq0 0 1 in
  let: (inv, sq) := foldl (fun st l => (set_nth 0 st.1 l (1 / l%:R), set_nth 0 st.2 l (sqrtf (2%:R * l%:R + 1)))) (inv0, sq1) (iota 1 (n - 1)) in
  Some (LT n inv sq).

Variable t : transformer.
(** cpp:24-38; [val] is the caller's vector; None: it is too short (assertion, cpp:26) *)
Definition leg_step (x : K) (val : seq K) (l : nat) : seq K :=
  if l == 0%N then set_nth 0 val l 1
  else if l == 1%N then set_nth 0 val l x
  else set_nth 0 val l (((2 * l - 1)%N%:R * x * nth 0 val (l - 1) - (l - 1)%N%:R * nth 0 val (l - 2)) * nth 0 (inv_l_ t) l).
Definition compute_legendre (x : K) (val : seq K) : option (seq K) :=
  if (size val < n_legendre t)%N then None else Some (foldl (leg_step x) val (iota 0 (n_legendre t))).

(** cpp:44-81; [val] has at least n_legendre rows *)
Definition at2 (val : seq (seq K)) (l ix : nat) : K := nth 0 (nth [::] val l) ix.
Definition put2 (val : seq (seq K)) (l ix : nat) (a : K) : seq (seq K) := set_nth [::] val l (set_nth 0 (nth [::] val l) ix a).
Definition vleg_step (xval : seq K) (val : seq (seq K)) (l : nat) : seq (seq K) :=
  let nx := size xval in
  if l == 0%N then foldl (fun val ix => put2 val l ix 1) val (iota 0 nx)
  else if l == 1%N then foldl (fun val ix => put2 val l ix (nth 0 xval ix)) val (iota 0 nx)
  else
    let inv_l_tmp := nth 0 (inv_l_ t) l in
    foldl (fun val ix => put2 val l ix (((2 * l - 1)%N%:R * nth 0 xval ix * at2 val (l - 1) ix - (l - 1)%N%:R * at2 val (l - 2) ix) * inv_l_tmp))
      val (iota 0 nx).
Definition vcompute_legendre (xval : seq K) (val : seq (seq K)) : option (seq (seq K)) :=
  if (size val < n_legendre t)%N then None else Some (foldl (vleg_step xval) val (iota 0 (n_legendre t))).
End Tables.
