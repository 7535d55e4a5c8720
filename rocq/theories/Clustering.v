(** Clusters of connected vertices (simplified Hoshen-Kopelman algorithm).

    Modelled code: src/model/clustering.cpp:4-81, and the same class in
    include/alps/fastupdate/detail/clustering.hpp.

    Simplifications: vectors are lists; [None] is a while loop that does not end within the given number of turns
    (the theorems show that it does). Vertex numbers outside 0..N-1 are undefined behaviour in the code and
    excluded by hypothesis. cluster_belonging_to_ is never read and left out. *)
From mathcomp Require Import all_ssreflect.
Set Implicit Arguments.
Unset Strict Implicit.
Unset Printing Implicit Defensive.

(** clustering.cpp:4-15 *)
Definition cl_init (N : nat) : seq nat := iota 0 N.

(** clustering.cpp:41-45: labels on the way to the fixed point, and the fixed point *)
Fixpoint walk (fuel : nat) (al : seq nat) (c : nat) : option (nat * seq nat) :=
  if fuel is f.+1 then
    if c == nth 0 al c then Some (c, [::])
    else if walk f al (nth 0 al c) is Some (r, vis) then Some (r, c :: vis) else None
  else None.
(** clustering.cpp:33-50 *)
Definition get_true_label (fuel : nat) (al : seq nat) (c : nat) : option (nat * seq nat) :=
  if c == nth 0 al c then Some (c, al)
  else if walk fuel al c is Some (r, vis) then Some (r, foldl (fun a v => set_nth 0 a v r) al vis) else None.

(** clustering.cpp:18-30 *)
Definition connect_vertices (fuel : nat) (al : seq nat) (v1 v2 : nat) : option (seq nat) :=
  if get_true_label fuel al (nth 0 al v1) is Some (c1, al1) then
    if get_true_label fuel al1 (nth 0 al1 v2) is Some (c2, al2) then
      if c1 == c2 then Some al2
      else if c1 < c2 then Some (set_nth 0 al2 c2 c1) else Some (set_nth 0 al2 c1 c2)
    else None
  else None.
Fixpoint connect_all (fuel : nat) (al : seq nat) (es : seq (nat * nat)) : option (seq nat) :=
  if es is (a, b) :: es' then
    if connect_vertices fuel al a b is Some al' then connect_all fuel al' es' else None
  else Some al.

(** clustering.cpp:53-63: [valid] are the labels pushed so far, flag[x] means x is among them *)
Fixpoint fin_loop (fuel : nat) (todo : seq nat) (al valid : seq nat) : option (seq nat * seq nat) :=
  if todo is i :: todo' then
    if get_true_label fuel al i is Some (r, al1) then
      fin_loop fuel todo' (set_nth 0 al1 i r) (if r \in valid then valid else rcons valid r)
    else None
  else Some (al, valid).
(** clustering.cpp:67-77: labels and members. label_map is zero where it is not assigned. *)
Definition label_map (valid : seq nat) (N : nat) : seq nat :=
  foldl (fun m l => set_nth 0 m (nth 0 valid l) l) (nseq N 0) (iota 0 (size valid)).
Definition add_member (ms : seq (seq nat)) (l i : nat) : seq (seq nat) := set_nth [::] ms l (rcons (nth [::] ms l) i).
Definition finalize_labeling (fuel N : nat) (al : seq nat) : option (seq nat * seq (seq nat)) :=
  if fin_loop fuel (iota 0 N) al [::] is Some (al', valid) then
    let lm := label_map valid N in
    let labels := [seq nth 0 lm (nth 0 al' i) | i <- iota 0 N] in
    Some (labels, foldl (fun ms i => add_member ms (nth 0 labels i) i) (nseq (size valid) [::]) (iota 0 N))
  else None.

(** A Clustering object used as intended. *)
Definition clustering (N : nat) (es : seq (nat * nat)) : option (seq nat * seq (seq nat)) :=
  if connect_all N (cl_init N) es is Some al then finalize_labeling N N al else None.
