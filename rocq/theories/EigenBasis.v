(** Bras and kets in the eigenbasis of the local Hamiltonian.

    Modelled code: src/model/model.hpp:42-128 (Braket), 439-457 (compute_exp_vector_safe), src/model/eigenbasis.ipp:53-95
    (remove_high_energy_states), 97-114 (min_max_energy_sectors), 117-123 (is_sector_active), 126-235 (build_basis),
    238-281 (build_outer_braket), 299-358 (apply_op_hyb_ket, apply_op_hyb_bra), 361-370 (product), 372-420
    (sector_propagate_ket, sector_propagate_bra), 434-443 (translationally_invariant).

    Simplifications.
    - Matrix elements are an arbitrary numFieldType (real or complex numbers) and energies, times and exponents an
      arbitrary ordered domain, both without rounding, overflow and underflow; [expf] is the exponential.
    - A matrix is its dimensions and a function of its indices; elements outside the dimensions are not used.
    - The eigensolver is not modelled: eigenvalues and eigenvectors of all sectors are parameters.
    - The rounding cutoffs 1E-30 and 60 are the parameters [eps] and [cut60] ([None]: no cutoff).
    - Printing, check_evecs and overflow_prevention (computed, not used) are left out. *)
From Coq Require Import ZArith.
From mathcomp Require Import all_ssreflect all_algebra.
From Verif Require Import OpContainer.
Import Order.Theory GRing.Theory Num.Theory.
Set Implicit Arguments.
Unset Strict Implicit.
Unset Printing Implicit Defensive.
Local Close Scope Z_scope.
Local Open Scope nat_scope.
Local Open Scope ring_scope.
Delimit Scope Z_scope with coqZ.

Section Mat.
Variable K : numFieldType.
(** Eigen dense matrices *)
Record mat := Mat { mr : nat; mc : nat; me : nat -> nat -> K }.
Definition mat0 : mat := Mat 0 0 (fun _ _ => 0).
Definition mmul (a b : mat) : mat := Mat (mr a) (mc b) (fun i j => \sum_(k < mc a) me a i k * me b k j).
Definition mtrace (a : mat) : K := \sum_(i < mr a) me a i i.
Definition madj (cj : K -> K) (a : mat) : mat := Mat (mc a) (mr a) (fun i j => cj (me a j i)).  (* adjoint, cj = conjugation *)
Definition entries (a : mat) : seq K := [seq me a i j | j <- iota 0 (mc a), i <- iota 0 (mr a)].
(** cwiseAbs().maxCoeff() *)
Definition maxabs (a : mat) : K := foldl (fun m x => if m < `|x| then `|x| else m) 0 (entries a).
End Mat.

Section Braket.
Variable K : numFieldType.
Variable eps : K.                                            (* 1E-30 *)

(** model.hpp:42-66; nirvana is [None] *)
Record braket := Braket { sector : option nat; obj : mat K; coeff : K }.
(** model.hpp:68-70 *)
Definition invalid (b : braket) : bool := [|| sector b == None, mr (obj b) == 0%N | mc (obj b) == 0%N].
(** model.hpp:72-75 *)
Definition set_invalid (b : braket) : braket := Braket None (mat0 K) (coeff b).
(** model.hpp:105-124 *)
Definition normalize (b : braket) : braket :=
  if invalid b then b else
  let maxval := maxabs (obj b) in
  if maxval == 0 then set_invalid b else
  let rtmp := 1 / maxval in
  Braket (sector b)
    (Mat (mr (obj b)) (mc (obj b)) (fun i j => if `|me (obj b) i j| < maxval * eps then 0 else me (obj b) i j * rtmp))
    (coeff b * maxval).
(** model.hpp:82-86 *)
Definition swap_obj (b : braket) (o : mat K) : braket := normalize (Braket (sector b) o (coeff b)).
(** model.hpp:100-103 *)
Definition max_norm (b : braket) : K := if invalid b then 0 else coeff b * maxabs (obj b).
(** model.hpp:88-90 *)
Definition min_dim (b : braket) : nat := minn (mr (obj b)) (mc (obj b)).

(** eigenbasis.ipp:361-370. Where the asserted equality of dimensions fails, the model gives 0. *)
Definition product (bra ket : braket) : K :=
  if [|| invalid bra, invalid ket | sector bra != sector ket] then 0
  else if (mc (obj bra) != mr (obj ket)) || (mr (obj bra) != mc (obj ket)) then 0
  else coeff bra * coeff ket * mtrace (mmul (obj bra) (obj ket)).
End Braket.

Section Exp.
Variables (E : realDomainType) (K : numFieldType) (expf : E -> K) (cut60 : option E).
(** model.hpp:439-457. *std::max_element is undefined for an empty vector; sectors in use are not empty. *)
Definition max_elt (a : seq E) : E := foldl (fun m x => if m < x then x else m) (head 0 a) (behead a).
Definition compute_exp_vector_safe (tau : E) (energies : seq E) : K * seq K :=
  let a := [seq - tau * e | e <- energies] in
  let max_val := max_elt a in
  (expf max_val, [seq (if (if cut60 is Some c then x - max_val < - c else false) then 0 else expf (x - max_val)) | x <- a]).
End Exp.

Section Remove.
Variables (E : realDomainType) (K : numFieldType).
(** eigenbasis.ipp:61-86, one sector: arrays of the counted size, filled by a running index *)
Definition rm_step (cutoff : E) (evals : seq E) (evecs : mat K) (st : nat * seq E * mat K) (ie : nat) : nat * seq E * mat K :=
  let: (act, ev, ec) := st in
  if cutoff < nth 0 evals ie then st
  else (act.+1, set_nth 0 ev act (nth 0 evals ie),
        Mat (mr ec) (mc ec) (fun i j => if j == act then me evecs i ie else me ec i j)).
Definition rm_sector (cutoff : E) (evals : seq E) (evecs : mat K) : seq E * mat K :=
  let num_e_active := count (fun e => e <= cutoff) evals in
  if num_e_active == 0%N then ([::], mat0 K) else
  let: (_, ev, ec) := foldl (rm_step cutoff evals evecs)
      (0%N, nseq num_e_active 0, Mat (mr evecs) num_e_active (fun _ _ => 0)) (iota 0 (size evals)) in (ev, ec).
(** eigenbasis.ipp:53-95 *)
Definition remove_high_energy_states (evals : seq (seq E)) (evecs : seq (mat K)) (cutoff : E) : seq (seq E) * seq (mat K) :=
  ([seq (rm_sector cutoff (nth [::] evals s) (nth (mat0 K) evecs s)).1 | s <- iota 0 (size evals)],
   [seq (rm_sector cutoff (nth [::] evals s) (nth (mat0 K) evecs s)).2 | s <- iota 0 (size evals)]).

(** eigenbasis.ipp:97-114: lowest eigenvalue; [big] = DBL_MAX *)
Definition min_of (m : E) (l : seq E) : E := foldl (fun m x => if x < m then x else m) m l.
Definition eigenvalue_min (big : E) (evals : seq (seq E)) : E :=
  foldl (fun m l => if l is x :: l' then (let t := min_of x l' in if t < m then t else m) else m) big evals.
(** eigenbasis.ipp:117-123 *)
Definition is_sector_active (evals : seq (seq E)) (s : option nat) : bool :=
  if s is Some i then size (nth [::] evals i) != 0%N else false.
End Remove.

(** Tables of src/model/model.ipp:646-700 and their restriction, eigenbasis.ipp:173-185 *)
Definition conn_t : Type := optype -> nat -> nat -> option nat.
Definition restrict (E : realDomainType) (evals : seq (seq E)) (conn : conn_t) : conn_t := fun o f s =>
  if is_sector_active evals (conn o f s) then conn o f s else None.

Section Basis.
Variables (E : realDomainType) (K : numFieldType).
Record basis := Basis {
  b_evals : seq (seq E); b_evecs : seq (mat K);
  b_conn : conn_t; b_rev : conn_t;
  b_ops : optype -> nat -> nat -> mat K }.
(** eigenbasis.ipp:126-235. [ops o f s] is creation_operators_hyb(f, s) or annihilation_operators_hyb(f, s). *)
Definition build_basis (cj : K -> K) (big inner_cutoff : E) (evals : seq (seq E)) (evecs : seq (mat K)) (conn rev : conn_t)
    (ops : optype -> nat -> nat -> mat K) : basis :=
  let: (ev, ec) := remove_high_energy_states evals evecs (eigenvalue_min big evals + inner_cutoff) in
  let conn' := restrict ev conn in
  let rev' := restrict ev rev in
  let reference_energy := eigenvalue_min big ev in
  Basis [seq [seq e - reference_energy | e <- l] | l <- ev] ec conn' rev'
    (fun o f s => if conn' o f s is Some d then
        if is_sector_active ev (Some d) && is_sector_active ev (Some s)
        then mmul (mmul (madj cj (nth (mat0 K) ec d)) (ops o f s)) (nth (mat0 K) ec s) else mat0 K
      else mat0 K).

(** eigenbasis.ipp:238-281: outer kets; the bras are their transposes. [emin] is the smallest of min_eigenval_sector. *)
Definition outer_obj (cutoff_outer : E) (evals : seq E) : mat K :=
  let outer := [seq i <- iota 0 (size evals) | nth 0 evals i <= cutoff_outer] in
  Mat (size evals) (size outer) (fun i j => if (j < size outer)%N && (i == nth 0%N outer j) then 1 else 0).
Definition transpose (m : mat K) : mat K := Mat (mc m) (mr m) (fun i j => me m j i).
Definition outer_kets (outer_cutoff emin : E) (evals : seq (seq E)) : seq (braket K) :=
  [seq Braket (Some s) (outer_obj (outer_cutoff + emin) (nth [::] evals s)) 1
   | s <- iota 0 (size evals) & is_sector_active evals (Some s) && has (fun e => e <= outer_cutoff + emin) (nth [::] evals s)].
Definition outer_bras (outer_cutoff emin : E) (evals : seq (seq E)) : seq (braket K) :=
  [seq Braket (sector k) (transpose (obj k)) 1 | k <- outer_kets outer_cutoff emin evals].
(** eigenbasis.ipp:434-443; the comparison of doubles with tolerance 1E-5 is equality of integers *)
Definition translationally_invariant (bras : seq (braket K)) (flavors : nat) : bool :=
  sumn [seq min_dim b | b <- bras] == (2 ^ flavors)%N.

Variables (eps : K) (expf : E -> K) (cut60 : option E) (tick : Z -> E) (B : basis).
(** eigenbasis.ipp:299-327 *)
Definition apply_ket (o : optype) (f : nat) (k : braket K) : braket K :=
  if invalid k then k else
  if sector k is Some s then
    if b_conn B o f s is Some d then
      let old := max_norm k in
      let k1 := swap_obj eps k (mmul (b_ops B o f s) (obj k)) in
      let k2 := Braket (Some d) (obj k1) (coeff k1) in
      if max_norm k2 / old < eps then set_invalid k2 else k2
    else set_invalid k
  else k.
(** eigenbasis.ipp:330-358 *)
Definition apply_bra (o : optype) (f : nat) (b : braket K) : braket K :=
  if invalid b then b else
  if sector b is Some d then
    if b_rev B o f d is Some s then
      let old := max_norm b in
      let b1 := swap_obj eps b (mmul (obj b) (b_ops B o f s)) in
      let b2 := Braket (Some s) (obj b1) (coeff b1) in
      if max_norm b2 / old < eps then set_invalid b2 else b2
    else set_invalid b
  else b.
(** eigenbasis.ipp:372-396 *)
Definition prop_ket (t : Z) (k : braket K) : braket K :=
  if invalid k then k else
  if sector k is Some s then
    let: (c, v) := compute_exp_vector_safe expf cut60 (tick t) (nth [::] (b_evals B) s) in
    Braket (sector k) (Mat (mr (obj k)) (mc (obj k)) (fun i j => me (obj k) i j * nth 0 v i)) (coeff k * c)
  else k.
(** eigenbasis.ipp:399-420 *)
Definition prop_bra (t : Z) (b : braket K) : braket K :=
  if invalid b then b else
  if sector b is Some s then
    let: (c, v) := compute_exp_vector_safe expf cut60 (tick t) (nth [::] (b_evals B) s) in
    Braket (sector b) (Mat (mr (obj b)) (mc (obj b)) (fun i j => me (obj b) i j * nth 0 v j)) (coeff b * c)
  else b.
End Basis.
