(** Global updates: flavor exchange and shift of all operators.

    Modelled code: src/moves/moves.hpp:22-64 (ExchangeFlavor, OperatorShift), 553-589 (WormExchangeFlavor,
    WormShift); src/moves/moves.ipp:691-895 (compute_det_rat, lu_product, global_update);
    src/impurity_init.ipp:277-345 (swap vectors).

    Simplifications: times are integers (ticks); scalars are an arbitrary numFieldType without rounding; the trace
    (lazy_eval_trace with cutoff 0), Eigen's FullPivLU and the constructor of the determinant object are
    section variables; sanity checks (asserts) and printing are left out. *)
From Coq Require Import ZArith List Sorting.Permutation Sorting.Sorted.
From mathcomp Require Import all_ssreflect all_algebra.
From Verif Require Import OpContainer CombSort PermSign Updater Dist Proposal Worm HybDet.
Set Implicit Arguments.
Unset Strict Implicit.
Unset Printing Implicit Defensive.
Import GRing.Theory Num.Theory.
Local Close Scope Z_scope.
Local Open Scope nat_scope.

(** moves.hpp:25-37 *)
Definition exchange_flavor (v : seq nat) (x : psi) : psi := Psi (p_time x) (p_type x) (nth 0 v (p_flavor x)).

(** moves.hpp:49-54, 577-580: new_t = t + shift; if (new_t > beta) new_t -= beta *)
Definition shift_time (beta s t : Z) : Z := let nt := Z.add t s in if Z.ltb beta nt then Z.sub nt beta else nt.
(** moves.hpp:45-61 *)
Definition operator_shift (beta s : Z) (x : psi) : psi :=
  Psi (OT (shift_time beta s (ot_time (p_time x))) (ot_small (p_time x))) (p_type x) (p_flavor x).

(** moves.hpp:558-564 *)
Definition worm_exchange (v : seq nat) (w : worm) : worm := MkWorm (w_times w) [seq nth 0 v f | f <- w_flavors w].
(** moves.hpp:572-586 *)
Definition worm_shift (beta s : Z) (w : worm) : worm := MkWorm [seq shift_time beta s t | t <- w_times w] (w_flavors w).

(** ** Swap vectors: impurity_init.ipp:277-345 *)
Inductive swap_result := SwapAbort | SwapExit | SwapOk of seq (seq nat).

(** 281-287: the predefined spin flip *)
Definition spin_flip (spins sites : nat) : seq Z :=
  if spins == 2 then flatten [seq [:: Z.of_nat (2 * i + 1); Z.of_nat (2 * i)] | i <- iota 0 sites] else [::].
(** std::set insert; the order of the elements is not used *)
Definition set_add (v : seq nat) (s : seq (seq nat)) : seq (seq nat) := if v \in s then s else rcons s v.
(** 316-319: tmp_vec_rev[tmp_vec[flavor]] = flavor *)
Definition reverse_vec (v : seq nat) : seq nat :=
  foldl (fun r f => seq.set_nth 0 r (nth 0 v f) f) (nseq (size v) 0) (iota 0 (size v)).
(** 307-326: one template after the other *)
Fixpoint swap_loop (F n : nat) (l : seq nat) (us : seq (seq nat)) : option (seq (seq nat)) :=
  if n is n'.+1 then
    let v := take F l in
    if size (undup v) < F then None
    else swap_loop F n' (drop F l) (set_add (reverse_vec v) (set_add v us))
  else Some us.
(** [user]: the integers of "update.swap_vector" *)
Definition swap_vectors (spins sites : nat) (user : seq Z) : swap_result :=
  let F := spins * sites in
  let l := user ++ spin_flip spins sites in
  if has (fun f => Z.leb (Z.of_nat F) f || Z.ltb f Z0) l then SwapAbort
  else if size l %% F != 0 then SwapExit
  else if swap_loop F (size l %/ F) [seq Z.to_nat f | f <- l] [::] is Some us
       then SwapOk [seq u <- us | u != iota 0 F] else SwapExit.

(** ** global_update *)
Local Open Scope ring_scope.
Section Global.
Variable K : numFieldType.
Variables (W : Type) (w_ops : W -> seq psi).
Variables (MS : Type) (m_cd m_c : MS -> seq psi).
Variable m_build : seq (psi * psi) -> MS.         (* DeterminantMatrixPartitioned(gf, first, last) *)
Variable wtrace : container -> K.                 (* lazy_eval_trace(operators_new, 0).second *)
Variables (blk : nat -> nat) (nblk : nat).        (* block_belonging_to, num_blocks *)
(* lu_product of the matrix F(c_ops[row], cdagg_ops[col]): the diagonal of U with the sign of the two permutations *)
Variable lu : seq psi -> seq psi -> seq K.

(** std::sort with AbsGreater *)
Definition abs_sort (s : seq K) : seq K := sort (fun a b => `|b| <= `|a|) s.
Definition maxabs (s : seq K) : K := foldr (fun x m => if m < `|x| then `|x| else m) 0 s.

(** moves.ipp:691-710. The division x / max by max = 0 gives NaN in the code, and 0 here; both are not > eps. *)
Definition kept (eps : K) (new : seq K) (x : K) : bool := eps < `|x / maxabs new|.
Definition det_rat_vec (eps : K) (new old : seq K) : K :=
  foldl (fun r i =>
    let r1 := if (i < size new)%N && kept eps new (nth 0 new i) then r * nth 0 new i else r in
    if (i < size old)%N then r1 / nth 0 old i else r1)
    1 (iota 0 (maxn (size new) (size old))).

(** moves.ipp:728-791: ratio, det_vec_new and det_vec_old afterwards. [eps] = 1e-30. *)
Definition block_vec (cd c : seq psi) : seq K := flatten [seq lu (inb blk b c) (inb blk b cd) | b <- iota 0 nblk].
Definition csign (s : seq psi) : bool := if comb_sort ot_lt shrink13 (map p_time s) is Some (_, b) then b else false.
Definition det_rat (eps : K) (cd c : seq psi) (old : seq K) : K * seq K * seq K :=
  if has (fun b => size (inb blk b cd) != size (inb blk b c)) (iota 0 nblk) then (0, [::], old)
  else
    let vec := block_vec cd c in
    if vec is [::] then (0, [::], old)
    else
      let new := abs_sort vec in
      let s := (-1) ^+ csign (by_blocks blk (iota 0 nblk) cd) * (-1) ^+ csign (by_blocks blk (iota 0 nblk) c) in
      (s * det_rat_vec eps new (abs_sort old), seq.set_nth 0 new 0 (s * nth 0 new 0), abs_sort old).

(** moves.ipp:820-830: operator_container_t::insert of a range *)
Definition insert_all (l : seq psi) : container := foldl (fun acc x => (cinsert x acc).1) [::] l.

(** moves.ipp:793-895. [None]: out-of-bounds read in compute_permutation_sign. *)
Definition global_update (eps : K) (hop : psi -> psi) (wop : W -> W) (r : K)
    (mc : config K W MS) (dv : seq K) : option (config K W MS * seq K * bool) :=
  let m := mstate _ _ _ mc in
  if size (m_cd m) == 0%N then Some (mc, dv, true)
  else
    let cd := map hop (m_cd m) in
    let c := map hop (m_c m) in
    let w := omap wop (Updater.worm _ _ _ mc) in
    let ops := insert_all (cd ++ c ++ worm_ops W w_ops w) in
    let tn := wtrace ops in
    if tn == 0 then Some (mc, dv, false)
    else
      let: (rat, dvn, dvo) := det_rat eps cd c dv in
      let prob := rat * (tn / trace _ _ _ mc) in
      if r < `|prob| then
        let mn := m_build (zip cd c) in
        match compute_permutation_sign_impl (m_cd mn) (m_c mn) (worm_ops W w_ops w) with
        | None => None
        | Some pn => Some (Conf _ _ _ ops mn w tn (sign _ _ _ mc * (sgK K pn / sgK K (perm_sign _ _ _ mc) * prob / `|prob|)) pn, dvn, true)
        end
      else Some (mc, dvo, false).
End Global.
