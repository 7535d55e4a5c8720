(** The matrix of hybridization values of one block and its fast updates.

    Modelled code: include/alps/fastupdate/determinant_matrix.hpp (state, getters, compute_determinant) and
    detail/determinant_matrix.ipp, determinant_matrix_add.ipp, determinant_matrix_remove.ipp,
    determinant_matrix_remove_add.ipp, determinant_matrix_replace.ipp (all functions except print_operators).
    The class is instantiated with psi for both kinds of operators (src/mc_config.hpp).

    Simplifications.
    - Scalars are an arbitrary numFieldType, without rounding (see FastUpdate.v).
    - std::map<itime_t,int> is a list of pairs with different keys; only its contents matter, its order is never used.
      std::distance(m.lower_bound(t), m.end()) is the number of keys that are not below t.
    - boost::multi_index_container<psi> is the ordered container of OpContainer.v.
    - The workspace members rem_cols_, rem_rows_ are written before they are read in every call, so they are local.
    - A failed assertion, vector::back of an empty vector, reading past the end of a range: [UB].
      An exception: [Throw], with the state that it leaves behind.
    - sanity_check only asserts and is compiled in only without NDEBUG: not modelled. [my_isnan] is false. *)
From Coq Require Import ZArith List.
From mathcomp Require Import all_ssreflect all_algebra.
From Verif Require Import OpContainer Dist Proposal EigenBasis FastUpdate.
Import Order.Theory GRing.Theory Num.Theory.
Set Implicit Arguments.
Unset Strict Implicit.
Unset Printing Implicit Defensive.
Local Close Scope Z_scope.
Local Open Scope nat_scope.
Local Open Scope ring_scope.

(** ** Maps from times to positions *)
Definition posmap := seq (optime * nat).
Fixpoint pfind (t : optime) (m : posmap) : option nat :=
  if m is (t', i) :: m' then if ot_eqb t' t then Some i else pfind t m' else None.
Definition perase (t : optime) (m : posmap) : posmap := [seq p <- m | ~~ ot_eqb p.1 t].
(** operator[] followed by assignment *)
Definition pset (t : optime) (i : nat) (m : posmap) : posmap := (t, i) :: perase t m.
(** insert: refuses an existing key *)
Definition pinsert (t : optime) (i : nat) (m : posmap) : posmap * bool :=
  if pfind t m is Some _ then (m, false) else ((t, i) :: m, true).
(** distance(lower_bound(t), end()) *)
Definition pge (t : optime) (m : posmap) : nat := count (fun p => ~~ ot_lt p.1 t) m.

(** One kind of operators: the list in matrix order, the ordered set and the positions
    (determinant_matrix.hpp:216-227: cdagg_ops_, cdagg_ops_set_, cdagg_op_pos_ or c_ops_, c_ops_set_, cop_pos_) *)
Record side := Side { s_ops : seq psi; s_set : container; s_pos : posmap }.
Definition side0 := Side [::] [::] [::].

(** the exchange of two positions in a list *)
Definition swapl (a b : nat) (s : seq psi) : seq psi := mkseq (fun i => nth psi0 s (swapn a b i)) (size s).
(** determinant_matrix.ipp:186-200 (swap_cdagg_op) and 207-221 (swap_c_op), without the matrix and the sign *)
Definition swap_side (a b : nat) (s : side) : side :=
  if a == b then s else
  let t1 := p_time (nth psi0 (s_ops s) a) in
  let t2 := p_time (nth psi0 (s_ops s) b) in
  Side (swapl a b (s_ops s)) (s_set s) (pset t2 a (pset t1 b (s_pos s))).
(** determinant_matrix.ipp:244-252 (and 254-261): one operator is appended at [pos]. The number of operators not below
    it, the new state, and whether the key was new *)
Definition push_op (x : psi) (pos : nat) (s : side) : nat * side * bool :=
  let: (m, ok) := pinsert (p_time x) pos (s_pos s) in
  (pge (p_time x) (s_pos s), Side (rcons (s_ops s) x) (cinsert x (s_set s)).1 m, ok).
(** determinant_matrix.ipp:283-294: the last operator is removed *)
Definition pop_op (s : side) : nat * side :=
  let x := last psi0 (s_ops s) in
  (pge (p_time x) (s_pos s), Side (take (size (s_ops s)).-1 (s_ops s)) (cerase x (s_set s)).1 (perase (p_time x) (s_pos s))).

Section DetMatrix.
Variable K : numFieldType.
Notation mat := (mat K).
(** the hybridization function: gf(c, cdagg) *)
Variable F : psi -> psi -> K.
(** contents of uninitialized memory *)
Variable junk : nat -> nat -> K.

(** determinant_matrix.hpp:61-78 *)
Inductive dstate := Waiting | TryAdd | TryRem | TryRemAdd | TryReplaceCdagg | TryReplaceC.
Inductive umode := DoNothing | Add | Rem | RemAdd | ReplaceCdagg | ReplaceC | Invalid.

(** determinant_matrix.hpp:230-240 *)
Record work := Work {
  w_perm_rat : int; w_nop_added : nat; w_impossible : bool; w_det_rat : K;
  w_new_cdagg : psi; w_old_cdagg : psi; w_new_c : psi; w_old_c : psi;
  w_removed : seq (psi * psi);
  w_gnn : mat; w_gnj : mat; w_gjn : mat; w_helper : mat * mat }.
Record dm := DM { d_state : dstate; d_mode : umode; d_inv : mat; d_perm : int; d_cdagg : side; d_c : side; d_work : work }.

Inductive res (A : Type) := Ok of A & dm | Throw of dm | UB.
Arguments Ok {A}.
Arguments Throw {A}.
Arguments UB {A}.

(** determinant_matrix.ipp:12-20. The workspace and update_mode_ are not initialized: they are parameters *)
Definition dm0 (mo : umode) (w : work) : dm := DM Waiting mo (Mat 0 0 junk) 1 side0 side0 w.

(** determinant_matrix.hpp:98 *)
Definition dsize (d : dm) : nat := mr (d_inv d).
(** determinant_matrix.hpp:131-133 *)
Definition compute_determinant (d : dm) : K := (d_perm d)%:~R / \det (toM (dsize d) (dsize d) (d_inv d)).
(** determinant_matrix.hpp:378-380 *)
Definition exist (d : dm) (t : optime) : bool := isSome (pfind t (s_pos (d_c d))) || isSome (pfind t (s_pos (d_cdagg d))).

(** boost::adjacent_find after std::sort: two equal times *)
Definition no_duplicate (ts : seq optime) : bool := uniq ts.
Definition times_of (ops : seq (psi * psi)) : seq optime := flatten [seq [:: p_time p.1; p_time p.2] | p <- ops].

(** determinant_matrix.ipp:53-73 *)
Definition insertion_possible (d : dm) (ops : seq (psi * psi)) : bool :=
  all (fun p => ~~ (exist d (p_time p.1) || exist d (p_time p.2))) ops && no_duplicate (times_of ops).
(** determinant_matrix.ipp:144-177; None: the exception *)
Definition removal_possible (d : dm) (ops : seq (psi * psi)) : option bool :=
  if ~~ all (fun p => exist d (p_time p.1) && exist d (p_time p.2)) ops then None
  else Some (no_duplicate (times_of ops)).
(** determinant_matrix.ipp:83-134; None: the exception *)
Definition removal_insertion_possible (d : dm) (rem add : seq (psi * psi)) : option bool :=
  if ~~ all (fun p => exist d (p_time p.1) && exist d (p_time p.2)) rem then None
  else
    let times_rem := times_of rem in
    Some (all (fun p => (~~ exist d (p_time p.1) || (p_time p.1 \in times_rem)) &&
                        (~~ exist d (p_time p.2) || (p_time p.2 \in times_rem))) add
          && (no_duplicate (times_of add) && no_duplicate times_rem)).

(** determinant_matrix.ipp:186-200 *)
Definition swap_cdagg_op (a b : nat) (d : dm) : dm :=
  if a == b then d else
  DM (d_state d) (d_mode d) (swap_row a b (d_inv d)) (- d_perm d) (swap_side a b (d_cdagg d)) (d_c d) (d_work d).
(** determinant_matrix.ipp:207-221 *)
Definition swap_c_op (a b : nat) (d : dm) : dm :=
  if a == b then d else
  DM (d_state d) (d_mode d) (swap_col a b (d_inv d)) (- d_perm d) (d_cdagg d) (swap_side a b (d_c d)) (d_work d).

Definition sign_of (n : nat) : int := if ~~ odd n then 1 else - 1.

(** determinant_matrix.ipp:233-264. The loop stops at the first exception; the accumulated perm_diff, both sides and
    whether there was no exception *)
Fixpoint add_loop (ops : seq (psi * psi)) (pd : nat) (cd c : side) : nat * side * side * bool :=
  if ops is (x, y) :: ops' then
    let pos := size (s_ops cd) in
    let: (n1, cd', ok1) := push_op x pos cd in
    if ~~ ok1 then ((pd + n1)%N, cd', c, false) else
    let: (n2, c', ok2) := push_op y pos c in
    if ~~ ok2 then ((pd + n1 + n2)%N, cd', c', false) else add_loop ops' (pd + n1 + n2)%N cd' c'
  else (pd, cd, c, true).
(** determinant_matrix.ipp:273-298. The annihilation operator is removed first *)
Fixpoint remove_loop (k pd : nat) (cd c : side) : nat * side * side :=
  if k is k'.+1 then
    let: (n1, c') := pop_op c in
    let: (n2, cd') := pop_op cd in
    remove_loop k' (pd + n1 + n2)%N cd' c'
  else (pd, cd, c).

(** determinant_matrix.ipp:307-323 *)
Definition erase_at (i : nat) (s : side) : side :=
  let x := nth psi0 (s_ops s) i in Side (s_ops s) (cerase x (s_set s)).1 (perase (p_time x) (s_pos s)).
Definition remove_excess (d : dm) : dm :=
  let offset := mr (d_inv d) in
  let nop_rem := (size (s_pos (d_cdagg d)) - offset)%N in
  let cut s := let s' := foldl (fun s iop => erase_at (iop + offset) s) s (iota 0 nop_rem) in
               Side (take offset (s_ops s')) (s_set s') (s_pos s') in
  DM (d_state d) (d_mode d) (d_inv d) (d_perm d) (cut (d_cdagg d)) (cut (d_c d)) (d_work d).

(** determinant_matrix.hpp:361; rows are annihilation operators *)
Definition compute_g (cd c : side) (row col : nat) : K := F (nth psi0 (s_ops c) row) (nth psi0 (s_ops cd) col).
(** determinant_matrix_add.ipp:31-48 and determinant_matrix_remove_add.ipp:73-90 *)
Definition new_elements (nop nadd : nat) (cd c : side) : mat * mat * mat :=
  (Mat nadd nadd (fun i j => compute_g cd c (nop + i) (nop + j)),
   Mat nadd nop (fun i j => compute_g cd c (nop + i) j),
   Mat nop nadd (fun i j => compute_g cd c i (nop + j))).

Definition set_state (st : dstate) (d : dm) : dm :=
  DM st (d_mode d) (d_inv d) (d_perm d) (d_cdagg d) (d_c d) (d_work d).
Definition is_waiting (d : dm) : bool := if d_state d is Waiting then true else false.

(** ** Adding, determinant_matrix_add.ipp:14-51 *)
Definition w_add (rat : int) (g : mat * mat * mat) (w : work) : work :=
  Work rat (w_nop_added w) (w_impossible w) (w_det_rat w) (w_new_cdagg w) (w_old_cdagg w) (w_new_c w) (w_old_c w)
       (w_removed w) g.1.1 g.1.2 g.2 (w_helper w).
Definition try_add (ops : seq (psi * psi)) (d : dm) : res K :=
  if ~~ is_waiting d then Throw d else
  let d := set_state TryAdd d in
  let nop := mr (d_inv d) in
  if ~~ insertion_possible d ops then Ok 0 d else
  let: (pd, cd, c, ok) := add_loop ops 0 (d_cdagg d) (d_c d) in
  if ~~ ok then Throw (DM TryAdd (d_mode d) (d_inv d) (d_perm d) cd c (d_work d)) else
  let rat := sign_of pd in
  let g := new_elements nop (size ops) cd c in
  Ok (rat%:~R * compute_det_ratio_up g.2 g.1.2 g.1.1 (d_inv d))
     (DM TryAdd (d_mode d) (d_inv d) (d_perm d) cd c (w_add rat g (d_work d))).
(** 60-65 *)
Definition perform_add (d : dm) : res unit :=
  if d_state d is TryAdd then
    let w := d_work d in
    Ok tt (DM Waiting (d_mode d) (compute_inverse_matrix_up (w_gjn w) (w_gnj w) (w_gnn w) (d_inv d)).2
              (d_perm d * w_perm_rat w) (d_cdagg d) (d_c d) w)
  else Throw d.
(** 74-78 *)
Definition reject_add (d : dm) : res unit :=
  if d_state d is TryAdd then Ok tt (remove_excess (set_state Waiting d)) else Throw d.

(** ** Removing, determinant_matrix_remove.ipp *)
(** 29-42 and determinant_matrix_remove_add.ipp:36-50: the positions are sorted and exchanged with the last ones;
    None: an operator is missing (the assertion of find_cdagg or find_c) *)
Definition find_all (s : side) (xs : seq psi) : option (seq nat) :=
  foldr (fun x r => obind (fun l => omap (fun i => i :: l) (pfind (p_time x) (s_pos s))) r) (Some [::]) xs.
Definition move_to_end (ops : seq (psi * psi)) (d : dm) : option dm :=
  let nop := mr (d_inv d) in
  let nrem := size ops in
  if find_all (d_cdagg d) (map fst ops) is Some cols then
  if find_all (d_c d) (map snd ops) is Some rows then
    let cols := sort leq cols in
    let rows := sort leq rows in
    Some (foldl (fun d k => swap_c_op (nth 0%N rows (nrem - 1 - k)) (nop - 1 - k)
                              (swap_cdagg_op (nth 0%N cols (nrem - 1 - k)) (nop - 1 - k) d)) d (iota 0 nrem))
  else None else None.
(** determinant_matrix_remove.ipp:44-56, determinant_matrix_remove_add.ipp:52-64 *)
Definition removed_pairs (nop nrem : nat) (d : dm) : seq (psi * psi) :=
  [seq (nth psi0 (s_ops (d_cdagg d)) (nop - 1 - i), nth psi0 (s_ops (d_c d)) (nop - 1 - i)) | i <- iota 0 nrem].
Definition erase_set (xs : seq psi) (s : side) : side :=
  Side (s_ops s) (foldl (fun l x => (cerase x l).1) (s_set s) xs) (s_pos s).
Definition w_rem (removed : seq (psi * psi)) (w : work) : work :=
  Work (w_perm_rat w) (w_nop_added w) (w_impossible w) (w_det_rat w) (w_new_cdagg w) (w_old_cdagg w) (w_new_c w) (w_old_c w)
       removed (w_gnn w) (w_gnj w) (w_gjn w) (w_helper w).
Definition w_rat (rat : int) (w : work) : work :=
  Work rat (w_nop_added w) (w_impossible w) (w_det_rat w) (w_new_cdagg w) (w_old_cdagg w) (w_new_c w) (w_old_c w)
       (w_removed w) (w_gnn w) (w_gnj w) (w_gjn w) (w_helper w).
Definition take_out (nrem : nat) (d : dm) : dm :=
  let r := removed_pairs (mr (d_inv d)) nrem d in
  DM (d_state d) (d_mode d) (d_inv d) (d_perm d) (erase_set (map fst r) (d_cdagg d)) (erase_set (map snd r) (d_c d))
     (w_rem r (d_work d)).

(** determinant_matrix_remove.ipp:14-62; remove_last_operators throws when too many are to be removed *)
Definition try_remove (ops : seq (psi * psi)) (d : dm) : res K :=
  if ~~ is_waiting d then Throw d else
  let d := set_state TryRem d in
  let nrem := size ops in
  match removal_possible d ops with
  | None => Throw d
  | Some false => Ok 0 d
  | Some true =>
    if move_to_end ops d is Some d then
      let d := take_out nrem d in
      if (size (s_ops (d_cdagg d)) < nrem)%N then UB else
      let: (pd, cd, c) := remove_loop nrem 0 (d_cdagg d) (d_c d) in
      let rat := sign_of pd in
      Ok (rat%:~R * compute_det_ratio_down_last nrem (d_inv d))
         (DM TryRem (d_mode d) (d_inv d) (d_perm d) cd c (w_rat rat (d_work d)))
    else UB
  end.
(** 71-79; the exceptions of compute_inverse_matrix_down come after the state was changed *)
Definition perform_remove (d : dm) : res unit :=
  if d_state d is TryRem then
    let p := d_perm d * w_perm_rat (d_work d) in
    if compute_inverse_matrix_down_last (size (w_removed (d_work d))) (d_inv d) is Some g then
      Ok tt (DM Waiting (d_mode d) g p (d_cdagg d) (d_c d) (d_work d))
    else Throw (DM Waiting (d_mode d) (d_inv d) p (d_cdagg d) (d_c d) (d_work d))
  else Throw d.
(** 88-95 *)
Definition reject_remove (d : dm) : res unit :=
  if d_state d is TryRem then
    let: (pd, cd, c, ok) := add_loop (rev (w_removed (d_work d))) 0 (d_cdagg d) (d_c d) in
    let d' := DM Waiting (d_mode d) (d_inv d) (d_perm d) cd c (d_work d) in
    if ok then Ok tt d' else Throw d'
  else Throw d.

(** ** Removing and adding, determinant_matrix_remove_add.ipp:14-97 *)
Definition w_imp (b : bool) (w : work) : work :=
  Work (w_perm_rat w) (w_nop_added w) b (w_det_rat w) (w_new_cdagg w) (w_old_cdagg w) (w_new_c w) (w_old_c w)
       (w_removed w) (w_gnn w) (w_gnj w) (w_gjn w) (w_helper w).
Definition w_rem_add (rat : int) (nadd : nat) (g : mat * mat * mat) (h : mat * mat) (w : work) : work :=
  Work rat nadd (w_impossible w) (w_det_rat w) (w_new_cdagg w) (w_old_cdagg w) (w_new_c w) (w_old_c w)
       (w_removed w) g.1.1 g.1.2 g.2 h.
Definition set_work (w : work) (d : dm) : dm := DM (d_state d) (d_mode d) (d_inv d) (d_perm d) (d_cdagg d) (d_c d) w.
Definition try_remove_add (rem add : seq (psi * psi)) (d : dm) : res K :=
  if ~~ is_waiting d then Throw d else
  let d := set_work (w_imp false (d_work d)) (set_state TryRemAdd d) in
  let nrem := size rem in
  let nadd := size add in
  match removal_insertion_possible d rem add with
  | None => Throw d
  | Some false => Ok 0 (set_work (w_imp true (d_work d)) d)
  | Some true =>
    if (if (0 < nrem)%N then omap (take_out nrem) (move_to_end rem d) else Some d) is Some d then
      if (size (s_ops (d_cdagg d)) < nrem)%N then UB else
      let nun := (mr (d_inv d) - nrem)%N in
      let: (pd1, cd, c) := remove_loop nrem 0 (d_cdagg d) (d_c d) in
      let: (pd2, cd, c, ok) := add_loop add 0 cd c in
      if ~~ ok then Throw (DM TryRemAdd (d_mode d) (d_inv d) (d_perm d) cd c (w_rat (sign_of pd1) (d_work d))) else
      let rat := sign_of pd1 * sign_of pd2 in
      let g := new_elements nun nadd cd c in
      let: (r, h) := replace_det_ratio (d_inv d) g.2 g.1.2 g.1.1 in
      Ok (rat%:~R * r)
         (DM TryRemAdd (d_mode d) (d_inv d) (d_perm d) cd c
             (w_rem_add rat nadd g (odflt (mat0 K, mat0 K) h) (d_work d)))
    else UB
  end.
(** 106-116; the inverse matrix is computed before anything is checked *)
Definition perform_remove_add (d : dm) : res unit :=
  let w := d_work d in
  let g := replace_inverse junk (w_helper w) (w_gjn w) (w_gnj w) (w_gnn w) in
  if d_state d is TryRemAdd then
    if w_impossible w then Ok tt (DM Waiting (d_mode d) g (d_perm d) (d_cdagg d) (d_c d) w)
    else Ok tt (DM Waiting (d_mode d) g (d_perm d * w_perm_rat w) (d_cdagg d) (d_c d) w)
  else Throw (DM (d_state d) (d_mode d) g (d_perm d) (d_cdagg d) (d_c d) w).
(** 125-136 *)
Definition reject_remove_add (d : dm) : res unit :=
  if d_state d is TryRemAdd then
    let w := d_work d in
    if (size (s_ops (d_cdagg d)) < w_nop_added w)%N then UB else
    let: (_, cd, c) := remove_loop (w_nop_added w) 0 (d_cdagg d) (d_c d) in
    let: (_, cd, c, ok) := add_loop (rev (w_removed w)) 0 cd c in
    let d' := DM Waiting (d_mode d) (d_inv d) (d_perm d) cd c w in
    if ok then Ok tt d' else Throw d'
  else Throw d.

(** ** Replacing one operator, determinant_matrix_replace.ipp *)
(** 37-46, 117-126 *)
Definition replace_sign (t_old t_new : optime) (m : posmap) : int :=
  let diff := absdiff (pge t_old m) (pge t_new m) in
  if ot_lt t_old t_new then - sign_of diff else sign_of diff.
Definition w_repl_cdagg (x_old x_new : psi) (g : mat) (rat : int) (det : K) (w : work) : work :=
  Work rat (w_nop_added w) (w_impossible w) det x_new x_old (w_new_c w) (w_old_c w)
       (w_removed w) (w_gnn w) (w_gnj w) g (w_helper w).
Definition w_repl_c (x_old x_new : psi) (g : mat) (rat : int) (det : K) (w : work) : work :=
  Work rat (w_nop_added w) (w_impossible w) det (w_new_cdagg w) (w_old_cdagg w) x_new x_old
       (w_removed w) (w_gnn w) g (w_gjn w) (w_helper w).
(** 12-53 *)
Definition try_replace_cdagg (x_old x_new : psi) (d : dm) : res K :=
  if ~~ is_waiting d then Throw d else
  let d := set_state TryReplaceCdagg d in
  let nop := mr (d_inv d) in
  if pfind (p_time x_old) (s_pos (d_cdagg d)) is Some pos then
    let d := swap_cdagg_op pos (nop - 1) d in
    let g := Mat nop 1 (fun i _ => F (nth psi0 (s_ops (d_c d)) i) x_new) in
    let rat := replace_sign (p_time x_old) (p_time x_new) (s_pos (d_cdagg d)) in
    let det := ratio_replace_last_col (d_inv d) g in
    Ok (rat%:~R * det) (set_work (w_repl_cdagg x_old x_new g rat det (d_work d)) d)
  else UB.
(** determinant_matrix_replace.ipp:61-77, 145-161: what happens to the operators *)
Definition replace_last (x_old x_new : psi) (nop : nat) (s : side) : side :=
  Side (set_nth psi0 (s_ops s) (nop - 1) x_new) (cinsert x_new (cerase x_old (s_set s)).1).1
       (pinsert (p_time x_new) (nop - 1)%N (perase (p_time x_old) (s_pos s))).1.
Definition perform_replace_cdagg (d : dm) : res unit :=
  if d_state d is TryReplaceCdagg then
    let w := d_work d in
    Ok tt (DM Waiting (d_mode d) (inverse_replace_last_col (d_inv d) (w_gjn w) (w_det_rat w)) (d_perm d * w_perm_rat w)
              (replace_last (w_old_cdagg w) (w_new_cdagg w) (mr (d_inv d)) (d_cdagg d)) (d_c d) w)
  else Throw d.
(** 86-90 *)
Definition reject_replace_cdagg (d : dm) : res unit :=
  if d_state d is TryReplaceCdagg then Ok tt (set_state Waiting d) else Throw d.
(** 98-137 *)
Definition try_replace_c (x_old x_new : psi) (d : dm) : res K :=
  if ~~ is_waiting d then Throw d else
  let d := set_state TryReplaceC d in
  let nop := mr (d_inv d) in
  if pfind (p_time x_old) (s_pos (d_c d)) is Some pos then
    let d := swap_c_op pos (nop - 1) d in
    let g := Mat 1 nop (fun _ i => F x_new (nth psi0 (s_ops (d_cdagg d)) i)) in
    let rat := replace_sign (p_time x_old) (p_time x_new) (s_pos (d_c d)) in
    let det := ratio_replace_last_row (d_inv d) g in
    Ok (rat%:~R * det) (set_work (w_repl_c x_old x_new g rat det (d_work d)) d)
  else UB.
Definition perform_replace_c (d : dm) : res unit :=
  if d_state d is TryReplaceC then
    let w := d_work d in
    Ok tt (DM Waiting (d_mode d) (inverse_replace_last_row (d_inv d) (w_gnj w) (w_det_rat w)) (d_perm d * w_perm_rat w)
              (d_cdagg d) (replace_last (w_old_c w) (w_new_c w) (mr (d_inv d)) (d_c d)) w)
  else Throw d.
(** 163-168 *)
Definition reject_replace_c (d : dm) : res unit :=
  if d_state d is TryReplaceC then Ok tt (set_state Waiting d) else Throw d.

(** ** The interface, determinant_matrix.ipp:460-628 *)
(** 460-474: the two ranges are paired up; [None]: reading past the end of the second range *)
Definition to_operator_pairs (cd c : seq psi) : option (seq (psi * psi)) :=
  if (size c < size cd)%N then None else Some (zip cd (take (size cd) c)).
Definition set_mode (mo : umode) (d : dm) : dm := DM (d_state d) mo (d_inv d) (d_perm d) (d_cdagg d) (d_c d) (d_work d).
(** 485-553 *)
Definition try_update (cd_rem c_rem cd_add c_add : seq psi) (d : dm) : res K :=
  let n1 := size cd_add in
  let n2 := size cd_rem in
  let n3 := size c_add in
  let n4 := size c_rem in
  if n1%:Z - n2%:Z != n3%:Z - n4%:Z then Ok 0 (set_mode Invalid d) else
  if [&& n1 == 0%N, n2 == 0%N, n3 == 0%N & n4 == 0%N] then Ok 1 (set_mode DoNothing d) else
  if [&& n1 == 1%N, n2 == 1%N, n3 == 0%N & n4 == 0%N] then
    try_replace_cdagg (head psi0 cd_rem) (head psi0 cd_add) (set_mode ReplaceCdagg d)
  else if [&& n1 == 0%N, n2 == 0%N, n3 == 1%N & n4 == 1%N] then
    try_replace_c (head psi0 c_rem) (head psi0 c_add) (set_mode ReplaceC d)
  else if [&& (0 < n1)%N, n2 == 0%N, (0 < n3)%N & n4 == 0%N] then
    (if to_operator_pairs cd_add c_add is Some add then try_add add (set_mode Add d) else UB)
  else if [&& n1 == 0%N, (0 < n2)%N, n3 == 0%N & (0 < n4)%N] then
    (if to_operator_pairs cd_rem c_rem is Some rem then try_remove rem (set_mode Rem d) else UB)
  else
    (if to_operator_pairs cd_add c_add is Some add then
     if to_operator_pairs cd_rem c_rem is Some rem then try_remove_add rem add (set_mode RemAdd d) else UB else UB).
(** 562-591 *)
Definition perform_update (d : dm) : res unit :=
  match d_mode d with
  | DoNothing | Invalid => Ok tt d
  | ReplaceCdagg => perform_replace_cdagg d
  | ReplaceC => perform_replace_c d
  | Add => perform_add d
  | Rem => perform_remove d
  | RemAdd => perform_remove_add d
  end.
(** 600-628 *)
Definition reject_update (d : dm) : res unit :=
  match d_mode d with
  | DoNothing | Invalid => Ok tt d
  | ReplaceCdagg => reject_replace_cdagg d
  | ReplaceC => reject_replace_c d
  | Add => reject_add d
  | Rem => reject_remove d
  | RemAdd => reject_remove_add d
  end.

(** 384-405; destructive_resize, the elements, invert (resizable_matrix.hpp:278-285) *)
Definition rebuild_inverse_matrix (d : dm) : res unit :=
  if ~~ is_waiting d then Throw d else
  let n := size (s_ops (d_cdagg d)) in
  if mr (d_inv d) != n then UB else
  let g := Mat n n (fun i j => compute_g (d_cdagg d) (d_c d) i j) in
  Ok tt (DM (d_state d) (d_mode d) (if (0 < n)%N then safe_inverse g else g) (d_perm d) (d_cdagg d) (d_c d) (d_work d)).
(** 413-429 *)
Definition compute_G_matrix (d : dm) : res mat :=
  if ~~ is_waiting d then Throw d else
  let n := size (s_ops (d_cdagg d)) in
  if mr (d_inv d) != n then UB else Ok (Mat n n (fun i j => compute_g (d_cdagg d) (d_c d) i j)) d.
End DetMatrix.
