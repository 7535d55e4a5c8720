(** The matrix of hybridization values of all flavors, kept as one block for each group of connected flavors.

    Modelled code: include/alps/fastupdate/determinant_matrix_partitioned.hpp and
    detail/determinant_matrix_partitioned.ipp (all functions except the asserting sanity_check and
    compute_determinant_as_product, which GlobalUpdate.v models through the LU factors of the blocks).

    Simplifications.
    - The blocks are the objects of DetMatrix.v, with the simplifications listed there.
    - num_flavors_, num_sectors_, sector_members_ and sector_belonging_to_ do not change after init: [lab] lists the sector
      of each flavor. A flavor outside of that list: undefined behaviour ([PUB]).
    - state_ and singular_ are never written after the constructor (waiting, false) and are left out. *)
From Coq Require Import ZArith List.
From mathcomp Require Import all_ssreflect all_algebra.
From Verif Require Import OpContainer Dist Proposal EigenBasis FastUpdate Clustering DetMatrix.
Import Order.Theory GRing.Theory Num.Theory.
Set Implicit Arguments.
Unset Strict Implicit.
Unset Printing Implicit Defensive.
Local Close Scope Z_scope.
Local Open Scope nat_scope.
Local Open Scope ring_scope.

(** determinant_matrix_partitioned.ipp:75-83: the pairs of flavors that are connected; [conn] is p_gf->is_connected *)
Definition connections (nf : nat) (conn : nat -> nat -> bool) : seq (nat * nat) :=
  flatten [seq [seq (f, f2) | f2 <- iota 0 f & conn f f2] | f <- iota 0 nf].
(** 75-90: sector_belonging_to_ and sector_members_ *)
Definition sectors_of (nf : nat) (conn : nat -> nat -> bool) : option (seq nat * seq (seq nat)) :=
  clustering nf (connections nf conn).

(** One kind of operators: determinant_matrix_partitioned.hpp:389-399; cdagg_times_set_, cdagg_times_sectored_set_,
    cdagg_ops_rem_, cdagg_ops_add_ or c_times_set_, c_times_sectored_set_, c_ops_rem_, c_ops_add_ *)
Record tset := TSet { t_all : container; t_sec : seq container; t_rem : seq (seq psi); t_add : seq (seq psi) }.
(** determinant_matrix_partitioned.ipp:107-112: one list for each flavor, one set for each sector *)
Definition tset0 (nf nb : nat) : tset := TSet [::] (nseq nb [::]) (nseq nf [::]) (nseq nf [::]).

(** distance(lower_bound(t), end()) *)
Definition cge (x : psi) (l : container) : nat := count (fun y => ~~ ot_lt (p_time y) (p_time x)) l.
(** determinant_matrix_partitioned.ipp:119-123 and 132-136: the number of operators that the sign is computed from *)
Definition num_ops (x : psi) (b : nat) (T : tset) : nat :=
  (cge x (t_all T) + sumn (map size (drop b.+1 (t_sec T))) + cge x (nth [::] (t_sec T) b))%N.
Definition erase_at (x : psi) (b : nat) (T : tset) : tset :=
  TSet (cerase x (t_all T)).1 (set_nth [::] (t_sec T) b (cerase x (nth [::] (t_sec T) b)).1) (t_rem T) (t_add T).
Definition insert_at (x : psi) (b : nat) (T : tset) : tset :=
  TSet (cinsert x (t_all T)).1 (set_nth [::] (t_sec T) b (cinsert x (nth [::] (t_sec T) b)).1) (t_rem T) (t_add T).
Definition push_rem (x : psi) (b : nat) (T : tset) : tset :=
  TSet (t_all T) (t_sec T) (set_nth [::] (t_rem T) b (rcons (nth [::] (t_rem T) b) x)) (t_add T).
Definition push_add (x : psi) (b : nat) (T : tset) : tset :=
  TSet (t_all T) (t_sec T) (t_rem T) (set_nth [::] (t_add T) b (rcons (nth [::] (t_add T) b) x)).
(** hpp:406-413 *)
Definition clear_tset (nb : nat) (T : tset) : tset :=
  let clear l := foldl (fun l b => set_nth [::] l b [::]) l (iota 0 nb) in
  TSet (t_all T) (t_sec T) (clear (t_rem T)) (clear (t_add T)).

Section Partitioned.
Variable K : numFieldType.
Variable F : psi -> psi -> K.
Variable junk : nat -> nat -> K.
(** sector_belonging_to_ and num_sectors_ *)
Variable lab : seq nat.
Variable nb : nat.
Notation dm := (dm K).
Notation res := (res K).

Definition blk (f : nat) : nat := nth nb lab f.
Definition flavor_known (x : psi) : bool := (p_flavor x < size lab)%N.

(** 165-169 / 172-176: one operator to be removed *)
Definition rem_step (st : int * tset) (x : psi) : int * tset :=
  let b := blk (p_flavor x) in
  let T := push_rem x b st.2 in
  (st.1 * sign_of (num_ops x b T), erase_at x b T).
(** 179-183 / 186-190: one operator to be added *)
Definition add_step (st : int * tset) (x : psi) : int * tset :=
  let b := blk (p_flavor x) in
  let T := push_add x b st.2 in
  (st.1 * sign_of (num_ops x b T), insert_at x b T).

(** hpp:373-399 *)
Record pm := PM { pm_mats : seq dm; pm_cd : tset; pm_c : tset; pm_perm : int; pm_new_perm : int;
                  pm_cd_order : seq psi; pm_c_order : seq psi }.
Inductive pres (A : Type) := POk of A & pm | PThrow of pm | PUB.
Arguments POk {A}.
Arguments PThrow {A}.
Arguments PUB {A}.

(** ipp:12-24, 100-112. new_perm_ and the members of the blocks listed at [dm0] are not initialized: parameters *)
Definition pm0 (np : int) (mo : umode) (w : work K) : pm :=
  PM (nseq nb (dm0 junk mo w)) (tset0 (size lab) nb) (tset0 (size lab) nb) 1 np [::] [::].

(** A loop over the blocks; it ends at the first exception *)
Inductive bres (A : Type) := BOk of seq A & seq dm | BThrow of seq dm | BUB.
Arguments BOk {A}.
Arguments BThrow {A}.
Arguments BUB {A}.
Fixpoint run_blocks A (f : nat -> dm -> res A) (b : nat) (ms : seq dm) : bres A :=
  match ms with
  | [::] => BOk [::] [::]
  | m :: ms' =>
    match f b m with
    | Ok a m1 =>
      match run_blocks f b.+1 ms' with
      | BOk l ms1 => BOk (a :: l) (m1 :: ms1)
      | BThrow ms1 => BThrow (m1 :: ms1)
      | BUB => BUB
      end
    | Throw m1 => BThrow (m1 :: ms')
    | UB => BUB
    end
  end.

(** ipp:151-201 *)
Definition try_update (cd_rem c_rem cd_add c_add : seq psi) (M : pm) : pres K :=
  if ~~ all flavor_known (cd_rem ++ c_rem ++ cd_add ++ c_add) then PUB else
  let: (s1, cd1) := foldl rem_step (1, pm_cd M) cd_rem in
  let: (s2, c1) := foldl rem_step (s1, pm_c M) c_rem in
  let: (s3, cd2) := foldl add_step (s2, cd1) cd_add in
  let: (s4, c2) := foldl add_step (s3, c1) c_add in
  let M1 ms := PM ms cd2 c2 (pm_perm M) (s4 * pm_perm M) (pm_cd_order M) (pm_c_order M) in
  match run_blocks (fun b m => try_update F (nth [::] (t_rem cd2) b) (nth [::] (t_rem c2) b)
                                          (nth [::] (t_add cd2) b) (nth [::] (t_add c2) b) m) 0 (pm_mats M) with
  | BOk l ms => POk (foldl (fun r x => r * x) 1 l * s4%:~R) (M1 ms)
  | BThrow ms => PThrow (M1 ms)
  | BUB => PUB
  end.

(** hpp:424-440 *)
Definition reconstruct (M : pm) : pm :=
  PM (pm_mats M) (pm_cd M) (pm_c M) (pm_perm M) (pm_new_perm M)
     (flatten [seq s_ops (d_cdagg m) | m <- pm_mats M]) (flatten [seq s_ops (d_c m) | m <- pm_mats M]).
Definition clear_work (M : pm) : pm :=
  PM (pm_mats M) (clear_tset nb (pm_cd M)) (clear_tset nb (pm_c M)) (pm_perm M) (pm_new_perm M) (pm_cd_order M) (pm_c_order M).
Definition set_mats (ms : seq dm) (M : pm) : pm :=
  PM ms (pm_cd M) (pm_c M) (pm_perm M) (pm_new_perm M) (pm_cd_order M) (pm_c_order M).

(** ipp:210-222 *)
Definition perform_update (M : pm) : pres unit :=
  match run_blocks (fun _ m => perform_update junk m) 0 (pm_mats M) with
  | BOk _ ms =>
    let M1 := reconstruct (set_mats ms M) in
    POk tt (clear_work (PM (pm_mats M1) (pm_cd M1) (pm_c M1) (pm_new_perm M1) (pm_new_perm M1) (pm_cd_order M1) (pm_c_order M1)))
  | BThrow ms => PThrow (set_mats ms M)
  | BUB => PUB
  end.

(** ipp:238-243 (245-250), 252-257 (259-264) *)
Definition erase_added (T : tset) : tset :=
  foldl (fun T b => foldl (fun T x => erase_at x b T) T (nth [::] (t_add T) b)) T (iota 0 nb).
Definition insert_removed (T : tset) : tset :=
  foldl (fun T b => foldl (fun T x => insert_at x b T) T (nth [::] (t_rem T) b)) T (iota 0 nb).
(** ipp:231-268 *)
Definition reject_update (M : pm) : pres unit :=
  match run_blocks (fun _ m => @reject_update K m) 0 (pm_mats M) with
  | BOk _ ms =>
    POk tt (clear_work (reconstruct (PM ms (insert_removed (erase_added (pm_cd M))) (insert_removed (erase_added (pm_c M)))
                                        (pm_perm M) (pm_new_perm M) (pm_cd_order M) (pm_c_order M))))
  | BThrow ms => PThrow (set_mats ms M)
  | BUB => PUB
  end.

(** ipp:32-62: the determinant ratio is not looked at *)
Definition build (np : int) (mo : umode) (w : work K) (ops : seq (psi * psi)) : pres unit :=
  match try_update [::] [::] (map fst ops) (map snd ops) (pm0 np mo w) with
  | POk _ M => perform_update M
  | PThrow M => PThrow M
  | PUB => PUB
  end.

(** hpp:278-282 *)
Definition rebuild_inverse_matrix (M : pm) : pres unit :=
  match run_blocks (fun _ m => rebuild_inverse_matrix F m) 0 (pm_mats M) with
  | BOk _ ms => POk tt (set_mats ms M)
  | BThrow ms => PThrow (set_mats ms M)
  | BUB => PUB
  end.

(** hpp:102 *)
Definition psize (M : pm) : nat := size (t_all (pm_cd M)).
(** hpp:185-194 *)
Definition compute_determinant (M : pm) : K :=
  (pm_perm M)%:~R * foldl (fun r x => r * x) 1 [seq compute_determinant m | m <- pm_mats M].
(** hpp:218-231: the blocks along the diagonal, 0 elsewhere *)
Fixpoint diag_blocks (offset : nat) (ms : seq dm) (g : mat K) : mat K :=
  if ms is m :: ms' then
    let n := dsize m in
    diag_blocks (offset + n) ms' (set_block offset offset n n (d_inv m) g)
  else g.
Definition compute_inverse_matrix (M : pm) : mat K :=
  diag_blocks 0 (pm_mats M) (Mat (psize M) (psize M) (fun _ _ => 0)).
End Partitioned.
