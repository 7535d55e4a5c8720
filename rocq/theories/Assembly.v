(** The parts put together: configuration, determinant object and sliding window during a run.

    Modelled code: src/impurity.ipp:152-153 (initial window and trace), 496-547 (do_one_sweep), 550-623
    (transition_between_config_spaces), 626-693 (global_updates), 696-722 (update_MC_parameters: the window size);
    src/moves/moves.ipp:84-213 (LocalUpdater::update at the present window) and 793-895 (global_update, with the calls to
    the window); src/mc_config.hpp:73-79 (constructor); include/alps/fastupdate/determinant_matrix.hpp:137-157 and
    determinant_matrix_partitioned.hpp:201-215 (compute_determinant_as_product).

    The steps are those of Updater.v and GlobalUpdate.v; here their parameters are the objects of DetPartitioned.v,
    Window.v and LazyTrace.v.

    Simplifications.
    - A run is a list of commands. What the updaters propose, the random numbers and the order in which the updaters are
      called are data in the commands; do_one_sweep and global_updates are functions from such data to commands.
    - Measurements leave configuration and window as they are (C23, C54) and are left out.
    - A failed call of the determinant object is the state [None], in which it stays.
    - A window size is a natural number. ceil of a quotient of natural numbers is computed exactly. *)
From Coq Require Import ZArith List Bool.
From mathcomp Require Import all_ssreflect all_algebra.
From Verif Require Import OpContainer CombSort PermSign Updater Dist Proposal EigenBasis FastUpdate DetMatrix DetPartitioned
  HybDet GlobalUpdate Window LazyTrace T_WindowTrace T_LazyTrace.
Import Order.Theory GRing.Theory Num.Theory.
Set Implicit Arguments.
Unset Strict Implicit.
Unset Printing Implicit Defensive.
Local Close Scope Z_scope.
Local Open Scope nat_scope.
Delimit Scope Z_scope with coqZ.
Local Open Scope ring_scope.

(** ** The determinant object as parameter of the updates *)
Section Det.
Variable K : numFieldType.
Variable F : psi -> psi -> K.
Variable junk : nat -> nat -> K.
Variables (lab : seq nat) (nb : nat).
Variables (np : int) (mo : umode) (w : work K).

Definition ms : Type := option (pm K).
(** determinant_matrix_partitioned.hpp:139-149 (get_cdagg_ops, get_c_ops) *)
Definition ms_cd (m : ms) : seq psi := if m is Some M then pm_cd_order M else [::].
Definition ms_c (m : ms) : seq psi := if m is Some M then pm_c_order M else [::].
(** moves.ipp:169-175 (try_update), 196, 206 (perform_update, reject_update) *)
Definition ms_try (m : ms) (u : hyb_update) : K * ms :=
  if m is Some M then
    if try_update F lab nb (Updater.cd_rem u) (Updater.c_rem u) (Updater.cd_add u) (Updater.c_add u) M is POk x M1
    then (x, Some M1) else (0, None)
  else (0, None).
Definition ms_perform (m : ms) : ms :=
  if m is Some M then if perform_update junk nb M is POk _ M1 then Some M1 else None else None.
Definition ms_reject (m : ms) : ms :=
  if m is Some M then if reject_update nb M is POk _ M1 then Some M1 else None else None.
(** moves.ipp:869-882 *)
Definition ms_build (pairs : seq (psi * psi)) : ms :=
  if build F junk lab nb np mo w pairs is POk _ M then Some M else None.
(** mc_config.hpp:76 *)
Definition ms0 : ms := Some (pm0 junk lab nb np mo w).

(** fastupdate/detail/util.hpp:201-210: lu_product *)
Variable luv : forall n, 'M[K]_n -> seq K.
(** std::sort with lesser_by_abs *)
Definition asc_sort (s : seq K) : seq K := sort (fun a b => `|a| <= `|b|) s.
Definition mul_first (x : K) (s : seq K) : seq K := if s is a :: s' then a * x :: s' else [::].
(** determinant_matrix.hpp:137-157 *)
Definition dm_det_vec (m : dm K) : seq K :=
  if dsize m == 0%N then [:: 1]
  else asc_sort (mul_first (d_perm m)%:~R [seq 1 / x | x <- luv (toM (dsize m) (dsize m) (d_inv m))]).
(** determinant_matrix_partitioned.hpp:201-215 *)
Definition pm_det_vec (M : pm K) : seq K :=
  asc_sort (mul_first (pm_perm M)%:~R (flatten [seq dm_det_vec m | m <- pm_mats M])).
Definition ms_det_vec (m : ms) : seq K := if m is Some M then pm_det_vec M else [::].
End Det.

(** ** Window sizes *)
(** ceil(sum / n / nf), impurity.ipp:708-715 *)
Definition ceil_div (a b : nat) : nat := ((a + b.-1) %/ b)%N.
(** impurity.ipp:146-151: the tests made before the window is created *)
Definition window_checks (wmin wmax : nat) : bool := ~~ (wmax < 1)%N && ~~ (wmax < wmax)%N.
(** impurity.ipp:703-707: the expansion orders of the last 100 sweeps, the last one first *)
Definition push_order (order : nat) (hist : seq nat) : seq nat := take 100 (order :: hist).
(** impurity.ipp:710-719 *)
Definition new_window_size (wmin wmax nf : nat) (hist : seq nat) : nat :=
  maxn wmin (minn (ceil_div (sumn hist) (size hist * nf)) wmax).
(** impurity.ipp:509: the window size for insertion and removal of [rank] pairs *)
Definition sweep_window_size (nstd rank : nat) : nat := maxn (nstd %/ rank) 1.
(** impurity.ipp:515 *)
Definition sweep_moves (n : nat) : nat := maxn (2 * n - 2) 1.

(** ** The run *)
Section Program.
Variable K : numFieldType.
Variables (W : Type) (w_ops : W -> seq psi).
(* determinant *)
Variable F : psi -> psi -> K.
Variable junk : nat -> nat -> K.
Variables (lab : seq nat) (nb : nat).
Variables (np : int) (mo : umode) (wk : work K).
Variable luv : forall n, 'M[K]_n -> seq K.
Variable geps : K.                                           (* 1e-30, moves.ipp:695 *)
(* window and trace *)
Variables (Ket Bra : Type) (outer : list (Bra * Ket)).
Variables (ket_invalid : Ket -> bool) (bra_invalid : Bra -> bool) (ket_nil : Ket) (bra_nil : Bra).
Variables (apply_ket : optype -> nat -> Ket -> Ket) (apply_bra : optype -> nat -> Bra -> Bra).
Variables (prop_ket : Z -> Ket -> Ket) (prop_bra : Z -> Bra -> Bra).
Variables (normalize_ket : Ket -> Ket) (normalize_bra : Bra -> Bra).
Variables (norm_ket : Ket -> K) (norm_bra : Bra -> K).
Variables (sec_ket : Ket -> nat) (sec_bra : Bra -> nat).
Variable product : Bra -> Ket -> K.
Variable tau : nat -> nat -> Z.
Variable cut : K.
Variables (min_dim : Ket -> nat) (dst : optype -> nat -> nat -> option nat) (dim_sector : nat -> nat) (cexp : nat -> Z -> K).
Variable eps : K.
Variable order : seq K -> seq nat.                           (* std::sort of the bounds *)

Notation sw := (sw K Ket Bra).
Notation config := (config K W (ms K)).
Notation setw := (set_window_size ket_invalid bra_invalid ket_nil bra_nil apply_ket apply_bra prop_ket prop_bra
  normalize_ket normalize_bra norm_ket norm_bra tau cut).
Notation nextw := (move_window_to_next_position ket_invalid bra_invalid ket_nil bra_nil apply_ket apply_bra prop_ket prop_bra
  normalize_ket normalize_bra norm_ket norm_bra tau cut).
Notation initw := (init_stacks outer ket_invalid bra_invalid ket_nil bra_nil apply_ket apply_bra prop_ket prop_bra
  normalize_ket normalize_bra norm_ket norm_bra tau cut).
Notation tbounds := (trace_bounds ket_invalid bra_invalid sec_ket sec_bra tau min_dim dst dim_sector cexp).
Notation contribs := (contributions ket_invalid bra_invalid apply_ket prop_ket normalize_ket sec_ket sec_bra product tau).
Notation ctrace := (compute_trace ket_invalid bra_invalid apply_ket prop_ket normalize_ket sec_ket sec_bra product tau).

(** moves.ipp:160-162: the sum of the bounds of compute_trace_bound *)
Definition bound_sum (s : sw) (l : container) : K := asum (tbounds l s).
(** lazy_eval_trace at the window [s] *)
Definition lazy_at (s : sw) (l : container) (cutoff : K) : bool * K :=
  lazy_eval_trace eps (order (tbounds l s)) (tbounds l s) (contribs l s) cutoff.
(** sliding_window.hpp:48-50: get_tau_low, get_tau_high *)
Definition tau_low (s : sw) : Z := tau (nwin s) (posR s).
Definition tau_high (s : sw) : Z := tau (nwin s) (posL s).

(** moves.ipp:84-213 with the objects of this run *)
Definition local_update (s : sw) (mc : config) (ct : counters) (p : option (proposal K W)) (r : K) :=
  Updater.update K W w_ops (ms K) (@ms_cd K) (@ms_c K) (ms_try F lab nb) (ms_perform junk nb) (ms_reject nb)
    (bound_sum s) (lazy_at s) (tau_low s) (tau_high s) mc ct p r.

Record state := State { st_mc : config; st_sw : sw; st_dv : seq K }.

Inductive cmd :=
| Update of option (proposal K W) & K              (* one call of LocalUpdater::update *)
| NextWindow                                       (* move_window_to_next_position *)
| Resize of nat                                    (* set_window_size(n, operators, 0, ITIME_LEFT) *)
| DetVec                                           (* impurity.ipp:633 *)
| Global of nat & (psi -> psi) & (W -> W) & K.     (* global_update with Nwin, the transformations and the random number *)

(** moves.ipp:814-835 *)
Definition transformed (hop : psi -> psi) (wop : W -> W) (mc : config) : container :=
  let m := mstate K W (ms K) mc in
  insert_all (map hop (ms_cd m) ++ map hop (ms_c m) ++ worm_ops W w_ops (omap wop (Updater.worm K W (ms K) mc))).

(** lu_product of the matrix of hybridization values, moves.ipp:735-770 *)
Definition lu_ops (xs ys : seq psi) : seq K := luv (matL psi0 psi0 F (size xs) xs ys).

(** moves.ipp:793-895; the window is set even if the update is rejected (837-848) *)
Definition global_step (nwin : nat) (hop : psi -> psi) (wop : W -> W) (r : K) (st : state) : option state :=
  let mc := st_mc st in
  if size (ms_cd (mstate K W (ms K) mc)) == 0%N then Some st
  else
    let ops := operators K W (ms K) mc in
    let opsn := transformed hop wop mc in
    if wbind (setw 1 ops 0 (Some ITIME_LEFT) (st_sw st)) (setw nwin opsn 0 (Some ITIME_LEFT)) is WOk s2 then
      if setw 1 ops 0 (Some ITIME_LEFT) s2 is WOk s3 then
        if global_update w_ops (@ms_cd K) (@ms_c K) (ms_build F junk lab nb np mo wk) (fun l => (lazy_at s2 l 0).2)
             (blk lab nb) nb lu_ops geps hop wop r mc (st_dv st) is Some (mc', dv', _)
        then Some (State mc' s3 dv') else None
      else None
    else None.

Definition run_cmd (st : state) (k : cmd) : option state :=
  let mc := st_mc st in
  let s := st_sw st in
  match k with
  | Update p r =>
    match local_update s mc (Cnt 0 0 0) p r with
    | Done mc' _ _ => Some (State mc' s (st_dv st))
    | _ => None
    end
  | NextWindow => if nextw (operators K W (ms K) mc) s is WOk s' then Some (State mc s' (st_dv st)) else None
  | Resize n => if setw n (operators K W (ms K) mc) 0 (Some ITIME_LEFT) s is WOk s' then Some (State mc s' (st_dv st)) else None
  | DetVec => Some (State mc s (ms_det_vec luv (mstate K W (ms K) mc)))
  | Global n hop wop r => global_step n hop wop r st
  end.
(** [None]: an exception, a failed assertion or undefined behaviour *)
Fixpoint run (ks : seq cmd) (st : state) : option state :=
  if ks is k :: ks' then if run_cmd st k is Some st' then run ks' st' else None else Some st.

(** mc_config.hpp:73-79, impurity.ipp:152-153; [wmin] = sliding_window.min, [s0] the members before init_stacks *)
Definition start (wmin : nat) (s0 : sw) : option state :=
  if initw wmin [::] s0 is WOk s then
    Some (State (Conf K W (ms K) [::] (ms0 junk lab nb np mo wk) None (ctrace [::] s) 1 false) s [::])
  else None.

(** impurity.ipp:496-547: [ups] lists, for each position of the window, the proposals and random numbers of all updaters;
    the window is set when its size [cur] is not the one of this sweep *)
Definition do_one_sweep (nstd rank cur : nat) (ups : seq (seq (option (proposal K W) * K))) : seq cmd :=
  let n := sweep_window_size nstd rank in
  (if n != cur then [:: Resize n] else [::]) ++ flatten [seq rcons [seq Update u.1 u.2 | u <- us] NextWindow | us <- take (sweep_moves n) ups].
(** impurity.ipp:626-693: [cur] = get_n_window(), [ups] the worm updates, [gs] the transformations (flavor exchanges, then
    the shift) with their random numbers *)
Definition global_updates (nstd cur : nat) (ups : seq (option (proposal K W) * K)) (gs : seq ((psi -> psi) * (W -> W) * K)) : seq cmd :=
  Resize 1 :: [seq Update u.1 u.2 | u <- ups] ++ DetVec :: [seq Global (maxn nstd 10) g.1.1 g.1.2 g.2 | g <- gs] ++ [:: Resize cur].

(** impurity.ipp:215-241: one sweep, then (when the number of sweeps says so) the global updates; [nstd] = N_win_standard,
    which update_MC_parameters changes only between such steps, [rk] the rank chosen in lines 508 *)
Record step_input := Step {
  i_nstd : nat; i_rank : nat;
  i_ups : seq (seq (option (proposal K W) * K));
  i_global : option (seq (option (proposal K W) * K) * seq ((psi -> psi) * (W -> W) * K)) }.
Definition sweep_cmds (i : step_input) (st : state) : seq cmd := do_one_sweep (i_nstd i) (i_rank i) (nwin (st_sw st)) (i_ups i).
Definition global_cmds (i : step_input) (st : state) : seq cmd :=
  if i_global i is Some (us, gs) then global_updates (i_nstd i) (nwin (st_sw st)) us gs else [::].
Definition mc_step (i : step_input) (st : state) : option state :=
  if run (sweep_cmds i st) st is Some st1 then run (global_cmds i st1) st1 else None.
Fixpoint mc_steps (ins : seq step_input) (st : state) : option state :=
  if ins is i :: ins' then if mc_step i st is Some st' then mc_steps ins' st' else None else Some st.
End Program.
