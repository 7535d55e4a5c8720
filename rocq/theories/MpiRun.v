(** * The run over several MPI processes
    Models src/mc/mympiadapter.hpp (mymcmpiadapter::run, my_check_schedule) and src/solver.ipp (MatrixSolver::solve) together with
    the parts of src/impurity.hpp/.ipp that decide about thermalization and measurement.

    Every process runs its own copy of the loop; the processes meet only in collective operations.  The model is an
    asynchronous one: a schedule names, step by step, the process that moves next and what its clock and its signals tell it then.
    A process enters its k-th collective operation by posting what it brings, and leaves it once the posts that the result
    depends on are there.

    Not modelled: what the Monte Carlo updates do, exceptions thrown by them, and the collective operations inside
    collect_results, which count as one. *)
From mathcomp Require Import all_ssreflect.
Set Implicit Arguments.
Unset Strict Implicit.
Unset Printing Implicit Defensive.

(** The collective operations in the order of the source: MPI_Allreduce of the thermalization flag (mympiadapter.hpp:80-85),
    MPI_Allreduce in FlatHistogram::synchronize (wang_landau.hpp:166-182, called from impurity.ipp:789), the broadcast of the
    decision to stop inside alps::stop_callback (mympiadapter.hpp:97, solver.ipp:42), and alps::collect_results (solver.ipp:50, 89) *)
Inductive kind := KTherm | KSync | KStop | KCollect.
Definition kind_eq (a b : kind) : bool :=
  match a, b with KTherm, KTherm | KSync, KSync | KStop, KStop | KCollect, KCollect => true | _, _ => false end.

(** Where a process stands.  [Mismatch]: it takes part in a collective operation in which another process takes part with a different
    one; MPI leaves the outcome undefined *)
Inductive place :=
  | Top | WaitTherm | WaitSync | Upd | WaitStop | Fin | Solve (r_second : bool) | WaitCollect | Done | Threw | Mismatch.
(** What a process did, with the number of the loop iteration: prepare_for_measurement, the N_meas calls of measure_every_step inside
    one call of update (impurity.ipp:248-250), measure *)
Inductive event := EvPrepare (i : nat) | EvStep (i : nat) | EvMeasure (i : nat).

Record local := Local {
  pc : place;
  iter : nat;           (* number of the loop iteration *)
  therm : bool;         (* HybridizationSimulation::thermalized *)
  this_therm : bool;    (* this_thermalized *)
  allt : bool;          (* all_processes_thermalized *)
  stopped : bool;
  posted : seq (kind * bool); (* what the process brought to its collective operations so far *)
  got : seq bool;       (* the results it got *)
  events : seq event }.
(** mympiadapter.hpp:65-69, impurity.ipp:124 *)
Definition local0 : local := Local Top 0 false false false false [::] [::] [::].

(** What the clock and the signals tell: time(NULL) - start_time > thermalization_time (impurity.hpp:88-92); pending()
    (mympiadapter.hpp:22-26; its two members are not initialised, so that anything may come out before the first update);
    whether rank 0 wants to stop; whether all configuration spaces were visited (impurity.ipp:816-820) *)
Record oracle := Oracle { o_therm : bool; o_pending : bool; o_stop : bool; o_visited : bool }.

Section Run.
(** [n.+1] processes; [flat]: p_flat_histogram_config_space is set, which depends on the parameters only; [sync]: whether the
    broadcast keeps rank 0 until everyone has come *)
Variables (n : nat) (flat sync : bool).
Definition state := 'I_n.+1 -> local.
Definition init : state := fun _ => local0.
Definition post (l : local) (k : kind) (b : bool) (w : place) : local :=
  Local w (iter l) (therm l) (this_therm l) (allt l) (stopped l) (rcons (posted l) (k, b)) (got l) (events l).
Definition goto (l : local) (w : place) : local :=
  Local w (iter l) (therm l) (this_therm l) (allt l) (stopped l) (posted l) (got l) (events l).
Definition receive (l : local) (b : bool) : local :=
  Local (pc l) (iter l) (therm l) (this_therm l) (allt l) (stopped l) (posted l) (rcons (got l) b) (events l).
Definition next_iter (l : local) : local :=
  Local Top (iter l).+1 (therm l) (this_therm l) (allt l) (stopped l) (posted l) (got l) (events l).
Definition log (l : local) (e : seq event) : local :=
  Local (pc l) (iter l) (therm l) (this_therm l) (allt l) (stopped l) (posted l) (got l) (events l ++ e).
Definition set_all (l : local) : local :=
  Local (pc l) (iter l) (therm l) (this_therm l) true (stopped l) (posted l) (got l) (events l).
Definition set_stopped (l : local) (b : bool) : local :=
  Local (pc l) (iter l) (therm l) (this_therm l) (allt l) b (posted l) (got l) (events l).

Definition brought (st : state) (q : 'I_n.+1) (k : nat) : kind * bool := nth (KTherm, false) (posted (st q)) k.
Definition everyone (st : state) (k : nat) : bool := [forall q, k < size (posted (st q))].
Definition same_kind (st : state) (k : nat) (c : kind) : bool := [forall q, kind_eq (brought st q k).1 c].
Definition product (st : state) (k : nat) : bool := [forall q, (brought st q k).2].

(** mympiadapter.hpp:72-75 *)
Definition update_thermalization (l : local) (o : oracle) : local :=
  if therm l then l
  else Local (pc l) (iter l) (o_therm o) (o_therm o) (allt l) (stopped l) (posted l) (got l) (events l).
(** 92-96: what update and measure do, as far as measuring is concerned *)
Definition measure_events (l : local) : seq event :=
  (if therm l then [:: EvStep (iter l)] else [::]) ++ (if allt l then [:: EvMeasure (iter l)] else [::]).

(** The next step of a process; None: it has to wait or is at its end.  [ev], [sk], [pr]: for the k-th collective operation, whether everyone
    has entered it, whether all entered it with the same one, and the product of what they brought; [root], [nroot]: what
    rank 0 brought, and to how many; [is_root]: whether this is rank 0 *)
Definition lstep_with (ev : nat -> bool) (sk : nat -> kind -> bool) (pr : nat -> bool) (root : nat -> kind * bool) (nroot : nat)
    (is_root : bool) (l : local) (o : oracle) : option local :=
  let k := size (got l) in
  match pc l with
  (* 72-85 *)
  | Top => let l := update_thermalization l o in
           Some (if allt l then goto l Upd else post l KTherm (this_therm l) WaitTherm)
  (* 80-90 *)
  | WaitTherm =>
      if ~~ ev k then None
      else if ~~ sk k KTherm then Some (goto l Mismatch)
      else let l := receive l (pr k) in
           Some (if pr k then
                   let l := log (set_all l) [:: EvPrepare (iter l)] in
                   if flat then post l KSync true WaitSync else goto l Upd
                 else goto l Upd)
  | WaitSync =>
      if ~~ ev k then None
      else if ~~ sk k KSync then Some (goto l Mismatch)
      else Some (goto (receive l true) Upd)
  (* 92-97 *)
  | Upd => let l := log l (measure_events l) in
           Some (if [|| stopped l, o_pending o | ~~ allt l] then post l KStop (o_stop o) WaitStop else next_iter l)
  (* 97-106 *)
  | WaitStop =>
      if ~~ (if sync then ev k else k < nroot) then None
      else if ~~ kind_eq (root k).1 KStop then Some (goto l Mismatch)
      else let s := (root k).2 in
           let l := set_stopped (receive l s) s in Some (if s then goto l Fin else next_iter l)
  (* finish_measurement, impurity.ipp:810-821; 109 *)
  | Fin => Some (if ~~ therm l then goto l Threw else if ~~ o_visited o then goto l Threw else goto l (Solve (therm l)))
  (* solver.ipp:46-94 *)
  | Solve r => Some (if is_root then (if ~~ r then goto l Threw else post l KCollect true WaitCollect)
                     else if r then post l KCollect true WaitCollect else goto l Threw)
  | WaitCollect =>
      if ~~ ev k then None
      else if ~~ sk k KCollect then Some (goto l Mismatch)
      else Some (goto (receive l true) Done)
  | Done | Threw | Mismatch => None
  end.
Definition lstep (st : state) (p : 'I_n.+1) (o : oracle) : option local :=
  lstep_with (everyone st) (same_kind st) (product st) (brought st ord0) (size (posted (st ord0))) (p == ord0) (st p) o.
Definition update (st : state) (p : 'I_n.+1) (l : local) : state := fun q => if q == p then l else st q.
Definition gstep (st : state) (po : 'I_n.+1 * oracle) : state :=
  if lstep st po.1 po.2 is Some l then update st po.1 l else st.
(** A schedule that names a process that cannot move leaves the state as it is *)
Definition run (sched : seq ('I_n.+1 * oracle)) : state := foldl gstep init sched.
End Run.
