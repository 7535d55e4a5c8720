(** * Observables: the names of the accumulators that are created, filled and read

    Model of src/impurity_init.ipp:3-90 (create_observables, add_worm_mover) and 92-236 (the names of the worm updaters),
    src/moves/moves.hpp:101-118 and src/moves/moves.ipp:667-681 (acceptance rates), src/impurity.ipp:262-442 and 473-492
    (measure_every_step, measure, measure_Z_function_space), 537-541, 798, 811-821 (visited spaces, Pert_order_start,
    Pert_order_end), src/measurement/measurement.ipp:294-309 (the counter of measure_via_hyb), src/accumulator.hpp:50-125,
    src/solver.ipp:49-85, src/postprocess.hpp (the names that are read) and src/impurity_postprocess.ipp (show_statistics).

    Only the names and the numbers of samples are followed, for one process.  Of ALPSCore it is assumed: operator<< with an
    accumulator of a name that exists throws, operator[] with a name that does not exist throws, mean() of an accumulator
    without samples throws.  Not modelled: the values, the shapes of the vectors, MEASURE_TIMING. *)
From Coq Require Import String Ascii List ZArith Bool Arith Decimal DecimalString.
From Verif Require Import ConfigSpace.
Import ListNotations.
Local Open Scope string_scope.
Local Open Scope list_scope.

Inductive res (A : Type) := Ok (a : A) | Throw | UB.
Arguments Ok {A}. Arguments Throw {A}. Arguments UB {A}.
Definition bind {A B} (r : res A) (f : A -> res B) : res B := match r with Ok a => f a | Throw => Throw | UB => UB end.

(** accumulator_set: names with numbers of samples *)
Definition accset := list (string * nat).
Fixpoint find (x : string) (m : accset) : option nat :=
  match m with [] => None | (y, n) :: r => if String.eqb x y then Some n else find x r end.
Definition create1 (x : string) (m : accset) : res accset := match find x m with Some _ => Throw | None => Ok (m ++ [(x, 0)]) end.
Fixpoint put (x : string) (m : accset) : res accset :=
  match m with
  | [] => Throw
  | (y, n) :: r => if String.eqb x y then Ok ((y, S n) :: r) else bind (put x r) (fun r => Ok ((y, n) :: r))
  end.
Definition mean (x : string) (m : accset) : res unit :=
  match find x m with Some (S _) => Ok tt | _ => Throw end.
Fixpoint creates (l : list string) (m : accset) : res accset := match l with [] => Ok m | x :: r => bind (create1 x m) (creates r) end.
Fixpoint puts (l : list string) (m : accset) : res accset := match l with [] => Ok m | x :: r => bind (put x m) (puts r) end.
Fixpoint means (l : list string) (m : accset) : res unit := match l with [] => Ok tt | x :: r => bind (mean x m) (fun _ => means r m) end.

(** update.multi_pair_ins_rem, measurement.{G2,two_time_G2,equal_time_G1,equal_time_G2}.on, measurement.nn_corr.n_def,
    whether measurement.nn_corr.def names a file, and measurement.{G1,G2}.max_num_data_accumulated *)
Record params := Params { rank : nat; g2_on : bool; two_time_on : bool; eq1_on : bool; eq2_on : bool; n_def : nat; corr_file : bool; max1 : Z; max2 : Z }.
Definition worms (p : params) : list space := create_worm_types (g2_on p) (two_time_on p) (eq1_on p) (eq2_on p).

(** worm.hpp:19-42; the name of Unknown is never asked for *)
Definition space_name (w : space) : string :=
  match w with
  | Z_FUNCTION => "Z_FUNCTION" | G1 => "G1" | G2 => "G2" | Equal_time_G1 => "Equal_time_G1" | Equal_time_G2 => "Equal_time_G2"
  | Two_time_G2 => "Two_time_G2" | Unknown => ""
  end.
(** accumulator.hpp:50-125 *)
Definition reim (x : string) : list string := [x ++ "_Re"; x ++ "_Im"]%string.
(** moves.hpp:101-118 *)
Definition rate (x : string) : list string := [x ++ "_attempted_scalar"; x ++ "_valid_move_scalar"; x ++ "_accepted_scalar"]%string.
(** boost::lexical_cast<std::string>(int) of a number that is not negative *)
Definition dec (k : nat) : string := NilEmpty.string_of_uint (Nat.to_uint k).
(** moves.hpp:165 *)
Definition ins_rem_name (k : nat) : string := (dec k ++ "-pair_insertion_remover")%string.
Definition ins_rem (p : params) : list string := flat_map (fun k => rate (ins_rem_name k)) (seq 1 (rank p)).
(** moves.hpp:285, moves.ipp:667-681 *)
Definition shift : list string := rate "Single_operator_shift_updater" ++ ["Shift_attempted"; "Shift_accepted"].
(** moves.hpp:259 *)
Definition pair_flavor : list string := rate "Operator_pair_flavor_updater".
(** impurity_init.ipp:92-236: worm_insertion_removers in the order of worm_types; worm_movers is a multimap ordered by the
    enumeration of worm.hpp:9-17, specialized_updaters a map ordered by name *)
Definition removers (p : params) : list string := map (fun w => (space_name w ++ "_ins_rem")%string) (worms p).
Definition movers (p : params) : list string :=
  flat_map (fun w => if has w (worms p) then [space_name w ++ "_mover"; space_name w ++ "_flavor_changer"]%string else [])
           [G1; G2; Equal_time_G1; Equal_time_G2; Two_time_G2].
Definition specials (p : params) : list string :=
  (if specialized (worms p) Connect then ["Connect_Equal_time_G1_and_Two_time_G2"] else [])
  ++ (if specialized (worms p) G1_ins_rem_hyb then ["G1_ins_rem_hyb"] else [])
  ++ (if specialized (worms p) G2_ins_rem_hyb then ["G2_ins_rem_hyb"] else []).
(** impurity.hpp:104-117 *)
Definition worm_updaters (p : params) : list string := removers p ++ movers p ++ specials p.

(** impurity_init.ipp:3-74 *)
Definition created (p : params) : list string :=
  reim "Greens_legendre" ++ reim "Greens_legendre_rotated" ++ reim "Two_time_correlation_functions"
  ++ ["n"; "Sign"; "order"; "PerturbationOrderFlavors"]
  ++ ins_rem p ++ shift ++ pair_flavor
  ++ ["Acceptance_rate_global_shift"; "Acceptance_rate_swap"; "Z_function_space_volume"; "Z_function_space_num_steps"]
  ++ flat_map (fun w => ["worm_space_volume_" ++ space_name w; "worm_space_num_steps_" ++ space_name w]%string) (worms p)
  ++ (if two_time_on p then reim "Two_time_G2" else [])
  ++ reim "G1" ++ (if g2_on p then reim "G2" else [])
  ++ (if eq1_on p then reim "Equal_time_G1" else []) ++ (if eq2_on p then reim "Equal_time_G2" else [])
  ++ reim "kLkR" ++ reim "k" ++ ["Pert_order_start"; "Pert_order_end"]
  ++ flat_map rate (worm_updaters p).
Definition create (p : params) : res accset := creates (created p) [].

(** The simulation: the accumulators, num_data_ of p_G1_meas and p_G2_meas, the spaces visited in measurement steps *)
Record sim := Sim { acc : accset; data1 : Z; data2 : Z; visited : list space }.
(** One sweep of do_one_sweep finds the space [w] (537-541); one call of measure_every_step in the space [w], [regular] when the
    determinant of the intermediate state does not vanish (measurement.ipp:204-208, else nothing is counted); one call of measure
    in the space [w], with the answers of has_samples() of global_shift_acc_rate, swap_acc_rate and g_meas_legendre;
    prepare_for_measurement *)
Inductive event := Sweep (w : space) | Step (w : space) (regular : bool) | Report (w : space) (shifted swapped legendre : bool) | Prepare.
Definition active (p : params) (w : space) : bool := space_eqb w Z_FUNCTION || has w (worms p).
Definition put_all (l : list string) (s : sim) : res sim :=
  bind (puts l (acc s)) (fun m => Ok (Sim m (data1 s) (data2 s) (visited s))).

(** measurement.ipp:294-309 *)
Definition via_hyb (name : string) (max n : Z) (m : accset) : res (accset * Z) :=
  let n := (n + 1)%Z in
  if (n =? max)%Z then bind (puts (reim name) m) (fun m => Ok (m, 0%Z)) else Ok (m, n).
(** impurity.ipp:262-310 *)
Definition every_step (p : params) (w : space) (regular : bool) (s : sim) : res sim :=
  if negb (active p w) then UB else
  match w with
  | Z_FUNCTION => put_all (reim "kLkR" ++ reim "k") s
  | G1 => if regular then bind (via_hyb "G1" (max1 p) (data1 s) (acc s)) (fun mn => Ok (Sim (fst mn) (snd mn) (data2 s) (visited s))) else Ok s
  | G2 => if regular then bind (via_hyb "G2" (max2 p) (data2 s) (acc s)) (fun mn => Ok (Sim (fst mn) (data1 s) (snd mn) (visited s))) else Ok s
  | Two_time_G2 => put_all (reim "Two_time_G2") s
  | Equal_time_G1 => put_all (reim "Equal_time_G1") s
  | Equal_time_G2 => put_all (reim "Equal_time_G2") s
  | Unknown => Throw
  end.
(** impurity.ipp:319-355 *)
Definition report_names (p : params) : list string :=
  ["Z_function_space_num_steps"] ++ map (fun w => ("worm_space_num_steps_" ++ space_name w)%string) (worms p)
  ++ ["Z_function_space_volume"] ++ map (fun w => ("worm_space_volume_" ++ space_name w)%string) (worms p)
  ++ ins_rem p ++ shift ++ pair_flavor ++ flat_map rate (worm_updaters p).
(** impurity.ipp:371-442 and 473-492; FLAVORS samples of "order" are one here.  p_meas_corr exists when a file was named
    (impurity_init.ipp:419-421, 470-476). *)
Definition z_names (p : params) (shifted swapped legendre : bool) : list string :=
  ["order"; "PerturbationOrderFlavors"] ++ shift ++ ins_rem p ++ pair_flavor
  ++ (if shifted then ["Acceptance_rate_global_shift"] else []) ++ (if swapped then ["Acceptance_rate_swap"] else [])
  ++ ["n"] ++ (if corr_file p then reim "Two_time_correlation_functions" else [])
  ++ (if legendre then reim "Greens_legendre" ++ reim "Greens_legendre_rotated" else []) ++ ["Sign"].
Definition report (p : params) (w : space) (shifted swapped legendre : bool) (s : sim) : res sim :=
  bind (put_all (report_names p) s) (fun s => if space_eqb w Z_FUNCTION then put_all (z_names p shifted swapped legendre) s else Ok s).
Definition happen (p : params) (e : event) (s : sim) : res sim :=
  match e with
  | Sweep w => if active p w then Ok (Sim (acc s) (data1 s) (data2 s) (w :: visited s)) else UB
  | Step w regular => every_step p w regular s
  | Report w a b c => report p w a b c s
  | Prepare => put_all ["Pert_order_start"] s
  end.
Fixpoint happens (p : params) (es : list event) (s : sim) : res sim := match es with [] => Ok s | e :: r => bind (happen p e s) (happens p r) end.
Definition run (p : params) (es : list event) : res sim := bind (create p) (fun m => happens p es (Sim m 0 0 [])).
(** impurity.ipp:811-821 *)
Definition finish (p : params) (s : sim) : res sim :=
  bind (put_all ["Pert_order_end"] s) (fun s => if forallb (fun w => has w (visited s)) (Z_FUNCTION :: worms p) then Ok s else Throw).

(** postprocess.hpp:32-43, 128-138, 306-314, 370-379, 412-422: the names read for a function measured in a worm space *)
Definition worm_reads (w : space) : list string :=
  ["Sign"; "worm_space_volume_" ++ space_name w; "Z_function_space_volume"]%string ++ reim (space_name w).
(** impurity_postprocess.ipp:3-46 *)
Definition print_rate (x : string) : list string := [x ++ "_accepted_scalar"; x ++ "_valid_move_scalar"]%string.
Definition statistics (p : params) : list string :=
  ["Pert_order_start"; "Pert_order_end"; "Z_function_space_num_steps"]
  ++ map (fun w => ("worm_space_num_steps_" ++ space_name w)%string) (worms p)
  ++ flat_map (fun k => print_rate (ins_rem_name k)) (seq 1 (rank p))
  ++ print_rate "Single_operator_shift_updater" ++ print_rate "Operator_pair_flavor_updater"
  ++ flat_map print_rate (worm_updaters p).
(** solver.ipp:54-85, postprocess.hpp:456-493 *)
Definition reads (p : params) : list string :=
  ["Sign"] ++ worm_reads G1 ++ (if eq1_on p then worm_reads Equal_time_G1 else []) ++ (if g2_on p then worm_reads G2 else [])
  ++ (if two_time_on p then worm_reads Two_time_G2 else []) ++ (if eq2_on p then worm_reads Equal_time_G2 else [])
  ++ (if Nat.eqb (n_def p) 0 then [] else ["Sign"] ++ reim "Two_time_correlation_functions" ++ ["Sign"])
  ++ reim "kLkR" ++ reim "k" ++ statistics p.
(** The constructor, the run and solve() of one process *)
Definition solve (p : params) (es : list event) : res unit :=
  bind (run p es) (fun s => bind (finish p s) (fun s => means (reads p) (acc s))).
