(** * ConfigSpace: the active configuration spaces, their weights and step counters, and the moves between them

    Model of the parts of src/impurity.ipp, src/impurity.hpp and src/impurity_init.ipp that choose worm updaters and keep the
    books of the configuration spaces.  What an updater does to operators, trace and determinant is in Updater.v, WormProposal.v;
    here an updater is known only by the spaces it connects, and whether its proposal is accepted is an input. *)
From Coq Require Import Reals List Lra Lia Bool Arith.
From Verif Require Import FlatHist.
Import ListNotations.
Open Scope R_scope.

(** worm.hpp:9-17 *)
Inductive space := Z_FUNCTION | G1 | G2 | Equal_time_G1 | Equal_time_G2 | Two_time_G2 | Unknown.
Definition space_eqb (a b : space) : bool :=
  match a, b with
  | Z_FUNCTION, Z_FUNCTION | G1, G1 | G2, G2 | Equal_time_G1, Equal_time_G1 | Equal_time_G2, Equal_time_G2
  | Two_time_G2, Two_time_G2 | Unknown, Unknown => true
  | _, _ => false
  end.

(** impurity_init.ipp:92-205: the worm spaces switched on, in the order of the push_backs ([p_worm_template_] of
    worm_insertion_removers[w] is of the same space as worm_types[w]: one push_back to each in every branch) *)
Definition create_worm_types (g2_on two_time_on eq1_on eq2_on : bool) : list space :=
  [G1] ++ (if g2_on then [G2] else []) ++ (if two_time_on then [Two_time_G2] else [])
  ++ (if eq1_on then [Equal_time_G1] else []) ++ (if eq2_on then [Equal_time_G2] else []).

(** impurity_init.ipp:108-115, 144-150, 207-216: the specialized updaters present (by the spaces they connect) *)
Inductive special := G1_ins_rem_hyb | G2_ins_rem_hyb | Connect.
Definition has (w : space) (ws : list space) : bool := existsb (space_eqb w) ws.
Definition specialized (ws : list space) (u : special) : bool :=
  match u with
  | G1_ins_rem_hyb => true
  | G2_ins_rem_hyb => has G2 ws
  | Connect => has Equal_time_G1 ws && has Two_time_G2 ws
  end.

(** std::find and std::distance *)
Fixpoint find_pos (w : space) (ws : list space) : option nat :=
  match ws with [] => None | x :: r => if space_eqb x w then Some 0%nat else option_map S (find_pos w r) end.
(** impurity.hpp:144-156; None stands for -1 *)
Definition position (ws : list space) (w : space) : option nat :=
  if space_eqb w Z_FUNCTION then Some 0%nat else option_map S (find_pos w ws).

(** The members of HybridizationSimulation involved; worm_space_extra_weight_map is an association list *)
Record sim := Sim { worm_types : list space; cur : space; hist : fh; extra_weight : list R; weight_map : list (space * R);
  num_steps : list R; visited : list bool; thermalized : bool }.

(** A call returns, throws, indexes a vector at -1 or beyond its end, or dereferences a null pointer *)
Inductive cres (A : Type) := COk (a : A) | CThrow | CUB.
Arguments COk {A}. Arguments CThrow {A}. Arguments CUB {A}.
Definition bind {A B} (r : cres A) (f : A -> cres B) : cres B :=
  match r with COk a => f a | CThrow => CThrow | CUB => CUB end.
Definition of_f {A} (r : fres A) : cres A := match r with FOk a => COk a | FThrow => CThrow end.

(** std::map::operator[] = *)
Fixpoint map_set (w : space) (x : R) (m : list (space * R)) : list (space * R) :=
  match m with [] => [(w, x)] | (v, y) :: r => if space_eqb v w then (v, x) :: r else (v, y) :: map_set w x r end.
(** std::map::find *)
Fixpoint map_find (w : space) (m : list (space * R)) : option R :=
  match m with [] => None | (v, y) :: r => if space_eqb v w then Some y else map_find w r end.

(** impurity_init.ipp:250-274 *)
Definition target_fractions (ws : list space) : list R :=
  1 :: map (fun w => if space_eqb w Equal_time_G1 || space_eqb w Equal_time_G2 then 1 / 10 else 1) ws.
Definition create_sim (ws : list space) : cres sim :=
  bind (of_f (create (length ws) (target_fractions ws))) (fun h =>
  COk (Sim ws Z_FUNCTION h (fill (length ws + 1) 1) (fold_left (fun m w => map_set w 1 m) ws [])
           (fill (length ws + 1) 0) (repeat false (length ws + 1)) false)).

(** impurity.ipp:882-887 and 790-795: config_space_extra_weight[0] = 1, then for each w both copies are set *)
Fixpoint apply_weights (h : fh) (ws : list space) (i : nat) (ex : list R) (m : list (space * R)) : cres (list R * list (space * R)) :=
  match ws with
  | [] => COk (ex, m)
  | w :: r =>
    match weight_ratio h (i + 1) 0 with
    | FOk x => if Nat.ltb (i + 1) (length ex) then apply_weights h r (S i) (upd ex (i + 1) (fun _ => x)) (map_set w x m) else CUB
    | FThrow => CThrow
    end
  end.
Definition set_weights (s : sim) (h : fh) : cres sim :=
  bind (apply_weights h (worm_types s) 0 (upd (extra_weight s) 0 (fun _ => 1)) (weight_map s)) (fun em =>
  COk (Sim (worm_types s) (cur s) h (fst em) (snd em) (num_steps s) (visited s) (thermalized s))).

(** impurity.ipp:865-888; get_config_space_position gives an int that is converted to unsigned: -1 becomes the largest
    unsigned int, which measure rejects by throwing *)
Definition adjust (s : sim) : cres sim :=
  if (Nat.eqb (length (worm_types s)) 0) || thermalized s then COk s
  else match position (worm_types s) (cur s) with
       | Some v => bind (of_f (adjust_hist (hist s) v)) (set_weights s)
       | None => if done (hist s) then set_weights s (hist s) else CThrow
       end.

(** moves.ipp:1014-1036 and 1247-1380 (insertion and removal of a worm of space [w]: with a worm present the proposal is its
    removal, whatever its type), 1388-1530 (the connector); [acc]: proposed and accepted *)
Definition ins_rem (w : space) (acc : bool) (c : space) : space :=
  if acc then (if space_eqb c Z_FUNCTION then w else Z_FUNCTION) else c.
Definition connect (acc : bool) (c : space) : cres space :=
  if space_eqb c Equal_time_G1 then COk (if acc then Two_time_G2 else c)
  else if space_eqb c Two_time_G2 then COk (if acc then Equal_time_G1 else c)
  else CThrow.
Definition set_cur (s : sim) (c : space) : sim :=
  Sim (worm_types s) c (hist s) (extra_weight s) (weight_map s) (num_steps s) (visited s) (thermalized s).

(** The random inputs of one iteration: the worm chosen (static_cast<int>(random() * n), so below n) and the four
    acceptances *)
Record choice := Choice { i_worm : nat; acc1 : bool; acc2 : bool; acc3 : bool; acc4 : bool }.

(** impurity.ipp:558-594: one iteration of transition_between_config_spaces.  The worm movers (615-621) keep the space. *)
Definition first_part (ch : choice) (s : sim) : cres sim :=
  let i := if space_eqb (cur s) Z_FUNCTION then Some (i_worm ch)
           else match position (worm_types s) (cur s) with Some p => Some (p - 1)%nat | None => None end in
  match i with
  | Some i => match nth_error (worm_types s) i with
              | Some w => adjust (set_cur s (ins_rem w (acc1 ch) (cur s)))
              | None => CUB
              end
  | None => CUB
  end.
Definition special_part (u : special) (here : bool) (must : bool) (move : space -> cres space) (s : sim) : cres sim :=
  if here && (must || specialized (worm_types s) u) then
    (if specialized (worm_types s) u then bind (move (cur s)) (fun c => adjust (set_cur s c)) else CUB)
  else COk s.
Definition transition1 (ch : choice) (s : sim) : cres sim :=
  bind (first_part ch s) (fun s =>
  bind (special_part G1_ins_rem_hyb (space_eqb (cur s) Z_FUNCTION || space_eqb (cur s) G1) true
          (fun c => COk (ins_rem G1 (acc2 ch) c)) s) (fun s =>
  bind (special_part G2_ins_rem_hyb (space_eqb (cur s) Z_FUNCTION || space_eqb (cur s) G2) false
          (fun c => COk (ins_rem G2 (acc3 ch) c)) s) (fun s =>
  special_part Connect (space_eqb (cur s) Equal_time_G1 || space_eqb (cur s) Two_time_G2) false (connect (acc4 ch)) s))).
Fixpoint transitions (chs : list choice) (s : sim) : cres sim :=
  match chs with [] => COk s | ch :: r => bind (transition1 ch s) (transitions r) end.
(** impurity.ipp:550-555 *)
Definition transition_between_config_spaces (chs : list choice) (s : sim) : cres sim :=
  if Nat.eqb (length (worm_types s)) 0 then COk s else transitions chs s.

(** impurity.ipp:537-541: one move of do_one_sweep *)
Fixpoint set_true (l : list bool) (i : nat) : list bool :=
  match l, i with [], _ => [] | _ :: r, O => true :: r | b :: r, S i' => b :: set_true r i' end.
Definition sweep_move (chs : list choice) (s : sim) : cres sim :=
  bind (if thermalized s then
          match position (worm_types s) (cur s) with
          | Some p => if Nat.ltb p (length (visited s)) then
                        COk (Sim (worm_types s) (cur s) (hist s) (extra_weight s) (weight_map s) (num_steps s)
                                 (set_true (visited s) p) (thermalized s))
                      else CUB
          | None => CUB
          end
        else COk s) (transition_between_config_spaces chs).

(** impurity.ipp:265-309: the switch knows all spaces but Unknown; its measurements are in Measure.v *)
Definition measure_every_step (s : sim) : cres sim :=
  if space_eqb (cur s) Unknown then CThrow
  else match position (worm_types s) (cur s) with
       | Some p => if Nat.ltb p (length (num_steps s)) then
                     COk (Sim (worm_types s) (cur s) (hist s) (extra_weight s) (weight_map s)
                              (upd (num_steps s) p (fun x => x + 1)) (visited s) (thermalized s))
                   else CUB
       | None => CUB
       end.

(** accumulator.hpp:213-220 *)
Definition div_vec (a b : list R) : list R := map (fun p => fst p / snd p) (combine a b).
(** impurity.ipp:319-333: what is put into the num_steps and volume observables, for the Z space and each worm space *)
Record report := Report { r_steps : list R; r_volume : list R }.
Definition measure_volumes (s : sim) : report * sim :=
  (Report (num_steps s) (div_vec (num_steps s) (extra_weight s)),
   Sim (worm_types s) (cur s) (hist s) (extra_weight s) (weight_map s) (fill (length (num_steps s)) 0) (visited s) (thermalized s)).

(** impurity.ipp:782-797 (the histogram exists when there are worm spaces) *)
Definition prepare (all : list fh) (s : sim) : cres sim :=
  if Nat.eqb (length (worm_types s)) 0 then COk s
  else bind (of_f (synchronize all (hist s))) (fun h =>
       bind (set_weights s h) (fun s1 =>
       COk (Sim (worm_types s1) (cur s1) (finish_learning (hist s1)) (extra_weight s1) (weight_map s1) (num_steps s1)
                (visited s1) (thermalized s1)))).

(** impurity.ipp:811-821 *)
Definition finish_measurement (s : sim) : cres unit :=
  if negb (thermalized s) then CThrow
  else if forallb (fun b => b) (visited s) then COk tt else CThrow.
