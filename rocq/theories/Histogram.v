(** Histograms of shift distances, the step-size optimizer, the thermalization checker.

    Modelled code: src/update_histogram.hpp (whole file except the MPI helper, lines 6-23), and
    src/moves/moves.ipp:648-665 (the shift updater's use of the optimizer), src/moves/moves.hpp:284-288.

    Doubles are rationals: rounding is not modelled.  A bin index is [Qfloor], the conversion to int is
    assumed not to overflow.  Division by zero is [0] here; the theorems assume a positive range. *)
From Coq Require Import ZArith QArith Qround List Bool Lia.
Import ListNotations.
Open Scope Q_scope.

Definition qz (z : Z) : Q := inject_Z z.
Definition qn (n : nat) : Q := inject_Z (Z.of_nat n).

(** valarray element update *)
Fixpoint upd {A} (f : A -> A) (i : nat) (l : list A) : list A :=
  match l, i with
  | [], _ => []
  | x :: r, O => f x :: r
  | x :: r, S j => x :: upd f j r
  end.

(** update_histogram.hpp:24-38: sums of [nrebin] consecutive entries, org_array.size()/nrebin of them *)
Definition block_sum (arr : list Q) (nrebin i : nat) : Q :=
  fold_left (fun s j => s + nth (i * nrebin + j) arr 0) (seq 0 nrebin) 0.
Definition rebin_blocks (arr : list Q) (nrebin : nat) : list Q :=
  map (block_sum arr nrebin) (seq 0 (length arr / nrebin)).

(** update_histogram.hpp:46-47 *)
Definition rebin_pos (maxval maxval_new : Q) (old_len new_len i : nat) : Z :=
  Qfloor (qn new_len * ((qn i + (1 # 2)) * (maxval / qn old_len)) / maxval_new).
(** update_histogram.hpp:41-58: the loop from index [i] on the rest [arr] *)
Fixpoint rebin_loop (maxval maxval_new : Q) (old_len new_len i : nat) (arr acc : list Q) : list Q :=
  match arr with
  | [] => acc
  | a :: rest =>
      let pos := rebin_pos maxval maxval_new old_len new_len i in
      let acc' := if (0 <=? pos)%Z && (pos <? Z.of_nat new_len)%Z then upd (fun x => x + a) (Z.to_nat pos) acc else acc in
      if (Z.of_nat new_len <? pos)%Z then acc' else rebin_loop maxval maxval_new old_len new_len (S i) rest acc'
  end.
Definition rebin (arr : list Q) (maxval maxval_new : Q) (new_len : nat) : list Q :=
  rebin_loop maxval maxval_new (length arr) new_len 0 arr (repeat 0 new_len).

(** update_histogram.hpp:60-185 *)
Record hist := Hist { h_n : nat; h_max : Q; h_sum : list Q; h_sum2 : list Q; h_cnt : list Q }.
Definition num_bins h := length (h_cnt h).
(** lines 69-85 *)
Definition h_init (nb : nat) (mx : Q) : hist := Hist 0 mx (repeat 0 nb) (repeat 0 nb) (repeat 0 nb).
(** lines 87-98 *)
Definition bin_of (h : hist) (d : Q) : Z := Qfloor (qn (num_bins h) * d / h_max h).
Definition add_sample (h : hist) (d v : Q) : hist * bool :=
  let pos := bin_of h d in
  if (0 <=? pos)%Z && (pos <? Z.of_nat (num_bins h))%Z then
    let p := Z.to_nat pos in
    (Hist (S (h_n h)) (h_max h) (upd (fun x => x + v) p (h_sum h)) (upd (fun x => x + v * v) p (h_sum2 h))
          (upd (fun x => x + 1) p (h_cnt h)), true)
  else (h, false).
(** lines 159-166 *)
Definition h_reset (h : hist) : hist :=
  Hist 0 (h_max h) (map (fun _ => 0) (h_sum h)) (map (fun _ => 0) (h_sum2 h)) (map (fun _ => 0) (h_cnt h)).

Definition qmax (x y : Q) : Q := if Qle_bool x y then y else x.   (* std::max *)
Definition qlt (x y : Q) : bool := negb (Qle_bool y x).
(** lines 136-146: the largest ratio, or [None] when some bin has too few samples *)
Fixpoint best_ratio (mx : Q) (cnt sum : list Q) : option Q :=
  match cnt, sum with
  | c :: cr, s :: sr => if qlt c 10 then None else best_ratio (qmax mx (s / c)) cr sr
  | _, _ => Some mx
  end.
(** lines 127-156, [fuel] iterations *)
Fixpoint cutoff_loop (fuel : nat) (h : hist) (ratio mag md : Q) : bool * Q :=
  match fuel with
  | O => (true, md)
  | S fuel' =>
      let cnt := rebin (h_cnt h) (h_max h) md 4 in
      let sum := rebin (h_sum h) (h_max h) md 4 in
      match best_ratio (-(1)) cnt sum with
      | None => (false, md)
      | Some mx =>
          if qlt mx 0 then (false, md)
          else
            let r := (nth 3 sum 0 / nth 3 cnt 0) / mx in
            if qlt r ratio then cutoff_loop fuel' h ratio mag (md / mag)
            else if qlt ratio r then cutoff_loop fuel' h ratio mag (md * mag)
            else cutoff_loop fuel' h ratio mag md
      end
  end.
(** lines 110-157 *)
Definition h_update_cutoff (h : hist) (ratio md mag : Q) : bool * Q := cutoff_loop 10 h ratio mag md.

(** update_histogram.hpp:187-276 *)
Record opt := Opt { o_nb : nat; o_max : Q; o_hist : list hist; o_cut : list Q }.
(** lines 189-198 *)
Definition o_init (nb : nat) (mx : Q) (flavors : nat) (c0 : Q) : opt :=
  Opt nb mx (repeat (h_init nb mx) flavors) (repeat c0 flavors).
(** lines 200-203 *)
Definition o_add (o : opt) (d v : Q) (f : nat) : opt :=
  Opt (o_nb o) (o_max o) (upd (fun h => fst (add_sample h d v)) f (o_hist o)) (o_cut o).
(** lines 246-253; max_element of an empty vector is undefined, here [0] *)
Definition max_elem (l : list Q) : Q := match l with [] => 0 | x :: r => fold_left qmax r x end.
Definition new_cuts (ratio mag : Q) (hs : list hist) (cs : list Q) : list Q :=
  map (fun p => snd (h_update_cutoff (fst p) ratio (snd p) mag)) (combine hs cs).
Definition o_update (o : opt) (ratio mag : Q) : opt * Q :=
  let cs := new_cuts ratio mag (o_hist o) (o_cut o) in
  (Opt (o_nb o) (o_max o) (o_hist o) cs, qmax (max_elem cs) (o_max o / qn (o_nb o))).
(** lines 263-267 *)
Definition o_reset (o : opt) : opt := Opt (o_nb o) (o_max o) (map h_reset (o_hist o)) (o_cut o).

(** The step sizes of SingleOperatorShiftUpdater (moves.hpp:284-288, moves.ipp:648-665) *)
Record shift := Shift { s_dist : list Q; s_opt : opt }.
Definition shift_init (beta : Q) (flavors nb : nat) : shift :=
  Shift (repeat (beta / 2) flavors) (o_init nb (beta / 2) flavors (beta / 2)).
(** call_back after a generated move (moves.ipp:648-658) *)
Definition shift_sample (s : shift) (d : Q) (accepted : bool) (f : nat) : shift :=
  Shift (s_dist s) (o_add (s_opt s) d (if accepted then 1 else 0) f).
(** update_parameters: one update_cutoff per flavor, and each of them updates the cutoffs of all flavors *)
Fixpoint shift_params (fl : nat) (o : opt) : list Q * opt :=
  match fl with
  | O => ([], o)
  | S n => let (o1, d) := o_update o (1 # 100) (21 # 20) in
           let (ds, o2) := shift_params n o1 in (d :: ds, o2)
  end.
Definition shift_update (s : shift) : shift :=
  let (ds, o) := shift_params (length (s_dist s)) (s_opt s) in Shift ds o.
(** finalize_learning (moves.hpp:302) and measure_acc_rate (moves.ipp:681) only reset the histograms *)
Definition shift_reset (s : shift) : shift := Shift (s_dist s) (o_reset (s_opt s)).
(** The events of a run that concern the step size: a move with its outcome, a sweep's call of
    update_MC_parameters (only before thermalization, impurity.ipp:239-241, 696-700), a reset, and the moment
    the run becomes thermalized (impurity.hpp:88-92; never withdrawn). *)
Inductive ev := EvSample (d : Q) (accepted : bool) (f : nat) | EvUpdate | EvReset | EvThermalized.
Definition shift_step (st : bool * shift) (e : ev) : bool * shift :=
  let (th, s) := st in
  match e with
  | EvSample d a f => (th, shift_sample s d a f)
  | EvUpdate => (th, if th then s else shift_update s)
  | EvReset => (th, shift_reset s)
  | EvThermalized => (true, s)
  end.
Definition shift_run (st : bool * shift) (es : list ev) : bool * shift := fold_left shift_step es st.

(** The worm mover's step size (moves.hpp:370, moves.ipp:911-928): one flavor, ratio 0.1 *)
Definition mover_update (o : opt) : opt * Q := o_update o (1 # 10) (21 # 20).

(** update_histogram.hpp:278-356; [tc_actual]: actual_thermalization_steps_ *)
Record therm := Therm { tc_max : Z; tc_done : bool; tc_series : list Q; tc_actual : Z }.
Definition tc_init (mx : Z) : therm := Therm mx false [] (-1000000000).
(** lines 288-293 *)
Definition tc_add (t : therm) (x : Q) : therm :=
  if tc_done t then t else Therm (tc_max t) (tc_done t) (tc_series t ++ [x]) (tc_actual t).
(** lines 295-300; [None] is the runtime_error *)
Definition tc_get (t : therm) : option Z := if tc_done t then Some (tc_actual t) else None.
Definition qmin (x y : Q) : Q := if Qle_bool x y then x else y.
Definition list_min (l : list Q) : Q := match l with [] => 0 | x :: r => fold_left qmin r x end.
(** lines 306-347 *)
Definition tc_flat (series : list Q) : bool :=
  let bin_size := (length series / 10)%nat in
  let rb := rebin_blocks series bin_size in
  let half := skipn (length rb / 2) rb in
  qlt (max_elem half - list_min half) ((1 # 20) * max_elem half).
Definition tc_update (t : therm) (steps : Z) : therm :=
  if tc_done t then t
  else if (tc_max t <=? steps)%Z then Therm (tc_max t) true (tc_series t) steps
  else if (0 <? tc_actual t)%Z then
    if (steps <? tc_actual t)%Z then t else Therm (tc_max t) true (tc_series t) (tc_actual t)
  else if (Z.of_nat (length (tc_series t)) <? 10000)%Z then t
  else if tc_flat (tc_series t) then Therm (tc_max t) false (tc_series t) (5 * steps)
  else t.
Inductive tev := TAdd (x : Q) | TUpdate (steps : Z).
Definition tc_step (t : therm) (e : tev) : therm := match e with TAdd x => tc_add t x | TUpdate s => tc_update t s end.
Definition tc_run (t : therm) (es : list tev) : therm := fold_left tc_step es t.

(** update_histogram.hpp:359-378 *)
Definition rec_push (mx : nat) (l : list Z) (x : Z) : list Z :=
  let l' := l ++ [x] in if (mx <? length l')%nat then tl l' else l'.
Definition rec_mean (l : list Z) : Q := qz (fold_left Z.add l 0%Z) / qn (length l).
