(** * Measure: the Green's function measurements and the fidelity-susceptibility estimator
    Model of src/measurement/measurement.hpp and of the parts of src/measurement/measurement.ipp and src/impurity.ipp named
    below.
    - Times are integers (ticks); [tick] is the length of a tick, [val] the time as a number. Numbers are exact.
    - A multi_array is a function of its indices; flavors are taken to be inside its bounds (they come from the model).
    - Assertions are left out (debug builds only). The random reduction to max_num_ops rows, the cutoff of small entries
      and the extended matrix of GMeasurement::measure_via_hyb (ipp:149-270) are in MeasureHyb.v. *)
From Coq Require Import ZArith.
From mathcomp Require Import all_ssreflect all_algebra zify ssrZ.
From Verif Require Import OpContainer Dist Proposal EigenBasis Legendre DetMatrix DetPartitioned.
Import Order.Theory GRing.Theory Num.Theory.
Set Implicit Arguments.
Unset Strict Implicit.
Unset Printing Implicit Defensive.
Local Close Scope Z_scope.
Local Open Scope nat_scope.
Local Open Scope ring_scope.
Delimit Scope Z_scope with coqZ.

(** ** The fidelity susceptibility *)
(** measurement.hpp:172-174: Window::operator(); operator.hpp:72-75 for >= *)
Definition in_window (lower upper : optime) (x : psi) : bool := ot_le lower (p_time x) && ot_lt (p_time x) upper.
(** measurement.hpp:185-189; [half] is 0.5*beta. kL*(operators.size()-kL) is computed in size_t and returned as unsigned:
    modulo 2^32 (size_t is taken to be wide enough) *)
Definition measure_kLkR (ops : container) (half start : Z) : nat :=
  let kL := count (in_window (OT start 0) (OT (start + half)%coqZ 0)) ops in
  ((kL * (size ops - kL)) %% 2 ^ 32)%N.

(** A call returns, throws std::runtime_error, or is undefined *)
Inductive mres (A : Type) := MOk of A | MThrow | MUB.
Arguments MOk {A}. Arguments MThrow {A}. Arguments MUB {A}.

Section Measure.
Variable K : numFieldType.
Variable tick : K.
Variable beta : Z.
(** the table of Legendre polynomials *)
Variable t : transformer K.
(** conjugation *)
Variable cj : K -> K.
Definition val (x : Z) : K := (int_of_Z x)%:~R * tick.
Definition temperature : K := 1 / val beta.
(** [2 * argument * temperature - 1.0] *)
Definition xarg (argument : Z) : K := 2%:R * val argument * temperature - 1.
(** operator.hpp:84-86: the difference of two operator times ignores the small index *)
Definition tdiff (a b : psi) : Z := (ot_time (p_time a) - ot_time (p_time b))%coqZ.

(** ** Z space: measurement.hpp:25-150, GreensFunctionLegendreMeasurement *)
(** g_meas_[flavor_a][flavor_c][il] *)
Definition garr : Type := nat -> nat -> nat -> K.
Definition garr0 : garr := fun _ _ _ => 0.
Definition gadd (g : garr) (fa fc il : nat) (x : K) : garr :=
  fun a c l => if [&& a == fa, c == fc & l == il] then g a c l + x else g a c l.
(** 115-125: the members that change *)
Record gm := GM { n_meas : nat; g_meas : garr }.
Definition gm0 : gm := GM 0 garr0.
(** get_cdagg_ops(block), get_c_ops(block), compute_inverse_matrix(block) *)
Record mblk := MBlk { mb_cd : seq psi; mb_c : seq psi; mb_inv : mat K }.
Definition blocks_of (M : pm K) : seq mblk :=
  [seq MBlk (s_ops (d_cdagg m)) (s_ops (d_c m)) (d_inv m) | m <- pm_mats M].
(** 79-87: the argument brought into the interval, with its sign *)
Definition bubble (argument : Z) : K * Z := if (0 <? argument)%coqZ then (1, argument) else (-1, (argument + beta)%coqZ).
(** 93-96: for (il...) g_meas_[flavor_a][flavor_c][il] += coeff * sqrt_2l_1[il] * Pl_vals[il] *)
Definition add_row (fa fc : nat) (coeff : K) (pl : seq K) (g : garr) : garr :=
  foldl (fun g il => gadd g fa fc il (coeff * nth 0 (sqrt_2l_1 t) il * nth 0 pl il)) g (iota 0 (n_legendre t)).
(** 77-97: one pair; the work array Pl_vals is carried along. None: outside of the array *)
Definition pair_step (sign : K) (b : mblk) (k l : nat) (st : seq K * garr) : option (seq K * garr) :=
  let it1 := nth psi0 (mb_c b) k in
  let it2 := nth psi0 (mb_cd b) l in
  let: (bubble_sign, argument) := bubble (tdiff it1 it2) in
  match compute_legendre t (xarg argument) st.1 with
  | Some pl =>
    let coeff := - me (mb_inv b) l k * bubble_sign * sign * temperature in
    Some (pl, add_row (p_flavor it1) (p_flavor it2) coeff pl st.2)
  | None => None
  end.
(** a loop that ends at the first undefined step *)
Definition ofold A B (f : A -> B -> option A) (st : option A) (s : seq B) : option A :=
  foldl (fun st x => obind (fun a => f a x) st) st s.
(** 65-98; incrementing or dereferencing the iterators beyond the ends of the operator lists is undefined *)
Definition block_step (sign : K) (st : seq K * garr) (b : mblk) : option (seq K * garr) :=
  if (mr (mb_inv b) <= size (mb_c b))%N && (mc (mb_inv b) <= size (mb_cd b))%N then
    ofold (fun st k => ofold (fun st l => pair_step sign b k l st) (Some st) (iota 0 (mc (mb_inv b))))
      (Some st) (iota 0 (mr (mb_inv b)))
  else None.
(** 54-99; [order] is mc_config.pert_order() *)
Definition measure (order : nat) (sign : K) (bs : seq mblk) (g : gm) : option gm :=
  if order == 0%N then Some (GM (n_meas g).+1 (g_meas g))
  else omap (fun st => GM (n_meas g).+1 st.2) (ofold (block_step sign) (Some (nseq (n_legendre t) 0, g_meas g)) bs).
(** 106-137; [nf] flavors. None: an exception *)
Definition get_measured (nf : nat) (rot : mat K) (g : gm) : option garr :=
  if n_meas g == 0%N then None
  else Some (fun f1 f2 il =>
    me (mmul (mmul rot (Mat nf nf (fun a c => g_meas g a c il / (n_meas g)%:R))) (madj cj rot)) f1 f2).
Definition reset (g : gm) : gm := gm0.

(** ** How the measurements reach the observable: impurity.ipp:267 (every step in the Z space) and 423-437 (every
    call of measure() that finds the configuration in the Z space) *)
Inductive event := Step (order : nat) (sign : K) (bs : seq mblk) | Collect.
(** The state and what has been put into the observable "Greens_legendre" so far *)
Definition event_step (nf : nat) (rot : mat K) (st : gm * seq garr) (e : event) : option (gm * seq garr) :=
  match e with
  | Step order sign bs => omap (fun g => (g, st.2)) (measure order sign bs st.1)
  | Collect => if (0 < n_meas st.1)%N then omap (fun r => (reset st.1, rcons st.2 r)) (get_measured nf rot st.1) else Some st
  end.
Definition run_events nf rot (es : seq event) : option (gm * seq garr) := ofold (event_step nf rot) (Some (gm0, [::])) es.
(** The mean of an accumulator without bins *)
Definition mean_of (I : Type) (s : seq (I -> K)) (i : I) : K := (\sum_(x <- s) x i) / (size s)%:R.

(** ** Worm spaces: measurement.hpp:318-375, ipp:297-309: GMeasurement.  [I] is the index set of data_ *)
Section GMeasurement.
Variable I : Type.
Record gmeas := GMeas { num_data : nat; data : I -> K }.
Definition gmeas0 : gmeas := GMeas 0 (fun _ => 0).
(** ipp:287-309: perform adds [contrib] to data_; then the batch is passed on when it is full *)
Definition gmeas_step (max_num_data : nat) (st : gmeas * seq (I -> K)) (contrib : I -> K) : gmeas * seq (I -> K) :=
  let d i := data st.1 i + contrib i in
  let n := (num_data st.1).+1 in
  if n == max_num_data then (gmeas0, rcons st.2 (fun i => d i / max_num_data%:R)) else (GMeas n d, st.2).
Definition gmeas_run (max_num_data : nat) (cs : seq (I -> K)) : gmeas * seq (I -> K) :=
  foldl (gmeas_step max_num_data) (gmeas0, [::]) cs.
End GMeasurement.

(** ** ipp:322-384: MeasureGHelper<SCALAR, 1>::perform *)
Section Helper1.
Variables (sign weight_rat : K) (cd c : seq psi) (M : mat K).
(** the auxiliary line *)
Definition aux : nat := (mr M - 1)%N.
(** ipp:350 *)
Definition bubble1 (argument : Z) : K := if (0 <? argument)%coqZ then 1 else -1.
(** ipp:341-355 *)
Definition coeffs (k l : nat) : K :=
  if me M l k == 0 then 0
  else (me M l k * me M aux aux - me M l aux * me M aux k) * bubble1 (tdiff (nth psi0 c k) (nth psi0 cd l)) * sign * weight_rat.
Definition norm1 : K :=
  foldl (fun n k => foldl (fun n l => if me M l k == 0 then n else n + `|coeffs k l|) n (iota 0 aux)) 0 (iota 0 aux).
(** ipp:368-371 *)
Definition shift1 (argument : Z) : Z := if (argument <? 0)%coqZ then (argument + beta)%coqZ else argument.
(** ipp:360-382.  None: outside of an array *)
Definition pair1 (scale_fact : K) (k l : nat) (st : seq K * garr) : option (seq K * garr) :=
  if me M l k == 0 then Some st else
  let it1 := nth psi0 c k in
  let it2 := nth psi0 cd l in
  match compute_legendre t (xarg (shift1 (tdiff it1 it2))) st.1 with
  | Some pl => Some (pl, add_row (p_flavor it1) (p_flavor it2) (scale_fact * coeffs k l) pl st.2)
  | None => None
  end.
(** Inl: the new data; Inr true: undefined; Inr false: 0/0 is added to the data (every weight is 0 although some entry
    of M is not) *)
Definition perform1 (result : garr) : garr + bool :=
  if ~~ ((aux <= size c) && (aux <= size cd))%N then inr true
  else if (norm1 == 0) && has (fun k => has (fun l => me M l k != 0) (iota 0 aux)) (iota 0 aux) then inr false
  else
    let scale_fact := - 1 / (norm1 * val beta) in
    match ofold (fun st k => ofold (fun st l => pair1 scale_fact k l st) (Some st) (iota 0 aux))
                (Some (nseq (n_legendre t) 0, result)) (iota 0 aux) with
    | Some st => inl st.2
    | None => inr true
    end.
End Helper1.

(** ** ipp:386-533: MeasureGHelper<SCALAR, 2>::perform: the values of the polynomials *)
(** ipp:417-435: sqrt_2l_1_Pl[k][l][il] and sqrt_2l_1_Pl_p[k][l][il] *)
Definition shift2 (argument : Z) : K * Z := if (argument <? 0)%coqZ then (-1, (argument + beta)%coqZ) else (1, argument).
Definition pl2 (a b : psi) (il : nat) : option K :=
  let: (arg_sign, argument) := shift2 (tdiff a b) in
  omap (fun pl => arg_sign * nth 0 pl il * nth 0 (sqrt_2l_1 t) il) (compute_legendre t (xarg argument) (nseq (n_legendre t) 0)).
(** sqrt_2l_1_p: il = 0, 2, 4, ... get the opposite sign *)
Definition sqrt_p (il : nat) : K := if odd il then nth 0 (sqrt_2l_1 t) il else - nth 0 (sqrt_2l_1 t) il.
Definition pl2p (a b : psi) (il : nat) : option K :=
  let: (arg_sign, argument) := shift2 (tdiff a b) in
  omap (fun pl => arg_sign * nth 0 pl il * sqrt_p il) (compute_legendre t (xarg argument) (nseq (n_legendre t) 0)).

(** ** ipp:118-146: TwoTimeG2Measurement::measure_impl *)
(** data[f0][f1][f2][f3][il] *)
Definition darr : Type := seq nat -> nat -> K.
Definition same_time (a b : psi) : bool := Z.eqb (ot_time (p_time a)) (ot_time (p_time b)).
Definition measure_impl (w : seq psi) (weight : K) (data : darr) : mres darr :=
  let op i := nth psi0 w i in
  if ~~ same_time (op 0%N) (op 1%N) then MThrow
  else if ~~ same_time (op 2%N) (op 3%N) then MThrow
  else
    let d := tdiff (op 0%N) (op 2%N) in
    let d := if (d <? 0)%coqZ then (d + beta)%coqZ else d in
    let fl := [seq p_flavor (op i) | i <- iota 0 4] in
    match compute_legendre t (2%:R * val d / val beta - 1) (nseq (n_legendre t) 0) with
    | Some pl => MOk (foldl (fun (da : darr) il => fun fs l =>
                        if (fs == fl) && (l == il) then da fs l + weight * nth 0 (sqrt_2l_1 t) il * nth 0 pl il else da fs l)
                      data (iota 0 (n_legendre t)))
    | None => MUB
    end.
End Measure.
