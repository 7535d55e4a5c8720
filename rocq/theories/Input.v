(** * Input: the Coulomb tensor, the hopping matrix, the hybridization function and the list of correlation functions as they are read

    Model of src/model/model.ipp:101-230 (read_U_tensor, read_hopping), 268-304 (the file branch of
    read_hybridization_function), 326-341 (the file of read_rotation_hybridization_function), src/impurity_init.ipp:403-477
    (read_two_time_correlation_functions) and src/util.cpp:5-13 (mycast).

    A file is the sequence of its pieces of text between white space.  What operator>> makes of a piece is part of the piece:
    a value and the text that is left over (reading an int from "1.5" gives 1 and leaves ".5"), or a value that is stored although
    the conversion failed (0, or the largest int).  A stream that failed stays failed, and a failed stream leaves the variable
    as it was; the same holds at the end of the file.  [None] stands for a variable that was never set; using it is
    undefined behavior.  Doubles are elements of the field of scalars, without rounding.  Not modelled: opening of files and the
    parameters themselves ([command_line_mode] and the like arrive as arguments), verbose output. *)
From Coq Require Import ZArith.
From mathcomp Require Import all_ssreflect all_algebra.
From Verif Require Import Hyb.
Import GRing.Theory Num.Theory.
Set Implicit Arguments.
Unset Strict Implicit.
Unset Printing Implicit Defensive.
Local Open Scope ring_scope.
Local Delimit Scope Z_scope with coqZ.

(** UB: a variable is used that was never set. Throw: runtime_error or length_error. *)
Inductive outcome (A : Type) := Done (a : A) | Throw | UB.
Arguments Throw {A}.
Arguments UB {A}.

Section Text.
Variable D : Type.
(** The conversion of a piece of text: the value and the text that is left, or failure with the value that is stored *)
Inductive conv (T A : Type) := Good (a : A) (rest : seq T) | Bad (a : A).
Inductive token := Token (as_int : conv token Z) (as_double : conv token D).
Record stream := Stream { text : seq token; good : bool }.
(** operator>> *)
Definition get (A : Type) (as_ : token -> conv token A) (s : stream) (old : option A) : option A * stream :=
  if ~~ good s then (old, s) else
  match text s with
  | [::] => (old, Stream [::] false)
  | t :: l => match as_ t with
              | Good a rest => (Some a, Stream (rest ++ l) true)
              | Bad a => (Some a, Stream l false)
              end
  end.
Definition as_int (t : token) := let: Token i _ := t in i.
Definition as_double (t : token) := let: Token _ d := t in d.
Definition get_int : stream -> option Z -> option Z * stream := get as_int.
Definition get_double : stream -> option D -> option D * stream := get as_double.
Definition use (A B : Type) (v : option A) (k : A -> outcome B) : outcome B := if v is Some a then k a else UB.
(** f < 0 || f >= flavors *)
Definition check_flavor (B : Type) (n : nat) (f : option Z) (k : 'I_n -> outcome B) : outcome B :=
  use f (fun f => if (f <? 0)%coqZ || (Z.of_nat n <=? f)%coqZ then Throw else
                  if insub (Z.to_nat f) is Some i then k i else Throw).
End Text.
Arguments Good {T A} _ _.
Arguments Bad {T A} _.

Section Model.
Variables (K : numClosedFieldType) (n : nat) (real_solver : bool).
Notation token := (token K).
Notation stream := (stream K).
Notation uvals := (seq ('I_n * 'I_n * 'I_n * 'I_n * K)).
Notation tvals := (seq ('I_n * 'I_n * K)).
(** std::complex<double>(re, im) *)
Definition cplx (re im : K) : K := re + 'i * im.
(** util.cpp:5-13 *)
Definition mycast (z : K) : K := if real_solver then 'Re z else z.
Definition half : K := 2%:R^-1.

(** model.ipp:146-164: [k] lines are left, the next one is line [i] *)
Fixpoint read_U_lines (k : nat) (i : Z) (s : stream) (acc : uvals) : outcome (uvals * stream) :=
  if k is k'.+1 then
    let: (line, s) := get_int s None in
    let: (f0, s) := get_int s None in
    let: (f1, s) := get_int s None in
    let: (f2, s) := get_int s None in
    let: (f3, s) := get_int s None in
    let: (re, s) := get_double s None in
    let: (im, s) := get_double s None in
    use line (fun line => if ~~ (line =? i)%coqZ then Throw else
    check_flavor f0 (fun f0 => check_flavor f1 (fun f1 => check_flavor f2 (fun f2 => check_flavor f3 (fun f3 =>
    use re (fun re => use im (fun im =>
      read_U_lines k' (i + 1)%coqZ s (rcons acc (f0, f1, f2, f3, half * mycast (cplx re im)))))))))) 
  else Done (acc, s).
(** model.ipp:134-165.  A negative number is not refused (137: the exception is made, not thrown), but reserve (143) is
    called with the number as a size_t and throws length_error. *)
Definition read_U_file (s : stream) : outcome (uvals * stream) :=
  let: (num_elem, s) := get_int s None in
  use num_elem (fun num_elem => if (num_elem <? 0)%coqZ then Throw else read_U_lines (Z.to_nat num_elem) 0%coqZ s [::]).

(** model.ipp:110-123: the loops over the flavors, [idx] counts the elements *)
Definition keys2 : seq ('I_n * 'I_n) := [seq (a, b) | a <- enum 'I_n, b <- enum 'I_n].
Definition keys4 : seq ('I_n * 'I_n * 'I_n * 'I_n) :=
  [seq (abc, d) | abc <- [seq (ab, c) | ab <- keys2, c <- enum 'I_n], d <- enum 'I_n].
Fixpoint collect_U (ks : seq ('I_n * 'I_n * 'I_n * 'I_n)) (res ims : seq K) (acc : uvals) : uvals :=
  match ks, res, ims with
  | k :: ks, re :: res, im :: ims =>
      let ztmp := cplx re im in
      collect_U ks res ims (if `|ztmp| != 0 then rcons acc (k, mycast (half * ztmp)) else acc)
  | _, _, _ => acc
  end.
(** model.ipp:103-123 *)
Definition read_U_command_line (res ims : seq K) : outcome uvals :=
  if (size res != n * n * n * n)%N || (size ims != n * n * n * n)%N then Throw else Done (collect_U keys4 res ims [::]).
(** model.ipp:168-175; flavor 2 * site and 2 * site + 1 *)
Definition read_onsite_U (spins sites : nat) (u : K) (flavor : nat -> 'I_n) : uvals :=
  if spins == 2%N then
    [seq (flavor (2 * site)%N, flavor (2 * site + 1)%N, flavor (2 * site + 1)%N, flavor (2 * site)%N, half * u) | site <- iota 0 sites]
  else [::].

(** A table with one line per pair of flavors, in the order of the loops: model.ipp:206-226 and 326-341.  [put] is what is
    done with the two numbers of a line. *)
Fixpoint read_table (A : Type) (put : A -> 'I_n * 'I_n -> K -> K -> A) (ks : seq ('I_n * 'I_n)) (s : stream) (acc : A) : outcome (A * stream) :=
  if ks is (f0, f1) :: ks' then
    let: (f0_in, s) := get_int s None in
    let: (f1_in, s) := get_int s None in
    let: (re, s) := get_double s None in
    let: (im, s) := get_double s None in
    use f0_in (fun f0_in => if ~~ (Z.of_nat f0 =? f0_in)%coqZ then Throw else
    use f1_in (fun f1_in => if ~~ (Z.of_nat f1 =? f1_in)%coqZ then Throw else
    use re (fun re => use im (fun im => read_table put ks' s (put acc (f0, f1) re im)))))
  else Done (acc, s).
(** model.ipp:206-226 *)
Definition put_hopping (acc : tvals) (k : 'I_n * 'I_n) (re im : K) : tvals :=
  let hopping := mycast (cplx re im) in if `|hopping| != 0 then rcons acc (k, hopping) else acc.
Definition read_t_file (s : stream) : outcome (tvals * stream) := read_table put_hopping keys2 s [::].
(** model.ipp:181-198 *)
Fixpoint collect_t (ks : seq ('I_n * 'I_n)) (res ims : seq K) (acc : tvals) : tvals :=
  match ks, res, ims with
  | k :: ks, re :: res, im :: ims =>
      let hopping := mycast (cplx re im) in
      collect_t ks res ims (if `|hopping| != 0 then rcons acc (k, hopping) else acc)
  | _, _, _ => acc
  end.
Definition read_t_command_line (res ims : seq K) : outcome tvals :=
  if (size res != n * n)%N || (size ims != n * n)%N then Throw else Done (collect_t keys2 res ims [::]).

(** model.ipp:326-341: the matrix before normalization *)
Definition put_basis (M : 'M[K]_n) (k : 'I_n * 'I_n) (re im : K) : 'M[K]_n :=
  \matrix_(a, b) (if (a, b) == k then mycast (cplx re (- im)) else M a b).
Definition read_basis_file (s : stream) : outcome ('M[K]_n * stream) := read_table put_basis keys2 s 0.

(** model.ipp:274-303.  The five variables live outside of the loops: a failed stream leaves the numbers of the line before *)
Record delta_vars := DeltaVars { v_it : option Z; v_i : option Z; v_j : option Z; v_re : option K; v_im : option K }.
Fixpoint read_delta_lines (np1 : nat) (ks : seq (nat * nat * nat)) (s : stream) (v : delta_vars) (F : Hyb.table K) :
    outcome (Hyb.table K * stream) :=
  if ks is (time, i, j) :: ks' then
    let: (it, s) := get_int s (v_it v) in
    let: (di, s) := get_int s (v_i v) in
    let: (dj, s) := get_int s (v_j v) in
    let: (re, s) := get_double s (v_re v) in
    let: (im, s) := get_double s (v_im v) in
    use it (fun it_ => if ~~ (it_ =? Z.of_nat time)%coqZ then Throw else
    use di (fun di_ => if ~~ (di_ =? Z.of_nat i)%coqZ then Throw else
    use dj (fun dj_ => if ~~ (dj_ =? Z.of_nat j)%coqZ then Throw else
    use re (fun re_ => use im (fun im_ =>
      read_delta_lines np1 ks' s (DeltaVars it di dj re im) (Hyb.tset K F j i (np1 - time - 1)%N (- mycast (cplx re_ im_))))))))
  else Done (F, s).
Definition read_delta_file (np1 : nat) (s : stream) : outcome (Hyb.table K * stream) :=
  read_delta_lines np1 (loop3 np1 n) s (DeltaVars None None None None None) (fun _ _ _ => 0).

(** impurity_init.ipp:442-468: a pair of density operators (f, f) and (g, g) per line *)
Fixpoint read_corr_lines (k : nat) (i : Z) (s : stream) (acc : seq (('I_n * 'I_n) * ('I_n * 'I_n))) :
    outcome (seq (('I_n * 'I_n) * ('I_n * 'I_n))) :=
  if k is k'.+1 then
    let: (line, s) := get_int s None in
    use line (fun line => if ~~ (line =? i)%coqZ then Throw else
    let: (f, s) := get_int s None in
    check_flavor f (fun f =>
    let: (g, s) := get_int s None in
    check_flavor g (fun g => read_corr_lines k' (i + 1)%coqZ s (rcons acc ((f, f), (g, g))))))
  else Done acc.
(** impurity_init.ipp:427-477; [num_def] is the parameter measurement.nn_corr.n_def, [num_tau] is n_tau (412) *)
Definition read_corr (num_tau num_def : Z) (s : stream) : outcome (seq (('I_n * 'I_n) * ('I_n * 'I_n))) :=
  if (num_tau =? 1)%coqZ then Throw else
  let: (num_elem, s) := get_int s None in
  use num_elem (fun num_elem =>
    if (num_elem <? 0)%coqZ then Throw else
    if ~~ (num_elem =? num_def)%coqZ then Throw else read_corr_lines (Z.to_nat num_elem) 0%coqZ s [::]).
End Model.
