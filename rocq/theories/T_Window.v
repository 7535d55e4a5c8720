(** * C19, C20, C21, C23: window positions, sweeps, partition of the operators, save and restore *)
From Coq Require Import ZArith Lia List Bool Sorting.Permutation Sorting.Sorted.
From mathcomp Require Import all_ssreflect all_algebra zify.
From Verif Require Import OpContainer Window.
Import ListNotations.
Set Implicit Arguments.
Unset Strict Implicit.
Unset Printing Implicit Defensive.
Local Close Scope Z_scope.
Local Open Scope nat_scope.
Delimit Scope Z_scope with coqZ.

Section TWindow.
Variable K : numFieldType.
Variables (Ket Bra : Type) (outer : list (Bra * Ket)).
Variables (ket_invalid : Ket -> bool) (bra_invalid : Bra -> bool) (ket_nil : Ket) (bra_nil : Bra).
Variables (apply_ket : optype -> nat -> Ket -> Ket) (apply_bra : optype -> nat -> Bra -> Bra).
Variables (prop_ket : Z -> Ket -> Ket) (prop_bra : Z -> Bra -> Bra).
Variables (normalize_ket : Ket -> Ket) (normalize_bra : Bra -> Bra).
Variables (norm_ket : Ket -> K) (norm_bra : Bra -> K).
Variable tau : nat -> nat -> Z.
Variable cut : K.

Notation sw := (sw K Ket Bra).
Notation pushk := (push_ket ket_invalid ket_nil apply_ket prop_ket normalize_ket norm_ket cut).
Notation pushb := (push_bra bra_invalid bra_nil apply_bra prop_bra normalize_bra norm_bra cut).
Notation fright := (forward_right1 ket_invalid ket_nil apply_ket prop_ket normalize_ket norm_ket tau cut).
Notation fleft := (forward_left1 bra_invalid bra_nil apply_bra prop_bra normalize_bra norm_bra tau cut).
Notation setw := (set_window_size ket_invalid bra_invalid ket_nil bra_nil apply_ket apply_bra prop_ket prop_bra
  normalize_ket normalize_bra norm_ket norm_bra tau cut).
Notation nextw := (move_window_to_next_position ket_invalid bra_invalid ket_nil bra_nil apply_ket apply_bra prop_ket prop_bra
  normalize_ket normalize_bra norm_ket norm_bra tau cut).
Notation movew := (move_window_to ket_invalid bra_invalid ket_nil bra_nil apply_ket apply_bra prop_ket prop_bra
  normalize_ket normalize_bra norm_ket norm_bra tau cut).
Notation restorew := (restore_state ket_invalid bra_invalid ket_nil bra_nil apply_ket apply_bra prop_ket prop_bra
  normalize_ket normalize_bra norm_ket norm_bra tau cut).
Notation initw := (init_stacks outer ket_invalid bra_invalid ket_nil bra_nil apply_ket apply_bra prop_ket prop_bra
  normalize_ket normalize_bra norm_ket norm_bra tau cut).
Notation rightto := (move_right_edge_to ket_invalid ket_nil apply_ket prop_ket normalize_ket norm_ket tau cut).
Notation leftto := (move_left_edge_to bra_invalid bra_nil apply_bra prop_bra normalize_bra norm_bra tau cut).
Notation okets := (outer_kets outer normalize_ket norm_ket).
Notation obras := (outer_bras outer normalize_bra norm_bra).

(** ** Specification: the stacks are those obtained by moving the edges from the ends with the present operators *)
Fixpoint canonR (n : nat) (ops : container) (R : nat) : list (kframe K Ket) :=
  match R with
  | 0 => [okets]
  | S R' => pushk (range (rng_co (tau n R') (tau n R'.+1)) ops) (tau n R') (tau n R'.+1) (hd [] (canonR n ops R')) :: canonR n ops R'
  end.
(** [m]: number of steps from the left end *)
Fixpoint canonL (n : nat) (ops : container) (m : nat) : list (bframe K Bra) :=
  match m with
  | 0 => [obras]
  | S m' => pushb (range (rng_oc (tau n (2 * n - m)) (tau n (2 * n - m'))) ops) (tau n (2 * n - m')) (tau n (2 * n - m)) (hd [] (canonL n ops m')) :: canonL n ops m'
  end.

Record wf (ops : container) (s : sw) : Prop := Wf {
  wf_n : 1 <= nwin s;
  wf_R : posR s + 1 <= 2 * nwin s;
  wf_L1 : 1 <= posL s;
  wf_L2 : posL s <= 2 * nwin s;
  wf_right : right_states s = canonR (nwin s) ops (posR s);
  wf_left : left_states s = canonL (nwin s) ops (2 * nwin s - posL s) }.

(** The window between two updates. *)
Definition at_rest (s : sw) : Prop :=
  (nwin s = 1 /\ posR s = 0 /\ posL s = 2) \/
  (2 <= nwin s /\ posL s = posR s + 2 /\ posL s <= 2 * nwin s /\ dirn s <> None).

Lemma canonR_length n ops R : length (canonR n ops R) = R.+1.
Proof. by elim: R => //= R ->. Qed.
Lemma canonL_length n ops m : length (canonL n ops m) = m.+1.
Proof. by elim: m => //= m ->. Qed.
Lemma canonR_skip n ops k R : k <= R -> skipn k (canonR n ops R) = canonR n ops (R - k).
Proof. by elim: k R => [|k IH] [|R] // h /=; rewrite IH. Qed.
Lemma canonL_skip n ops k m : k <= m -> skipn k (canonL n ops m) = canonL n ops (m - k).
Proof. by elim: k m => [|k IH] [|m] // h /=; rewrite IH. Qed.

Lemma fright_ok ops s : wf ops s -> posR s + 2 <= 2 * nwin s ->
  exists s', fright ops s = WOk s' /\ wf ops s' /\ posR s' = posR s + 1 /\ posL s' = posL s /\ nwin s' = nwin s /\ dirn s' = dirn s.
Proof.
move=> [h1 h2 h3 h4 hr hl] h; rewrite /forward_right1 ltnNge h /=.
case er: (right_states s) => [|f r]; first by have := canonR_length (nwin s) ops (posR s); rewrite -hr er.
eexists; split; first reflexivity; split=> //.
split=> //=; first lia.
by rewrite -er hr addn1 /=; congr (pushk _ _ _ _ :: _); rewrite -hr er.
Qed.
Lemma fleft_ok ops s : wf ops s -> 2 <= posL s ->
  exists s', fleft ops s = WOk s' /\ wf ops s' /\ posR s' = posR s /\ posL s' = posL s - 1 /\ nwin s' = nwin s /\ dirn s' = dirn s.
Proof.
move=> [h1 h2 h3 h4 hr hl] h; rewrite /forward_left1 ltnNge h /= ltnNge h4 /=.
case er: (left_states s) => [|f r]; first by have := canonL_length (nwin s) ops (2 * nwin s - posL s); rewrite -hl er.
eexists; split; first reflexivity; split=> //.
split=> //=; first lia; first lia.
have -> : 2 * nwin s - (posL s - 1) = (2 * nwin s - posL s).+1 by lia.
rewrite -er hl /=.
have e1 : 2 * nwin s - (2 * nwin s - posL s) = posL s by lia.
have e2 : 2 * nwin s - (2 * nwin s - posL s).+1 = posL s - 1 by lia.
by rewrite e1 e2; congr (pushb _ _ _ _ :: _); rewrite -hl er.
Qed.
Lemma backR_ok ops s k : wf ops s -> k <= posR s ->
  exists s', move_backward_edge ITIME_RIGHT k s = WOk s' /\ wf ops s' /\ posR s' = posR s - k /\ posL s' = posL s /\ nwin s' = nwin s /\ dirn s' = dirn s.
Proof.
move=> [h1 h2 h3 h4 hr hl] h; rewrite /move_backward_edge ltnNge h /= /pop hr canonR_length ltnS h /=.
eexists; split; first reflexivity; split=> //; split=> //=; first lia.
by rewrite canonR_skip.
Qed.
Lemma backL_ok ops s k : wf ops s -> posL s + k <= 2 * nwin s ->
  exists s', move_backward_edge ITIME_LEFT k s = WOk s' /\ wf ops s' /\ posR s' = posR s /\ posL s' = posL s + k /\ nwin s' = nwin s /\ dirn s' = dirn s.
Proof.
move=> [h1 h2 h3 h4 hr hl] h; rewrite /move_backward_edge ltnNge h /= /pop hl canonL_length.
have -> : k < (2 * nwin s - posL s).+1 by lia.
eexists; split; first reflexivity; split=> //; split=> //=; first lia.
rewrite canonL_skip; last lia. by congr canonL; lia.
Qed.

Lemma witerS n (f : sw -> wres sw) s : witer n.+1 f s = wbind (f s) (witer n f).
Proof. by []. Qed.
Lemma fright_iter ops k s : wf ops s -> posR s + k + 1 <= 2 * nwin s ->
  exists s', witer k (fright ops) s = WOk s' /\ wf ops s' /\ posR s' = posR s + k /\ posL s' = posL s /\ nwin s' = nwin s /\ dirn s' = dirn s.
Proof.
elim: k s => [|k IH] s h hk; first by exists s; rewrite addn0.
have [|s1 [e1 [w1 [r1 [l1 [n1 d1]]]]]] := fright_ok h; first lia.
have [|s2 [e2 [w2 [r2 [l2 [n2 d2]]]]]] := IH s1 w1; first lia.
exists s2; rewrite /= e1 /= e2; split=> //; split=> //; split; first lia; split; first congruence; split; congruence.
Qed.
Lemma fleft_iter ops k s : wf ops s -> k + 1 <= posL s ->
  exists s', witer k (fleft ops) s = WOk s' /\ wf ops s' /\ posR s' = posR s /\ posL s' = posL s - k /\ nwin s' = nwin s /\ dirn s' = dirn s.
Proof.
elim: k s => [|k IH] s h hk; first by exists s; rewrite subn0.
have [|s1 [e1 [w1 [r1 [l1 [n1 d1]]]]]] := fleft_ok h; first lia.
have [|s2 [e2 [w2 [r2 [l2 [n2 d2]]]]]] := IH s1 w1; first lia.
exists s2; rewrite /= e1 /= e2; split=> //; split=> //; split; first congruence; split; first lia; split; congruence.
Qed.

Lemma resetR ops k s : wf ops s -> k <= posR s ->
  exists s', witer k (move_backward_edge ITIME_RIGHT 1) s = WOk s' /\ wf ops s' /\ posR s' = posR s - k /\ posL s' = posL s /\ nwin s' = nwin s /\ dirn s' = dirn s.
Proof.
elim: k s => [|k IH] s h hk; first by exists s; rewrite subn0.
have [|s1 [e1 [w1 [r1 [l1 [n1 d1]]]]]] := @backR_ok ops s 1 h; first lia.
have [|s2 [e2 [w2 [r2 [l2 [n2 d2]]]]]] := IH s1 w1; first lia.
exists s2; rewrite witerS e1 [wbind _ _]/= e2; split=> //; split=> //; split; first lia; split; first congruence; split; congruence.
Qed.
Lemma resetL ops k s : wf ops s -> posL s + k <= 2 * nwin s ->
  exists s', witer k (move_backward_edge ITIME_LEFT 1) s = WOk s' /\ wf ops s' /\ posR s' = posR s /\ posL s' = posL s + k /\ nwin s' = nwin s /\ dirn s' = dirn s.
Proof.
elim: k s => [|k IH] s h hk; first by exists s; rewrite addn0.
have [|s1 [e1 [w1 [r1 [l1 [n1 d1]]]]]] := @backL_ok ops s 1 h; first lia.
have [|s2 [e2 [w2 [r2 [l2 [n2 d2]]]]]] := IH s1 w1; first lia.
exists s2; rewrite witerS e1 [wbind _ _]/= e2; split=> //; split=> //; split; first congruence; split; first lia; split; congruence.
Qed.

Lemma reset_ok ops s : wf ops s ->
  exists s', reset s = WOk s' /\ right_states s' = [okets] /\ left_states s' = [obras] /\ dirn s' = dirn s.
Proof.
move=> h; rewrite /reset (wf_right h) canonR_length subn1.
have [|s1 [-> [w1 [r1 [l1 [n1 d1]]]]]] := @resetR ops (posR s) s h; first lia.
rewrite /= (wf_left w1) canonL_length subn1 /=.
have [|s2 [-> [w2 [r2 [l2 [n2 d2]]]]]] := @resetL ops (2 * nwin s1 - posL s1) s1 w1; first by have := wf_L2 w1; lia.
exists s2; split=> //; rewrite (wf_right w2) (wf_left w2).
have -> : posR s2 = 0 by lia.
have -> : 2 * nwin s2 - posL s2 = 0 by have := wf_L2 w1; lia.
by split=> //; split=> //; congruence.
Qed.

(** Direction after set_window_size *)
Definition norm_dir (n r : nat) (d : option itime) : option itime :=
  if r == 0 then Some ITIME_LEFT else if r == 2 * n - 2 then Some ITIME_RIGHT else d.

Definition base (s : sw) := right_states s = [okets] /\ left_states s = [obras].
Lemma setw_from ops n r d s s1 : reset s = WOk s1 -> base s1 -> 1 <= n -> (2 <= n -> r <= 2 * n - 2) ->
  exists s', setw n ops r d s = WOk s' /\ wf ops s' /\ nwin s' = n /\
    (if 2 <= n then posR s' = r /\ posL s' = r + 2 /\ dirn s' = norm_dir n r d
     else posR s' = 0 /\ posL s' = 2 /\ dirn s' = dirn s1).
Proof.
move=> e [b1 b2] hn hr; rewrite /set_window_size; have -> : (n == 0) = false by lia. rewrite e /=.
set s2 := SW _ _ _ _ _ _.
have w2 : wf ops s2 by split=> //=; rewrite ?b1 ?b2 ?subnn //; lia.
case: (leqP 2 n) => h2; last first.
  exists s2; split=> //; split=> //; split=> //=; split=> //; split=> //; lia.
have [|s3 [-> [w3 [r3 [l3 [n3 d3]]]]]] := @fright_iter ops r s2 w2; first by rewrite /=; have := hr h2; lia.
rewrite [wbind _ _]/=.
have [|s4 [-> [w4 [r4 [l4 [n4 d4]]]]]] := @fleft_iter ops (2 * n - 2 - r) s3 w3; first by rewrite l3 /=; lia.
rewrite [wbind _ _]/=.
have er : posR s4 = r by rewrite r4 r3.
have el : posL s4 = r + 2 by rewrite l4 l3 /=; have := hr h2; lia.
rewrite er el !eqxx /=; eexists; split; first reflexivity.
split; last by split.
have en : nwin s4 = n by rewrite n4 n3.
by case: w4; rewrite en er el => *; split.
Qed.
Lemma setw_ok ops0 ops n r d s : wf ops0 s -> 1 <= n -> (2 <= n -> r <= 2 * n - 2) ->
  exists s', setw n ops r d s = WOk s' /\ wf ops s' /\ nwin s' = n /\
    (if 2 <= n then posR s' = r /\ posL s' = r + 2 /\ dirn s' = norm_dir n r d
     else posR s' = 0 /\ posL s' = 2 /\ dirn s' = dirn s).
Proof.
move=> h hn hr; have [s1 [e1 [b1 [b2 d1]]]] := reset_ok h.
have [s' H] := @setw_from ops n r d s s1 e1 (conj b1 b2) hn hr; by exists s'; rewrite -d1.
Qed.
Lemma initw_ok ops n s : 1 <= n ->
  exists s', initw n ops s = WOk s' /\ wf ops s' /\ nwin s' = n /\
    (if 2 <= n then posR s' = 0 /\ posL s' = 2 /\ dirn s' = Some ITIME_LEFT
     else posR s' = 0 /\ posL s' = 2 /\ dirn s' = dirn s).
Proof.
move=> hn; have [//|s' H] := @setw_from ops n 0 (Some ITIME_LEFT) (SW [okets] [obras] (posL s) (posR s) (nwin s) (dirn s)) _ erefl (conj erefl erefl) hn.
by exists s'; move: H; case: ifP.
Qed.

(** ** C19 *)
Lemma rest_le ops s : wf ops s -> at_rest s -> posR s < posL s /\ posL s <= 2 * nwin s.
Proof. by case=> h1 h2 h3 h4 _ _ [[? [? ?]]|[? [? [? ?]]]]; lia. Qed.

Lemma nextw_ok ops s : wf ops s -> at_rest s ->
  exists s', nextw ops s = WOk s' /\ wf ops s' /\ at_rest s' /\ nwin s' = nwin s /\
    (if nwin s == 1 then s' = s
     else if (if dirn s is Some ITIME_LEFT then posL s != 2 * nwin s else posR s == 0)
          then posR s' = posR s + 1 /\ dirn s' = Some ITIME_LEFT
          else posR s' + 1 = posR s /\ dirn s' = Some ITIME_RIGHT).
Proof.
move=> h [[n1 hh]|[n2 [hl [hm hd]]]]; rewrite /move_window_to_next_position.
  rewrite n1; exists s; split=> //; split=> //; split; first by left.
  by split.
have -> : (nwin s == 1) = false by lia.
have L s0 : right_states s0 = right_states s -> left_states s0 = left_states s -> posL s0 = posL s -> posR s0 = posR s -> nwin s0 = nwin s ->
  dirn s0 = Some ITIME_LEFT -> posL s != 2 * nwin s ->
  exists s', movew ops ITIME_LEFT s0 = WOk s' /\ wf ops s' /\ at_rest s' /\ nwin s' = nwin s /\ posR s' = posR s + 1 /\ dirn s' = Some ITIME_LEFT.
  move=> e1 e2 e3 e4 e5 e6 e7; have w0 : wf ops s0 by case: h => *; split; rewrite ?e1 ?e2 ?e3 ?e4 ?e5.
  have [|s1 [f1 [w1 [r1 [l1 [m1 d1]]]]]] := fright_ok w0; first lia.
  have [|s2 [f2 [w2 [r2 [l2 [m2 d2]]]]]] := @backL_ok ops s1 1 w1; first lia.
  exists s2; rewrite [movew _ _ _]/move_window_to f1 /wbind f2; split=> //; split=> //.
  have ed : dirn s2 = Some ITIME_LEFT by congruence.
  split; last by split; [lia|split; [lia|]].
  by right; rewrite ed; split; [lia|split; [lia|split; [lia|]]].
have R s0 : right_states s0 = right_states s -> left_states s0 = left_states s -> posL s0 = posL s -> posR s0 = posR s -> nwin s0 = nwin s ->
  dirn s0 = Some ITIME_RIGHT -> posR s != 0 ->
  exists s', movew ops ITIME_RIGHT s0 = WOk s' /\ wf ops s' /\ at_rest s' /\ nwin s' = nwin s /\ posR s' + 1 = posR s /\ dirn s' = Some ITIME_RIGHT.
  move=> e1 e2 e3 e4 e5 e6 e7; have w0 : wf ops s0 by case: h => *; split; rewrite ?e1 ?e2 ?e3 ?e4 ?e5.
  have [|s1 [f1 [w1 [r1 [l1 [m1 d1]]]]]] := @backR_ok ops s0 1 w0; first lia.
  have [|s2 [f2 [w2 [r2 [l2 [m2 d2]]]]]] := fleft_ok w1; first lia.
  exists s2; rewrite [movew _ _ _]/move_window_to f1 /wbind f2; split=> //; split=> //.
  have ed : dirn s2 = Some ITIME_RIGHT by congruence.
  split; last by split; [lia|split; [lia|]].
  by right; rewrite ed; split; [lia|split; [lia|split; [lia|]]].
case ed: (dirn s) hd => [[]|] // _.
  case: (eqVneq (posL s) (2 * nwin s)) => e; [apply: R|apply: L] => //; lia.
case: (eqVneq (posR s) 0) => e; [apply: L|apply: R] => //; lia.
Qed.

Lemma leftto_ok ops s p : wf ops s -> 1 <= p -> p <= 2 * nwin s ->
  exists s', leftto ops p s = WOk s' /\ wf ops s' /\ posR s' = posR s /\ posL s' = p /\ nwin s' = nwin s /\ dirn s' = dirn s.
Proof.
move=> h h1 h2; rewrite /move_left_edge_to ltnNge h2 /=.
case: (ltngtP p (posL s)) => c.
- have [|s1 [e1 [w1 [r1 [l1 [m1 d1]]]]]] := @fleft_iter ops (posL s - p) s h; first lia.
  by exists s1; split=> //; split=> //; split=> //; split=> //; lia.
- have [|s1 [e1 [w1 [r1 [l1 [m1 d1]]]]]] := @backL_ok ops s (p - posL s) h; first lia.
  by exists s1; split=> //; split=> //; split=> //; split=> //; lia.
- by exists s; rewrite c.
Qed.
Lemma rightto_ok ops s p : wf ops s -> p + 1 <= 2 * nwin s ->
  exists s', rightto ops p s = WOk s' /\ wf ops s' /\ posR s' = p /\ posL s' = posL s /\ nwin s' = nwin s /\ dirn s' = dirn s.
Proof.
move=> h h2; rewrite /move_right_edge_to; have -> : 2 * nwin s < p = false by lia.
case: (ltngtP p (posR s)) => c.
- have [|s1 [e1 [w1 [r1 [l1 [m1 d1]]]]]] := @backR_ok ops s (posR s - p) h; first lia.
  by exists s1; split=> //; split=> //; split=> //; lia.
- have [|s1 [e1 [w1 [r1 [l1 [m1 d1]]]]]] := @fright_iter ops (p - posR s) s h; first lia.
  by exists s1; split=> //; split=> //; split=> //; lia.
- by exists s; rewrite c.
Qed.

(** Two window objects that cannot be told apart: they differ at most in a direction that is never read. *)
Definition same_window (s s' : sw) : Prop :=
  right_states s = right_states s' /\ left_states s = left_states s' /\ posL s = posL s' /\ posR s = posR s' /\ nwin s = nwin s' /\
  (2 <= nwin s -> dirn s' = norm_dir (nwin s) (posR s) (dirn s)).

(** Save the state of a window at rest, do anything that leaves a well-formed window, restore. *)
Lemma restorew_ok ops s s1 ops1 : wf ops s -> at_rest s -> wf ops1 s1 ->
  exists s', restorew ops (get_state s) s1 = WOk s' /\ wf ops s' /\ at_rest s' /\ same_window s s'.
Proof.
move=> h hr h1; rewrite /restore_state /get_state.
have [|] := @setw_ok ops1 ops (nwin s) (posR s) (dirn s) s1 h1 (wf_n h).
  by case: hr => [[? [? ?]]|[? [? [? ?]]]]; lia.
move=> s2 [-> [w2 [n2 H]]]; rewrite [wbind _ _]/=.
have [||s3 [-> [w3 [r3 [l3 [n3 d3]]]]]] := @leftto_ok ops s2 (posL s) w2; first exact: wf_L1 h.
  by rewrite n2; exact: wf_L2 h.
rewrite [wbind _ _]/= l3 eqxx andbT.
have er : posR s3 = posR s.
  by rewrite r3; move: H; case: hr => [[-> [-> ?]]|[-> ?]] /=; case.
have en : nwin s3 = nwin s by rewrite n3.
have ed : 2 <= nwin s -> dirn s3 = norm_dir (nwin s) (posR s) (dirn s).
  by move=> e; move: H; rewrite e d3 => -[_ [_ ->]].
rewrite er eqxx; exists s3; split=> //; split=> //; split.
  move: hr; rewrite /at_rest en er l3 => -[hr|[a [b [c d]]]]; [by left|right; do 3!split=> //].
  by rewrite ed // /norm_dir; case: ifP => // _; case: ifP.
split; first by rewrite (wf_right h) (wf_right w3) en er.
by split; first by rewrite (wf_left h) (wf_left w3) en l3.
Qed.

(** ** Operator updates confined to the window *)
Definition before (t : Z) (x : psi) : bool := ot_lt (p_time x) (at_ t).
Definition after (t : Z) (x : psi) : bool := ot_lt (at_ t) (p_time x).
Definition confined (ops ops' : container) (s : sw) : Prop :=
  List.filter (before (tau (nwin s) (posR s))) ops = List.filter (before (tau (nwin s) (posR s))) ops' /\
  List.filter (after (tau (nwin s) (posL s))) ops = List.filter (after (tau (nwin s) (posL s))) ops'.

Variable beta : Z.
Hypothesis tau_0 : forall n, 0 < n -> tau n 0 = 0%coqZ.
Hypothesis tau_beta : forall n, 0 < n -> tau n (2 * n) = beta.
Hypothesis tau_mono : forall n p q, p <= q -> q <= 2 * n -> (tau n p <= tau n q)%coqZ.

Lemma ot_lt_le_at a b x : (a <= b)%coqZ -> ot_lt x (at_ a) -> ot_lt x (at_ b).
Proof. by rewrite /ot_lt /=; case: (Z.eqb_spec _ a); case: (Z.eqb_spec _ b); lia. Qed.
Lemma ot_lt_at_le a b x : (a <= b)%coqZ -> ot_lt (at_ b) x -> ot_lt (at_ a) x.
Proof. by rewrite /ot_lt /=; case: (Z.eqb_spec a _); case: (Z.eqb_spec b _); lia. Qed.

Lemma filter_filter (f g : psi -> bool) l : (forall x, f x -> g x) -> List.filter f (List.filter g l) = List.filter f l.
Proof.
move=> h; elim: l => //= x l IH; case: (boolP (g x)) => hg /=; first by rewrite IH.
by rewrite IH; case: (boolP (f x)) => // /h; rewrite (negbTE hg).
Qed.

Lemma confined_wf ops ops' s : wf ops s -> confined ops ops' s -> wf ops' s.
Proof.
move=> [h1 h2 h3 h4 hr hl] [c1 c2]; split=> //.
  rewrite hr; have : posR s <= posR s by []. elim: {-2}(posR s) => //= R IH hR.
  rewrite IH; last exact: ltnW. congr (pushk _ _ _ _ :: _); rewrite /range.
  rewrite -(@filter_filter (rng_co _ _) (before (tau (nwin s) (posR s))) ops).
    rewrite -(@filter_filter (rng_co _ _) (before (tau (nwin s) (posR s))) ops') ?c1 //.
    by move=> x /andP[_]; apply: ot_lt_le_at; apply: tau_mono => //; lia.
  by move=> x /andP[_]; apply: ot_lt_le_at; apply: tau_mono => //; lia.
rewrite hl; have : 2 * nwin s - posL s <= 2 * nwin s - posL s by []. elim: {-2}(2 * nwin s - posL s) => // m IH hm.
rewrite [LHS]/= [RHS]/= IH; last exact: ltnW. congr (pushb _ _ _ _ :: _); rewrite /range.
rewrite -(@filter_filter (rng_oc _ _) (after (tau (nwin s) (posL s))) ops).
  rewrite -(@filter_filter (rng_oc _ _) (after (tau (nwin s) (posL s))) ops') ?c2 //.
  by move=> x /andP[h _]; apply: ot_lt_at_le h; apply: tau_mono; lia.
by move=> x /andP[h _]; apply: ot_lt_at_le h; apply: tau_mono; lia.
Qed.

(** ** Histories *)
Inductive reach : container -> sw -> Prop :=
| reach_init ops n s0 s : 1 <= n -> initw n ops s0 = WOk s -> reach ops s
| reach_set ops ops' n r d s s' : reach ops s -> 1 <= n -> (2 <= n -> r <= 2 * n - 2) ->
    setw n ops' r (Some d) s = WOk s' -> reach ops' s'          (* with new operators: moves.ipp:841 *)
| reach_next ops s s' : reach ops s -> nextw ops s = WOk s' -> reach ops s'
| reach_update ops ops' s : reach ops s -> confined ops ops' s -> reach ops' s
| reach_restore ops ops1 s s1 s' : reach ops s -> reach ops1 s1 ->
    restorew ops (get_state s) s1 = WOk s' -> reach ops s'      (* measurement.ipp:43-113 *)
| reach_static ops s s1 s2 s' : reach ops s -> leftto ops (nwin s) s = WOk s1 -> rightto ops (nwin s) s1 = WOk s2 ->
    restorew ops (get_state s) s2 = WOk s' -> reach ops s'      (* meas_static_obs.ipp:6-17, 36-39 *)
| reach_corr ops ntau s s1 s2 s' : reach ops s -> 2 <= ntau ->
    setw (2 * (ntau - 1)) ops (ntau - 1) (Some ITIME_LEFT) s = WOk s1 ->
    leftto ops (ntau - 1 + 2 * (ntau - 1)) s1 = WOk s2 ->
    restorew ops (get_state s) s2 = WOk s' -> reach ops s'.     (* meas_correlation.ipp:42-43, 103 *)

Ltac inj e H := let H' := fresh in have H' := H; rewrite e in H'; case: H' => ?; subst.

Lemma reach_wf ops s : reach ops s -> wf ops s /\ at_rest s.
Proof.
elim=> {ops s}.
- move=> ops n s0 s hn e; have [s' [e' [w [n' H]]]] := initw_ok ops s0 hn; move: e; rewrite e' => -[<-].
  split=> //; move: H; rewrite /at_rest n'; case: ltnP => h [a [b c]]; last by left; lia.
  by right; rewrite c; split=> //; split; [lia|split=> //; lia].
- move=> ops ops' n r d s s1 _ [h _] hn hr e; have [s' [e' [w [n' H]]]] := @setw_ok ops ops' n r (Some d) s h hn hr; move: e; rewrite e' => -[<-].
  split=> //; move: H; rewrite /at_rest n'; case: ltnP => h2 [a [b c]]; last by left; lia.
  right; rewrite c /norm_dir; split=> //; split; first lia; split; first by have := hr h2; lia.
  by case: ifP => // _; case: ifP.
- move=> ops s s' _ [h hr] e; have [s1 [e' [w [h' _]]]] := nextw_ok h hr; by move: e; rewrite e' => -[<-].
- move=> ops ops' s _ [h hr] hc; split=> //; exact: confined_wf hc.
- move=> ops ops1 s s1 s' _ [h hr] _ [h1 _] e; have [s2 [e' [w [h' _]]]] := restorew_ok h hr h1; by move: e; rewrite e' => -[<-].
- move=> ops s s1 s2 s' _ [h hr] e1 e2 e.
  have [||x1 [f1 [w1 [_ [_ [n1 _]]]]]] := @leftto_ok ops s (nwin s) h; first exact: wf_n h; first lia.
  move: e1; rewrite f1 => -[ee]; subst x1.
  have [|x2 [f2 [w2 _]]] := @rightto_ok ops s1 (nwin s) w1; first by have := wf_n h; lia.
  move: e2; rewrite f2 => -[ee]; subst x2.
  by have [s3 [e' [w [h' _]]]] := restorew_ok h hr w2; move: e; rewrite e' => -[<-].
- move=> ops ntau s s1 s2 s' _ [h hr] hn e1 e2 e.
  have [||x1 [f1 [w1 [n1 H]]]] := @setw_ok ops ops (2 * (ntau - 1)) (ntau - 1) (Some ITIME_LEFT) s h; [lia|lia|].
  move: e1; rewrite f1 => -[ee]; subst x1.
  have [||x2 [f2 [w2 _]]] := @leftto_ok ops s1 (ntau - 1 + 2 * (ntau - 1)) w1; [lia|lia|].
  move: e2; rewrite f2 => -[ee]; subst x2.
  by have [s3 [e' [w [h' _]]]] := restorew_ok h hr w2; move: e; rewrite e' => -[<-].
Qed.

(** C19: the edges and the stack depths after any history. *)
Theorem C19_positions_legal ops s : reach ops s ->
  posR s < posL s /\ posL s <= 2 * nwin s /\ (2 <= nwin s -> posL s = posR s + 2) /\
  length (right_states s) = posR s + 1 /\ length (left_states s) = 2 * nwin s - posL s + 1.
Proof.
case/reach_wf => h hr; have [a b] := rest_le h hr.
rewrite (wf_right h) (wf_left h) canonR_length canonL_length !addn1; split=> //; split=> //; split=> //.
by case: hr => [[? [? ?]]|[? [? [? ?]]]]; lia.
Qed.

(** No operation allowed in a history throws, fails an assertion or pops an empty stack. *)
Theorem C19_no_failure ops s : reach ops s ->
  (forall n r d ops', 1 <= n -> (2 <= n -> r <= 2 * n - 2) -> exists s', setw n ops' r (Some d) s = WOk s') /\
  (exists s', nextw ops s = WOk s') /\
  (forall ops1 s1, reach ops1 s1 -> exists s', restorew ops (get_state s) s1 = WOk s') /\
  (exists s1 s2 s', leftto ops (nwin s) s = WOk s1 /\ rightto ops (nwin s) s1 = WOk s2 /\ restorew ops (get_state s) s2 = WOk s') /\
  (forall ntau, 2 <= ntau -> exists s1 s2 s', setw (2 * (ntau - 1)) ops (ntau - 1) (Some ITIME_LEFT) s = WOk s1 /\
     leftto ops (ntau - 1 + 2 * (ntau - 1)) s1 = WOk s2 /\ restorew ops (get_state s) s2 = WOk s').
Proof.
case/reach_wf => h hr; split; [|split; [|split; [|split]]].
- by move=> n r d ops' hn hr'; have [s' [e _]] := @setw_ok ops ops' n r (Some d) s h hn hr'; exists s'.
- by have [s' [e _]] := nextw_ok h hr; exists s'.
- by move=> ops1 s1 /reach_wf[h1 _]; have [s' [e _]] := restorew_ok h hr h1; exists s'.
- have [||x1 [f1 [w1 [_ [_ [n1 _]]]]]] := @leftto_ok ops s (nwin s) h; first exact: wf_n h; first lia.
  have [|x2 [f2 [w2 _]]] := @rightto_ok ops x1 (nwin s) w1; first by have := wf_n h; lia.
  by have [s3 [e' _]] := restorew_ok h hr w2; exists x1, x2, s3.
- move=> ntau hn.
  have [||x1 [f1 [w1 [n1 H]]]] := @setw_ok ops ops (2 * (ntau - 1)) (ntau - 1) (Some ITIME_LEFT) s h; [lia|lia|].
  have [||x2 [f2 [w2 _]]] := @leftto_ok ops x1 (ntau - 1 + 2 * (ntau - 1)) w1; [lia|lia|].
  by have [s3 [e' _]] := restorew_ok h hr w2; exists x1, x2, s3.
Qed.

(** ** C20 *)
Fixpoint sweep (k : nat) (ops : container) (s : sw) : wres sw :=
  match k with 0 => WOk s | S k' => wbind (sweep k' ops s) (nextw ops) end.

Theorem C20_sweep_up ops s k : reach ops s -> 2 <= nwin s -> posR s = 0 -> k <= 2 * nwin s - 2 ->
  exists s', sweep k ops s = WOk s' /\ reach ops s' /\ nwin s' = nwin s /\ posR s' = k /\ posL s' = k + 2 /\
  (0 < k -> dirn s' = Some ITIME_LEFT).
Proof.
move=> hs hn h0; elim: k => [|k IH] hk.
  exists s; split=> //; split=> //; do 3!split=> //. have [h hr] := reach_wf hs.
  by case: hr => [[? [? ?]]|[? [? [? ?]]]]; lia.
have [|s1 [e1 [r1 [n1 [p1 [l1 d1]]]]]] := IH; first lia.
have [w1 hr1] := reach_wf r1.
have [s2 [e2 [w2 [hr2 [n2 H]]]]] := nextw_ok w1 hr1.
exists s2; rewrite /= e1 /= e2; split=> //; split; first exact: reach_next e2.
have en1 : (nwin s1 == 1) = false by lia. move: H; rewrite en1.
have -> : (if dirn s1 is Some ITIME_LEFT then posL s1 != 2 * nwin s1 else posR s1 == 0) = true.
  case: (posnP k) => k0; last by rewrite d1 //; lia.
  by case: (dirn s1) => [[]|]; lia.
move=> [a b]; split; first lia; split; first lia.
split; last by [].
by case: hr2 => [[? [? ?]]|[? [? [? ?]]]]; lia.
Qed.

Theorem C20_sweep_down ops s k : reach ops s -> 2 <= nwin s -> posR s = 2 * nwin s - 2 -> k <= 2 * nwin s - 2 ->
  exists s', sweep k ops s = WOk s' /\ reach ops s' /\ nwin s' = nwin s /\ posR s' + k = 2 * nwin s - 2 /\
  (0 < k -> dirn s' = Some ITIME_RIGHT).
Proof.
move=> hs hn h0; elim: k => [|k IH] hk.
  by exists s; split=> //; split=> //; split=> //; split=> //; lia.
have [|s1 [e1 [r1 [n1 [p1 d1]]]]] := IH; first lia.
have [w1 hr1] := reach_wf r1.
have [s2 [e2 [w2 [hr2 [n2 H]]]]] := nextw_ok w1 hr1.
exists s2; rewrite /= e1 /= e2; split=> //; split; first exact: reach_next e2.
have en1 : (nwin s1 == 1) = false by lia. move: H; rewrite en1.
have -> : (if dirn s1 is Some ITIME_LEFT then posL s1 != 2 * nwin s1 else posR s1 == 0) = false.
  have hl : posL s1 = posR s1 + 2 by case: hr1 => [[? [? ?]]|[? [? [? ?]]]]; lia.
  case: (posnP k) => k0; last by rewrite d1 //; lia.
  by case: (dirn s1) => [[]|]; lia.
by move=> [a b]; split; first lia; split; first lia.
Qed.

(** Two sweeps lead back to the same position; from then on the window repeats the same cycle. *)
Theorem C20_two_sweeps ops s : reach ops s -> 2 <= nwin s -> posR s = 0 ->
  exists s1 s2, sweep (2 * nwin s - 2) ops s = WOk s1 /\ posR s1 = 2 * nwin s - 2 /\
    sweep (2 * nwin s - 2) ops s1 = WOk s2 /\ posR s2 = posR s /\ posL s2 = posL s /\ nwin s2 = nwin s /\
    right_states s2 = right_states s /\ left_states s2 = left_states s /\
    nextw ops s2 = nextw ops s.
Proof.
move=> hs hn h0; have [//|s1 [e1 [r1 [n1 [p1 [l1 d1]]]]]] := @C20_sweep_up ops s (2 * nwin s - 2) hs hn h0.
have [|||s2 [e2 [r2 [n2 [p2 d2]]]]] := @C20_sweep_down ops s1 (2 * nwin s - 2) r1; [lia|lia|lia|].
have [w hr] := reach_wf hs; have [w2 hr2] := reach_wf r2.
have el : posL s = 2 by case: hr => [[? [? ?]]|[? [? [? ?]]]]; lia.
have el2 : posL s2 = 2 by case: hr2 => [[? [? ?]]|[? [? [? ?]]]]; lia.
have er2 : posR s2 = 0 by lia.
have nn : nwin s2 = nwin s by lia.
have a1 : right_states s2 = right_states s by rewrite (wf_right w) (wf_right w2) er2 h0 nn.
have a2 : left_states s2 = left_states s by rewrite (wf_left w) (wf_left w2) el el2 nn.
exists s1, s2; do 8!(split; first lia || by []).
have dd : dirn s <> None by case: hr => [[? [? ?]]|[? [? [? ?]]]] //; lia.
have dd2 : dirn s2 = Some ITIME_RIGHT by apply: d2; lia.
rewrite /move_window_to_next_position nn dd2 er2 /=; have -> : (nwin s == 1) = false by lia.
rewrite h0 /= el; have -> : (2 == 2 * nwin s) = false by lia.
case: s s2 a1 a2 h0 er2 el el2 nn dd dd2 {w w2 hr hr2 r2 n2 p2 d2 e2 hs hn e1 p1 l1 d1 n1} => a b c d e f [a' b' c' d' e' f'] /= -> -> -> -> -> -> -> df _.
by case: f df => [[]|].
Qed.

(** Every time is inside some visited window. *)
Theorem C20_coverage n t : 2 <= n -> (0 <= t <= beta)%coqZ ->
  exists k, k <= 2 * n - 2 /\ (tau n k <= t <= tau n (k + 2))%coqZ.
Proof.
move=> hn [h0 hb].
have : exists k, k <= 2 * n - 1 /\ (tau n k <= t <= tau n k.+1)%coqZ.
  have : exists m, m <= 2 * n /\ (t <= tau n m)%coqZ by exists (2 * n); rewrite tau_beta //; lia.
  move=> [m [hm ht]]; elim: m hm ht => [|m IH] hm ht.
    exists 0; split=> //; rewrite tau_0; last lia; split=> //. move: ht; rewrite tau_0; last lia. move=> ht.
    have := @tau_mono n 0 1; rewrite tau_0; lia.
  case: (Z.leb_spec t (tau n m)) => c; first by apply: IH => //; lia.
  by exists m; split; lia.
move=> [k [hk ht]]; case: (ltnP k (2 * n - 1)) => c.
  by exists k; split; [lia|]; have := @tau_mono n k.+1 (k + 2); lia.
exists (k - 1); split; first lia.
have := @tau_mono n (k - 1) k. have -> : k - 1 + 2 = k.+1 by lia. lia.
Qed.

(** do_one_sweep (impurity.ipp:516-544) performs the local updates before each move, so one sweep from the
    right end updates in the windows 0..2n-3 only: the last half window is left to the next sweep. *)
Theorem C20_last_half_window_waits n t k : 2 <= n -> (tau n (2 * n - 1) < t)%coqZ -> k < 2 * n - 2 ->
  ~ (tau n k <= t <= tau n (k + 2))%coqZ.
Proof. by move=> hn ht hk; have := @tau_mono n (k + 2) (2 * n - 1); lia. Qed.

(** ** C21 *)
Lemma split_sorted (p : psi -> bool) l : csorted l -> (forall x y, psi_lt x y -> p y -> p x) ->
  l = (List.filter p l ++ List.filter (fun x => ~~ p x) l)%list.
Proof.
move=> hs hp; elim: hs => //= x l' _ IH hf; case: (boolP (p x)) => hx /=; first by rewrite -IH.
suff -> : List.filter p l' = [].
  rewrite /=; congr (_ :: _); rewrite {1}IH; suff -> : List.filter p l' = [] by [].
  elim: l' hf {IH} => //= y l' IH hf; inversion hf; subst; rewrite IH //.
  by case: (boolP (p y)) => // /(hp _ _ H1); rewrite (negbTE hx).
elim: l' hf {IH} => //= y l' IH hf; inversion hf; subst; rewrite IH //.
by case: (boolP (p y)) => // /(hp _ _ H1); rewrite (negbTE hx).
Qed.

Lemma filter_sorted p l : csorted l -> csorted (List.filter p l).
Proof.
elim=> [|x l' hs IH hf] /=; first by constructor.
case: (p x) => //; constructor=> //; apply/Forall_forall => y /filter_In[hy _]; by move/Forall_forall: hf; apply.
Qed.

Lemma ot_le_negb a b : ot_le a b = ~~ ot_lt b a.
Proof.
case: a b => ta sa [tb sb]; rewrite /ot_le /ot_lt /= (Z.eqb_sym tb ta).
by case: (Z.eqb_spec ta tb) => ?; lia.
Qed.
Lemma lt_trans_ x y z : ot_lt x y -> ot_lt y z -> ot_lt x z.
Proof. by move=> a b; apply: ot_lt_trans a b. Qed.

Lemma filter_eq (p q : psi -> bool) l : (forall x, p x = q x) -> List.filter p l = List.filter q l.
Proof. by move=> h; elim: l => //= x l ->; rewrite h. Qed.

Lemma before_split a b l : csorted l -> (a <= b)%coqZ ->
  List.filter (before b) l = (List.filter (before a) l ++ List.filter (rng_co a b) l)%list.
Proof.
move=> hs hab.
have := @split_sorted (before a) (List.filter (before b) l) (filter_sorted _ hs).
rewrite filter_filter; last by move=> x; exact: ot_lt_le_at.
move=> ->; last by move=> x y h1 h2; exact: lt_trans_ h1 h2.
congr (_ ++ _)%list; elim: (l) => //= x l' IH; rewrite /rng_co ot_le_negb -/(before a x) -/(before b x).
by case: (before b x) => /=; case: (before a x) => //=; rewrite IH.
Qed.
Lemma after_split a b l : csorted l -> (a <= b)%coqZ ->
  List.filter (after a) l = (List.filter (rng_oc a b) l ++ List.filter (after b) l)%list.
Proof.
move=> hs hab.
have := @split_sorted (fun x => ~~ after b x) (List.filter (after a) l) (filter_sorted _ hs).
move=> ->; last by move=> x y h1; apply: contra => h2; exact: lt_trans_ h2 h1.
congr (_ ++ _)%list.
  elim: (l) => //= x l' IH; rewrite /rng_oc ot_le_negb -/(after b x) -/(after a x).
  by case: (after a x) => //=; case: (after b x) => //=; rewrite IH.
rewrite (@filter_eq _ (after b)); last by move=> x; rewrite negbK.
by apply: filter_filter => x; exact: ot_lt_at_le.
Qed.

(** The operators applied when the right edge moves from 0 to R, resp. the left edge from 2n to L. *)
Definition right_segments (n R : nat) (ops : container) : list psi :=
  List.flat_map (fun j => range (rng_co (tau n j) (tau n j.+1)) ops) (List.seq 0 R).
Definition left_segments (n L : nat) (ops : container) : list psi :=
  List.flat_map (fun j => range (rng_oc (tau n j) (tau n j.+1)) ops) (List.seq L (2 * n - L)).

Definition times_in (ops : container) : Prop := forall x, In x ops -> ot_le (at_ 0) (p_time x) /\ ot_le (p_time x) (at_ beta).

Lemma right_segments_before n R ops : 0 < n -> csorted ops -> times_in ops -> R <= 2 * n ->
  right_segments n R ops = List.filter (before (tau n R)) ops.
Proof.
move=> n0 hs ht; rewrite /right_segments; elim: R => [|R IH] hR.
  rewrite tau_0 //=; elim: (ops) ht => //= x l IHl ht; rewrite -IHl; last by move=> y hy; apply: ht; right.
  by rewrite /before; have [] := ht x (or_introl erefl); rewrite ot_le_negb => /negbTE ->.
have -> : List.seq 0 R.+1 = (List.seq 0 R ++ [R])%list by rewrite -addn1 seq_app.
rewrite flat_map_app IH; last lia. rewrite (@before_split (tau n R) (tau n R.+1)) //; last by apply: tau_mono; lia.
by rewrite /= app_nil_r.
Qed.
Lemma left_segments_after n L ops : 0 < n -> csorted ops -> times_in ops -> L <= 2 * n ->
  left_segments n L ops = List.filter (after (tau n L)) ops.
Proof.
move=> n0 hs ht hL; rewrite /left_segments; move e: (2 * n - L) => m; elim: m L hL e => [|m IH] L hL e.
  have -> : L = 2 * n by lia.
  rewrite tau_beta //=; elim: (ops) ht => //= x l IHl ht; rewrite -IHl; last by move=> y hy; apply: ht; right.
  by rewrite /after; have [_] := ht x (or_introl erefl); rewrite ot_le_negb => /negbTE ->.
rewrite /= IH; [|lia|lia].
by rewrite -(@after_split (tau n L) (tau n L.+1)) //; apply: tau_mono; lia.
Qed.

Theorem C21_partition n R L ops : 0 < n -> csorted ops -> times_in ops -> R <= L -> L <= 2 * n ->
  ops = (right_segments n R ops ++ range (rng_cc (tau n R) (tau n L)) ops ++ left_segments n L ops)%list.
Proof.
move=> n0 hs ht hRL hL; rewrite right_segments_before ?left_segments_after //; last lia.
have h : (tau n R <= tau n L)%coqZ by exact: tau_mono.
rewrite {1}(@split_sorted (before (tau n R)) ops hs); last by move=> x y h1 h2; exact: lt_trans_ h1 h2.
congr (_ ++ _)%list.
rewrite {1}(@split_sorted (fun x => ~~ after (tau n L) x) (List.filter (fun x => ~~ before (tau n R) x) ops)).
- congr (_ ++ _)%list.
    rewrite /range; elim: (ops) => //= x l IH; rewrite /rng_cc !ot_le_negb -/(before (tau n R) x) -/(after (tau n L) x).
    by case: (before _ x) => //=; case: (after _ x) => /=; rewrite IH.
  rewrite (@filter_eq _ (after (tau n L))); last by move=> x; rewrite negbK.
  apply: filter_filter => x; rewrite /after /before => h1; apply/negP => h2.
  by have := lt_trans_ h2 (ot_lt_at_le h h1); rewrite ot_lt_irrefl.
- exact: filter_sorted.
- by move=> x y h1; apply: contra => h2; exact: lt_trans_ h2 h1.
Qed.

(** ** C23 *)
Theorem C23_restore ops s ops1 s1 : reach ops s -> reach ops1 s1 ->
  exists s', restorew ops (get_state s) s1 = WOk s' /\ nwin s' = nwin s /\ posL s' = posL s /\ posR s' = posR s /\
    right_states s' = right_states s /\ left_states s' = left_states s /\
    (2 <= nwin s -> forall ops', nextw ops' s' = nextw ops' s) /\
    (2 <= nwin s -> 0 < posR s < 2 * nwin s - 2 -> s' = s).
Proof.
move=> /reach_wf[h hr] /reach_wf[h1 _]; have [s' [e [w' [hr' [a1 [a2 [a3 [a4 [a5 a6]]]]]]]]] := restorew_ok h hr h1.
exists s'; do 6!split=> //; split.
  move=> n2 ops'; case: hr => [[? [? ?]]|[_ [hl [hm hd]]]]; first lia.
  have dd := a6 n2; rewrite /move_window_to_next_position -a5 dd /norm_dir.
  have -> : (nwin s == 1) = false by lia.
  case: s s' a1 a2 a3 a4 a5 a6 dd n2 hl hm hd {h hr' w' e} => a b c d n f [a' b' c' d' n' f'] /= <- <- <- <- <- _ df n2 hl hm hd.
  move: df; rewrite /norm_dir => df; case: (eqVneq d 0) df => [d0|d0] df.
    by subst f'; have -> : (c == 2 * n) = false; [lia|case: f hd => [[]|]].
  case: (eqVneq d (2 * n - 2)) df => [d1|d1] df.
    by subst f'; have -> : (c == 2 * n); [lia|case: f hd => [[]|]].
  by subst f'.
move=> n2 hp; have := a6 n2; rewrite /norm_dir; have -> : (posR s == 0) = false by lia. have -> : (posR s == 2 * nwin s - 2) = false by lia.
by case: s s' a1 a2 a3 a4 a5 {a6 h hr hr' w' e n2 hp} => a b c d n f [a' b' c' d' n' f'] /= -> -> -> -> -> ->.
Qed.
End TWindow.

(** An operator at time BETA with a positive second index lies beyond the closed end (.. <= BETA) and is lost. *)
Theorem C21_refuted : exists (tau : nat -> nat -> Z) (ops : container),
  (forall n, 0 < n -> tau n 0 = 0%coqZ) /\ (forall n, 0 < n -> tau n (2 * n) = 8%coqZ) /\ csorted ops /\
  (forall x, In x ops -> (0 <= ot_time (p_time x) <= 8)%coqZ) /\
  forall R L, R <= L <= 4 -> ops <> (right_segments tau 2 R ops ++ range (rng_cc (tau 2 R) (tau 2 L)) ops ++ left_segments tau 2 L ops)%list.
Proof.
exists (fun n p => (4 * Z.of_nat p / Z.of_nat n)%coqZ), [Psi (OT 3%coqZ 0%coqZ) CREATION_OP 0; Psi (OT 8%coqZ 1%coqZ) ANNIHILATION_OP 0].
split; first by []. split; first by move=> n h; rewrite (_ : (4 * Z.of_nat (2 * n) = 8 * Z.of_nat n)%coqZ) ?Z.div_mul //; lia.
split; first by repeat constructor.
split; first by move=> x [<-|[<-|[]]].
by move=> [|[|[|[|[|R]]]]] [|[|[|[|[|L]]]]] h; try (by move: h; lia); vm_compute.
Qed.

Print Assumptions C19_positions_legal.
Print Assumptions C19_no_failure.
Print Assumptions C20_sweep_up.
Print Assumptions C20_sweep_down.
Print Assumptions C20_two_sweeps.
Print Assumptions C20_coverage.
Print Assumptions C20_last_half_window_waits.
Print Assumptions C21_partition.
Print Assumptions C21_refuted.
Print Assumptions C23_restore.
