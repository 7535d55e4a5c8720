(** Proposals that insert and remove worms, or connect two worm spaces.

    Modelled code: src/moves/moves.ipp:1013-1240 (WormInsertionRemover), 1242-1298
    (GWormInsertionRemover), 1383-1518 (EqualTimeG1_TwoTimeG2_Connector);
    src/operator_util.ipp:49-84 (pick_up_operators; its deterministic part is in Select.v);
    src/impurity_init.ipp:243-247 (insertion_proposal_rate); src/impurity.ipp:558-565 (choice of the updater).

    Setting as in Proposal.v: times are drawn from a finite uniform grid, a proposal is a distribution
    over optional moves. [cd f], [c f] are the hybridized operators of flavor f in the window.
    The window limits of WormUpdater are 0 and beta (its constructor throws otherwise), so tau_low and
    tau_high are those of the sliding window. *)
From Coq Require Import ZArith List.
From mathcomp Require Import all_ssreflect all_algebra.
From Verif Require Import OpContainer Select KField Dist Proposal Worm.
Set Implicit Arguments.
Unset Strict Implicit.
Unset Printing Implicit Defensive.
Import GRing.Theory Num.Theory.
Local Close Scope Z_scope.
Local Open Scope nat_scope.
Local Open Scope ring_scope.

Section WormMoves.
Variable K : realFieldType.

(** The members of LocalUpdater set by a worm proposal; [wm_kind] records which branch of the code
    produced the move (0: trace, any flavors; 1: trace, diagonal; 2: trace and hybridization). *)
Record wmove := WMove {
  wm_kind : nat; wm_new : option (nat * (seq Z * seq nat));
  wm_rem_cd : seq psi; wm_rem_c : seq psi; wm_add_cd : seq psi; wm_add_c : seq psi; wm_corr : K }.

Variables (F : nat) (grid : seq Z) (L : K).
(** the active worm types (worm_types), and config_space_weight of each *)
Variables (types : seq wtype) (w : nat -> K).

Definition wty i := nth (GWorm 0) types i.
Definition nT : K := (size types)%:R.
(** impurity_init.ipp:243-247 and moves.ipp:1062 *)
Definition weight_scaled i : K := w i / (1 / nT).

(** moves.ipp:1084-1104 *)
Definition trace_ins (i : nat) : dist K (option wmove) :=
  bind (draws K grid (n_times (wty i))) (fun ts =>
  bind (unif K [:: true; false]) (fun coin =>
    if coin then
      bind (draws K (iota 0 F) (n_flavors (wty i))) (fun fs =>
      ret K (Some (WMove 0 (Some (i, (ts, fs))) [::] [::] [::] [::]
        (weight_scaled i * L ^+ n_times (wty i) * F%:R ^+ n_flavors (wty i)))))
    else
      bind (unif K (iota 0 F)) (fun f =>
      ret K (Some (WMove 1 (Some (i, (ts, nseq (n_flavors (wty i)) f))) [::] [::] [::] [::]
        (weight_scaled i * L ^+ n_times (wty i) * F%:R)))))).

(** moves.ipp:1064-1083 *)
Definition trace_rem (i : nat) (ts : seq Z) (fs : seq nat) : dist K (option wmove) :=
  bind (unif K [:: true; false]) (fun coin =>
    if coin then
      ret K (Some (WMove 0 None [::] [::] [::] [::]
        (1 / (weight_scaled i * L ^+ n_times (wty i) * F%:R ^+ n_flavors (wty i)))))
    else if is_diagonal (wty i) (MkWorm ts fs) then
      ret K (Some (WMove 1 None [::] [::] [::] [::]
        (1 / (weight_scaled i * L ^+ n_times (wty i) * F%:R))))
    else ret K None).

(** operator_util.ipp:3-28 (count_operators) on the operators of a worm *)
Definition num_ops (ty : optype) (ops : seq psi) (f : nat) : nat :=
  count (fun x => (p_type x == ty) && (p_flavor x == f)) ops.

(** moves.ipp:1166-1180, 1211-1225: the product accumulated over flavors *)
Definition p_ins_inv (nd na kd ka : nat -> nat) : K :=
  foldl (fun acc f =>
    let acc1 := if (0 < kd f)%N then acc * falling (nd f)%:R (kd f) else acc in
    if (0 < ka f)%N then acc1 * falling (na f)%:R (ka f) else acc1) 1 (iota 0 F).

(** moves.ipp:1146-1190 *)
Definition hyb_rem (i : nat) (cd c : nat -> seq psi) (ts : seq Z) (fs : seq nat) : dist K (option wmove) :=
  let ops := get_operators (wty i) (MkWorm ts fs) in
  bind (label_draws K (fun (a : optype * nat) t => Psi (OT t 0) a.1 a.2) grid [seq (p_type x, p_flavor x) | x <- ops]) (fun r =>
    let kd := num_ops CREATION_OP ops in
    let ka := num_ops ANNIHILATION_OP ops in
    let p_rem := 1 / L ^+ size ops in
    let p_ins := 1 / p_ins_inv (fun f => (size (cd f) + kd f)%N) (fun f => (size (c f) + ka f)%N) kd ka in
    ret K (Some (WMove 2 None [::] [::] [seq x <- r | p_type x == CREATION_OP] [seq x <- r | p_type x == ANNIHILATION_OP]
      (p_ins / p_rem * (1 / (weight_scaled i * L ^+ n_times (wty i) * F%:R ^+ n_flavors (wty i))))))).

(** operator_util.ipp:49-84 (pick_up_operators): flavor by flavor *)
Fixpoint pick_ops (num : nat -> nat) (ops : nat -> seq psi) (fl : seq nat) : dist K (seq psi) :=
  if fl is f :: fl' then
    bind (pickup K (size (ops f)) (num f)) (fun ic =>
    bind (pick_ops num ops fl') (fun r => ret K ([seq nth psi0 (ops f) j | j <- ic] ++ r)))
  else ret K [::].

(** moves.ipp:1191-1238 *)
Definition hyb_ins (i : nat) (cd c : nat -> seq psi) : dist K (option wmove) :=
  bind (draws K grid (n_times (wty i))) (fun ts =>
  bind (draws K (iota 0 F) (n_flavors (wty i))) (fun fs =>
    let ops := get_operators (wty i) (MkWorm ts fs) in
    let kd := num_ops CREATION_OP ops in
    let ka := num_ops ANNIHILATION_OP ops in
    if has (fun f => (size (cd f) < kd f)%N || (size (c f) < ka f)%N) (iota 0 F) then ret K None
    else
      bind (pick_ops kd cd (iota 0 F)) (fun rd =>
      bind (pick_ops ka c (iota 0 F)) (fun ra =>
        let p_ins := 1 / p_ins_inv (fun f => size (cd f)) (fun f => size (c f)) kd ka in
        let p_rem := 1 / L ^+ size ops in
        ret K (Some (WMove 2 (Some (i, (ts, fs))) rd ra [::] [::]
          (p_rem / p_ins * weight_scaled i * L ^+ n_times (wty i) * F%:R ^+ n_flavors (wty i)))))))).

(** moves.ipp:1013-1038 in partition-function space, with the choice of the updater
    (impurity.ipp:559-560). *)
Definition worm_step_Z (cd c : nat -> seq psi) : dist K (option wmove) :=
  bind (unif K (iota 0 (size types))) (fun i =>
  bind (unif K [:: true; false]) (fun coin => if coin then trace_ins i else hyb_ins i cd c)).
(** moves.ipp:1013-1038 with a worm of type i inside the window (impurity.ipp:563-564). *)
Definition worm_step_W (i : nat) (cd c : nat -> seq psi) (ts : seq Z) (fs : seq nat) : dist K (option wmove) :=
  bind (unif K [:: true; false]) (fun coin => if coin then trace_rem i ts fs else hyb_rem i cd c ts fs).

(** moves.ipp:1242-1298: GWormInsertionRemover<RANK>. [cds], [cs]: all hybridized operators
    (get_cdagg_ops, get_c_ops), of which there are pert_order each; [i]: the position of the worm type in worm_types. *)
Definition gworm_ins (i rank : nat) (w1 : K) (cds cs : seq psi) : dist K (option wmove) :=
  let N := size cds in
  if (N < rank)%N then ret K None
  else bind (pickup K N rank) (fun ic => bind (pickup K N rank) (fun ia =>
    let rd := [seq nth psi0 cds j | j <- ic] in
    let ra := [seq nth psi0 cs j | j <- ia] in
    let ts := flatten [seq [:: ot_time (p_time (nth psi0 ra r)); ot_time (p_time (nth psi0 rd r))] | r <- iota 0 rank] in
    let fs := flatten [seq [:: p_flavor (nth psi0 ra r); p_flavor (nth psi0 rd r)] | r <- iota 0 rank] in
    ret K (Some (WMove 0 (Some (i, (ts, fs))) rd ra [::] [::] (w1 * falling N%:R rank ^+ 2))))).
Definition gworm_rem (rank : nat) (w1 : K) (cds cs : seq psi) (ts : seq Z) (fs : seq nat) : dist K (option wmove) :=
  let N := size cds in
  let ops := get_operators (GWorm rank) (MkWorm ts fs) in
  ret K (Some (WMove 0 None [::] [::]
    [seq nth psi0 ops (2 * r + 1) | r <- iota 0 rank] [seq nth psi0 ops (2 * r) | r <- iota 0 rank]
    (1 / (w1 * falling (N + rank)%:R rank ^+ 2)))).

(** moves.ipp:1383-1518: EqualTimeG1_TwoTimeG2_Connector; the code after the two "return false" is
    unreachable. [t0], [f0], [f1]: time and flavors of the first pair of operators; [iG1], [iG2]: the positions
    of the two worm types in worm_types. *)
Definition connect_up (iG2 : nat) (wG1 wG2 : K) (t0 : Z) (f0 f1 : nat) : dist K (option wmove) :=
  bind (unif K grid) (fun t1 =>
  bind (unif K [:: true; false]) (fun coin =>
    if coin then
      bind (unif K (iota 0 F)) (fun f2 => bind (unif K (iota 0 F)) (fun f3 =>
      ret K (Some (WMove 0 (Some (iG2, ([:: t0; t1], [:: f0; f1; f2; f3]))) [::] [::] [::] [::]
        (wG2 / wG1 * F%:R * F%:R * L)))))
    else ret K None)).
(** [inw]: the second time is inside the window *)
Definition connect_down (iG1 : nat) (wG1 wG2 : K) (inw : Z -> bool) (ts : seq Z) (fs : seq nat) : dist K (option wmove) :=
  if ~~ inw (nth Z0 ts 1) then ret K None
  else bind (unif K [:: true; false]) (fun coin =>
    if coin then
      ret K (Some (WMove 0 (Some (iG1, ([:: nth Z0 ts 0], [:: nth 0%N fs 0; nth 0%N fs 1]))) [::] [::] [::] [::]
        (wG1 / wG2 / (F%:R * F%:R * L))))
    else ret K None).
End WormMoves.
