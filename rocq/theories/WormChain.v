(** The proposals of the worm updaters at a state of the run.

    Modelled code: src/moves/moves.ipp:1013-1038 with 1120-1140 (WormInsertionRemover: the test of the worm's times and the
    operators inside the window), 1242-1298 (GWormInsertionRemover: all operators), 925-1010 (WormMover, WormFlavorChanger),
    1383-1518 (EqualTimeG1_TwoTimeG2_Connector), 84-116 (what update() reads from a proposal); src/impurity.ipp:557-565,
    568-598 and 615-621 (which updater is called in which configuration space).

    A worm is the position of its type in worm_types with its times and flavors.

    The random choices are the distributions of WormProposal.v and ShiftProposal.v; here they are applied to the worm and
    the determinant object of Assembly.v.

    Simplifications.
    - Times are drawn from a finite grid in the window, as in Proposal.v.
    - The correction factor is a real number [R]; [inR] converts it to the scalars of the determinant.
    - The weights of the worm spaces stay as they are; they are changed between two calls (adjust_worm_space_weight, C35). *)
From Coq Require Import ZArith List Bool.
From mathcomp Require Import all_ssreflect all_algebra.
From Verif Require Import OpContainer CombSort PermSign Updater Dist Proposal ShiftProposal DetMatrix DetPartitioned
  Window Assembly LocalChain Worm WormProposal.
Import Order.Theory GRing.Theory Num.Theory.
Set Implicit Arguments.
Unset Strict Implicit.
Unset Printing Implicit Defensive.
Local Close Scope Z_scope.
Local Open Scope nat_scope.
Local Open Scope ring_scope.

(** position in worm_types, times, flavors *)
Definition wdata : eqType := [eqType of (nat * (seq Z * seq nat))].

Section WormCalls.
Variables (K : numFieldType) (R : realFieldType) (inR : R -> K).
Implicit Types (m : ms K) (wo : option wdata).
(** worm_types, and worm_space_extra_weight_map of each *)
Variables (types : seq wtype) (w : nat -> R).
Variables (nf : nat) (lo hi : Z) (grid : seq Z) (L : R).

(** worm.ipp: get_operators *)
Definition w_ops (x : wdata) : seq psi := get_operators (wty types x.1) (MkWorm x.2.1 x.2.2).

(** The members of LocalUpdater that update() reads *)
Definition wprop (x : wmove R) : proposal K wdata :=
  Prop_ K wdata (HU (wm_rem_cd x) (wm_rem_c x) (wm_add_cd x) (wm_add_c x)) (Some (wm_new x)) (inR (wm_corr x)).
Definition of_wmove (o : option (wmove R)) : option (proposal K wdata) := omap wprop o.

(** operator_util.ipp:3-28, 49-84: the operators of one flavor *)
Definition of_flav (s : seq psi) (f : nat) : seq psi := [seq x <- s | p_flavor x == f].
Definition wcd m (f : nat) : seq psi := of_flav (range_cd lo hi m) f.
Definition wc m (f : nat) : seq psi := of_flav (range_c lo hi m) f.

(** impurity.ipp:557-565 with moves.ipp:1013-1240 *)
Definition worm_ins_rem_moves wo m : dist R (option (wmove R)) :=
  if wo is Some (i, (ts, fs)) then
    if is_worm_in_range (wty types i) (MkWorm ts fs) lo hi then worm_step_W nf grid L types w i (wcd m) (wc m) ts fs
    else ret R None
  else worm_step_Z nf grid L types w (wcd m) (wc m).
Definition worm_ins_rem wo m := [seq (p.1, of_wmove p.2) | p <- worm_ins_rem_moves wo m].

(** impurity.ipp:568-587 with moves.ipp:1242-1298; [i] is the position of the worm type G1 (rank 1) or G2 (rank 2) *)
Definition gworm_moves (i rank : nat) wo m : dist R (option (wmove R)) :=
  if wo is Some (_, (ts, fs)) then gworm_rem rank (w i) (ms_cd m) (ms_c m) ts fs
  else gworm_ins i rank (w i) (ms_cd m) (ms_c m).
Definition gworm_call (i rank : nat) wo m := [seq (p.1, of_wmove p.2) | p <- gworm_moves i rank wo m].

(** impurity.ipp:590-598 with moves.ipp:1383-1518; [i1], [i2]: the positions of Equal_time_G1 and Two_time_G2;
    no proposal without a worm of these types *)
Definition connect_moves (i1 i2 : nat) wo : dist R (option (wmove R)) :=
  if wo is Some (i, (ts, fs)) then
    if i == i1 then connect_up nf grid L i2 (w i1) (w i2) (nth Z0 ts 0) (nth 0%N fs 0) (nth 0%N fs 1)
    else if i == i2 then connect_down nf L i1 (w i1) (w i2) (fun t => ~~ outside lo hi t) ts fs
    else ret R None
  else ret R None.
Definition connect_call (i1 i2 : nat) wo := [seq (p.1, of_wmove p.2) | p <- connect_moves i1 i2 wo].

(** moves.ipp:962-971, 1003-1009: a worm with other times or flavors, correction factor 1 *)
Definition to_worm (o : option wdata) : option (wmove R) := omap (fun x => WMove 0 (Some x) [::] [::] [::] [::] 1) o.
(** impurity.ipp:615-621 with moves.ipp:925-971; [D] = max_distance_ *)
Definition mover_moves (D : nat) wo : dist R (option (wmove R)) :=
  if wo is Some (i, (ts, fs)) then
    [seq (p.1, to_worm (omap (fun ts' => (i, (ts', fs)) : wdata) p.2)) | p <- mover_propose R D lo hi ts]
  else ret R None.
Definition mover_call (D : nat) wo := [seq (p.1, of_wmove p.2) | p <- mover_moves D wo].
(** impurity.ipp:615-621 with moves.ipp:975-1010 *)
Definition changer_moves wo : dist R (option (wmove R)) :=
  if wo is Some (i, (ts, fs)) then
    [seq (p.1, to_worm (omap (fun x : worm => (i, (w_times x, w_flavors x)) : wdata) p.2)) |
       p <- change_propose R nf (wty types i) lo hi (MkWorm ts fs)]
  else ret R None.
Definition changer_call wo := [seq (p.1, of_wmove p.2) | p <- changer_moves wo].
End WormCalls.
