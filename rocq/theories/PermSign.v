(** Permutation sign of a Monte Carlo configuration.

    Modelled code: src/mc_config.hpp:178-219 compute_permutation_sign(_impl),
    221-297 num_ops_less_than, compute_permutation_sign_change.

    std::sort with greater<OperatorTime> is modelled by insertion sort: operator times are
    totally ordered, so every correct sort gives the same list. A sign is a bool, true = -1. *)

From Coq Require Import ZArith Arith List Bool Lia Sorting.Permutation Sorting.Sorted.
From Verif Require Import OpContainer CombSort.
Import ListNotations.
Local Open Scope nat_scope.

(** std::greater<OperatorTime>: t2 < t1 (src/operator.hpp:68-71) *)
Definition ot_gt (a b : optime) : bool := ot_lt b a.

Fixpoint ins_desc (x : optime) (l : list optime) : list optime :=
  match l with
  | [] => [x]
  | y :: l' => if ot_gt x y then x :: l else y :: ins_desc x l'
  end.
Definition sort_desc (l : list optime) : list optime := fold_right ins_desc [] l.

(** src/mc_config.hpp:208-211: c_0 c^+_0 c_1 c^+_1 ... *)
Fixpoint interleave (cs cdaggs : list optime) : list optime :=
  match cs, cdaggs with
  | c :: cs', d :: ds' => c :: d :: interleave cs' ds'
  | _, _ => []
  end.

(** src/mc_config.hpp:190-219 compute_permutation_sign_impl. [None]: c_ops is shorter than
    cdagg_ops and c_ops[iop] is out of bounds (line 204). *)
Definition times_work (cdagg c worm : list psi) : option (list optime) :=
  let n := length cdagg in
  if Nat.ltb (length c) n then None
  else Some (interleave (sort_desc (map p_time (firstn n c))) (sort_desc (map p_time cdagg))
             ++ map p_time worm).

Definition compute_permutation_sign_impl (cdagg c worm : list psi) : option bool :=
  match times_work cdagg c worm with
  | None => None
  | Some l => match comb_sort ot_gt shrink13 l with
              | Some (_, s) => Some s
              | None => None
              end
  end.

(** src/mc_config.hpp:221-225 num_ops_less_than: distance to upper_bound, i.e. the number of
    elements that are not greater than t. *)
Definition num_ops_less_than (ops : list optime) (t : optime) : nat :=
  length (filter (fun s => negb (ot_lt t s)) ops).

(** std::set<OperatorTime>::insert *)
Definition set_insert (t : optime) (s : list optime) : list optime :=
  if existsb (ot_eqb t) s then s else t :: s.

(** src/mc_config.hpp:262-282: one of the four loops; [others] is the fixed container and
    [changed_other]/[changed_own] are the two sets of changed times. *)
Fixpoint count_loop (others changed_other : list optime) (ops changed_own : list optime)
  : nat * list optime :=
  match ops with
  | [] => (0%nat, changed_own)
  | t :: ops' =>
      let (n, own) := count_loop others changed_other ops' (set_insert t changed_own) in
      ((num_ops_less_than others t + num_ops_less_than changed_other t + n)%nat, own)
  end.

(** src/mc_config.hpp:243-297 compute_permutation_sign_change *)
Definition compute_permutation_sign_change
    (cdagg_old c_old cdagg_rem c_rem cdagg_add c_add : list optime) : bool :=
  let (n1, dch1) := count_loop c_old [] cdagg_rem [] in
  let (n2, cch1) := count_loop cdagg_old dch1 c_rem [] in
  let (n3, dch2) := count_loop c_old cch1 cdagg_add dch1 in
  let (n4, _) := count_loop cdagg_old dch2 c_add cch1 in
  Nat.odd (n1 + n2 + n3 + n4).

(* ------------------------------------------------------------------------- *)

Lemma ins_desc_perm x l : Permutation (x :: l) (ins_desc x l).
Proof.
  induction l as [|y l IH]; simpl; [reflexivity|].
  destruct (ot_gt x y); [reflexivity|]. rewrite perm_swap. constructor. exact IH.
Qed.

Lemma sort_desc_perm l : Permutation l (sort_desc l).
Proof.
  induction l as [|x l IH]; simpl; [constructor|]. rewrite <- ins_desc_perm. constructor. exact IH.
Qed.

(** weakly decreasing *)
Definition desc (l : list optime) : Prop := StronglySorted (fun a b => ot_lt a b = false) l.

Lemma ot_lt_negtrans a b c : ot_lt a b = false -> ot_lt b c = false -> ot_lt a c = false.
Proof.
  intros H1 H2. apply not_true_is_false. intros H.
  rewrite <- not_true_iff_false in H1, H2. rewrite ot_lt_spec in *. lia.
Qed.

Lemma ins_desc_sorted x l : desc l -> desc (ins_desc x l).
Proof.
  induction 1 as [|y l HS IH HF]; simpl.
  - constructor; constructor.
  - unfold ot_gt. destruct (ot_lt y x) eqn:E.
    + constructor; [constructor; assumption|]. apply ot_lt_asym in E.
      constructor; [exact E|]. eapply Forall_impl; [|exact HF].
      intros a Ha. eapply ot_lt_negtrans; eauto.
    + constructor; [exact IH|]. apply Forall_forall. intros z Hz.
      apply (Permutation_in z (Permutation_sym (ins_desc_perm x l))) in Hz.
      destruct Hz as [<-|Hz]; [exact E|]. rewrite Forall_forall in HF. auto.
Qed.

Lemma sort_desc_sorted l : desc (sort_desc l).
Proof. induction l; simpl; [constructor|]. apply ins_desc_sorted. assumption. Qed.

(** Sorted lists with the same elements are equal. *)
Lemma desc_unique l1 l2 : desc l1 -> desc l2 -> Permutation l1 l2 -> l1 = l2.
Proof.
  intros H1. revert l2. induction H1 as [|x l1 HS1 IH HF1]; intros l2 H2 HP.
  - apply Permutation_nil in HP. subst; reflexivity.
  - destruct l2 as [|y l2]; [symmetry in HP; apply Permutation_nil in HP; discriminate|].
    inversion H2 as [|? ? HS2 HF2]; subst.
    assert (x = y).
    { assert (Hx : In x (y :: l2)) by (apply (Permutation_in x HP); left; reflexivity).
      assert (Hy : In y (x :: l1)) by (apply (Permutation_in y (Permutation_sym HP)); left; reflexivity).
      destruct Hx as [|Hx]; [auto|]. destruct Hy as [|Hy]; [auto|].
      rewrite Forall_forall in HF1, HF2. specialize (HF1 _ Hy). specialize (HF2 _ Hx).
      apply ot_lt_neither; assumption. }
    subst y. f_equal. apply IH; auto. apply Permutation_cons_inv in HP. exact HP.
Qed.

Lemma sort_desc_ext l1 l2 : Permutation l1 l2 -> sort_desc l1 = sort_desc l2.
Proof.
  intros H. apply desc_unique; try apply sort_desc_sorted.
  rewrite <- !sort_desc_perm. exact H.
Qed.

Lemma ot_gt_total x y : x <> y -> ot_gt x y = negb (ot_gt y x).
Proof.
  intros H. unfold ot_gt. destruct (ot_lt y x) eqn:E.
  - apply ot_lt_asym in E. rewrite E. reflexivity.
  - destruct (ot_lt x y) eqn:E2; [reflexivity|]. exfalso. apply H. apply ot_lt_neither; assumption.
Qed.

Lemma comb_sort_gt_ok l : NoDup l ->
  exists l', comb_sort ot_gt shrink13 l = Some (l', Nat.odd (inv ot_gt l)) /\
             Permutation l l' /\ desc l'.
Proof.
  intros HND.
  destruct (comb_sort_ok ot_gt shrink13) with (l := l) as (l' & n & E & Hs & Ho).
  - intros x; apply ot_lt_irrefl.
  - intros x y H; apply ot_lt_asym; exact H.
  - reflexivity.
  - apply shrink13_lt.
  - exists l'. pose proof (ordered_pairs ot_gt) as Hop.
    assert (Hd : StronglySorted (fun x y => ot_gt y x = false) l').
    { apply Hop; [|exact Ho]. intros x y z H1 H2. unfold ot_gt in *. eapply ot_lt_negtrans; eauto. }
    split; [|split; [eapply swaps_perm; eauto|exact Hd]].
    rewrite E. f_equal. f_equal.
    pose proof (swaps_parity ot_gt ot_gt_total n l l' HND Hs) as HPar.
    rewrite (inv_sorted ot_gt l' Hd) in HPar. change (Nat.odd 0) with false in HPar.
    destruct (Nat.odd n), (Nat.odd (inv ot_gt l)); simpl in HPar; congruence.
Qed.

Lemma interleave_perm : forall cs ds, length cs = length ds ->
  Permutation (interleave cs ds) (cs ++ ds).
Proof.
  induction cs as [|c cs IH]; intros [|d ds] H; simpl in *; try discriminate; [constructor|].
  constructor. rewrite <- Permutation_middle. constructor. apply IH. congruence.
Qed.

Lemma NoDup_app_remove_r {A} (l1 l2 : list A) : NoDup (l1 ++ l2) -> NoDup l1.
Proof.
  induction l1; simpl; intros H; [constructor|]. inversion H; subst. constructor; auto.
  intros Hi. apply H2. rewrite in_app_iff. auto.
Qed.
Lemma NoDup_app_remove_l {A} (l1 l2 : list A) : NoDup (l1 ++ l2) -> NoDup l2.
Proof. induction l1; simpl; intros H; [exact H|]. inversion H; auto. Qed.
