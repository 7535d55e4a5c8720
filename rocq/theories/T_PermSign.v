(** Property theorems C07 (comb_sort) and C08 (permutation sign). *)

From Coq Require Import ZArith Arith List Bool Lia Sorting.Permutation Sorting.Sorted.
From Verif Require Import OpContainer CombSort PermSign.
Import ListNotations.
Local Open Scope nat_scope.

(** ** Specification of the parity of a reordering.
    [adj k l l'] : l' is obtained from l by k exchanges of neighbouring elements. *)
Inductive adj {A} : nat -> list A -> list A -> Prop :=
| adj_refl l : adj 0 l l
| adj_step k l a x y b : adj k l (a ++ x :: y :: b) -> adj (S k) l (a ++ y :: x :: b).

Lemma adj_trans {A} k1 k2 (l1 l2 l3 : list A) : adj k1 l1 l2 -> adj k2 l2 l3 -> adj (k1 + k2) l1 l3.
Proof.
  intros H1 H2. induction H2; [rewrite Nat.add_0_r; exact H1|].
  rewrite Nat.add_succ_r. constructor. auto.
Qed.

Lemma adj_cons {A} k z (l l' : list A) : adj k l l' -> adj k (z :: l) (z :: l').
Proof. induction 1; [constructor|]. apply (adj_step _ _ (z :: a)). exact IHadj. Qed.

(** Every permutation is a sequence of neighbour exchanges. *)
Lemma perm_adj {A} (l l' : list A) : Permutation l l' -> exists k, adj k l l'.
Proof.
  induction 1 as [|x l l' H [k IH]|x y l|l1 l2 l3 H1 [k1 IH1] H2 [k2 IH2]].
  - exists 0. constructor.
  - exists k. apply adj_cons. exact IH.
  - exists 1. apply (adj_step _ _ []). constructor.
  - exists (k1 + k2). eapply adj_trans; eauto.
Qed.

Lemma adj_perm {A} k (l l' : list A) : adj k l l' -> Permutation l l'.
Proof.
  induction 1; [reflexivity|]. rewrite IHadj. apply Permutation_app_head. constructor.
Qed.

Lemma adj_parity {A} (lt : A -> A -> bool) k l l' :
  (forall x y, x <> y -> lt x y = negb (lt y x)) -> NoDup l -> adj k l l' ->
  Nat.odd (inv lt l') = xorb (Nat.odd k) (Nat.odd (inv lt l)).
Proof.
  intros HT HND H. induction H as [l|k l a x y b H IH].
  - destruct (Nat.odd (inv lt l)); reflexivity.
  - assert (HN : NoDup (a ++ x :: y :: b)) by (eapply Permutation_NoDup; [eapply adj_perm; eauto|auto]).
    rewrite odd_inv_adj; [|exact HT|].
    + rewrite IH by exact HND. rewrite Nat.odd_succ, <- Nat.negb_odd.
      destruct (Nat.odd k), (Nat.odd (inv lt l)); reflexivity.
    + intros ->. apply NoDup_remove_2 in HN. apply HN. rewrite in_app_iff. simpl. auto.
Qed.

(** ** C07 *)

(** For every list over any strict weak order and every gap schedule that shrinks:
    comb_sort returns, the result is sorted, it is the input rearranged by a permutation of the
    positions, and the returned sign is the parity of that permutation (counted by neighbour
    exchanges of the positions). *)
Theorem C07_comb_sort_correct : forall (A : Type) (lt : A -> A -> bool) (shrink : nat -> nat),
  (forall x, lt x x = false) ->
  (forall x y, lt x y = true -> lt y x = false) ->
  (forall x y z, lt x y = false -> lt y z = false -> lt x z = false) ->
  shrink 0 = 0 -> (forall g, 1 <= g -> shrink g < g) ->
  forall (d : A) (l : list A),
  exists l' s, comb_sort lt shrink l = Some (l', s) /\
    Permutation l l' /\
    (forall i j x y, i < j -> nth_error l' i = Some x -> nth_error l' j = Some y -> lt y x = false) /\
    (exists idx, Permutation (seq 0 (length l)) idx /\ l' = map (fun k => nth k l d) idx /\
       forall k, adj k (seq 0 (length l)) idx -> s = Nat.odd k).
Proof.
  intros A lt shrink H1 H2 H3 H4 H5 d l.
  destruct (comb_sort_ok lt shrink H1 H2 H4 H5 l) as (l' & n & E & Hs & Ho).
  exists l', (Nat.odd n). split; [exact E|]. split; [eapply swaps_perm; eauto|]. split.
  - pose proof (ordered_pairs lt H3 l' Ho) as HSS. clear -HSS.
    induction HSS as [|u l HS IH HF]; intros i j x y Hij Hx Hy.
    + destruct i; discriminate.
    + destruct j as [|j]; [lia|]. destruct i as [|i].
      * simpl in *. inversion Hx; subst. rewrite Forall_forall in HF. apply HF.
        eapply nth_error_In; eauto.
      * simpl in *. apply (IH i j); auto. lia.
  - destruct (swaps_indices d _ _ _ Hs) as (idx & Hi & ->).
    exists idx. split; [eapply swaps_perm; eauto|]. split; [reflexivity|].
    intros k Hk.
    assert (HT : forall x y, x <> y -> Nat.ltb x y = negb (Nat.ltb y x)).
    { intros x y Hne. destruct (Nat.ltb_spec x y), (Nat.ltb_spec y x); simpl; auto; lia. }
    pose proof (swaps_parity Nat.ltb HT _ _ _ (seq_NoDup _ _) Hi) as P1.
    pose proof (adj_parity Nat.ltb _ _ _ HT (seq_NoDup _ _) Hk) as P2.
    rewrite P1 in P2.
    destruct (Nat.odd n), (Nat.odd k), (Nat.odd (inv Nat.ltb (seq 0 (length l)))); simpl in P2; congruence.
Qed.
Print Assumptions C07_comb_sort_correct.

(** The parity in the theorem above is well defined: some sequence of exchanges exists. *)
Theorem C07_parity_exists : forall (A : Type) (l l' : list A),
  Permutation l l' -> exists k, adj k l l'.
Proof. exact @perm_adj. Qed.
Print Assumptions C07_parity_exists.

Example C07_instance :
  comb_sort Nat.ltb shrink13 [5;3;9;1;3;8;2] = Some ([1;2;3;3;5;8;9], true).
Proof. vm_compute. reflexivity. Qed.
Example C07_instance_hyps : shrink13 0 = 0 /\ shrink13 7 = 5 /\ shrink13 1 = 0.
Proof. repeat split. Qed.

(** ** C08 *)

Definition decreasing (l : list optime) : Prop := StronglySorted (fun a b => ot_lt b a = true) l.

Lemma desc_decreasing l : NoDup l -> desc l -> decreasing l.
Proof.
  intros HND HD. induction HD as [|x l HS IH HF]; constructor.
  - apply IH. inversion HND; assumption.
  - apply Forall_forall. intros y Hy. rewrite Forall_forall in HF. specialize (HF _ Hy).
    destruct (ot_lt y x) eqn:E; [reflexivity|].
    pose proof (ot_lt_neither _ _ HF E) as ->. inversion HND; contradiction.
Qed.

Lemma decreasing_desc l : decreasing l -> desc l.
Proof.
  induction 1; constructor; auto. eapply Forall_impl; [|exact H0].
  intros a' Ha. apply ot_lt_asym. exact Ha.
Qed.

Definition all_times (cdagg c worm : list psi) : list optime :=
  map p_time cdagg ++ map p_time c ++ map p_time worm.

(** Specification: a product of fermion operators
    c(t_0) c^+(t'_0) c(t_1) c^+(t'_1) ... W_0 W_1 ...
    with t and t' decreasing is brought into time order by exchanging neighbours;
    each exchange gives a factor -1. *)
Definition reordering_sign (cdagg c worm : list psi) (s : bool) : Prop :=
  exists cs ds,
    decreasing cs /\ Permutation cs (map p_time c) /\
    decreasing ds /\ Permutation ds (map p_time cdagg) /\
    forall k l', adj k (interleave cs ds ++ map p_time worm) l' -> decreasing l' -> s = Nat.odd k.

Theorem C08_permutation_sign_is_reordering_sign : forall cdagg c worm,
  length c = length cdagg -> NoDup (all_times cdagg c worm) ->
  exists s, compute_permutation_sign_impl cdagg c worm = Some s /\
            reordering_sign cdagg c worm s /\
            (forall s', reordering_sign cdagg c worm s' -> s' = s).
Proof.
  intros cdagg c worm HL HND. unfold all_times in HND.
  assert (HNd : NoDup (map p_time cdagg)) by (eapply NoDup_app_remove_r; eauto).
  assert (HNc : NoDup (map p_time c)).
  { eapply NoDup_app_remove_r. eapply NoDup_app_remove_l. exact HND. }
  set (cs := sort_desc (map p_time c)). set (ds := sort_desc (map p_time cdagg)).
  set (l := interleave cs ds ++ map p_time worm).
  assert (Hlen : length cs = length ds).
  { unfold cs, ds. rewrite <- !(Permutation_length (sort_desc_perm _)), !map_length. exact HL. }
  assert (HP : Permutation (map p_time cdagg ++ map p_time c ++ map p_time worm) l).
  { unfold l. rewrite interleave_perm by exact Hlen. unfold cs, ds.
    rewrite <- !sort_desc_perm, app_assoc. apply Permutation_app_tail. apply Permutation_app_comm. }
  assert (HNl : NoDup l) by (eapply Permutation_NoDup; eauto).
  destruct (comb_sort_gt_ok l HNl) as (l' & E & HPl & Hd).
  exists (Nat.odd (inv ot_gt l)).
  assert (Hk : forall k l0, adj k l l0 -> decreasing l0 -> Nat.odd (inv ot_gt l) = Nat.odd k).
  { intros k l0 Hk Hdec. pose proof (adj_parity ot_gt k l l0 ot_gt_total HNl Hk) as P.
    rewrite (inv_sorted ot_gt l0) in P by (apply decreasing_desc; exact Hdec). change (Nat.odd 0) with false in P.
    destruct (Nat.odd k), (Nat.odd (inv ot_gt l)); simpl in P; congruence. }
  split; [|split].
  - unfold compute_permutation_sign_impl, times_work.
    rewrite HL, Nat.ltb_irrefl, <- HL, firstn_all. fold cs ds l. rewrite E. reflexivity.
  - exists cs, ds. split.
    { apply desc_decreasing; [|apply sort_desc_sorted].
      eapply Permutation_NoDup; [apply sort_desc_perm|exact HNc]. }
    split; [symmetry; apply sort_desc_perm|]. split.
    { apply desc_decreasing; [|apply sort_desc_sorted].
      eapply Permutation_NoDup; [apply sort_desc_perm|exact HNd]. }
    split; [symmetry; apply sort_desc_perm|]. exact Hk.
  - intros s' (cs' & ds' & D1 & P1 & D2 & P2 & H).
    assert (cs' = cs).
    { apply desc_unique; [apply decreasing_desc; exact D1|apply sort_desc_sorted|].
      rewrite P1. apply sort_desc_perm. }
    assert (ds' = ds).
    { apply desc_unique; [apply decreasing_desc; exact D2|apply sort_desc_sorted|].
      rewrite P2. apply sort_desc_perm. }
    subst cs' ds'. destruct (perm_adj l l' HPl) as [k Hkl].
    assert (Hdec : decreasing l').
    { apply desc_decreasing; [eapply Permutation_NoDup; eauto|exact Hd]. }
    rewrite (H k l' Hkl Hdec). symmetry. apply (Hk k l' Hkl Hdec).
Qed.
Print Assumptions C08_permutation_sign_is_reordering_sign.

(** The sign depends only on which operators are in the configuration, not on the storage
    order of the two operator arrays. *)
Theorem C08_sign_independent_of_storage_order : forall cdagg c worm cdagg' c',
  length c = length cdagg -> Permutation cdagg cdagg' -> Permutation c c' ->
  compute_permutation_sign_impl cdagg' c' worm = compute_permutation_sign_impl cdagg c worm.
Proof.
  intros cdagg c worm cdagg' c' HL P1 P2.
  unfold compute_permutation_sign_impl, times_work.
  rewrite <- (Permutation_length P1), <- (Permutation_length P2), HL, Nat.ltb_irrefl.
  rewrite <- HL at 2. rewrite firstn_all. rewrite <- HL, (Permutation_length P2), firstn_all.
  rewrite (sort_desc_ext (map p_time c') (map p_time c)) by (apply Permutation_map; symmetry; exact P2).
  rewrite (sort_desc_ext (map p_time cdagg') (map p_time cdagg)) by (apply Permutation_map; symmetry; exact P1).
  reflexivity.
Qed.
Print Assumptions C08_sign_independent_of_storage_order.

(** Exchanging two worm operators flips the sign. *)
Theorem C08_worm_exchange_flips_sign : forall cdagg c w1 x y w2 s s',
  length c = length cdagg -> NoDup (all_times cdagg c (w1 ++ x :: y :: w2)) ->
  compute_permutation_sign_impl cdagg c (w1 ++ x :: y :: w2) = Some s ->
  compute_permutation_sign_impl cdagg c (w1 ++ y :: x :: w2) = Some s' ->
  s' = negb s.
Proof.
  intros cdagg c w1 x y w2 s s' HL HND.
  assert (HND' : NoDup (all_times cdagg c (w1 ++ y :: x :: w2))).
  { eapply Permutation_NoDup; [|exact HND]. unfold all_times.
    do 2 apply Permutation_app_head. apply Permutation_map. apply Permutation_app_head. constructor. }
  assert (HPint : forall w, Permutation (all_times cdagg c w)
     (interleave (sort_desc (map p_time c)) (sort_desc (map p_time cdagg)) ++ map p_time w)).
  { intros w. unfold all_times. rewrite interleave_perm.
    - rewrite <- !sort_desc_perm, app_assoc. apply Permutation_app_tail. apply Permutation_app_comm.
    - rewrite <- !(Permutation_length (sort_desc_perm _)), !map_length. exact HL. }
  unfold compute_permutation_sign_impl, times_work.
  rewrite HL, Nat.ltb_irrefl, <- HL, firstn_all.
  set (il := interleave _ _).
  destruct (comb_sort_gt_ok (il ++ map p_time (w1 ++ x :: y :: w2))) as (l1 & E1 & _).
  { eapply Permutation_NoDup; [apply HPint|exact HND]. }
  destruct (comb_sort_gt_ok (il ++ map p_time (w1 ++ y :: x :: w2))) as (l2 & E2 & _).
  { eapply Permutation_NoDup; [apply HPint|exact HND']. }
  rewrite E1, E2. intros A B; inversion A; inversion B; subst.
  rewrite !map_app. simpl. rewrite !app_assoc. apply odd_inv_adj; [exact ot_gt_total|].
  intros Heq. unfold all_times in HND. rewrite map_app in HND. simpl in HND.
  rewrite !app_assoc in HND. apply NoDup_remove_2 in HND. apply HND.
  rewrite in_app_iff. right. left. symmetry; exact Heq.
Qed.
Print Assumptions C08_worm_exchange_flips_sign.

Definition cd (t : Z) := Psi (OT t 0%Z) CREATION_OP 0.
Definition an (t : Z) := Psi (OT t 0%Z) ANNIHILATION_OP 0.
Example C08_instance :
  compute_permutation_sign_impl [cd 3; cd 7] [an 5; an 1] [an 4; cd 6] = Some false /\
  compute_permutation_sign_impl [cd 3; cd 7] [an 5; an 1] [cd 6; an 4] = Some true /\
  NoDup (all_times [cd 3; cd 7] [an 5; an 1] [an 4; cd 6]).
Proof.
  split; [vm_compute; reflexivity|]. split; [vm_compute; reflexivity|].
  unfold all_times; simpl. repeat constructor; simpl; intuition congruence.
Qed.

(** The incremental formula compute_permutation_sign_change is not the change of this sign:
    inserting a pair and removing it again gives -1 in total.
    (The function is not called by the simulation.) *)
Theorem C08_incremental_sign_change_refuted : exists cdagg c d1 c1,
  NoDup (all_times (d1 :: cdagg) (c1 :: c) []) /\ length c = length cdagg /\
  xorb (compute_permutation_sign_change (map p_time cdagg) (map p_time c) [] [] [p_time d1] [p_time c1])
       (compute_permutation_sign_change (map p_time (d1 :: cdagg)) (map p_time (c1 :: c))
          [p_time d1] [p_time c1] [] []) = true.
Proof.
  exists [cd 3], [an 5], (cd 7), (an 1). split.
  - unfold all_times; simpl. repeat constructor; simpl; intuition congruence.
  - split; [reflexivity|]. vm_compute. reflexivity.
Qed.
Print Assumptions C08_incremental_sign_change_refuted.
