(** Parities of reorderings: lists stored pair by pair, and lists of times shifted modulo beta. Lemmas for C67, no code. *)
From Coq Require Import ZArith Arith List Bool Lia Sorting.Permutation Sorting.Sorted.
From Verif Require Import OpContainer CombSort PermSign T_PermSign.
Import ListNotations.
Local Open Scope nat_scope.

Lemma interleave_app a da b db : length a = length da -> interleave (a ++ b) (da ++ db) = interleave a da ++ interleave b db.
Proof.
  revert da. induction a as [|x a IH]; intros [|d da] H; simpl in *; try discriminate; [reflexivity|].
  rewrite IH by lia. reflexivity.
Qed.
Lemma adj_app_l {A} k (z l l' : list A) : adj k l l' -> adj k (z ++ l) (z ++ l').
Proof. intros H. induction z; simpl; [exact H|]. apply adj_cons. exact IHz. Qed.
Lemma adj_app_r {A} k (z l l' : list A) : adj k l l' -> adj k (l ++ z) (l' ++ z).
Proof. induction 1; [constructor|]. rewrite <- app_assoc in *. simpl in *. constructor. exact IHadj. Qed.
Lemma adj3 {A} (x d y : A) r : adj 3 (x :: d :: y :: r) (y :: d :: x :: r).
Proof.
  apply (adj_step 2 _ [] d y). apply (adj_step 1 _ [d] x y). apply (adj_step 0 _ [] x d). constructor.
Qed.
Lemma cut_at {A B} (a : list A) (x y : A) (b : list A) (ds : list B) : length (a ++ x :: y :: b) = length ds ->
  exists da d1 d2 db, ds = da ++ d1 :: d2 :: db /\ length a = length da.
Proof.
  revert ds. induction a as [|z a IH]; intros ds H; simpl in H.
  - destruct ds as [|d1 [|d2 ds]]; try discriminate. exists [], d1, d2, ds. auto.
  - destruct ds as [|d ds]; [discriminate|]. destruct (IH ds) as (da & d1 & d2 & db & -> & E); [injection H; auto|].
    exists (d :: da), d1, d2, db. simpl. auto.
Qed.

Lemma interleave_adj_l k cs cs' ds : adj k cs cs' -> length cs = length ds ->
  exists k', adj k' (interleave cs ds) (interleave cs' ds) /\ Nat.odd k' = Nat.odd k.
Proof.
  intros H HL. induction H as [l|k l a x y b H IH]; [exists 0; split; [constructor|reflexivity]|].
  destruct (IH HL) as (k' & H1 & H2).
  assert (HL' : length (a ++ x :: y :: b) = length ds) by (rewrite <- HL; symmetry; apply Permutation_length; eapply adj_perm; exact H).
  destruct (cut_at _ _ _ _ _ HL') as (da & d1 & d2 & db & -> & E).
  exists (k' + 3). split.
  - eapply adj_trans; [exact H1|]. rewrite !interleave_app by exact E. apply adj_app_l. simpl. apply adj3.
  - replace (k' + 3) with (S (S (S k'))) by lia. rewrite Nat.odd_succ_succ, !Nat.odd_succ, <- !Nat.negb_odd, H2. reflexivity.
Qed.
Lemma interleave_adj_r k cs ds ds' : adj k ds ds' -> length cs = length ds ->
  exists k', adj k' (interleave cs ds) (interleave cs ds') /\ Nat.odd k' = Nat.odd k.
Proof.
  intros H HL. induction H as [l|k l a x y b H IH]; [exists 0; split; [constructor|reflexivity]|].
  destruct (IH HL) as (k' & H1 & H2).
  assert (HL' : length (a ++ x :: y :: b) = length cs) by (rewrite HL; symmetry; apply Permutation_length; eapply adj_perm; exact H).
  destruct (cut_at _ _ _ _ _ HL') as (ca & c1 & c2 & cb & -> & E).
  exists (k' + 3). split.
  - eapply adj_trans; [exact H1|]. rewrite !interleave_app by (symmetry; exact E). apply adj_app_l. simpl.
    apply adj_cons. apply adj3.
  - replace (k' + 3) with (S (S (S k'))) by lia. rewrite Nat.odd_succ_succ, !Nat.odd_succ, <- !Nat.negb_odd, H2. reflexivity.
Qed.

(** Ascending and descending inversions add up to a number that depends on the length only. *)
Fixpoint triangle (n : nat) : nat := match n with 0 => 0 | S m => m + triangle m end.
Lemma inv_both l : NoDup l -> inv ot_lt l + inv ot_gt l = triangle (length l).
Proof.
  induction 1 as [|x l Hx HN IH]; simpl; [reflexivity|].
  assert (E : count_lt ot_lt x l + count_lt ot_gt x l = length l).
  { clear IH HN. unfold count_lt. induction l as [|y l IHl]; simpl; [reflexivity|].
    assert (Hn : ot_lt y x = negb (ot_gt y x)).
    { change (ot_lt y x) with (ot_gt x y). apply ot_gt_total. intros ->. apply Hx. simpl. auto. }
    rewrite Hn. assert (Hx' : ~ In x l) by (intros Hi; apply Hx; simpl; auto).
    specialize (IHl Hx'). destruct (ot_gt y x); simpl; lia. }
  lia.
Qed.

Lemma odd_plus a b : Nat.odd (a + b) = xorb (Nat.odd a) (Nat.odd b).
Proof. apply Nat.odd_add. Qed.

(** The sign of the code in terms of the list of pairs in any order *)
Lemma perm_sign_storage cdagg c worm : length c = length cdagg -> NoDup (all_times cdagg c worm) ->
  compute_permutation_sign_impl cdagg c worm =
  Some (xorb (Nat.odd (inv ot_gt (interleave (map p_time c) (map p_time cdagg) ++ map p_time worm)))
             (xorb (Nat.odd (inv ot_lt (map p_time c))) (Nat.odd (inv ot_lt (map p_time cdagg))))).
Proof.
  intros HL HND. unfold all_times in HND.
  assert (HNd : NoDup (map p_time cdagg)) by (eapply NoDup_app_remove_r; eauto).
  assert (HNc : NoDup (map p_time c)).
  { eapply NoDup_app_remove_r. eapply NoDup_app_remove_l. exact HND. }
  set (tc := map p_time c) in *. set (td := map p_time cdagg) in *. set (tw := map p_time worm) in *.
  set (cs := sort_desc tc). set (ds := sort_desc td).
  assert (Hl0 : length tc = length td) by (unfold tc, td; rewrite !map_length; exact HL).
  assert (Hlen : length cs = length ds).
  { unfold cs, ds. rewrite <- !(Permutation_length (sort_desc_perm _)). exact Hl0. }
  set (l := interleave cs ds ++ tw). set (l0 := interleave tc td ++ tw).
  assert (HP0 : Permutation (td ++ tc ++ tw) l0).
  { unfold l0. rewrite interleave_perm by exact Hl0. rewrite app_assoc. apply Permutation_app_tail. apply Permutation_app_comm. }
  assert (HN0 : NoDup l0) by (eapply Permutation_NoDup; eauto).
  destruct (perm_adj tc cs (sort_desc_perm _)) as [k1 A1].
  destruct (perm_adj td ds (sort_desc_perm _)) as [k2 A2].
  destruct (interleave_adj_l _ _ _ td A1 Hl0) as (k1' & B1 & O1).
  assert (Hl1 : length cs = length td) by (unfold cs; rewrite <- (Permutation_length (sort_desc_perm _)); exact Hl0).
  destruct (interleave_adj_r _ cs _ _ A2 Hl1) as (k2' & B2 & O2).
  assert (AL : adj (k1' + k2') l0 l) by (apply adj_app_r; eapply adj_trans; eauto).
  assert (HNl : NoDup l) by (eapply Permutation_NoDup; [eapply adj_perm; exact AL|exact HN0]).
  pose proof (adj_parity ot_gt _ _ _ ot_gt_total HN0 AL) as P.
  pose proof (adj_parity ot_gt _ _ _ ot_gt_total HNc A1) as P1.
  pose proof (adj_parity ot_gt _ _ _ ot_gt_total HNd A2) as P2.
  assert (S0 : forall m, inv ot_gt (sort_desc m) = 0) by (intros; apply inv_sorted; apply sort_desc_sorted).
  unfold cs in P1. unfold ds in P2. rewrite S0 in P1, P2. change (Nat.odd 0) with false in P1, P2.
  destruct (comb_sort_gt_ok l HNl) as (l' & E & _).
  unfold compute_permutation_sign_impl, times_work.
  rewrite HL, Nat.ltb_irrefl, <- HL, firstn_all. fold tc td tw cs ds l. rewrite E. f_equal. rewrite P, odd_plus, O1, O2.
  pose proof (inv_both tc HNc) as T1. pose proof (inv_both td HNd) as T2. rewrite <- Hl0 in T2.
  assert (T : Nat.odd (inv ot_lt tc + inv ot_gt tc) = Nat.odd (inv ot_lt td + inv ot_gt td)) by congruence.
  rewrite !odd_plus in T. unfold l0.
  destruct (Nat.odd k1), (Nat.odd k2), (Nat.odd (inv ot_gt tc)), (Nat.odd (inv ot_gt td)), (Nat.odd (inv ot_lt tc)), (Nat.odd (inv ot_lt td)),
    (Nat.odd (inv ot_gt (interleave tc td ++ tw))); simpl in *; congruence.
Qed.

(** Shift of times modulo beta *)
Section Shift.
Variables (sh : optime -> optime) (w : optime -> bool).
Variable ok : optime -> Prop.
Hypothesis sh_lt : forall x y, ok x -> ok y -> x <> y -> ot_lt (sh x) (sh y) = xorb (ot_lt x y) (xorb (w x) (w y)).
Definition moved (l : list optime) : nat := length (filter w l).

Lemma moved_le l : moved l <= length l.
Proof. unfold moved. induction l as [|x l IH]; simpl; [lia|]. destruct (w x); simpl; lia. Qed.
Lemma odd_S n : Nat.odd (S n) = negb (Nat.odd n).
Proof. rewrite Nat.odd_succ, Nat.negb_odd. reflexivity. Qed.
Lemma odd_filter {A} (f : A -> bool) y l : Nat.odd (length (filter f (y :: l))) = xorb (f y) (Nat.odd (length (filter f l))).
Proof. simpl. destruct (f y); simpl length; [rewrite odd_S|]; destruct (Nat.odd _); reflexivity. Qed.
Lemma count_shift x l : ok x -> (forall y, In y l -> ok y) -> ~ In x l ->
  Nat.odd (count_lt ot_gt (sh x) (map sh l)) =
  xorb (Nat.odd (count_lt ot_gt x l)) (Nat.odd (if w x then length l - moved l else moved l)).
Proof.
  intros Hx Hl HN. unfold count_lt. induction l as [|y l IH]; [simpl; destruct (w x); reflexivity|].
  simpl map. rewrite !odd_filter, IH by (intros; try apply Hl; simpl; auto; intros Hi; apply HN; simpl; auto).
  assert (Hne : x <> y) by (intros ->; apply HN; simpl; auto).
  unfold ot_gt at 1 3. rewrite (sh_lt x y Hx (Hl y (or_introl eq_refl)) Hne).
  assert (E : Nat.odd (if w x then length (y :: l) - moved (y :: l) else moved (y :: l)) =
     xorb (xorb (w x) (w y)) (Nat.odd (if w x then length l - moved l else moved l))).
  { clear IH. pose proof (moved_le l) as Hm. unfold moved in *. simpl filter. destruct (w x), (w y); simpl length.
    - replace (S (length l) - S (length (filter w l))) with (length l - length (filter w l)) by lia. simpl xorb; match goal with |- context [Nat.odd ?n] => destruct (Nat.odd n) end; reflexivity.
    - replace (S (length l) - length (filter w l)) with (S (length l - length (filter w l))) by lia. rewrite odd_S. simpl xorb; match goal with |- context [Nat.odd ?n] => destruct (Nat.odd n) end; reflexivity.
    - rewrite odd_S. simpl xorb; match goal with |- context [Nat.odd ?n] => destruct (Nat.odd n) end; reflexivity.
    - simpl xorb; match goal with |- context [Nat.odd ?n] => destruct (Nat.odd n) end; reflexivity. }
  rewrite E. destruct (ot_lt x y), (xorb (w x) (w y)), (Nat.odd (length (filter (fun z => ot_gt z x) l))),
    (Nat.odd (if w x then length l - moved l else moved l)); reflexivity.
Qed.
Lemma inv_shift l : (forall x, In x l -> ok x) -> NoDup l ->
  Nat.odd (inv ot_gt (map sh l)) = xorb (Nat.odd (inv ot_gt l)) (Nat.odd (moved l * (length l - moved l))).
Proof.
  intros Hok HN. induction HN as [|x l Hx HN IH]; [reflexivity|]. simpl inv. simpl map.
  rewrite !odd_plus, IH by (intros; apply Hok; simpl; auto).
  rewrite count_shift; [|apply Hok; simpl; auto|intros; apply Hok; simpl; auto|exact Hx].
  pose proof (moved_le l) as Hm.
  assert (E : Nat.odd (moved (x :: l) * (length (x :: l) - moved (x :: l))) =
     xorb (Nat.odd (moved l * (length l - moved l))) (Nat.odd (if w x then length l - moved l else moved l))).
  { unfold moved at 1 2. simpl filter. destruct (w x); simpl length; fold (moved l).
    - replace (S (length l) - S (moved l)) with (length l - moved l) by lia.
      rewrite Nat.mul_succ_l, odd_plus. reflexivity.
    - replace (S (length l) - moved l) with (S (length l - moved l)) by lia.
      rewrite Nat.mul_succ_r, odd_plus. reflexivity. }
  rewrite E.
  destruct (Nat.odd (count_lt ot_gt x l)), (Nat.odd (if w x then length l - moved l else moved l)), (Nat.odd (inv ot_gt l)),
    (Nat.odd (moved l * (length l - moved l))); reflexivity.
Qed.
End Shift.
