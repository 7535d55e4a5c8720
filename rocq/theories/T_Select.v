(** Properties C09, C10, C11: counting of pairs and random selection. *)

From Coq Require Import ZArith QArith Qround Qminmax Lqa Arith List Bool Lia Sorting.Permutation Sorting.Sorted.
From Verif Require Import OpContainer CombSort Select.
Import ListNotations.
Local Open Scope nat_scope.

(* ---------------------------------------------------------------------- *)
(** * C09 *)

(** Specification: a pair of a creator of flavor fi and an annihilator of flavor fr, both in the
    closed window between t1 and t2, at most d apart. *)
Definition wanted (fi fr : nat) (t1 t2 d : Z) (p : psi * psi) : bool :=
  Nat.eqb (p_flavor (fst p)) fi && Nat.eqb (p_flavor (snd p)) fr &&
  in_closed (Z.min t1 t2) (Z.max t1 t2) (fst p) && in_closed (Z.min t1 t2) (Z.max t1 t2) (snd p) &&
  Z.leb (Z.abs (ptime (fst p) - ptime (snd p))) d.
Definition number_of_pairs (cs as_ : list psi) fi fr t1 t2 d : nat :=
  length (filter (wanted fi fr t1 t2 d) (list_prod cs as_)).

Lemma filter_length_app {A} (f : A -> bool) l1 l2 :
  length (filter f (l1 ++ l2)) = length (filter f l1) + length (filter f l2).
Proof. rewrite filter_app, app_length. reflexivity. Qed.

Lemma filter_length_map {A B} (f : B -> bool) (g : A -> B) l :
  length (filter f (map g l)) = length (filter (fun x => f (g x)) l).
Proof. induction l as [|x l IH]; simpl; auto. destruct (f (g x)); simpl; auto. Qed.

Lemma filter_perm {A} (f : A -> bool) l1 l2 : Permutation l1 l2 -> Permutation (filter f l1) (filter f l2).
Proof.
  induction 1; simpl.
  - constructor.
  - destruct (f x); [constructor|]; assumption.
  - destruct (f x), (f y); try apply perm_swap; reflexivity.
  - etransitivity; eauto.
Qed.

Lemma filter_length_perm {A} (f : A -> bool) l1 l2 :
  Permutation l1 l2 -> length (filter f l1) = length (filter f l2).
Proof. intros H. apply Permutation_length, filter_perm, H. Qed.

Lemma filter_filter {A} (f g : A -> bool) l : filter f (filter g l) = filter (fun x => g x && f x) l.
Proof. induction l as [|x l IH]; simpl; auto. destruct (g x); simpl; rewrite IH; reflexivity. Qed.

Lemma list_prod_cons_r {A B} (l : list A) (y : B) l' :
  Permutation (list_prod l (y :: l')) (map (fun x => (x, y)) l ++ list_prod l l').
Proof.
  induction l as [|x l IH]; simpl; [constructor|]. constructor.
  rewrite IH. rewrite !app_assoc. apply Permutation_app_tail. apply Permutation_app_comm.
Qed.

Lemma list_prod_perm_l {A B} (l1 l2 : list A) (m : list B) :
  Permutation l1 l2 -> Permutation (list_prod l1 m) (list_prod l2 m).
Proof.
  induction 1; simpl.
  - constructor.
  - apply Permutation_app_head. assumption.
  - rewrite !app_assoc. apply Permutation_app_tail. apply Permutation_app_comm.
  - etransitivity; eauto.
Qed.
Lemma list_prod_perm_r {A B} (l : list A) (m1 m2 : list B) :
  Permutation m1 m2 -> Permutation (list_prod l m1) (list_prod l m2).
Proof.
  intros H. induction l as [|x l IH]; simpl; [constructor|].
  apply Permutation_app; [apply Permutation_map; exact H|exact IH].
Qed.

Theorem C09_count_is_number_of_pairs c_ops a_ops fi fr t1 t2 d :
  count_num_pairs c_ops a_ops fi fr t1 t2 d = number_of_pairs c_ops a_ops fi fr t1 t2 d.
Proof.
  unfold count_num_pairs, number_of_pairs. induction c_ops as [|c l IH]; [reflexivity|].
  cbn [list_prod]. rewrite filter_length_app, filter_length_map, <- IH. clear IH. cbn [filter].
  destruct (in_closed (Z.min t1 t2) (Z.max t1 t2) c) eqn:Ec.
  - cbn [fold_right]. f_equal. unfold num_pairs_with. rewrite filter_filter.
    destruct (Nat.eqb (p_flavor c) fi) eqn:Ef.
    + f_equal. apply filter_ext. intros a. unfold wanted; simpl. rewrite Ec, Ef.
      destruct (in_closed _ _ a), (Nat.eqb (p_flavor a) fr); reflexivity.
    + induction a_ops as [|a m IHm]; simpl; auto. unfold wanted at 1; simpl. rewrite Ef. simpl. exact IHm.
  - replace (length (filter (fun x => wanted fi fr t1 t2 d (c, x)) a_ops)) with 0; [reflexivity|].
    induction a_ops as [|a m IHm]; simpl; auto. unfold wanted at 1; simpl. rewrite Ec.
    rewrite !andb_false_r. simpl. rewrite <- IHm. reflexivity.
Qed.
Print Assumptions C09_count_is_number_of_pairs.

Lemma cinsert_perm x l : lookup l (p_time x) = None -> csorted l -> Permutation (fst (cinsert x l)) (x :: l).
Proof.
  induction l as [|y l IH]; intros HN HS; simpl; [reflexivity|].
  simpl in HN. destruct (ot_eqb (p_time y) (p_time x)) eqn:E; [discriminate|].
  inversion HS; subst.
  destruct (psi_lt x y) eqn:E1; [reflexivity|].
  destruct (psi_lt y x) eqn:E2.
  - specialize (IH HN H1). destruct (cinsert x l) as [r b]. simpl in *. rewrite IH. apply perm_swap.
  - exfalso. unfold psi_lt in *. assert (Ex : p_time x = p_time y) by (apply ot_lt_neither; assumption).
    rewrite Ex in E. rewrite ot_eqb_refl in E. discriminate.
Qed.

Lemma cfind_iff l k : csorted l -> cfind l k = true <-> exists x, In x l /\ p_time x = k.
Proof.
  intros HS. unfold cfind. split.
  - destruct (lookup l k) as [x|] eqn:E; [|discriminate]. intros _. apply lookup_time in E. firstorder.
  - intros (x & Hin & <-). rewrite (lookup_in l x HS Hin). reflexivity.
Qed.

Definition occupied (ops : container) (t : Z) : Prop := exists x, In x ops /\ p_time x = OT t 0.

(** Prediction = count after the insertion; the error flag is raised exactly when one of the two
    times is already occupied. *)
Theorem C09_prediction_is_exact operators c_ops a_ops fi fr t1 t2 d ti tr :
  csorted operators -> csorted c_ops -> csorted a_ops ->
  Permutation operators (c_ops ++ a_ops) ->
  (forall x, In x c_ops -> p_type x = CREATION_OP) ->
  (forall x, In x a_ops -> p_type x = ANNIHILATION_OP) ->
  (Z.min t1 t2 <= ti <= Z.max t1 t2)%Z -> (Z.min t1 t2 <= tr <= Z.max t1 t2)%Z ->
  ~ occupied operators ti -> ~ occupied operators tr ->
  count_num_pairs_after_insert operators c_ops a_ops fi fr t1 t2 d ti tr =
  (number_of_pairs (fst (cinsert (Psi (OT ti 0) CREATION_OP fi) c_ops))
                   (fst (cinsert (Psi (OT tr 0) ANNIHILATION_OP fr) a_ops)) fi fr t1 t2 d, false).
Proof.
  intros HSo HSc HSa HP Hc Ha Hti Htr Hni Hnr.
  unfold count_num_pairs_after_insert.
  destruct (cfind operators (OT ti 0)) eqn:E1; [exfalso; apply Hni; apply (cfind_iff _ _ HSo); exact E1|].
  destruct (cfind operators (OT tr 0)) eqn:E2; [exfalso; apply Hnr; apply (cfind_iff _ _ HSo); exact E2|].
  cbv zeta. f_equal.
  set (c := Psi (OT ti 0) CREATION_OP fi). set (a := Psi (OT tr 0) ANNIHILATION_OP fr).
  assert (Hpc : Permutation (fst (cinsert c c_ops)) (c :: c_ops)).
  { apply cinsert_perm; [|exact HSc]. destruct (lookup c_ops (p_time c)) as [x|] eqn:E; [|reflexivity].
    exfalso. apply Hni. apply lookup_time in E as [E Hin]. exists x. split; [|exact E].
    apply (Permutation_in x (Permutation_sym HP)). apply in_or_app; auto. }
  assert (Hpa : Permutation (fst (cinsert a a_ops)) (a :: a_ops)).
  { apply cinsert_perm; [|exact HSa]. destruct (lookup a_ops (p_time a)) as [x|] eqn:E; [|reflexivity].
    exfalso. apply Hnr. apply lookup_time in E as [E Hin]. exists x. split; [|exact E].
    apply (Permutation_in x (Permutation_sym HP)). apply in_or_app; auto. }
  assert (Hin : forall t, (Z.min t1 t2 <= t <= Z.max t1 t2)%Z -> forall ty f,
            in_closed (Z.min t1 t2) (Z.max t1 t2) (Psi (OT t 0) ty f) = true).
  { intros t Ht ty f. unfold in_closed. simpl. apply andb_true_iff. split; apply ot_le_spec.
    - destruct (Z.eq_dec (Z.min t1 t2) t) as [->|Hn]; [right; reflexivity|left]. apply ot_lt_spec. simpl. lia.
    - destruct (Z.eq_dec t (Z.max t1 t2)) as [->|Hn]; [right; reflexivity|left]. apply ot_lt_spec. simpl. lia. }
  unfold number_of_pairs.
  rewrite (filter_length_perm _ _ _ (list_prod_perm_l _ _ _ Hpc)).
  rewrite (filter_length_perm _ _ _ (list_prod_perm_r _ _ _ Hpa)).
  rewrite C09_count_is_number_of_pairs. unfold number_of_pairs.
  cbn [list_prod map]. rewrite <- app_comm_cons. cbn [filter].
  set (N0 := length (filter (wanted fi fr t1 t2 d) (list_prod c_ops a_ops))).
  assert (Hw : wanted fi fr t1 t2 d (c, a) = Z.leb (Z.abs (ti - tr)) d).
  { unfold wanted. simpl. rewrite !Nat.eqb_refl. unfold c, a. rewrite (Hin ti Hti), (Hin tr Htr). reflexivity. }
  assert (HNc : length (filter (fun x => Nat.eqb (p_flavor x) fi && optype_eqb (p_type x) CREATION_OP
                              && Z.leb (Z.abs (ptime x - tr)) d)
                     (filter (in_closed (Z.min t1 t2) (Z.max t1 t2)) operators))
          = length (filter (wanted fi fr t1 t2 d) (map (fun x => (x, a)) c_ops))).
  { rewrite filter_filter, (filter_length_perm _ _ _ HP), filter_length_app, filter_length_map.
    assert (Hz : forall l, (forall x, In x l -> p_type x = ANNIHILATION_OP) ->
       length (filter (fun x => in_closed (Z.min t1 t2) (Z.max t1 t2) x &&
         (Nat.eqb (p_flavor x) fi && optype_eqb (p_type x) CREATION_OP && Z.leb (Z.abs (ptime x - tr)) d)) l) = 0).
    { induction l as [|x l IH]; intros Hl; simpl; auto. rewrite (Hl x) by (left; reflexivity). simpl.
      rewrite ?andb_false_r; simpl; rewrite ?andb_false_r; simpl. apply IH. intros; apply Hl; right; auto. }
    rewrite (Hz a_ops Ha), Nat.add_0_r.
    clear -Hc Hin Htr. induction c_ops as [|x l IH]; simpl; auto.
    rewrite (Hc x) by (left; reflexivity).
    unfold wanted at 1. simpl. unfold a at 1 2. rewrite (Hin tr Htr). simpl. rewrite Nat.eqb_refl, !andb_true_r.
    assert (IH' := IH (fun y Hy => Hc y (or_intror Hy))).
    replace (in_closed (Z.min t1 t2) (Z.max t1 t2) x && (Nat.eqb (p_flavor x) fi && (Z.abs (ptime x - tr) <=? d)%Z))
      with (Nat.eqb (p_flavor x) fi && in_closed (Z.min t1 t2) (Z.max t1 t2) x && (Z.abs (ptime x - ptime a) <=? d)%Z)
      by (unfold a, ptime at 2; simpl; destruct (in_closed _ _ x), (Nat.eqb (p_flavor x) fi); reflexivity).
    destruct (_ && _ && _); simpl; rewrite IH'; reflexivity. }
  assert (HNa : length (filter (fun x => Nat.eqb (p_flavor x) fr && optype_eqb (p_type x) ANNIHILATION_OP
                              && Z.leb (Z.abs (ptime x - ti)) d)
                     (filter (in_closed (Z.min t1 t2) (Z.max t1 t2)) operators))
          = length (filter (wanted fi fr t1 t2 d) (map (fun x => (c, x)) a_ops))).
  { rewrite filter_filter, (filter_length_perm _ _ _ HP), filter_length_app, filter_length_map.
    assert (Hz : forall l, (forall x, In x l -> p_type x = CREATION_OP) ->
       length (filter (fun x => in_closed (Z.min t1 t2) (Z.max t1 t2) x &&
         (Nat.eqb (p_flavor x) fr && optype_eqb (p_type x) ANNIHILATION_OP && Z.leb (Z.abs (ptime x - ti)) d)) l) = 0).
    { induction l as [|x l IH]; intros Hl; simpl; auto. rewrite (Hl x) by (left; reflexivity). simpl.
      rewrite ?andb_false_r; simpl; rewrite ?andb_false_r; simpl. apply IH. intros; apply Hl; right; auto. }
    rewrite (Hz c_ops Hc), Nat.add_0_l.
    clear -Ha Hin Hti. induction a_ops as [|x l IH]; simpl; auto.
    rewrite (Ha x) by (left; reflexivity).
    unfold wanted at 1. simpl. unfold c at 1. rewrite (Hin ti Hti). simpl. rewrite Nat.eqb_refl, !andb_true_r.
    assert (IH' := IH (fun y Hy => Ha y (or_intror Hy))).
    replace (in_closed (Z.min t1 t2) (Z.max t1 t2) x && (Nat.eqb (p_flavor x) fr && (Z.abs (ptime x - ti) <=? d)%Z))
      with (Nat.eqb (p_flavor x) fr && in_closed (Z.min t1 t2) (Z.max t1 t2) x && (Z.abs (ptime c - ptime x) <=? d)%Z)
      by (unfold c, ptime at 1; simpl; replace (Z.abs (ti - ptime x)) with (Z.abs (ptime x - ti)) by lia;
          destruct (in_closed _ _ x), (Nat.eqb (p_flavor x) fr); reflexivity).
    simpl. destruct (_ && _ && _); simpl; rewrite IH'; reflexivity. }
  rewrite HNc, HNa, Hw.
  assert (HR : length (filter (wanted fi fr t1 t2 d) (map (fun y => (c, y)) a_ops ++ list_prod c_ops (a :: a_ops)))
    = length (filter (wanted fi fr t1 t2 d) (map (fun y => (c, y)) a_ops)) +
      (length (filter (wanted fi fr t1 t2 d) (map (fun x => (x, a)) c_ops)) + N0)).
  { rewrite filter_length_app, (filter_length_perm _ _ _ (list_prod_cons_r c_ops a a_ops)), filter_length_app. reflexivity. }
  destruct (Z.leb (Z.abs (ti - tr)) d); cbn [length]; rewrite HR; lia.
Qed.
Print Assumptions C09_prediction_is_exact.

Theorem C09_error_iff_occupied operators c_ops a_ops fi fr t1 t2 d ti tr :
  csorted operators ->
  snd (count_num_pairs_after_insert operators c_ops a_ops fi fr t1 t2 d ti tr) = true <->
  occupied operators ti \/ occupied operators tr.
Proof.
  intros HS. unfold count_num_pairs_after_insert, occupied.
  pose proof (cfind_iff operators (OT ti 0) HS) as H1. pose proof (cfind_iff operators (OT tr 0) HS) as H2.
  destruct (cfind operators (OT ti 0)); [simpl; intuition|].
  destruct (cfind operators (OT tr 0)); simpl; intuition.
Qed.
Print Assumptions C09_error_iff_occupied.

(** Non-vacuity and the finding: with a worm operator in [operators] (which the containers of the
    determinant do not hold) the prediction is too large. *)
Definition ex_c := Psi (OT 1 0) CREATION_OP 0.
Definition ex_a := Psi (OT 5 0) ANNIHILATION_OP 1.
Example C09_instance :
  count_num_pairs_after_insert [ex_c; ex_a] [ex_c] [ex_a] 0 1 0%Z 10%Z 4%Z 2%Z 3%Z = (4, false) /\
  number_of_pairs (fst (cinsert (Psi (OT 2 0) CREATION_OP 0) [ex_c]))
                  (fst (cinsert (Psi (OT 3 0) ANNIHILATION_OP 1) [ex_a])) 0 1 0 10 4 = 4.
Proof. split; vm_compute; reflexivity. Qed.
Theorem C09_prediction_with_worm_refuted :
  exists operators c_ops a_ops fi fr t1 t2 d ti tr,
    csorted operators /\ (forall x, In x c_ops \/ In x a_ops -> In x operators) /\
    ~ occupied operators ti /\ ~ occupied operators tr /\
    (t1 < ti < t2)%Z /\ (t1 < tr < t2)%Z /\
    fst (count_num_pairs_after_insert operators c_ops a_ops fi fr t1 t2 d ti tr) >
    number_of_pairs (fst (cinsert (Psi (OT ti 0) CREATION_OP fi) c_ops))
                    (fst (cinsert (Psi (OT tr 0) ANNIHILATION_OP fr) a_ops)) fi fr t1 t2 d.
Proof.
  exists [Psi (OT 4 1) CREATION_OP 0], [], [], 0, 1, 0%Z, 10%Z, 4%Z, 2%Z, 3%Z.
  repeat split; try lia.
  - repeat constructor.
  - intros x [H|H]; destruct H.
  - intros (x & [<-|[]] & E). discriminate.
  - intros (x & [<-|[]] & E). discriminate.
  - vm_compute. lia.
Qed.
Print Assumptions C09_prediction_with_worm_refuted.

(** pick_up_pair draws uniformly from exactly the counted pairs. *)
Lemma pair_list_filter c_ops a_ops fi fr t1 t2 d :
  pair_list c_ops a_ops fi fr t1 t2 d = filter (wanted fi fr t1 t2 d) (list_prod c_ops a_ops).
Proof.
  unfold pair_list. induction c_ops as [|c l IH]; [reflexivity|].
  cbn [list_prod]. rewrite filter_app, <- IH. clear IH. cbn [filter].
  assert (H : forall m, (if Nat.eqb (p_flavor c) fi && in_closed (Z.min t1 t2) (Z.max t1 t2) c then
     map (fun a => (c, a)) (filter (fun a => Nat.eqb (p_flavor a) fr && Z.leb (Z.abs (ptime c - ptime a)) d)
        (filter (in_closed (Z.min t1 t2) (Z.max t1 t2)) m)) else [])
     = filter (wanted fi fr t1 t2 d) (map (fun y => (c, y)) m)).
  { induction m as [|a m IHm]; simpl; [destruct (_ && _); reflexivity|].
    rewrite <- IHm. unfold wanted. simpl.
    destruct (in_closed _ _ a); simpl; destruct (Nat.eqb (p_flavor c) fi), (in_closed _ _ c); simpl;
      destruct (Nat.eqb (p_flavor a) fr); simpl; try reflexivity.
    - destruct (Z.leb _ _); reflexivity. }
  rewrite <- H.
  destruct (in_closed (Z.min t1 t2) (Z.max t1 t2) c); simpl; destruct (Nat.eqb (p_flavor c) fi); reflexivity.
Qed.

Theorem C09_pick_up_pair_spec r c_ops a_ops fi fr t1 t2 d :
  (0 <= r < 1)%Q ->
  let all := filter (wanted fi fr t1 t2 d) (list_prod c_ops a_ops) in
  fst (pick_up_pair r c_ops a_ops fi fr t1 t2 d) = length all /\
  match snd (pick_up_pair r c_ops a_ops fi fr t1 t2 d) with
  | None => all = []
  | Some p => exists i, i < length all /\ nth_error all i = Some p /\
       (inject_Z (Z.of_nat i) / inject_Z (Z.of_nat (length all)) <= r /\
        r < inject_Z (Z.of_nat (S i)) / inject_Z (Z.of_nat (length all)))%Q
  end.
Proof.
  intros [Hr0 Hr1] all. unfold pick_up_pair. rewrite pair_list_filter. fold all. cbv zeta.
  destruct (Nat.ltb 0 (length all)) eqn:E.
  - apply Nat.ltb_lt in E. split; [reflexivity|]. simpl.
    pose proof (proj1 (rnd_index_spec r (length all) (rnd_index r (length all)) Hr0 E) eq_refl) as Hi.
    assert (Hlt : rnd_index r (length all) < length all).
    { destruct (le_lt_dec (length all) (rnd_index r (length all))) as [H|H]; [|exact H]. exfalso.
      destruct Hi as [Hi _]. assert (H1 : (1 <= r)%Q); [|lra].
      eapply Qle_trans; [|exact Hi]. apply Qle_shift_div_l; [unfold Qlt; simpl; lia|].
      rewrite Qmult_1_l. rewrite <- Zle_Qle. lia. }
    destruct (nth_error all (rnd_index r (length all))) as [p|] eqn:Ep.
    + exists (rnd_index r (length all)). auto.
    + apply nth_error_None in Ep. lia.
  - apply Nat.ltb_ge in E. assert (H0 : length all = 0) by lia. simpl. split; [lia|].
    destruct all; [reflexivity|discriminate].
Qed.
Print Assumptions C09_pick_up_pair_spec.
Example C09_pick_instance :
  pick_up_pair (1#2) [ex_c; Psi (OT 2 0) CREATION_OP 0] [ex_a] 0 1 0 10 9 = (2, Some (Psi (OT 2 0) CREATION_OP 0, ex_a)).
Proof. vm_compute. reflexivity. Qed.

(* ---------------------------------------------------------------------- *)
(** * C10 *)

(** A random number in [0,1) gives an index below n, and index i has probability exactly 1/n. *)
Theorem C10_index_range r n : (0 <= r < 1)%Q -> 0 < n ->
  rnd_index r n < n /\
  forall i, rnd_index r n = i <->
    (inject_Z (Z.of_nat i) / inject_Z (Z.of_nat n) <= r /\
     r < inject_Z (Z.of_nat (S i)) / inject_Z (Z.of_nat n))%Q.
Proof.
  intros [Hr0 Hr1] Hn. split; [|intros i; apply rnd_index_spec; assumption].
  pose proof (proj1 (rnd_index_spec r n (rnd_index r n) Hr0 Hn) eq_refl) as [Hi _].
  destruct (le_lt_dec n (rnd_index r n)) as [H|H]; [|exact H]. exfalso.
  assert (H1 : (1 <= r)%Q); [|lra].
  eapply Qle_trans; [|exact Hi]. apply Qle_shift_div_l; [unfold Qlt; simpl; lia|].
  rewrite Qmult_1_l. rewrite <- Zle_Qle. lia.
Qed.
Print Assumptions C10_index_range.
Example C10_index_instance : rnd_index (7#10) 5 = 3 /\ rnd_index 0 5 = 0 /\ rnd_index (99#100) 5 = 4.
Proof. vm_compute. auto. Qed.

Lemma seq_cons0 N : 0 < N -> seq 0 N = [0] ++ seq 1 (N - 1).
Proof. destruct N; [lia|]. simpl. rewrite Nat.sub_0_r. reflexivity. Qed.

Lemma shuffle_seq N cs : length cs = N - 1 -> choices_ok 1 cs ->
  Permutation (seq 0 N) (shuffle_from 1 cs (seq 0 N)).
Proof.
  intros HL HC. destruct N as [|N].
  - destruct cs; [|simpl in HL; lia]. constructor.
  - rewrite seq_cons0 by lia.
    destruct (shuffle_snoc cs 1 [0] (seq 1 (S N - 1))) as (Q & H1 & H2 & H3); auto.
    { rewrite seq_length. lia. }
    rewrite H1. exact H3.
Qed.

Lemma NoDup_firstn {A} n (l : list A) : NoDup l -> NoDup (firstn n l).
Proof.
  intros H. rewrite <- (firstn_skipn n l) in H.
  induction (firstn n l) as [|x m IH]; [constructor|]. simpl in H. inversion H; subst.
  constructor; [|apply IH; assumption]. intros Hin. apply H2. apply in_or_app; auto.
Qed.
Lemma In_firstn {A} n (l : list A) x : In x (firstn n l) -> In x l.
Proof. intros H. rewrite <- (firstn_skipn n l). apply in_or_app; auto. Qed.

(** k <= N distinct indices below N for every random stream. *)
Theorem C10_pickup_distinct N n cs : n <= N -> length cs = N - 1 -> choices_ok 1 cs ->
  let r := pickup_a_few_numbers N n cs in
  length r = n /\ NoDup r /\ forall i, In i r -> i < N.
Proof.
  intros Hn HL HC r. pose proof (shuffle_seq N cs HL HC) as HP.
  unfold r, pickup_a_few_numbers. replace (n - N) with 0 by lia. simpl. rewrite app_nil_r.
  pose proof (Permutation_length HP) as HPL. rewrite seq_length in HPL.
  split; [rewrite firstn_length; lia|]. split.
  - apply NoDup_firstn. eapply Permutation_NoDup; [exact HP|]. apply seq_NoDup.
  - intros i Hi. apply In_firstn in Hi. apply (Permutation_in i (Permutation_sym HP)) in Hi.
    apply in_seq in Hi. lia.
Qed.
Print Assumptions C10_pickup_distinct.
Example C10_pickup_instance : pickup_a_few_numbers 4 2 [0; 1; 0] = [3; 2] /\ choices_ok 1 [0; 1; 0].
Proof. vm_compute. repeat split; auto. Qed.

(** Uniformity: the N! random streams correspond one to one to the N! orders. *)
Theorem C10_shuffle_bijective N : 
  (forall cs cs', length cs = N - 1 -> length cs' = N - 1 -> choices_ok 1 cs -> choices_ok 1 cs' ->
     shuffle_from 1 cs (seq 0 N) = shuffle_from 1 cs' (seq 0 N) -> cs = cs') /\
  (forall Q, Permutation (seq 0 N) Q ->
     exists cs, length cs = N - 1 /\ choices_ok 1 cs /\ shuffle_from 1 cs (seq 0 N) = Q).
Proof.
  destruct N as [|N].
  - split.
    + intros cs cs' H1 H2 _ _ _. destruct cs, cs'; simpl in *; try lia. reflexivity.
    + intros Q HQ. apply Permutation_nil in HQ. subst. exists []. simpl. auto.
  - split.
    + intros cs cs' H1 H2 HC HC' E. rewrite (seq_cons0 (S N)) in E by lia.
      eapply (shuffle_inj (seq 1 (S N - 1)) cs cs' [0] [0] 1); auto; try (rewrite seq_length; lia).
      rewrite <- seq_cons0 by lia. apply seq_NoDup.
    + intros Q HQ. rewrite (seq_cons0 (S N)) in HQ by lia.
      destruct (shuffle_surj (seq 1 (S N - 1)) [0] Q) as (P & cs & H1 & H2 & H3 & H4); auto.
      { rewrite <- seq_cons0 by lia. apply seq_NoDup. }
      apply Permutation_length_1_inv in H1. subst P.
      exists cs. rewrite (seq_cons0 (S N)) by lia. rewrite seq_length in H3. auto.
Qed.
Print Assumptions C10_shuffle_bijective.

(** pick_up_operators: operators of one flavor. *)
Lemma fy_pick {A} (l : list A) num cs : num <= length l -> length cs = num -> offsets_ok (length l) 0 cs ->
  firstn num (fy_from 0 cs l) = draw cs l /\ length (draw cs l) = num /\
  exists R, Permutation l (draw cs l ++ R).
Proof.
  intros Hn HL HO. destruct (fy_draw cs 0 [] l eq_refl HO) as (R & H1 & H2 & H3).
  simpl in H1. rewrite H1. split.
  - rewrite firstn_app, H2, HL, Nat.sub_diag. rewrite firstn_O, app_nil_r.
    rewrite <- HL, <- H2. apply firstn_all.
  - split; [lia|]. exists R. exact H3.
Qed.

Lemma NoDup_app_l {A} (l1 l2 : list A) : NoDup (l1 ++ l2) -> NoDup l1.
Proof.
  induction l1 as [|x l IH]; simpl; intros H; constructor; inversion H; subst; auto.
  intros Hi. apply H2. apply in_or_app; auto.
Qed.

(** Streams: for each flavor with a positive request, offsets below the remaining number. *)
Fixpoint streams_ok (flavor : nat) (ops : list psi) (nums : list nat) (css : list (list nat)) : Prop :=
  match nums with
  | [] => True
  | num :: nums' =>
      (num = 0 \/ (length (hd [] css) = num /\
         (num <= length (filter (fun x => Nat.eqb (p_flavor x) flavor) ops) ->
          offsets_ok (length (filter (fun x => Nat.eqb (p_flavor x) flavor) ops)) 0 (hd [] css)))) /\
      streams_ok (S flavor) ops nums' (tl css)
  end.

Definition of_flavor (f : nat) (l : list psi) := filter (fun x => Nat.eqb (p_flavor x) f) l.

Lemma pick_from_spec ops : NoDup ops -> forall nums flavor css, streams_ok flavor ops nums css ->
  match pick_up_from flavor ops nums css with
  | None => exists i num, nth_error nums i = Some num /\ num > length (of_flavor (flavor + i) ops)
  | Some sel =>
      NoDup sel /\ (forall x, In x sel -> In x ops) /\
      (forall x, In x sel -> flavor <= p_flavor x < flavor + length nums) /\
      (forall i num, nth_error nums i = Some num ->
         length (of_flavor (flavor + i) sel) = num /\ num <= length (of_flavor (flavor + i) ops))
  end.
Proof.
  intros HND. induction nums as [|num nums IH]; intros flavor css HS.
  - simpl. split; [constructor|]. split; [intros; contradiction|]. split; [intros; contradiction|].
    intros [|i] ? H; discriminate.
  - simpl in HS. destruct HS as [Hs HS]. specialize (IH (S flavor) (tl css) HS). cbn [pick_up_from].
    destruct (Nat.eqb num 0) eqn:E0.
    + apply Nat.eqb_eq in E0. subst num.
      destruct (pick_up_from (S flavor) ops nums (tl css)) as [sel|].
      * destruct IH as (H1 & H2 & H3 & H4). split; [exact H1|]. split; [exact H2|]. split.
        { intros x Hx. specialize (H3 x Hx). simpl. lia. }
        intros [|i] m Hm.
        { simpl in Hm. inversion Hm; subst. split; [|lia]. rewrite Nat.add_0_r.
          assert (Hz : of_flavor flavor sel = []); [|rewrite Hz; reflexivity].
          unfold of_flavor. clear -H3. induction sel as [|x l IHl]; simpl; auto.
          assert (p_flavor x <> flavor) by (specialize (H3 x (or_introl eq_refl)); lia).
          apply Nat.eqb_neq in H. rewrite H. apply IHl. intros y Hy. apply H3. right; exact Hy. }
        { simpl in Hm. replace (flavor + S i) with (S flavor + i) by lia. apply H4. exact Hm. }
      * destruct IH as (i & m & H1 & H2). exists (S i), m. simpl. split; [exact H1|].
        replace (flavor + S i) with (S flavor + i) by lia. exact H2.
    + apply Nat.eqb_neq in E0. destruct Hs as [Hs|[HsL HsO]]; [contradiction|].
      fold (of_flavor flavor ops) in *.
      destruct (Nat.ltb (length (of_flavor flavor ops)) num) eqn:El.
      * apply Nat.ltb_lt in El. exists 0, num. simpl. rewrite Nat.add_0_r. auto.
      * apply Nat.ltb_ge in El. specialize (HsO El).
        destruct (pick_up_from (S flavor) ops nums (tl css)) as [sel|].
        -- destruct IH as (H1 & H2 & H3 & H4).
           replace (firstn num (hd [] css)) with (hd [] css) by (rewrite <- HsL; symmetry; apply firstn_all).
           destruct (fy_pick (of_flavor flavor ops) num (hd [] css) El HsL HsO) as (F1 & F2 & R & F3).
           rewrite F1. set (d := draw (hd [] css) (of_flavor flavor ops)) in *.
           assert (HdF : forall x, In x d -> In x ops /\ p_flavor x = flavor).
           { intros x Hx. assert (Hx' : In x (of_flavor flavor ops)).
             { apply (Permutation_in x (Permutation_sym F3)). apply in_or_app; auto. }
             unfold of_flavor in Hx'. apply filter_In in Hx' as [G1 G2]. apply Nat.eqb_eq in G2. auto. }
           assert (HdN : NoDup d).
           { apply (NoDup_app_l d R). eapply Permutation_NoDup; [exact F3|].
             unfold of_flavor. apply NoDup_filter. exact HND. }
           split.
           { clear -HdN HdF H1 H3. induction d as [|x l IHl]; simpl; auto. inversion HdN; subst. constructor.
             - intros Hi. apply in_app_or in Hi as [Hi|Hi]; [contradiction|].
               specialize (H3 x Hi). destruct (HdF x (or_introl eq_refl)) as [_ G]. lia.
             - apply IHl; auto. intros y Hy. apply HdF. right; exact Hy. }
           split. { intros x Hx. apply in_app_or in Hx as [Hx|Hx]; [apply HdF; exact Hx|apply H2; exact Hx]. }
           split.
           { intros x Hx. simpl. apply in_app_or in Hx as [Hx|Hx].
             - destruct (HdF x Hx) as [_ G]. lia.
             - specialize (H3 x Hx). lia. }
           assert (Hd1 : forall f, f <> flavor -> of_flavor f d = []).
           { intros f Hf. unfold of_flavor. clear -HdF Hf. induction d as [|x l IHl]; simpl; auto.
             destruct (HdF x (or_introl eq_refl)) as [_ G]. rewrite G.
             rewrite (proj2 (Nat.eqb_neq flavor f)) by congruence. apply IHl. intros y Hy. apply HdF. right; exact Hy. }
           assert (Hd2 : of_flavor flavor d = d).
           { unfold of_flavor. clear -HdF. induction d as [|x l IHl]; simpl; auto.
             destruct (HdF x (or_introl eq_refl)) as [_ G]. rewrite G, Nat.eqb_refl. f_equal.
             apply IHl. intros y Hy. apply HdF. right; exact Hy. }
           assert (Hs2 : of_flavor flavor sel = []).
           { unfold of_flavor. clear -H3. induction sel as [|x l IHl]; simpl; auto.
             assert (p_flavor x <> flavor) by (specialize (H3 x (or_introl eq_refl)); lia).
             apply Nat.eqb_neq in H. rewrite H. apply IHl. intros y Hy. apply H3. right; exact Hy. }
           intros [|i] m Hm.
           { simpl in Hm. inversion Hm; subst m. rewrite Nat.add_0_r. split; [|exact El].
             unfold of_flavor. rewrite filter_app. fold (of_flavor flavor d). fold (of_flavor flavor sel).
             rewrite Hd2, Hs2, app_nil_r. exact F2. }
           { simpl in Hm. replace (flavor + S i) with (S flavor + i) by lia.
             destruct (H4 i m Hm) as [G1 G2]. split; [|exact G2].
             unfold of_flavor. rewrite filter_app. fold (of_flavor (S flavor + i) d).
             rewrite (Hd1 (S flavor + i)) by lia. exact G1. }
        -- destruct IH as (i & m & H1 & H2). exists (S i), m. simpl. split; [exact H1|].
           replace (flavor + S i) with (S flavor + i) by lia. exact H2.
Qed.

(** For each flavor the requested number of different operators of that flavor, taken from the
    list; it fails exactly when some request exceeds what is there. *)
Theorem C10_pick_up_operators ops nums css : NoDup ops -> streams_ok 0 ops nums css ->
  match pick_up_operators ops nums css with
  | None => exists f num, nth_error nums f = Some num /\ num > length (of_flavor f ops)
  | Some sel =>
      NoDup sel /\ (forall x, In x sel -> In x ops /\ p_flavor x < length nums) /\
      (forall f num, nth_error nums f = Some num ->
         length (of_flavor f sel) = num /\ num <= length (of_flavor f ops))
  end.
Proof.
  intros HN HS. pose proof (pick_from_spec ops HN nums 0 css HS) as H. unfold pick_up_operators.
  destruct (pick_up_from 0 ops nums css) as [sel|].
  - destruct H as (H1 & H2 & H3 & H4). repeat split; auto.
    + specialize (H3 x H). lia.
    + apply (H4 f num H).
    + apply (H4 f num H).
  - exact H.
Qed.
Print Assumptions C10_pick_up_operators.

(** Uniformity for one flavor: random streams correspond one to one to ordered selections. *)
Theorem C10_pick_bijective (l : list psi) k : NoDup l -> k <= length l ->
  (forall cs cs', length cs = k -> length cs' = k -> offsets_ok (length l) 0 cs -> offsets_ok (length l) 0 cs' ->
     firstn k (fy_from 0 cs l) = firstn k (fy_from 0 cs' l) -> cs = cs') /\
  (forall sel, NoDup sel -> length sel = k -> (forall x, In x sel -> In x l) ->
     exists cs, length cs = k /\ offsets_ok (length l) 0 cs /\ firstn k (fy_from 0 cs l) = sel).
Proof.
  intros HN Hk. split.
  - intros cs cs' H1 H2 HO HO' E.
    destruct (fy_pick l k cs Hk H1 HO) as (F1 & _). destruct (fy_pick l k cs' Hk H2 HO') as (F1' & _).
    rewrite F1, F1' in E. eapply draw_inj; eauto. congruence.
  - intros sel HNs HL Hin. destruct (draw_surj sel l HNs Hin) as (cs & H1 & H2 & H3).
    exists cs. split; [lia|]. split; [exact H2|].
    destruct (fy_pick l k cs Hk) as (F1 & _); auto; [lia|]. rewrite F1. exact H3.
Qed.
Print Assumptions C10_pick_bijective.

Definition ex_l := [Psi (OT 1 0) CREATION_OP 0; Psi (OT 2 0) CREATION_OP 1; Psi (OT 3 0) CREATION_OP 0; Psi (OT 4 0) CREATION_OP 0].
Example C10_pick_instance : pick_up_operators ex_l [2; 1] [[1; 1]; [0]]
  = Some [Psi (OT 3 0) CREATION_OP 0; Psi (OT 4 0) CREATION_OP 0; Psi (OT 2 0) CREATION_OP 1] /\
  streams_ok 0 ex_l [2; 1] [[1; 1]; [0]] /\ pick_up_operators ex_l [2; 2] [[1; 1]; [0; 0]] = None.
Proof. vm_compute. intuition lia. Qed.

(** count_operators counts the operators of each flavor (and so the requests that succeed). *)
Theorem C10_count_operators nf ops f : f < nf ->
  nth_error (count_operators nf ops) f = Some (length (of_flavor f ops)).
Proof.
  intros H. unfold count_operators. rewrite nth_error_map.
  rewrite (nth_error_nth' _ 0) by (rewrite seq_length; lia). rewrite seq_nth by lia. reflexivity.
Qed.
Print Assumptions C10_count_operators.

(* ---------------------------------------------------------------------- *)
(** * C11 *)

Theorem C11_open_random_inside eps r t1 t2 : (0 < eps <= 1)%Q -> (0 <= r < 1)%Q -> ~ (t1 == t2)%Q ->
  (Qmin t1 t2 < open_random eps r t1 t2 /\ open_random eps r t1 t2 < Qmax t1 t2)%Q.
Proof.
  intros [He0 He1] [Hr0 Hr1] Hne. unfold open_random.
  assert (H1 : (0 < (1 - eps) * r + eps / 2)%Q).
  { assert (0 <= (1 - eps) * r)%Q by (apply Qmult_le_0_compat; lra).
    assert (E : (eps / 2 == eps * (1#2))%Q) by (unfold Qdiv; reflexivity). rewrite E. lra. }
  assert (H2 : ((1 - eps) * r + eps / 2 < 1)%Q).
  { assert (E : (eps / 2 == eps * (1#2))%Q) by (unfold Qdiv; reflexivity). rewrite E.
    assert ((1 - eps) * r <= (1 - eps) * 1)%Q; [|lra].
    rewrite !(Qmult_comm (1 - eps)). apply Qmult_le_compat_r; lra. }
  set (u := ((1 - eps) * r + eps / 2)%Q) in *. clearbody u.
  destruct (Q_dec t1 t2) as [[H|H]|H]; [| |contradiction].
  - rewrite (Q.min_l t1 t2) by lra. rewrite (Q.max_r t1 t2) by lra.
    assert (0 < (t2 - t1) * u)%Q by (apply Qmult_lt_0_compat; lra).
    assert (0 < (t2 - t1) * (1 - u))%Q by (apply Qmult_lt_0_compat; lra). split; lra.
  - rewrite (Q.min_r t1 t2) by lra. rewrite (Q.max_l t1 t2) by lra.
    assert (0 < (t1 - t2) * u)%Q by (apply Qmult_lt_0_compat; lra).
    assert (0 < (t1 - t2) * (1 - u))%Q by (apply Qmult_lt_0_compat; lra). split; lra.
Qed.
Print Assumptions C11_open_random_inside.

(** The margin kept from each edge is at least eps/2 of the interval. *)
Theorem C11_open_random_margin eps r t1 t2 : (0 <= eps <= 1)%Q -> (0 <= r < 1)%Q -> (t1 < t2)%Q ->
  ((t2 - t1) * (eps / 2) <= open_random eps r t1 t2 - t1 /\
   (t2 - t1) * (eps / 2) <= t2 - open_random eps r t1 t2)%Q.
Proof.
  intros [He0 He1] [Hr0 Hr1] Hlt. unfold open_random.
  assert (E : (eps / 2 == eps * (1#2))%Q) by (unfold Qdiv; reflexivity). rewrite !E.
  assert (0 <= (1 - eps) * r)%Q by (apply Qmult_le_0_compat; lra).
  assert (H2 : (0 <= (1 - eps) * (1 - r))%Q) by (apply Qmult_le_0_compat; lra).
  assert (H3 : (0 <= (t2 - t1) * ((1 - eps) * r))%Q) by (apply Qmult_le_0_compat; lra).
  assert (H4 : (0 <= (t2 - t1) * ((1 - eps) * (1 - r)))%Q) by (apply Qmult_le_0_compat; lra).
  split; lra.
Qed.
Print Assumptions C11_open_random_margin.

Example C11_instance : (Qmin 3 5 < open_random (1#10000000000) 0 5 3 /\ open_random (1#10000000000) 0 5 3 < Qmax 3 5)%Q.
Proof. vm_compute. auto. Qed.

(** With eps = 0 the left edge is reached. *)
Example C11_needs_eps : (open_random 0 0 5 3 == 3)%Q.
Proof. vm_compute. reflexivity. Qed.

(** In binary64 the claim fails when the window is only a few ulps wide: t1 = 1 + 2^-52, t2 = 1,
    r = 1/4 returns t2 itself.  (SpecFloat is the standard library's executable IEEE 754.) *)
From Coq Require Import Floats.SpecFloat.
Definition b64 (m e : Z) : spec_float := binary_normalize 53 1024 m e false.
Definition open_random64 (eps r t1 t2 : spec_float) : spec_float :=
  let add := SFadd 53 1024 in let mul := SFmul 53 1024 in let sub := SFsub 53 1024 in
  add (mul (sub t1 t2) (add (mul (sub (b64 1 0) eps) r) (SFdiv 53 1024 eps (b64 2 0)))) t2.
Definition eps64 : spec_float := SFdiv 53 1024 (b64 1 0) (b64 10000000000 0).
Theorem C11_binary64_refuted :
  exists r t1 t2, SFltb t2 t1 = true /\ SFleb (b64 0 0) r = true /\ SFltb r (b64 1 0) = true /\
    SFeqb (open_random64 eps64 r t1 t2) t2 = true.
Proof. exists (b64 1 (-2)), (b64 4503599627370497 (-52)), (b64 1 0). vm_compute. auto. Qed.
Print Assumptions C11_binary64_refuted.
(** A window of normal width is fine there. *)
Example C11_binary64_normal : SFltb (b64 1 0) (open_random64 eps64 (b64 0 0) (b64 3 0) (b64 1 0)) = true.
Proof. vm_compute. reflexivity. Qed.
