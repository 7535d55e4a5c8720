(** Random selections and counting of operator pairs.

    Modelled code: src/util.hpp:225-228 (open_random), 293-304 (MyRandomNumberGenerator),
    306-320 (pickup_a_few_numbers with std::random_shuffle as in libstdc++);
    src/operator_util.ipp:3-28 (count_operators), 49-84 (pick_up_operators);
    src/operator_util.hpp:62-111 (pick_up_pair), 139-155 (num_operators_in_range_open);
    src/operator_util.cpp:34-124 (count_num_pairs, count_num_pairs_after_insert).

    A random number is a rational in [0,1); an index static_cast<int>(rng()*n) is its floor. *)

From Coq Require Import ZArith QArith Qround Arith List Bool Lia Sorting.Permutation.
From Verif Require Import OpContainer CombSort.
Import ListNotations.
Local Open Scope nat_scope.

(** static_cast<int>(rng() * n) *)
Definition rnd_index (r : Q) (n : nat) : nat := Z.to_nat (Qfloor (r * inject_Z (Z.of_nat n))).

(** src/util.hpp:225-228 *)
Definition open_random (eps r t1 t2 : Q) : Q :=
  ((t1 - t2) * ((1 - eps) * r + eps / 2) + t2)%Q.

(** std::random_shuffle (libstdc++): for i = 1 .. N-1 swap elements i and rnd(i+1).
    [cs] are the indices returned by rnd. *)
Fixpoint shuffle_from {A} (i : nat) (cs : list nat) (l : list A) : list A :=
  match cs with
  | [] => l
  | j :: cs' => shuffle_from (S i) cs' (swap_at i j l)
  end.

(** src/util.hpp:310-320; vector::resize pads with zeros when n > N. *)
Definition pickup_a_few_numbers (N n : nat) (cs : list nat) : list nat :=
  let l := shuffle_from 1 cs (seq 0 N) in
  firstn n l ++ repeat 0 (n - N).

(** The indices rnd can return: rnd(k) < k. *)
Fixpoint choices_ok (i : nat) (cs : list nat) : Prop :=
  match cs with
  | [] => True
  | j :: cs' => j <= i /\ choices_ok (S i) cs'
  end.

(** src/operator_util.ipp:70-77: partial Fisher-Yates shuffle, [cs] the random offsets. *)
Fixpoint fy_from {A} (iop : nat) (cs : list nat) (l : list A) : list A :=
  match cs with
  | [] => l
  | k :: cs' => fy_from (S iop) cs' (swap_at iop (iop + k) l)
  end.

(** offsets static_cast<int>(random01() * (size - iop)) are below size - iop *)
Fixpoint offsets_ok (n iop : nat) (cs : list nat) : Prop :=
  match cs with
  | [] => True
  | k :: cs' => k < n - iop /\ offsets_ok n (S iop) cs'
  end.

(** src/operator_util.ipp:49-84. [nums] are the requested numbers per flavor, [css] the random
    offsets used for each flavor; [None] is the runtime_error of line 67. *)
Fixpoint pick_up_from (flavor : nat) (ops : list psi) (nums : list nat) (css : list (list nat))
  : option (list psi) :=
  match nums with
  | [] => Some []
  | num :: nums' =>
      let cs := hd [] css in
      if Nat.eqb num 0 then pick_up_from (S flavor) ops nums' (tl css)
      else
        let ops_flavor := filter (fun x => Nat.eqb (p_flavor x) flavor) ops in
        if Nat.ltb (length ops_flavor) num then None
        else
          match pick_up_from (S flavor) ops nums' (tl css) with
          | None => None
          | Some rest => Some (firstn num (fy_from 0 (firstn num cs) ops_flavor) ++ rest)
          end
  end.
Definition pick_up_operators := pick_up_from 0.

(** src/operator_util.ipp:3-28 (flavors at or above num_flavors are out of bounds) *)
Definition count_operators (num_flavors : nat) (ops : list psi) : list nat :=
  map (fun f => length (filter (fun x => Nat.eqb (p_flavor x) f) ops)) (seq 0 num_flavors).

(** operators.range(tau_low <= _1, _1 <= tau_high); a double t is compared as (t,0)
    (src/operator.hpp:161-196). *)
Definition in_closed (lo hi : Z) (x : psi) : bool :=
  ot_le (OT lo 0) (p_time x) && ot_le (p_time x) (OT hi 0).
Definition in_open (lo hi : Z) (x : psi) : bool :=
  ot_lt (OT lo 0) (p_time x) && ot_lt (p_time x) (OT hi 0).

(** src/operator_util.hpp:139-155 *)
Definition num_operators_in_range_open (ops : container) (t1 t2 : Z) : nat :=
  length (filter (in_open (Z.min t1 t2) (Z.max t1 t2)) ops).

Definition ptime (x : psi) : Z := ot_time (p_time x).

(** src/operator_util.cpp:34-66: the double loop as two nested folds. *)
Definition num_pairs_with (arange : list psi) (flavor_rem : nat) (d t : Z) : nat :=
  length (filter (fun a => Nat.eqb (p_flavor a) flavor_rem && Z.leb (Z.abs (t - ptime a)) d) arange).
Definition count_num_pairs (c_ops a_ops : container) (flavor_ins flavor_rem : nat) (t1 t2 d : Z) : nat :=
  let lo := Z.min t1 t2 in
  let hi := Z.max t1 t2 in
  let crange := filter (in_closed lo hi) c_ops in
  let arange := filter (in_closed lo hi) a_ops in
  fold_right (fun c n => (if Nat.eqb (p_flavor c) flavor_ins
                          then num_pairs_with arange flavor_rem d (ptime c) else 0) + n) 0 crange.

(** operators.find(op): an element equivalent to op under the time order. *)
Definition cfind (l : container) (k : optime) : bool :=
  match lookup l k with Some _ => true | None => false end.

(** src/operator_util.cpp:69-124; the second component is the error flag. *)
Definition count_num_pairs_after_insert (operators c_ops a_ops : container)
    (flavor_ins flavor_rem : nat) (t1 t2 d tau_ins tau_rem : Z) : nat * bool :=
  let n0 := count_num_pairs c_ops a_ops flavor_ins flavor_rem t1 t2 d in
  let n1 := if Z.leb (Z.abs (tau_ins - tau_rem)) d then S n0 else n0 in
  if cfind operators (OT tau_ins 0) then (0, true)
  else if cfind operators (OT tau_rem 0) then (0, true)
  else
    let range := filter (in_closed (Z.min t1 t2) (Z.max t1 t2)) operators in
    let nc := length (filter (fun x => Nat.eqb (p_flavor x) flavor_ins && optype_eqb (p_type x) CREATION_OP
                              && Z.leb (Z.abs (ptime x - tau_rem)) d) range) in
    let na := length (filter (fun x => Nat.eqb (p_flavor x) flavor_rem && optype_eqb (p_type x) ANNIHILATION_OP
                              && Z.leb (Z.abs (ptime x - tau_ins)) d) range) in
    (n1 + nc + na, false).

(** src/operator_util.hpp:62-111 pick_up_pair: list of admissible pairs in loop order, and the
    chosen one for random number r. *)
Definition pair_list (c_ops a_ops : container) (flavor_ins flavor_rem : nat) (t1 t2 d : Z) : list (psi * psi) :=
  let lo := Z.min t1 t2 in
  let hi := Z.max t1 t2 in
  let crange := filter (in_closed lo hi) c_ops in
  let arange := filter (in_closed lo hi) a_ops in
  flat_map (fun c => if Nat.eqb (p_flavor c) flavor_ins then
     map (fun a => (c, a))
       (filter (fun a => Nat.eqb (p_flavor a) flavor_rem && Z.leb (Z.abs (ptime c - ptime a)) d) arange)
     else []) crange.
Definition pick_up_pair (r : Q) (c_ops a_ops : container) (fi fr : nat) (t1 t2 d : Z)
  : nat * option (psi * psi) :=
  let l := pair_list c_ops a_ops fi fr t1 t2 d in
  if Nat.ltb 0 (length l) then (length l, nth_error l (rnd_index r (length l))) else (0, None).

(* ------------------------------------------------------------------------- *)

Lemma rnd_index_spec r n i : (0 <= r)%Q -> 0 < n ->
  (rnd_index r n = i <->
   (inject_Z (Z.of_nat i) / inject_Z (Z.of_nat n) <= r /\
    r < inject_Z (Z.of_nat (S i)) / inject_Z (Z.of_nat n))%Q).
Proof.
  intros Hr Hn. unfold rnd_index.
  assert (Hp : (0 < inject_Z (Z.of_nat n))%Q).
  { unfold Qlt; simpl. lia. }
  set (N := inject_Z (Z.of_nat n)) in *.
  assert (H0 : (0 <= r * N)%Q) by (apply Qmult_le_0_compat; [exact Hr | apply Qlt_le_weak; exact Hp]).
  assert (Hf0 : (0 <= Qfloor (r * N))%Z).
  { change 0%Z with (Qfloor (inject_Z 0)). apply Qfloor_resp_le. exact H0. }
  split.
  - intros <-. rewrite Nat2Z.inj_succ, Z2Nat.id by exact Hf0. split.
    + apply Qle_shift_div_r; [exact Hp|]. apply Qfloor_le.
    + apply Qlt_shift_div_l; [exact Hp|]. unfold Z.succ. apply Qlt_floor.
  - intros [H1 H2].
    apply (Qmult_le_compat_r _ _ N) in H1; [|apply Qlt_le_weak; exact Hp].
    apply (Qmult_lt_compat_r _ _ N Hp) in H2.
    rewrite Qmult_comm, Qmult_div_r in H1 by (intros E; rewrite E in Hp; discriminate Hp).
    rewrite (Qmult_comm (inject_Z (Z.of_nat (S i)) / N)), Qmult_div_r in H2
      by (intros E; rewrite E in Hp; discriminate Hp).
    assert (Hz : Qfloor (r * N) = Z.of_nat i); [|rewrite Hz; apply Nat2Z.id].
    apply Z.le_antisymm.
    + pose proof (Qfloor_le (r * N)) as Hfl.
      assert (Hlt : (inject_Z (Qfloor (r * N)) < inject_Z (Z.of_nat (S i)))%Q)
        by (eapply Qle_lt_trans; eauto).
      rewrite <- Zlt_Qlt in Hlt. lia.
    + apply Qfloor_resp_le in H1. rewrite Qfloor_Z in H1. exact H1.
Qed.

Lemma set_nth_app_l {A} i (v : A) l s : i < length l -> set_nth i v (l ++ s) = set_nth i v l ++ s.
Proof.
  revert i. induction l as [|x l IH]; intros [|i] H; simpl in *; try lia; auto.
  rewrite IH by lia. reflexivity.
Qed.
Lemma set_nth_app_r {A} i (v : A) l s : set_nth (length l + i) v (l ++ s) = l ++ set_nth i v s.
Proof. induction l as [|x l IH]; simpl; [reflexivity|]. rewrite IH. reflexivity. Qed.

Lemma set_nth_length {A} i (v : A) l : length (set_nth i v l) = length l.
Proof. revert i. induction l as [|x l IH]; intros [|i]; simpl; auto. Qed.

(** One step of random_shuffle on the already shuffled prefix. *)
Definition put {A} (P : list A) (x : A) (j : nat) : list A :=
  match nth_error P j with Some y => set_nth j x P ++ [y] | None => P ++ [x] end.

Lemma put_length {A} P (x : A) j : length (put P x j) = S (length P).
Proof. unfold put. destruct (nth_error P j); rewrite app_length, ?set_nth_length; simpl; lia. Qed.

Lemma swap_put {A} (P : list A) x S0 j : j <= length P ->
  swap_at (length P) j (P ++ x :: S0) = put P x j ++ S0.
Proof.
  intros Hj. unfold swap_at, put.
  rewrite nth_error_app2, Nat.sub_diag by lia. simpl.
  destruct (Nat.eq_dec j (length P)) as [->|Hne].
  - rewrite nth_error_app2, Nat.sub_diag by lia. simpl.
    rewrite (proj2 (nth_error_None P (length P))) by lia.
    pose proof (set_nth_app_r 0 x P (x :: S0)) as E. rewrite Nat.add_0_r in E.
    rewrite E. simpl. rewrite E. simpl. rewrite <- app_assoc. reflexivity.
  - rewrite nth_error_app1 by lia.
    destruct (nth_error P j) as [y|] eqn:E; [|apply nth_error_None in E; lia].
    rewrite set_nth_app_l by lia.
    pose proof (set_nth_app_r 0 y (set_nth j x P) (x :: S0)) as E2.
    rewrite set_nth_length, Nat.add_0_r in E2. rewrite E2. simpl. rewrite <- app_assoc. reflexivity.
Qed.

Lemma nth_error_split' {A} (P : list A) j y : nth_error P j = Some y ->
  exists P1 P2, P = P1 ++ y :: P2 /\ length P1 = j.
Proof. apply nth_error_split. Qed.

Lemma set_nth_mid {A} (P1 : list A) y P2 x : set_nth (length P1) x (P1 ++ y :: P2) = P1 ++ x :: P2.
Proof.
  pose proof (set_nth_app_r 0 x P1 (y :: P2)) as E. rewrite Nat.add_0_r in E. exact E.
Qed.

Lemma put_perm {A} (P : list A) x j : Permutation (x :: P) (put P x j).
Proof.
  unfold put. destruct (nth_error P j) as [y|] eqn:E.
  - apply nth_error_split' in E as (P1 & P2 & -> & <-). rewrite set_nth_mid.
    rewrite <- app_assoc. simpl.
    rewrite <- (Permutation_middle P1 P2 y), <- Permutation_middle.
    constructor. rewrite Permutation_middle. rewrite <- Permutation_cons_append. symmetry.
    rewrite <- Permutation_middle. reflexivity.
  - rewrite Permutation_cons_append. reflexivity.
Qed.

Lemma put_inj {A} (P P' : list A) x j j' :
  ~ In x P -> ~ In x P' -> j <= length P -> j' <= length P' ->
  put P x j = put P' x j' -> P = P' /\ j = j'.
Proof.
  intros HP HP' Hj Hj' E.
  assert (HL : length P = length P').
  { apply (f_equal (@length A)) in E. rewrite !put_length in E. lia. }
  (* the position of x in put P x j is j *)
  assert (Hpos : forall P j, ~ In x P -> j <= length P -> nth_error (put P x j) j = Some x /\
            forall i, nth_error (put P x j) i = Some x -> i = j).
  { clear. intros P j HP Hj. unfold put. destruct (nth_error P j) as [y|] eqn:E.
    - apply nth_error_split' in E as (P1 & P2 & -> & <-). rewrite set_nth_mid, <- app_assoc. simpl.
      split; [rewrite nth_error_app2, Nat.sub_diag by lia; reflexivity|].
      intros i Hi. destruct (Nat.lt_trichotomy i (length P1)) as [H|[H|H]]; [|exact H|].
      + rewrite nth_error_app1 in Hi by lia. apply nth_error_In in Hi. exfalso. apply HP.
        apply in_or_app; left; exact Hi.
      + rewrite nth_error_app2 in Hi by lia. destruct (i - length P1) as [|k] eqn:Ek; [lia|].
        simpl in Hi. apply nth_error_In in Hi. exfalso. apply HP. apply in_or_app; right.
        apply in_app_or in Hi. simpl in *. tauto.
    - apply nth_error_None in E. assert (j = length P) by lia. subst j.
      split; [rewrite nth_error_app2, Nat.sub_diag by lia; reflexivity|].
      intros i Hi. destruct (Nat.lt_trichotomy i (length P)) as [H|[H|H]]; [|exact H|].
      + rewrite nth_error_app1 in Hi by lia. apply nth_error_In in Hi. contradiction.
      + rewrite (proj2 (nth_error_None (P ++ [x]) i)) in Hi; [discriminate|]. rewrite app_length; simpl; lia. }
  destruct (Hpos P j HP Hj) as [H1 _]. destruct (Hpos P' j' HP' Hj') as [_ H2].
  rewrite E in H1. apply H2 in H1. subst j'. split; [|reflexivity].
  unfold put in E. destruct (nth_error P j) as [y|] eqn:E1; destruct (nth_error P' j) as [y'|] eqn:E2.
  - apply app_inj_tail in E as [E3 <-].
    apply nth_error_split' in E1 as (P1 & P2 & -> & <-). apply nth_error_split' in E2 as (P1' & P2' & -> & EL).
    rewrite set_nth_mid in E3. rewrite <- EL, set_nth_mid in E3.
    assert (H : P1 = P1' /\ x :: P2 = x :: P2').
    { clear -EL E3. revert P1' EL E3. induction P1 as [|a P1 IH]; intros [|b P1'] EL E3; simpl in *; try discriminate; auto.
      inversion E3; subst. destruct (IH P1') as [-> H]; auto. }
    destruct H as [-> H]. inversion H; subst. reflexivity.
  - apply nth_error_None in E2. assert (j < length P) by (apply nth_error_Some; congruence). lia.
  - apply nth_error_None in E1. assert (j < length P') by (apply nth_error_Some; congruence). lia.
  - apply app_inj_tail in E. tauto.
Qed.

Lemma put_surj {A} (x : A) Q l0 : NoDup (x :: l0) -> Permutation (x :: l0) Q ->
  exists P j, j <= length P /\ Permutation l0 P /\ put P x j = Q.
Proof.
  intros HND HP.
  assert (Hin : In x Q) by (apply (Permutation_in x HP); left; reflexivity).
  apply in_split in Hin as (Q1 & Q2 & ->).
  destruct (rev Q2) as [|y R] eqn:ER.
  - apply (f_equal (@rev A)) in ER. rewrite rev_involutive in ER. subst Q2.
    exists Q1, (length Q1). split; [lia|]. split.
    + apply (Permutation_cons_inv (a := x)). rewrite HP. symmetry. apply Permutation_cons_append.
    + unfold put. rewrite (proj2 (nth_error_None _ _)) by lia. reflexivity.
  - apply (f_equal (@rev A)) in ER. rewrite rev_involutive in ER. simpl in ER. subst Q2.
    exists (Q1 ++ y :: rev R), (length Q1). split; [rewrite app_length; simpl; lia|]. split.
    + apply (Permutation_cons_inv (a := x)). rewrite HP.
      rewrite <- Permutation_middle. constructor. apply Permutation_app_head.
      symmetry. apply Permutation_cons_append.
    + unfold put. rewrite nth_error_app2, Nat.sub_diag by lia. simpl.
      rewrite set_nth_mid. rewrite <- app_assoc. reflexivity.
Qed.

(** The whole shuffle, read from the back. *)
Lemma shuffle_snoc {A} cs : forall i (P S0 : list A),
  length P = i -> choices_ok i cs -> length S0 = length cs ->
  exists Q, shuffle_from i cs (P ++ S0) = Q /\ length Q = i + length cs /\ Permutation (P ++ S0) Q.
Proof.
  induction cs as [|j cs IH]; intros i P S0 HL HC HS; simpl in *.
  - destruct S0; [|discriminate]. rewrite app_nil_r. exists P. repeat split; auto; lia.
  - destruct S0 as [|x S0]; [discriminate|]. destruct HC as [Hj HC].
    replace (swap_at i j (P ++ x :: S0)) with (put P x j ++ S0) by (subst i; symmetry; apply swap_put; lia).
    destruct (IH (S i) (put P x j) S0) as (Q & HQ & HQL & HQP); auto.
    { rewrite put_length; lia. }
    exists Q. split; [exact HQ|]. split; [lia|].
    rewrite <- HQP, <- put_perm. simpl. symmetry. apply Permutation_middle.
Qed.

Lemma shuffle_inj {A} : forall (S0 : list A) cs cs' P P' i,
  length P = i -> length P' = i -> Permutation P P' ->
  choices_ok i cs -> choices_ok i cs' -> length cs = length S0 -> length cs' = length S0 ->
  NoDup (P ++ S0) ->
  shuffle_from i cs (P ++ S0) = shuffle_from i cs' (P' ++ S0) -> P = P' /\ cs = cs'.
Proof.
  induction S0 as [|x S0 IH]; intros cs cs' P P' i HL HL' HPP HC HC' HS HS' HND E.
  - destruct cs, cs'; try discriminate. simpl in E. rewrite !app_nil_r in E. auto.
  - destruct cs as [|j cs]; [discriminate|]. destruct cs' as [|j' cs']; [discriminate|].
    simpl in *. destruct HC as [Hj HC], HC' as [Hj' HC'].
    replace (swap_at i j (P ++ x :: S0)) with (put P x j ++ S0) in E by (subst i; symmetry; apply swap_put; lia).
    replace (swap_at i j' (P' ++ x :: S0)) with (put P' x j' ++ S0) in E
      by (rewrite <- HL'; symmetry; apply swap_put; lia).
    assert (HP2 : Permutation (put P x j) (put P' x j')).
    { rewrite <- !put_perm. constructor. exact HPP. }
    destruct (IH cs cs' (put P x j) (put P' x j') (S i)) as [E1 E2]; auto.
    { rewrite put_length; lia. } { rewrite put_length; lia. }
    { eapply Permutation_NoDup; [|exact HND]. rewrite <- put_perm. simpl. symmetry. apply Permutation_middle. }
    assert (HnP : ~ In x P).
    { intros Hin. apply NoDup_remove_2 in HND. apply HND. apply in_or_app; auto. }
    assert (HnP' : ~ In x P').
    { intros Hin. apply HnP. apply (Permutation_in x (Permutation_sym HPP)). exact Hin. }
    apply put_inj in E1; auto; [|lia|lia]. destruct E1 as [-> ->]. subst cs'. auto.
Qed.

Lemma shuffle_surj {A} : forall (S0 : list A) P0 Q,
  NoDup (P0 ++ S0) -> Permutation (P0 ++ S0) Q ->
  exists P cs, Permutation P0 P /\ choices_ok (length P0) cs /\ length cs = length S0 /\
    shuffle_from (length P0) cs (P ++ S0) = Q.
Proof.
  induction S0 as [|x S0 IH]; intros P0 Q HND HP.
  - exists Q, []. rewrite app_nil_r in HP. simpl. rewrite app_nil_r. auto.
  - assert (HPm : Permutation (P0 ++ x :: S0) ((x :: P0) ++ S0)) by (symmetry; apply Permutation_middle).
    destruct (IH (x :: P0) Q) as (P1 & cs & H1 & H2 & H3 & H4).
    { eapply Permutation_NoDup; eauto. } { rewrite <- HPm. exact HP. }
    assert (HNx : NoDup (x :: P0)).
    { assert (Hn : NoDup ((x :: P0) ++ S0)) by (eapply Permutation_NoDup; eauto).
      clear -Hn. revert Hn. generalize (x :: P0). induction l as [|a l IHl]; simpl; intros H; constructor.
      - inversion H; subst. intros Hi. apply H2. apply in_or_app; auto.
      - apply IHl. inversion H; auto. }
    destruct (put_surj x P1 P0 HNx H1) as (P & j & Hj & HPP & E).
    exists P, (j :: cs). split; [exact HPP|].
    pose proof (Permutation_length HPP) as HLP. simpl in H2.
    split; [simpl; split; [lia|exact H2]|]. split; [simpl; lia|].
    cbn [shuffle_from].
    replace (swap_at (length P0) j (P ++ x :: S0)) with (put P x j ++ S0)
      by (rewrite HLP; symmetry; apply swap_put; lia).
    rewrite E. exact H4.
Qed.

(** Partial Fisher-Yates: [draw l cs] takes elements one by one. *)
Fixpoint draw {A} (cs : list nat) (l : list A) : list A :=
  match cs, l with
  | [], _ => []
  | _, [] => []
  | 0 :: cs', x :: l' => x :: draw cs' l'
  | S k :: cs', x :: l' =>
      match nth_error l' k with
      | Some y => y :: draw cs' (set_nth k x l')
      | None => []
      end
  end.

Lemma fy_draw {A} cs : forall iop (P l : list A),
  length P = iop -> offsets_ok (iop + length l) iop cs ->
  exists R, fy_from iop cs (P ++ l) = P ++ draw cs l ++ R /\ length (draw cs l) = length cs /\
            Permutation l (draw cs l ++ R).
Proof.
  induction cs as [|k cs IH]; intros iop P l HL HO; simpl in *.
  - exists l. auto.
  - destruct HO as [Hk HO]. destruct l as [|x l]; [simpl in Hk; lia|]. simpl in Hk.
    destruct k as [|k].
    + rewrite Nat.add_0_r.
      assert (E : swap_at iop iop (P ++ x :: l) = (P ++ [x]) ++ l).
      { rewrite <- HL, swap_put by lia. unfold put. rewrite (proj2 (nth_error_None _ _)) by lia. reflexivity. }
      rewrite E.
      destruct (IH (S iop) (P ++ [x]) l) as (R & H1 & H2 & H3).
      { rewrite app_length; simpl; lia. } { replace (S iop + length l) with (iop + S (length l)) by lia. exact HO. }
      exists R. rewrite H1, <- app_assoc. simpl. split; [reflexivity|]. split; [lia|]. constructor. exact H3.
    + destruct (nth_error l k) as [y|] eqn:Ey; [|apply nth_error_None in Ey; lia].
      assert (E : swap_at iop (iop + S k) (P ++ x :: l) = (P ++ [y]) ++ set_nth k x l).
      { unfold swap_at. subst iop. rewrite nth_error_app2, Nat.sub_diag by lia. simpl.
        rewrite nth_error_app2 by lia. replace (length P + S k - length P) with (S k) by lia. simpl. rewrite Ey.
        rewrite set_nth_app_r. simpl. rewrite set_nth_mid. rewrite <- app_assoc. reflexivity. }
      rewrite E.
      destruct (IH (S iop) (P ++ [y]) (set_nth k x l)) as (R & H1 & H2 & H3).
      { rewrite app_length; simpl; lia. }
      { rewrite set_nth_length. replace (S iop + length l) with (iop + S (length l)) by lia. exact HO. }
      exists R. rewrite H1, <- app_assoc. simpl. split; [reflexivity|]. split; [lia|].
      rewrite <- H3. apply nth_error_split' in Ey as (l1 & l2 & -> & <-). rewrite set_nth_mid.
      rewrite <- !Permutation_middle. constructor.
Qed.

Lemma draw_inj {A} : forall cs cs' (l : list A) n, NoDup l -> length l = n ->
  offsets_ok n 0 cs -> offsets_ok n 0 cs' -> length cs = length cs' ->
  draw cs l = draw cs' l -> cs = cs'.
Proof.
  assert (Hoff : forall cs n i, offsets_ok (S n) (S i) cs -> offsets_ok n i cs).
  { induction cs as [|k cs IH]; intros n i; simpl; auto. intros [H1 H2]. split; [lia|]. apply IH. exact H2. }
  assert (Hhead : forall A (l : list A) k cs, k < length l ->
            exists y l', nth_error l k = Some y /\ draw (k :: cs) l = y :: draw cs l' /\
              Permutation l (y :: l') /\ l' = match k with 0 => tl l | S k' => set_nth k' (hd y l) (tl l) end).
  { intros B l k cs Hk. destruct l as [|x l]; [simpl in Hk; lia|]. destruct k as [|k]; simpl.
    - exists x, l. auto.
    - simpl in Hk. destruct (nth_error l k) as [y|] eqn:E; [|apply nth_error_None in E; lia].
      exists y, (set_nth k x l). repeat split; auto.
      apply nth_error_split' in E as (l1 & l2 & -> & <-). rewrite set_nth_mid.
      rewrite <- !Permutation_middle. apply perm_swap. }
  induction cs as [|k cs IH]; intros [|k' cs'] l n HND HL HO HO' HLc E; try discriminate; auto.
  cbn [offsets_ok] in HO, HO'. rewrite Nat.sub_0_r in HO, HO'. destruct HO as [Hk HO], HO' as [Hk' HO'].
  destruct (Hhead A l k cs) as (y & l1 & Hy & E1 & HP1 & EL1); [lia|].
  destruct (Hhead A l k' cs') as (y' & l1' & Hy' & E1' & HP1' & EL1'); [lia|].
  rewrite E1, E1' in E. inversion E; subst y'.
  assert (k = k').
  { apply (proj1 (NoDup_nth_error l) HND); [lia|congruence]. }
  subst k'. assert (l1 = l1') by (subst; destruct k; reflexivity). subst l1'.
  f_equal. simpl in HLc. destruct n as [|n]; [lia|].
  apply (IH cs' l1 n); auto.
  - assert (HN : NoDup (y :: l1)) by (eapply Permutation_NoDup; eauto). inversion HN; auto.
  - apply Permutation_length in HP1. simpl in HP1. lia.
  - rewrite H1, <- H. reflexivity.
Qed.

Lemma draw_surj {A} : forall (sel l : list A), NoDup sel -> (forall x, In x sel -> In x l) ->
  exists cs, length cs = length sel /\ offsets_ok (length l) 0 cs /\ draw cs l = sel.
Proof.
  assert (Hon : forall cs n i, offsets_ok n i cs -> offsets_ok (S n) (S i) cs).
  { induction cs as [|k cs IH]; intros n i; simpl; auto. intros [H1 H2]. split; [lia|]. apply IH. exact H2. }
  induction sel as [|y sel IH]; intros l HND Hin.
  - exists []. simpl. auto.
  - inversion HND as [|? ? Hy HND']; subst.
    assert (Hyl : In y l) by (apply Hin; left; reflexivity).
    apply In_nth_error in Hyl as [k Hk].
    destruct l as [|x l]; [destruct k; discriminate|]. destruct k as [|k]; simpl in Hk.
    + inversion Hk; subst x. destruct (IH l HND') as (cs & H1 & H2 & H3).
      { intros z Hz. destruct (Hin z (or_intror Hz)) as [->|H]; [contradiction|exact H]. }
      exists (0 :: cs). simpl. rewrite H3. split; [lia|]. split; [|reflexivity]. split; [lia|apply Hon; exact H2].
    + pose proof Hk as Hk'. apply nth_error_split' in Hk' as (l1 & l2 & -> & EL).
      destruct (IH (set_nth k x (l1 ++ y :: l2)) HND') as (cs & H1 & H2 & H3).
      { intros z Hz. subst k. rewrite set_nth_mid. assert (z <> y) by (intros ->; contradiction).
        destruct (Hin z (or_intror Hz)) as [->|H0]; [apply in_or_app; right; left; reflexivity|].
        apply in_or_app. apply in_app_or in H0. simpl in *. intuition congruence. }
      exists (S k :: cs). simpl. rewrite Hk. rewrite H3. rewrite set_nth_length in H2.
      split; [lia|]. split; [|reflexivity]. split; [|apply Hon; exact H2].
      assert (k < length (l1 ++ y :: l2)) by (apply nth_error_Some; congruence). lia.
Qed.
