(** Comb sort with permutation sign.

    Modelled code: include/alps/fastupdate/detail/util.hpp:152-189 comb_sort, and
    lines 12-35 permutation (bubble sort sign).

    Simplification: the iterator range is a list. [shrink g] stands for
    static_cast<int>(g/1.3); the proofs use only [shrink g < g] for g >= 1, so they do not
    depend on how the division by 1.3 is rounded. For an empty range the code forms the
    iterator first+1 (line 166) which is past the end; this step has no effect and is not
    modelled. *)

From Coq Require Import Arith List Bool Lia Sorting.Permutation Sorting.Sorted.
Import ListNotations.

Section CombSort.
  Context {A : Type}.
  Variable lt : A -> A -> bool.          (* the Compare argument *)
  Variable shrink : nat -> nat.          (* static_cast<int>(gap/1.3) *)

  (** Write position [i] of a list. *)
  Fixpoint set_nth (i : nat) (v : A) (l : list A) : list A :=
    match l, i with
    | [], _ => []
    | _ :: l', O => v :: l'
    | x :: l', S i' => x :: set_nth i' v l'
    end.

  (** swap of positions i and j (util.hpp:170) *)
  Definition swap_at (i j : nat) (l : list A) : list A :=
    match nth_error l i, nth_error l j with
    | Some x, Some y => set_nth i y (set_nth j x l)
    | _, _ => l
    end.

  (** The for loop util.hpp:168-176: [k] steps remaining, at index [i]; the state is the list,
      the exchange counter and the flag [swapped]. *)
  Fixpoint pass (k i gap : nat) (l : list A) (cnt : nat) (swapped : bool)
    : list A * nat * bool :=
    match k with
    | O => (l, cnt, swapped)
    | S k' =>
        match nth_error l i, nth_error l (i + gap) with
        | Some x, Some y =>
            if lt y x then pass k' (S i) gap (swap_at i (i + gap) l) (S cnt) true
            else pass k' (S i) gap l cnt swapped
        | _, _ => pass k' (S i) gap l cnt swapped
        end
    end.

  (** The while loop util.hpp:162-184. [None] means that the fuel ran out. *)
  Fixpoint comb_loop (fuel gap : nat) (l : list A) (cnt : nat) : option (list A * nat) :=
    match fuel with
    | O => None
    | S fuel' =>
        match pass (length l - gap) 0 gap l cnt false with
        | (l', cnt', swapped) =>
            if negb swapped && Nat.eqb gap 1 then Some (l', cnt')
            else comb_loop fuel' (Nat.max (shrink gap) 1) l' cnt'
        end
    end.

  Definition sort_fuel (n : nat) : nat := n + n * n + 3.

  (** comb_sort: the sorted list and the sign (true = -1). *)
  Definition comb_sort (l : list A) : option (list A * bool) :=
    match comb_loop (sort_fuel (length l)) (shrink (length l)) l 0 with
    | Some (l', cnt) => Some (l', Nat.odd cnt)
    | None => None
    end.
End CombSort.

(** static_cast<int>(g/1.3) in exact arithmetic. *)
Definition shrink13 (g : nat) : nat := (10 * g) / 13.

Lemma shrink13_lt g : 1 <= g -> shrink13 g < g.
Proof. intros H. unfold shrink13. apply Nat.div_lt_upper_bound; lia. Qed.

(* ------------------------------------------------------------------------- *)
(** * Swaps *)

Section Lemmas.
  Context {A : Type}.

  Lemma set_nth_length i v (l : list A) : length (set_nth i v l) = length l.
  Proof. revert i; induction l; destruct i; simpl; auto. Qed.

  Lemma swap_at_length i j (l : list A) : length (swap_at i j l) = length l.
  Proof.
    unfold swap_at. destruct (nth_error l i), (nth_error l j); auto.
    rewrite !set_nth_length. reflexivity.
  Qed.

  Lemma set_nth_app_r (a b : list A) i v :
    set_nth (length a + i) v (a ++ b) = a ++ set_nth i v b.
  Proof. induction a; simpl; [reflexivity|]. f_equal. exact IHa. Qed.

  Lemma nth_error_app_r (a b : list A) i :
    nth_error (a ++ b) (length a + i) = nth_error b i.
  Proof. induction a; simpl; auto. Qed.

  Lemma nth_error_mid (a : list A) x b : nth_error (a ++ x :: b) (length a) = Some x.
  Proof. induction a; simpl; auto. Qed.

  Lemma set_nth_mid (a : list A) x b v : set_nth (length a) v (a ++ x :: b) = a ++ v :: b.
  Proof. induction a; simpl; [reflexivity|]. f_equal. exact IHa. Qed.

  (** Shape of a swap of two different positions. *)
  Lemma swap_at_shape i j (l : list A) :
    i < j -> j < length l ->
    exists a x m y b, l = a ++ x :: m ++ y :: b /\ length a = i /\ length a + S (length m) = j /\
      nth_error l i = Some x /\ nth_error l j = Some y /\
      swap_at i j l = a ++ y :: m ++ x :: b.
  Proof.
    intros Hij Hj.
    destruct (nth_error l i) as [x|] eqn:Ei; [|apply nth_error_None in Ei; lia].
    destruct (nth_error_split _ _ Ei) as (a & r & -> & Ha).
    destruct (nth_error r (j - S i)) as [y|] eqn:Ey.
    - destruct (nth_error_split _ _ Ey) as (m & b & -> & Hm).
      exists a, x, m, y, b.
      assert (Hj' : j = length (a ++ x :: m)) by (rewrite app_length; simpl; lia).
      assert (El : a ++ x :: m ++ y :: b = (a ++ x :: m) ++ y :: b)
        by (rewrite <- app_assoc; reflexivity).
      assert (Ej : nth_error (a ++ x :: m ++ y :: b) j = Some y).
      { rewrite El, Hj'. apply nth_error_mid. }
      repeat split; auto.
      + simpl in *; lia.
      + unfold swap_at. rewrite Ei, Ej.
        rewrite El at 1. rewrite Hj'. rewrite set_nth_mid.
        rewrite <- app_assoc. simpl. rewrite <- Ha. apply set_nth_mid.
    - apply nth_error_None in Ey. rewrite app_length in Hj. simpl in Hj. lia.
  Qed.

  (** [swaps n l l']: [l'] comes from [l] by [n] exchanges of two different positions. *)
  Inductive swaps : nat -> list A -> list A -> Prop :=
  | swaps_0 l : swaps 0 l l
  | swaps_S n l i j l' : swaps n l l' -> i < j -> j < length l' ->
      swaps (S n) l (swap_at i j l').

  Lemma swap_at_perm i j (l : list A) : i < j -> j < length l -> Permutation l (swap_at i j l).
  Proof.
    intros H1 H2. destruct (swap_at_shape i j l H1 H2) as (a & x & m & y & b & -> & _ & _ & _ & _ & ->).
    apply Permutation_app_head.
    transitivity (y :: x :: m ++ b).
    - rewrite perm_swap. constructor. symmetry. apply Permutation_middle.
    - constructor. apply Permutation_middle.
  Qed.

  Lemma swaps_perm n l l' : swaps n l l' -> Permutation l l'.
  Proof.
    induction 1 as [|n l i j l' H IH Hij Hj]; [reflexivity|].
    rewrite IH. apply swap_at_perm; assumption.
  Qed.

  Lemma swaps_length n l l' : swaps n l l' -> length l' = length l.
  Proof. intros H. symmetry. apply Permutation_length. eapply swaps_perm; eauto. Qed.

  (** Parity of the number of inversions. *)
  Section Parity.
    Variable lt : A -> A -> bool.
    Definition count_lt (x : A) (l : list A) : nat := length (filter (fun y => lt y x) l).
    Fixpoint inv (l : list A) : nat :=
      match l with [] => 0 | x :: l' => count_lt x l' + inv l' end.

    Lemma count_lt_app x l1 l2 : count_lt x (l1 ++ l2) = count_lt x l1 + count_lt x l2.
    Proof. unfold count_lt. rewrite filter_app, app_length. reflexivity. Qed.

    Lemma count_lt_cons x y l : count_lt x (y :: l) = (if lt y x then 1 else 0) + count_lt x l.
    Proof. unfold count_lt. simpl. destruct (lt y x); reflexivity. Qed.

    Lemma count_lt_perm x l1 l2 : Permutation l1 l2 -> count_lt x l1 = count_lt x l2.
    Proof.
      induction 1; rewrite ?count_lt_cons in *; try lia.
    Qed.

    Lemma count_lt_le x l : count_lt x l <= length l.
    Proof. unfold count_lt. induction l as [|y l IH]; simpl; [lia|]. destruct (lt y x); simpl; lia. Qed.

    Lemma inv_le l : inv l <= length l * length l.
    Proof.
      induction l as [|x l IH]; simpl; [lia|]. pose proof (count_lt_le x l). nia.
    Qed.

    (** Exchange of neighbours. *)
    Lemma inv_adj a x y b :
      inv (a ++ x :: y :: b) + (if lt x y then 1 else 0)
      = inv (a ++ y :: x :: b) + (if lt y x then 1 else 0).
    Proof.
      induction a as [|z a IH]; simpl.
      - rewrite !count_lt_cons. lia.
      - rewrite (count_lt_perm z (a ++ x :: y :: b) (a ++ y :: x :: b)); [lia|].
        apply Permutation_app_head. constructor.
    Qed.

    Hypothesis lt_total : forall x y, x <> y -> lt x y = negb (lt y x).

    Lemma odd_inv_adj a x y b :
      x <> y -> Nat.odd (inv (a ++ y :: x :: b)) = negb (Nat.odd (inv (a ++ x :: y :: b))).
    Proof.
      intros Hne. pose proof (inv_adj a x y b) as H. rewrite (lt_total x y Hne) in H.
      destruct (lt y x); simpl in H.
      - replace (inv (a ++ x :: y :: b)) with (S (inv (a ++ y :: x :: b))) by lia.
        rewrite Nat.odd_succ, <- Nat.negb_odd, negb_involutive. reflexivity.
      - replace (inv (a ++ y :: x :: b)) with (S (inv (a ++ x :: y :: b))) by lia.
        rewrite Nat.odd_succ, <- Nat.negb_odd. reflexivity.
    Qed.

    Lemma odd_inv_move a x m b :
      ~ In x m ->
      Nat.odd (inv (a ++ m ++ x :: b)) = xorb (Nat.odd (length m)) (Nat.odd (inv (a ++ x :: m ++ b))).
    Proof.
      revert a. induction m as [|y m IH]; intros a Hin.
      - simpl. destruct (Nat.odd _); reflexivity.
      - assert (Hne : x <> y) by (intros ->; apply Hin; left; reflexivity).
        change (a ++ (y :: m) ++ x :: b) with (a ++ y :: m ++ x :: b).
        replace (a ++ y :: m ++ x :: b) with ((a ++ [y]) ++ m ++ x :: b)
          by (rewrite <- app_assoc; reflexivity).
        rewrite IH by (intros H; apply Hin; right; exact H).
        rewrite <- app_assoc. change ([y] ++ x :: m ++ b) with (y :: x :: m ++ b).
        rewrite odd_inv_adj by exact Hne.
        change ((y :: m) ++ b) with (y :: m ++ b).
        change (length (y :: m)) with (S (length m)).
        rewrite Nat.odd_succ, <- Nat.negb_odd.
        destruct (Nat.odd (length m)), (Nat.odd (inv (a ++ x :: y :: m ++ b))); reflexivity.
    Qed.

    Lemma odd_inv_swap i j l :
      NoDup l -> i < j -> j < length l ->
      Nat.odd (inv (swap_at i j l)) = negb (Nat.odd (inv l)).
    Proof.
      intros HND H1 H2.
      destruct (swap_at_shape i j l H1 H2) as (a & x & m & y & b & E & _ & _ & _ & _ & ->).
      subst l. apply NoDup_remove in HND as HND1.
      destruct HND1 as [HND1 Hx].
      assert (Hxm : ~ In x m) by (intros H; apply Hx; rewrite !in_app_iff; auto).
      assert (Hxy : x <> y) by (intros ->; apply Hx; rewrite !in_app_iff; simpl; auto).
      assert (Hym : ~ In y m).
      { intros H. rewrite app_assoc in HND1. apply NoDup_remove in HND1 as [_ HN].
        apply HN. rewrite !in_app_iff. auto. }
      pose proof (odd_inv_move a y m (x :: b) Hym) as E1.
      pose proof (odd_inv_adj (a ++ m) y x b (not_eq_sym Hxy)) as E2.
      pose proof (odd_inv_move a x m (y :: b) Hxm) as E3.
      rewrite <- !app_assoc in E2.
      rewrite E3, E1 in E2.
      destruct (Nat.odd (length m)), (Nat.odd (inv (a ++ x :: m ++ y :: b))),
        (Nat.odd (inv (a ++ y :: m ++ x :: b))); simpl in *; congruence.
    Qed.

    Lemma swaps_parity n l l' :
      NoDup l -> swaps n l l' -> Nat.odd (inv l') = xorb (Nat.odd n) (Nat.odd (inv l)).
    Proof.
      intros HND H. induction H as [l|n l i j l' H IH Hij Hj].
      - destruct (Nat.odd (inv l)); reflexivity.
      - rewrite odd_inv_swap; auto.
        + rewrite IH by exact HND. rewrite Nat.odd_succ, <- Nat.negb_odd.
          destruct (Nat.odd n), (Nat.odd (inv l)); reflexivity.
        + eapply Permutation_NoDup; [eapply swaps_perm; eauto|exact HND].
    Qed.
  End Parity.
End Lemmas.

(** Tracking positions: the same swaps applied to a list of indices. *)
Lemma nth_error_map_nth {A} (l : list A) d idx i k :
  nth_error idx i = Some k -> nth_error (map (fun n => nth n l d) idx) i = Some (nth k l d).
Proof. intros H. rewrite nth_error_map, H. reflexivity. Qed.

Lemma set_nth_map {A B} (f : A -> B) i v l : set_nth i (f v) (map f l) = map f (set_nth i v l).
Proof. revert i; induction l; destruct i; simpl; auto. rewrite IHl. reflexivity. Qed.

Lemma swap_at_map {A B} (f : A -> B) i j l : swap_at i j (map f l) = map f (swap_at i j l).
Proof.
  unfold swap_at. rewrite !nth_error_map.
  destruct (nth_error l i), (nth_error l j); simpl; auto. rewrite !set_nth_map. reflexivity.
Qed.

Lemma swaps_indices {A} (d : A) n l l' :
  swaps n l l' ->
  exists idx, swaps n (seq 0 (length l)) idx /\ l' = map (fun k => nth k l d) idx.
Proof.
  induction 1 as [l|n l i j l' H IH Hij Hj].
  - exists (seq 0 (length l)). split; [constructor|].
    induction l as [|x l IH]; simpl; [reflexivity|]. f_equal.
    rewrite <- seq_shift, map_map. exact IH.
  - destruct IH as (idx & Hs & ->). exists (swap_at i j idx). split.
    + constructor; auto. rewrite map_length in Hj. exact Hj.
    + rewrite swap_at_map. reflexivity.
Qed.

(* ------------------------------------------------------------------------- *)
(** * Correctness of the loops *)

Section Correct.
  Context {A : Type}.
  Variable lt : A -> A -> bool.
  Variable shrink : nat -> nat.
  Hypothesis lt_irrefl : forall x, lt x x = false.
  Hypothesis lt_asym : forall x y, lt x y = true -> lt y x = false.
  Hypothesis shrink_0 : shrink 0 = 0.
  Hypothesis shrink_lt : forall g, 1 <= g -> shrink g < g.

  (** Effect of a pass on list and counter. *)
  Lemma pass_swaps k : forall i gap (l0 l : list A) c0 c s l' c' s',
    swaps c l0 l -> i + gap + k <= length l ->
    pass lt k i gap l (c0 + c) s = (l', c', s') ->
    exists n, c' = c0 + n /\ c <= n /\ swaps n l0 l'.
  Proof.
    induction k as [|k IH]; intros i gap l0 l c0 c s l' c' s' HS HL HP; simpl in HP.
    - inversion HP; subst. eauto.
    - destruct (nth_error l i) as [x|] eqn:Ei.
      2:{ apply nth_error_None in Ei. lia. }
      destruct (nth_error l (i + gap)) as [y|] eqn:Ej.
      2:{ apply nth_error_None in Ej. lia. }
      destruct (lt y x) eqn:E.
      + assert (Hg : gap <> 0).
        { intros ->. rewrite Nat.add_0_r, Ei in Ej. inversion Ej; subst. rewrite lt_irrefl in E. discriminate. }
        replace (S (c0 + c)) with (c0 + S c) in HP by lia.
        eapply (IH (S i) gap l0 (swap_at i (i + gap) l)) in HP.
        * destruct HP as (n & -> & Hn & Hs). exists n. split; [reflexivity|]. split; [lia|exact Hs].
        * constructor; [exact HS|lia|lia].
        * rewrite swap_at_length. lia.
      + eapply IH in HP; eauto. lia.
  Qed.

  Lemma pass_mono k : forall i gap (l : list A) c s l' c' s',
    pass lt k i gap l c s = (l', c', s') -> s = true -> s' = true.
  Proof.
    induction k as [|k IH]; intros i gap l c s l' c' s' HP Hs; simpl in HP.
    - inversion HP; subst; auto.
    - destruct (nth_error l i), (nth_error l (i + gap)); eauto.
      destruct (lt _ _); eauto.
  Qed.

  (** If nothing was swapped, the list is unchanged and every compared pair is in order. *)
  Lemma pass_unswapped k : forall i gap (l : list A) c s l' c' ,
    pass lt k i gap l c s = (l', c', false) ->
    l' = l /\ c' = c /\
    forall m x y, i <= m < i + k -> nth_error l m = Some x -> nth_error l (m + gap) = Some y ->
                  lt y x = false.
  Proof.
    induction k as [|k IH]; intros i gap l c s l' c' HP; simpl in HP.
    - inversion HP; subst. repeat split; intros; lia.
    - destruct (nth_error l i) as [x|] eqn:Ei; destruct (nth_error l (i + gap)) as [y|] eqn:Ej.
      1: destruct (lt y x) eqn:E.
      1: { apply pass_mono in HP; [discriminate|reflexivity]. }
      all: apply IH in HP; destruct HP as (-> & -> & HP); repeat split; auto;
           intros m u v Hm Hu Hv; destruct (Nat.eq_dec m i) as [->|]; try congruence;
           eapply HP; eauto; lia.
  Qed.

  (** With gap 1 every exchange removes exactly one inversion. *)
  Lemma swap_adj_inv i (l : list A) x y :
    nth_error l i = Some x -> nth_error l (S i) = Some y -> lt y x = true ->
    S (inv lt (swap_at i (S i) l)) = inv lt l.
  Proof.
    intros Hx Hy Hlt.
    assert (HSi : S i < length l) by (apply nth_error_Some; congruence).
    destruct (swap_at_shape i (S i) l (Nat.lt_succ_diag_r i) HSi)
      as (a & x' & m & y' & b & El & Ha & Hm & Hx' & Hy' & Es).
    assert (x' = x) by congruence. assert (y' = y) by congruence. subst x' y'.
    assert (m = []) by (destruct m; [reflexivity|simpl in Hm; lia]). subst m. simpl in *.
    rewrite Es. rewrite El at 1.
    pose proof (inv_adj lt a x y b) as H. rewrite Hlt, (lt_asym _ _ Hlt) in H. lia.
  Qed.

  Lemma pass_cnt_le k : forall i gap (l : list A) c s l' c' s',
    pass lt k i gap l c s = (l', c', s') -> c <= c'.
  Proof.
    induction k as [|k IH]; intros i gap l c s l' c' s' HP; simpl in HP.
    - inversion HP; subst. lia.
    - destruct (nth_error l i), (nth_error l (i + gap)); eauto.
      destruct (lt _ _); eauto. apply IH in HP. lia.
  Qed.

  Lemma pass1_inv k : forall i (l : list A) c s l' c' s',
    i + 1 + k <= length l ->
    pass lt k i 1 l c s = (l', c', s') ->
    c' + inv lt l' = c + inv lt l /\ length l' = length l /\
    (s = false -> s' = true -> c < c').
  Proof.
    induction k as [|k IH]; intros i l c s l' c' s' HL HP; simpl in HP.
    - inversion HP; subst. repeat split; try lia; congruence.
    - destruct (nth_error l i) as [x|] eqn:Ei.
      2:{ apply nth_error_None in Ei. lia. }
      destruct (nth_error l (i + 1)) as [y|] eqn:Ej.
      2:{ apply nth_error_None in Ej. lia. }
      destruct (lt y x) eqn:E.
      + pose proof (pass_cnt_le _ _ _ _ _ _ _ _ _ HP) as Hc.
        replace (i + 1) with (S i) in * by lia.
        pose proof (swap_adj_inv i l x y Ei Ej E) as HI.
        eapply (IH (S i) (swap_at i (S i) l)) in HP; [|rewrite swap_at_length; lia].
        rewrite swap_at_length in HP. destruct HP as (H1 & H2 & H3).
        repeat split; try lia.
      + eapply IH in HP; [|lia]. exact HP.
  Qed.

  (** The while loop terminates within the fuel; total count = number of swaps. *)
  Lemma comb_loop_gap1 fuel : forall (l : list A) cnt,
    inv lt l < fuel ->
    exists l' cnt', comb_loop lt shrink fuel 1 l cnt = Some (l', cnt') /\
      (exists n, cnt' = cnt + n /\ swaps n l l') /\
      (forall i x y, nth_error l' i = Some x -> nth_error l' (S i) = Some y -> lt y x = false).
  Proof.
    induction fuel as [|fuel IH]; intros l cnt HF; [lia|]. simpl.
    destruct (pass lt (length l - 1) 0 1 l cnt false) as [[l1 c1] s1] eqn:HP.
    assert (HLen : length l = 0 \/ 0 + 1 + (length l - 1) <= length l) by lia.
    destruct HLen as [H0|HLen].
    { destruct l; [|discriminate]. simpl in HP. inversion HP; subst. simpl.
      exists [], c1. split; [reflexivity|]. split; [exists 0; split; [lia|constructor]|].
      intros i x y Hx. destruct i; discriminate. }
    destruct s1; simpl.
    - pose proof (pass1_inv _ _ _ _ _ _ _ _ HLen HP) as (H1 & H2 & H3).
      specialize (H3 eq_refl eq_refl).
      assert (Hsh : Nat.max (shrink 1) 1 = 1) by (pose proof (shrink_lt 1); lia).
      rewrite Hsh. destruct (IH l1 c1) as (l' & cnt' & E & (n & -> & Hs) & Hord); [lia|].
      exists l', (c1 + n). split; [exact E|]. split; [|exact Hord].
      replace cnt with (cnt + 0) in HP by lia.
      eapply (pass_swaps _ 0 1 l l) in HP; [|constructor|lia].
      destruct HP as (n1 & -> & _ & Hs1).
      exists (n1 + n). split; [lia|].
      clear - Hs Hs1. induction Hs as [|n l2 i j l3 H IH]; [rewrite Nat.add_0_r; exact Hs1|].
      rewrite Nat.add_succ_r. constructor; auto.
    - apply pass_unswapped in HP. destruct HP as (-> & -> & HP).
      exists l, cnt. split; [reflexivity|]. split; [exists 0; split; [lia|constructor]|].
      intros i x y Hx Hy. change (nth_error l (S i) = Some y) in Hy. apply (HP i x y); auto.
      + assert (S i < length l) by (apply (proj1 (nth_error_Some l (S i))); rewrite Hy; discriminate). lia.
      + rewrite Nat.add_1_r. exact Hy.
  Qed.

  Lemma swaps_trans n1 n2 (l1 l2 l3 : list A) :
    swaps n1 l1 l2 -> swaps n2 l2 l3 -> swaps (n1 + n2) l1 l3.
  Proof.
    intros H1 H2. revert n1 l1 H1. induction H2 as [|n l i j l' H IH Hi Hj]; intros n1 l1 Hn.
    - rewrite Nat.add_0_r. exact Hn.
    - rewrite Nat.add_succ_r. constructor; auto.
  Qed.

  Lemma comb_loop_ok fuel : forall gap (l : list A) cnt,
    gap <= length l -> gap + length l * length l + 3 <= fuel ->
    exists l' cnt', comb_loop lt shrink fuel gap l cnt = Some (l', cnt') /\
      (exists n, cnt' = cnt + n /\ swaps n l l') /\
      (forall i x y, nth_error l' i = Some x -> nth_error l' (S i) = Some y -> lt y x = false).
  Proof.
    induction fuel as [|fuel IH]; intros gap l cnt HG HF; [lia|].
    destruct (Nat.eq_dec gap 1) as [->|Hg].
    { apply comb_loop_gap1. pose proof (inv_le lt l). lia. }
    simpl. destruct (pass lt (length l - gap) 0 gap l cnt false) as [[l1 c1] s1] eqn:HP.
    replace cnt with (cnt + 0) in HP by lia.
    eapply (pass_swaps _ 0 gap l l) in HP; [|constructor|lia].
    destruct HP as (n1 & -> & _ & Hs1).
    pose proof (swaps_length _ _ _ Hs1) as HL1.
    replace (Nat.eqb gap 1) with false by (symmetry; apply Nat.eqb_neq; exact Hg).
    rewrite andb_false_r.
    assert (Hnext : Nat.max (shrink gap) 1 = 1 \/ (Nat.max (shrink gap) 1 < gap)).
    { destruct gap as [|g]; [rewrite shrink_0; auto|pose proof (shrink_lt (S g)); lia]. }
    assert (Hgo : exists l' cnt',
      comb_loop lt shrink fuel (Nat.max (shrink gap) 1) l1 (cnt + n1) = Some (l', cnt') /\
      (exists n, cnt' = cnt + n1 + n /\ swaps n l1 l') /\
      (forall i x y, nth_error l' i = Some x -> nth_error l' (S i) = Some y -> lt y x = false)).
    { destruct Hnext as [->|Hnext].
      - apply comb_loop_gap1. pose proof (inv_le lt l1). rewrite HL1 in *. lia.
      - apply IH; rewrite HL1; lia. }
    destruct Hgo as (l' & cnt' & E & (n & -> & Hs) & Hord).
    exists l', (cnt + n1 + n). split; [exact E|]. split; [|exact Hord].
    exists (n1 + n). split; [lia|]. eapply swaps_trans; eauto.
  Qed.

  (** comb_sort always returns; the result comes from the input by exchanges whose number has
      the returned parity, and neighbours are in order. *)
  Lemma comb_sort_ok (l : list A) :
    exists l' n, comb_sort lt shrink l = Some (l', Nat.odd n) /\ swaps n l l' /\ (forall i x y, nth_error l' i = Some x -> nth_error l' (S i) = Some y -> lt y x = false).
  Proof.
    unfold comb_sort.
    assert (HG : shrink (length l) <= length l).
    { destruct (length l) as [|n] eqn:E; [rewrite shrink_0; lia|pose proof (shrink_lt (S n)); lia]. }
    destruct (comb_loop_ok (sort_fuel (length l)) (shrink (length l)) l 0 HG)
      as (l' & cnt' & E & (n & -> & Hs) & Hord).
    { unfold sort_fuel. lia. }
    rewrite E. exists l', n. auto.
  Qed.

  (** From neighbours to all pairs, for a negatively transitive comparison. *)
  Hypothesis lt_negtrans : forall x y z, lt x y = false -> lt y z = false -> lt x z = false.

  Lemma ordered_pairs (l : list A) :
    (forall i x y, nth_error l i = Some x -> nth_error l (S i) = Some y -> lt y x = false) ->
    StronglySorted (fun x y => lt y x = false) l.
  Proof.
    intros H. apply Sorted_StronglySorted.
    - intros x y z Hxy Hyz. eapply lt_negtrans; eauto.
    - induction l as [|x l IH]; constructor.
      + apply IH. intros i u v Hu Hv. apply (H (S i)); auto.
      + destruct l as [|y l]; constructor. apply (H 0); reflexivity.
  Qed.
End Correct.

Lemma inv_sorted {A} (lt : A -> A -> bool) (l : list A) :
  StronglySorted (fun x y => lt y x = false) l -> inv lt l = 0.
Proof.
  induction 1 as [|x l HS IH HF]; simpl; [reflexivity|]. rewrite IH, Nat.add_0_r.
  unfold count_lt. induction HF as [|y l Hy HF IHF]; simpl; [reflexivity|].
  rewrite Hy. apply IHF.
  - inversion HS; assumption.
  - simpl in IH. destruct (count_lt lt y l); simpl in IH; [exact IH|discriminate].
Qed.
