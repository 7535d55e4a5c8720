(** Operators, operator times and the ordered operator container.

    Modelled code: src/operator.hpp (whole file except EqualTimeOperator),
    src/moves/moves.ipp lines 52-80 (merge_diff) and 215-242 (update_operators).

    Simplification: an imaginary time (a double, never NaN) is an integer. Only comparisons
    of times are used here, and the finite doubles are order-isomorphic to a set of integers. *)

From Coq Require Import ZArith List Bool Lia Sorting.Sorted Sorting.Permutation.
Import ListNotations.
Open Scope Z_scope.

(** src/operator.hpp:13-17 OPERATOR_TYPE (INVALID_OP is only used for default construction). *)
Inductive optype := CREATION_OP | ANNIHILATION_OP.

(** src/operator.hpp:19-22 *)
Inductive action := INSERTION | REMOVAL.

(** src/operator.hpp:25-41 OperatorTimeTemplate *)
Record optime := OT { ot_time : Z; ot_small : Z }.

(** src/operator.hpp:50-57 operator< *)
Definition ot_lt (a b : optime) : bool :=
  if ot_time a =? ot_time b then ot_small a <? ot_small b else ot_time a <? ot_time b.

(** src/operator.hpp:59-66 operator<= *)
Definition ot_le (a b : optime) : bool :=
  if ot_time a =? ot_time b then ot_small a <=? ot_small b else ot_time a <=? ot_time b.

(** src/operator.hpp:78-81 operator== *)
Definition ot_eqb (a b : optime) : bool :=
  (ot_time a =? ot_time b) && (ot_small a =? ot_small b).

(** src/operator.hpp:106-139 psi; site_ is always 0 and never read, so it is left out. *)
Record psi := Psi { p_time : optime; p_type : optype; p_flavor : nat }.

(** src/operator.hpp:155-157 operator<(psi,psi): by time only. *)
Definition psi_lt (a b : psi) : bool := ot_lt (p_time a) (p_time b).

Definition optype_eqb (a b : optype) : bool :=
  match a, b with
  | CREATION_OP, CREATION_OP | ANNIHILATION_OP, ANNIHILATION_OP => true
  | _, _ => false
  end.

(** src/operator.hpp:201-203 operator==(psi,psi): time, type and flavor. *)
Definition psi_eqb (a b : psi) : bool :=
  ot_eqb (p_time a) (p_time b) && optype_eqb (p_type a) (p_type b)
  && Nat.eqb (p_flavor a) (p_flavor b).

(** src/operator.hpp:209-210 operator_container_t: an ordered container with unique keys,
    compared with operator<. The model is the list of elements in iteration order. *)
Definition container := list psi.

(** multi_index insert: refuses an element equivalent to a stored one. *)
Fixpoint cinsert (x : psi) (l : container) : container * bool :=
  match l with
  | [] => ([x], true)
  | y :: l' =>
      if psi_lt x y then (x :: l, true)
      else if psi_lt y x then let (r, b) := cinsert x l' in (y :: r, b)
      else (l, false)
  end.

(** multi_index erase(key): removes the element equivalent to the key, returns their number. *)
Fixpoint cerase (x : psi) (l : container) : container * nat :=
  match l with
  | [] => ([], 0%nat)
  | y :: l' =>
      if psi_lt x y then (l, 0%nat)
      else if psi_lt y x then let (r, n) := cerase x l' in (y :: r, n)
      else (l', 1%nat)
  end.

Definition record := list (psi * action).

(** Outcome of a loop that may throw; the container and the record keep the value they have
    when the exception leaves the loop. *)
Inductive outcome := Ok | Throw.

(** src/operator.hpp:236-248 safe_erase_with_record; [rec] grows at the back. *)
Fixpoint safe_erase_with_record (ops : list psi) (l : container) (rec : record)
  : outcome * container * record :=
  match ops with
  | [] => (Ok, l, rec)
  | x :: ops' =>
      let (l', n) := cerase x l in
      if Nat.eqb n 1 then safe_erase_with_record ops' l' (rec ++ [(x, REMOVAL)])
      else (Throw, l', rec)
  end.

(** src/operator.hpp:277-290 safe_insert_with_record *)
Fixpoint safe_insert_with_record (ops : list psi) (l : container) (rec : record)
  : outcome * container * record :=
  match ops with
  | [] => (Ok, l, rec)
  | x :: ops' =>
      let (l', b) := cinsert x l in
      if b then safe_insert_with_record ops' l' (rec ++ [(x, INSERTION)])
      else (Throw, l', rec)
  end.

(** src/operator.hpp:305-317 revert_changes: backwards over the record. *)
Definition revert_one (l : container) (e : psi * action) : container :=
  match snd e with
  | INSERTION => fst (cerase (fst e) l)
  | REMOVAL => fst (cinsert (fst e) l)
  end.
Definition revert_changes (l : container) (rec : record) : container :=
  fold_left revert_one (rev rec) l.

(** src/moves/moves.ipp:215-242 LocalUpdater::update_operators.
    [UFatal] is the runtime_error of line 226. *)
Inductive update_ops_result :=
| UFatal (l : container)
| UFalse (l : container) (rec : record)
| UTrue (l : container) (rec : record).

Definition update_operators (l : container) (rem add : list psi) : update_ops_result :=
  match safe_erase_with_record rem l [] with
  | (Throw, l1, _) => UFatal l1
  | (Ok, l1, rec1) =>
      match safe_insert_with_record add l1 rec1 with
      | (Throw, l2, rec2) => UFalse (revert_changes l2 rec2) rec2
      | (Ok, l2, rec2) => UTrue l2 rec2
      end
  end.

(** std::find followed by swap with the last element and pop_back
    (src/moves/moves.ipp:58-64). Removing the hole by moving the last element into it is
    modelled literally: the first match is replaced by the last element of the rest. *)
Fixpoint find_swap_pop (x : psi) (l : list psi) : option (list psi) :=
  match l with
  | [] => None
  | y :: l' =>
      if psi_eqb y x then
        Some (match rev l' with
              | [] => []
              | z :: r => z :: rev r
              end)
      else match find_swap_pop x l' with
           | None => None
           | Some r => Some (y :: r)
           end
  end.

(** src/moves/moves.ipp:52-66 merge_diff_impl *)
Fixpoint merge_diff_impl (op_rem op_add new : list psi) : list psi * list psi :=
  match new with
  | [] => (op_rem, op_add)
  | x :: new' =>
      match find_swap_pop x op_rem with
      | None => merge_diff_impl op_rem (op_add ++ [x]) new'
      | Some r => merge_diff_impl r op_add new'
      end
  end.

(** src/moves/moves.ipp:68-80 merge_diff *)
Definition merge_diff (hyb_rem hyb_add worm_rem worm_add : list psi) : list psi * list psi :=
  let (r1, a1) := merge_diff_impl (hyb_rem ++ worm_rem) [] hyb_add in
  merge_diff_impl r1 a1 worm_add.

(* ------------------------------------------------------------------------- *)
(** * Order lemmas *)

Lemma ot_lt_spec a b :
  ot_lt a b = true <->
  (ot_time a < ot_time b \/ (ot_time a = ot_time b /\ ot_small a < ot_small b)).
Proof.
  unfold ot_lt. destruct (Z.eqb_spec (ot_time a) (ot_time b));
  [rewrite Z.ltb_lt | rewrite Z.ltb_lt]; lia.
Qed.

Lemma ot_le_spec a b : ot_le a b = true <-> (ot_lt a b = true \/ a = b).
Proof.
  rewrite ot_lt_spec. unfold ot_le.
  destruct a as [ta sa], b as [tb sb]; simpl.
  destruct (Z.eqb_spec ta tb); rewrite Z.leb_le; split; intro H.
  - destruct (Z.eq_dec sa sb); [right; congruence | left; right; lia].
  - destruct H as [[H|H]|H]; [lia | lia | inversion H; lia].
  - left; left; lia.
  - destruct H as [[H|H]|H]; [lia | lia | inversion H; lia].
Qed.

Lemma ot_eqb_spec a b : ot_eqb a b = true <-> a = b.
Proof.
  unfold ot_eqb. rewrite andb_true_iff, !Z.eqb_eq.
  destruct a, b; simpl; split; [intros [-> ->]; reflexivity | intros H; inversion H; auto].
Qed.

Lemma ot_lt_irrefl a : ot_lt a a = false.
Proof. apply not_true_is_false. rewrite ot_lt_spec. lia. Qed.

Lemma ot_lt_trans a b c : ot_lt a b = true -> ot_lt b c = true -> ot_lt a c = true.
Proof. rewrite !ot_lt_spec. lia. Qed.

Lemma ot_lt_total a b : ot_lt a b = true \/ a = b \/ ot_lt b a = true.
Proof.
  rewrite !ot_lt_spec. destruct a as [ta sa], b as [tb sb]; simpl.
  destruct (Z.lt_trichotomy ta tb) as [|[->|]]; [tauto| |tauto].
  destruct (Z.lt_trichotomy sa sb) as [|[->|]]; tauto.
Qed.

Lemma ot_lt_asym a b : ot_lt a b = true -> ot_lt b a = false.
Proof. intros H. apply not_true_is_false. rewrite ot_lt_spec in *. lia. Qed.

Lemma ot_lt_neither a b : ot_lt a b = false -> ot_lt b a = false -> a = b.
Proof. intros H1 H2. destruct (ot_lt_total a b) as [H|[H|H]]; congruence. Qed.

Lemma optype_eqb_spec a b : optype_eqb a b = true <-> a = b.
Proof. destruct a, b; simpl; split; congruence. Qed.

Lemma psi_eqb_spec a b : psi_eqb a b = true <-> a = b.
Proof.
  unfold psi_eqb. rewrite !andb_true_iff, ot_eqb_spec, optype_eqb_spec, Nat.eqb_eq.
  destruct a, b; simpl; split; [intros [[-> ->] ->]; reflexivity | intros H; inversion H; auto].
Qed.

Lemma psi_eqb_refl a : psi_eqb a a = true.
Proof. apply psi_eqb_spec; reflexivity. Qed.

Lemma optime_eq_dec (a b : optime) : {a = b} + {a <> b}.
Proof. decide equality; apply Z.eq_dec. Defined.

Lemma psi_eq_dec (a b : psi) : {a = b} + {a <> b}.
Proof. decide equality; [apply Nat.eq_dec | decide equality | apply optime_eq_dec]. Defined.

(* ------------------------------------------------------------------------- *)
(** * Container lemmas *)

Definition plt (a b : psi) : Prop := psi_lt a b = true.
Definition csorted (l : container) : Prop := StronglySorted plt l.

(** Abstract view of a container: a partial map from operator times to operators. *)
Fixpoint lookup (l : container) (k : optime) : option psi :=
  match l with
  | [] => None
  | y :: l' => if ot_eqb (p_time y) k then Some y else lookup l' k
  end.

Definition upd (m : optime -> option psi) (k : optime) (v : option psi) : optime -> option psi :=
  fun k' => if ot_eqb k k' then v else m k'.

Lemma plt_trans a b c : plt a b -> plt b c -> plt a c.
Proof. unfold plt, psi_lt. apply ot_lt_trans. Qed.

Lemma lookup_time l k x : lookup l k = Some x -> p_time x = k /\ In x l.
Proof.
  induction l as [|y l IH]; simpl; [discriminate|].
  destruct (ot_eqb (p_time y) k) eqn:E.
  - intros H; inversion H; subst. apply ot_eqb_spec in E. auto.
  - intros H; destruct (IH H); auto.
Qed.

Lemma lookup_lt_none l k :
  Forall (fun y => ot_lt k (p_time y) = true) l -> lookup l k = None.
Proof.
  induction 1 as [|y l Hy _ IH]; simpl; [reflexivity|].
  destruct (ot_eqb (p_time y) k) eqn:E; [|exact IH].
  apply ot_eqb_spec in E. subst. rewrite ot_lt_irrefl in Hy. discriminate.
Qed.

Lemma lookup_in l x : csorted l -> In x l -> lookup l (p_time x) = Some x.
Proof.
  induction 1 as [|y l HS IH HF]; simpl; [tauto|].
  intros [->|HIn].
  - replace (ot_eqb (p_time x) (p_time x)) with true; [reflexivity|].
    symmetry; apply ot_eqb_spec; reflexivity.
  - destruct (ot_eqb (p_time y) (p_time x)) eqn:E; [|auto].
    apply ot_eqb_spec in E. rewrite Forall_forall in HF. specialize (HF _ HIn).
    unfold plt, psi_lt in HF. rewrite E, ot_lt_irrefl in HF. discriminate.
Qed.

Lemma ot_eqb_refl k : ot_eqb k k = true.
Proof. apply ot_eqb_spec; reflexivity. Qed.

Lemma ot_eqb_false a b : a <> b -> ot_eqb a b = false.
Proof. intros H. apply not_true_is_false. rewrite ot_eqb_spec. exact H. Qed.

(** Two sorted containers with the same abstract view are the same list. *)
Lemma csorted_ext l1 l2 :
  csorted l1 -> csorted l2 -> (forall k, lookup l1 k = lookup l2 k) -> l1 = l2.
Proof.
  intros H1. revert l2. induction H1 as [|x l1 HS1 IH HF1]; intros l2 H2 E.
  - destruct l2 as [|y l2]; [reflexivity|].
    specialize (E (p_time y)). simpl in E. rewrite ot_eqb_refl in E. discriminate.
  - destruct l2 as [|y l2].
    { specialize (E (p_time x)). simpl in E. rewrite ot_eqb_refl in E. discriminate. }
    inversion H2 as [|? ? HS2 HF2]; subst.
    assert (Hxy : x = y).
    { destruct (ot_lt_total (p_time x) (p_time y)) as [L|[L|L]].
      - specialize (E (p_time x)). simpl in E. rewrite ot_eqb_refl in E.
        rewrite (ot_eqb_false (p_time y) (p_time x)) in E.
        + rewrite lookup_lt_none in E; [discriminate|].
          eapply Forall_impl; [|exact HF2]. intros a Ha. eapply ot_lt_trans; eassumption.
        + intros Heq. rewrite Heq, ot_lt_irrefl in L. discriminate.
      - specialize (E (p_time x)). simpl in E. rewrite L in E.
        rewrite !ot_eqb_refl in E. inversion E; reflexivity.
      - specialize (E (p_time y)). simpl in E. rewrite ot_eqb_refl in E.
        rewrite (ot_eqb_false (p_time x) (p_time y)) in E.
        + rewrite lookup_lt_none in E; [discriminate|].
          eapply Forall_impl; [|exact HF1]. intros a Ha. eapply ot_lt_trans; eassumption.
        + intros Heq. rewrite Heq, ot_lt_irrefl in L. discriminate. }
    subst y. f_equal. apply IH; [assumption|].
    intros k. specialize (E k). simpl in E.
    destruct (ot_eqb (p_time x) k) eqn:Ek; [|exact E].
    apply ot_eqb_spec in Ek. subst k.
    rewrite !lookup_lt_none; [reflexivity| |].
    + eapply Forall_impl; [|exact HF2]. auto.
    + eapply Forall_impl; [|exact HF1]. auto.
Qed.

Lemma cinsert_in x l y : In y (fst (cinsert x l)) -> y = x \/ In y l.
Proof.
  induction l as [|z l IH]; simpl; [intuition|].
  destruct (psi_lt x z); simpl; [intuition|].
  destruct (psi_lt z x); simpl; [|intuition].
  destruct (cinsert x l) as [r b]; simpl in *. intros [H|H]; [auto|].
  destruct (IH H); auto.
Qed.

Lemma cinsert_sorted x l : csorted l -> csorted (fst (cinsert x l)).
Proof.
  induction 1 as [|z l HS IH HF]; simpl.
  - constructor; constructor.
  - destruct (psi_lt x z) eqn:E1; simpl.
    + constructor; [constructor; assumption|]. constructor; [exact E1|].
      eapply Forall_impl; [|exact HF]. intros a Ha. eapply plt_trans; [exact E1|exact Ha].
    + destruct (psi_lt z x) eqn:E2; simpl; [|constructor; assumption].
      destruct (cinsert x l) as [r b] eqn:Er; simpl in *.
      constructor; [assumption|]. apply Forall_forall. intros y Hy.
      pose proof (cinsert_in x l y) as HI. rewrite Er in HI. simpl in HI.
      destruct (HI Hy) as [->|Hy']; [exact E2|].
      rewrite Forall_forall in HF. auto.
Qed.

Lemma cinsert_lookup x l :
  csorted l ->
  (lookup l (p_time x) = None ->
     snd (cinsert x l) = true /\
     forall k, lookup (fst (cinsert x l)) k = upd (lookup l) (p_time x) (Some x) k) /\
  (lookup l (p_time x) <> None -> cinsert x l = (l, false)).
Proof.
  unfold upd. induction 1 as [|z l HS IH HF]; simpl.
  - split; [|congruence]. intros _. split; [reflexivity|]. intros k.
    destruct (ot_eqb (p_time x) k); reflexivity.
  - unfold psi_lt. destruct (ot_lt (p_time x) (p_time z)) eqn:E1.
    + assert (HN : lookup l (p_time x) = None).
      { apply lookup_lt_none. eapply Forall_impl; [|exact HF].
        intros a Ha. eapply ot_lt_trans; [exact E1|exact Ha]. }
      assert (Hne : ot_eqb (p_time z) (p_time x) = false).
      { apply ot_eqb_false. intros Heq. rewrite Heq, ot_lt_irrefl in E1. discriminate. }
      rewrite Hne, HN. split; [|congruence]. intros _. split; [reflexivity|].
      intros k. simpl. reflexivity.
    + destruct (ot_lt (p_time z) (p_time x)) eqn:E2.
      * assert (Hne : ot_eqb (p_time z) (p_time x) = false).
        { apply ot_eqb_false. intros Heq. rewrite Heq, ot_lt_irrefl in E2. discriminate. }
        rewrite Hne. destruct IH as [IH1 IH2].
        destruct (cinsert x l) as [r b]; simpl in *. split.
        -- intros HN. destruct (IH1 HN) as [-> IHk]. split; [reflexivity|].
           intros k. rewrite IHk.
           destruct (ot_eqb (p_time z) k) eqn:Ez; [|reflexivity].
           destruct (ot_eqb (p_time x) k) eqn:Ex; [|reflexivity].
           apply ot_eqb_spec in Ez, Ex. subst k. rewrite Ex, ot_eqb_refl in Hne. discriminate.
        -- intros HS'. specialize (IH2 HS'). inversion IH2; subst. reflexivity.
      * pose proof (ot_lt_neither _ _ E1 E2) as Heq. rewrite Heq, ot_eqb_refl.
        split; [discriminate|reflexivity].
Qed.

Lemma cerase_in x l y : In y (fst (cerase x l)) -> In y l.
Proof.
  induction l as [|z l IH]; simpl; [intuition|].
  destruct (psi_lt x z); simpl; [intuition|].
  destruct (psi_lt z x); simpl; [|intuition].
  destruct (cerase x l) as [r b]; simpl in *. intuition.
Qed.

Lemma cerase_sorted x l : csorted l -> csorted (fst (cerase x l)).
Proof.
  induction 1 as [|z l HS IH HF]; simpl; [constructor|].
  destruct (psi_lt x z); simpl; [constructor; assumption|].
  destruct (psi_lt z x); simpl; [|assumption].
  destruct (cerase x l) as [r n] eqn:Er; simpl in *.
  constructor; [assumption|]. apply Forall_forall. intros y Hy.
  rewrite Forall_forall in HF. apply HF.
  apply (cerase_in x). rewrite Er. exact Hy.
Qed.

Lemma cerase_lookup x l :
  csorted l ->
  (lookup l (p_time x) <> None ->
     snd (cerase x l) = 1%nat /\
     forall k, lookup (fst (cerase x l)) k = upd (lookup l) (p_time x) None k) /\
  (lookup l (p_time x) = None -> cerase x l = (l, 0%nat)).
Proof.
  unfold upd. induction 1 as [|z l HS IH HF]; simpl.
  - split; [congruence|reflexivity].
  - unfold psi_lt. destruct (ot_lt (p_time x) (p_time z)) eqn:E1.
    + assert (HN : lookup l (p_time x) = None).
      { apply lookup_lt_none. eapply Forall_impl; [|exact HF].
        intros a Ha. eapply ot_lt_trans; [exact E1|exact Ha]. }
      assert (Hne : ot_eqb (p_time z) (p_time x) = false).
      { apply ot_eqb_false. intros Heq. rewrite Heq, ot_lt_irrefl in E1. discriminate. }
      rewrite Hne, HN. split; [congruence|reflexivity].
    + destruct (ot_lt (p_time z) (p_time x)) eqn:E2.
      * assert (Hne : ot_eqb (p_time z) (p_time x) = false).
        { apply ot_eqb_false. intros Heq. rewrite Heq, ot_lt_irrefl in E2. discriminate. }
        rewrite Hne. destruct IH as [IH1 IH2].
        destruct (cerase x l) as [r n]; simpl in *. split.
        -- intros HN. destruct (IH1 HN) as [-> IHk]. split; [reflexivity|].
           intros k. rewrite IHk.
           destruct (ot_eqb (p_time z) k) eqn:Ez; [|reflexivity].
           destruct (ot_eqb (p_time x) k) eqn:Ex; [|reflexivity].
           apply ot_eqb_spec in Ez, Ex. subst k. rewrite Ex, ot_eqb_refl in Hne. discriminate.
        -- intros HS'. specialize (IH2 HS'). inversion IH2; subst. reflexivity.
      * pose proof (ot_lt_neither _ _ E1 E2) as Heq. rewrite Heq, ot_eqb_refl.
        split; [|discriminate]. intros _. split; [reflexivity|]. intros k.
        destruct (ot_eqb (p_time z) k) eqn:Ez; [|reflexivity].
        apply ot_eqb_spec in Ez. subst k. apply lookup_lt_none.
        eapply Forall_impl; [|exact HF]. auto.
Qed.

(** Inserting a fresh operator and erasing it again, and the converse. *)
Lemma erase_after_insert x l :
  csorted l -> lookup l (p_time x) = None -> fst (cerase x (fst (cinsert x l))) = l.
Proof.
  intros HS HN. apply csorted_ext; [apply cerase_sorted, cinsert_sorted, HS|exact HS|].
  intros k. destruct (cinsert_lookup x l HS) as [HI _]. destruct (HI HN) as [_ HIk].
  destruct (cerase_lookup x _ (cinsert_sorted x l HS)) as [HE _].
  destruct HE as [_ HEk].
  - rewrite HIk. unfold upd. rewrite ot_eqb_refl. discriminate.
  - rewrite HEk. unfold upd. destruct (ot_eqb (p_time x) k) eqn:Ek.
    + apply ot_eqb_spec in Ek. subst k. symmetry; exact HN.
    + rewrite HIk. unfold upd. rewrite Ek. reflexivity.
Qed.

Lemma insert_after_erase x l :
  csorted l -> In x l -> fst (cinsert x (fst (cerase x l))) = l.
Proof.
  intros HS HIn. pose proof (lookup_in l x HS HIn) as HL.
  apply csorted_ext; [apply cinsert_sorted, cerase_sorted, HS|exact HS|].
  intros k. destruct (cerase_lookup x l HS) as [HE _].
  destruct HE as [_ HEk]; [congruence|].
  destruct (cinsert_lookup x _ (cerase_sorted x l HS)) as [HI _].
  destruct HI as [_ HIk].
  - rewrite HEk. unfold upd. rewrite ot_eqb_refl. reflexivity.
  - rewrite HIk. unfold upd. destruct (ot_eqb (p_time x) k) eqn:Ek.
    + apply ot_eqb_spec in Ek. subst k. symmetry; exact HL.
    + rewrite HEk. unfold upd. rewrite Ek. reflexivity.
Qed.

Lemma cerase_in_iff x l y :
  csorted l -> In x l -> (In y (fst (cerase x l)) <-> In y l /\ y <> x).
Proof.
  intros HS HIn. pose proof (lookup_in l x HS HIn) as HL.
  destruct (cerase_lookup x l HS) as [HE _]. destruct HE as [_ HEk]; [congruence|].
  split.
  - intros Hy. split; [eapply cerase_in; exact Hy|]. intros ->.
    pose proof (lookup_in _ _ (cerase_sorted x l HS) Hy) as H.
    rewrite HEk in H. unfold upd in H. rewrite ot_eqb_refl in H. discriminate.
  - intros [Hy Hne]. pose proof (lookup_in _ _ HS Hy) as H.
    assert (Ht : p_time x <> p_time y).
    { intros Heq. rewrite <- Heq, HL in H. congruence. }
    specialize (HEk (p_time y)). unfold upd in HEk. rewrite ot_eqb_false in HEk by exact Ht.
    rewrite H in HEk. apply lookup_time in HEk. tauto.
Qed.

(* ------------------------------------------------------------------------- *)
(** * Records and their reversal *)

Lemma revert_app l r1 r2 : revert_changes l (r1 ++ r2) = revert_changes (revert_changes l r2) r1.
Proof. unfold revert_changes. rewrite rev_app_distr, fold_left_app. reflexivity. Qed.

Lemma revert_snoc l r e : revert_changes l (r ++ [e]) = revert_changes (revert_one l e) r.
Proof. rewrite revert_app. reflexivity. Qed.

(** [wit l0 l rec]: undoing [rec] on [l] gives [l0]. *)
Lemma erase_record_inv l0 ops l rec o l' rec' :
  csorted l -> NoDup ops -> (forall x, In x ops -> In x l) ->
  revert_changes l rec = l0 ->
  safe_erase_with_record ops l rec = (o, l', rec') ->
  o = Ok /\ csorted l' /\ revert_changes l' rec' = l0.
Proof.
  revert l rec. induction ops as [|x ops IH]; intros l rec HS HND HIn HR HE.
  - simpl in HE. inversion HE; subst. auto.
  - simpl in HE. inversion HND as [|? ? Hx HND']; subst.
    assert (HIx : In x l) by (apply HIn; left; reflexivity).
    destruct (cerase_lookup x l HS) as [HL _].
    destruct HL as [Hn Hk]; [rewrite (lookup_in l x HS HIx); discriminate|].
    pose proof (insert_after_erase x l HS HIx) as HIE.
    pose proof (cerase_sorted x l HS) as HS'.
    pose proof (fun y => cerase_in_iff x l y HS HIx) as HIff.
    destruct (cerase x l) as [l1 n]; simpl in *. subst n. simpl in HE.
    eapply IH in HE; eauto.
    + intros y Hy. apply HIff. split; [auto|]. intros ->. contradiction.
    + rewrite revert_snoc. unfold revert_one; simpl. rewrite HIE. reflexivity.
Qed.

Lemma insert_record_inv l0 ops l rec o l' rec' :
  csorted l -> revert_changes l rec = l0 ->
  safe_insert_with_record ops l rec = (o, l', rec') ->
  csorted l' /\ revert_changes l' rec' = l0.
Proof.
  revert l rec. induction ops as [|x ops IH]; intros l rec HS HR HE.
  - simpl in HE. inversion HE; subst. auto.
  - simpl in HE. destruct (cinsert_lookup x l HS) as [HI1 HI2].
    destruct (lookup l (p_time x)) eqn:EL.
    + rewrite HI2 in HE by discriminate. inversion HE; subst. auto.
    + pose proof (erase_after_insert x l HS EL) as HEI.
      pose proof (cinsert_sorted x l HS) as HS'.
      destruct HI1 as [Hb Hk]; [reflexivity|].
      destruct (cinsert x l) as [l1 b]; simpl in *. subst b.
      eapply IH in HE; eauto.
      rewrite revert_snoc. unfold revert_one; simpl. rewrite HEI. exact HR.
Qed.

(** Result of update_operators when the operators to remove are present. *)
Lemma update_operators_ok l rem add :
  csorted l -> NoDup rem -> (forall x, In x rem -> In x l) ->
  match update_operators l rem add with
  | UFatal _ => False
  | UFalse l' _ => l' = l
  | UTrue l' rec => csorted l' /\ revert_changes l' rec = l
  end.
Proof.
  intros HS HND HIn. unfold update_operators.
  destruct (safe_erase_with_record rem l []) as [[o l1] rec1] eqn:E1.
  eapply (erase_record_inv l) in E1; eauto. destruct E1 as [-> [HS1 HR1]].
  destruct (safe_insert_with_record add l1 rec1) as [[o2 l2] rec2] eqn:E2.
  eapply (insert_record_inv l) in E2; eauto. destruct E2 as [HS2 HR2].
  destruct o2; auto.
Qed.

(** Abstract effect of a successful update. *)
Lemma safe_erase_in ops l rec l' rec' y :
  csorted l -> NoDup ops -> (forall x, In x ops -> In x l) ->
  safe_erase_with_record ops l rec = (Ok, l', rec') ->
  (In y l' <-> In y l /\ ~ In y ops).
Proof.
  revert l rec. induction ops as [|x ops IH]; intros l rec HS HND HIn HE.
  - simpl in HE. inversion HE; subst. simpl. tauto.
  - simpl in HE. inversion HND as [|? ? Hx HND']; subst.
    assert (HIx : In x l) by (apply HIn; left; reflexivity).
    pose proof (fun y => cerase_in_iff x l y HS HIx) as HIff.
    pose proof (cerase_sorted x l HS) as HS'.
    destruct (cerase_lookup x l HS) as [HL _].
    destruct HL as [Hn _]; [rewrite (lookup_in l x HS HIx); discriminate|].
    destruct (cerase x l) as [l1 n]; simpl in *. subst n. simpl in HE.
    eapply IH in HE; eauto.
    + rewrite HE, HIff. simpl. intuition congruence.
    + intros z Hz. apply HIff. split; [auto|]. intros ->. contradiction.
Qed.

Lemma cinsert_in_iff x l y :
  csorted l -> snd (cinsert x l) = true -> (In y (fst (cinsert x l)) <-> y = x \/ In y l).
Proof.
  intros HS Hb. split; [apply cinsert_in|].
  revert Hb. induction HS as [|z l HS IH HF]; simpl.
  - intuition.
  - destruct (psi_lt x z); simpl; [intuition|].
    destruct (psi_lt z x); simpl; [|discriminate].
    destruct (cinsert x l) as [r b]; simpl in *. intuition.
Qed.

Lemma safe_insert_in ops l rec l' rec' y :
  csorted l -> safe_insert_with_record ops l rec = (Ok, l', rec') ->
  (In y l' <-> In y l \/ In y ops).
Proof.
  revert l rec. induction ops as [|x ops IH]; intros l rec HS HE.
  - simpl in HE. inversion HE; subst. simpl. tauto.
  - simpl in HE. pose proof (cinsert_in_iff x l y HS) as HI.
    pose proof (cinsert_sorted x l HS) as HS'.
    destruct (cinsert x l) as [l1 b]; simpl in *.
    destruct b; [|discriminate]. eapply IH in HE; eauto.
    rewrite HE, HI by reflexivity. simpl. intuition.
Qed.

Lemma update_operators_in l rem add l' rec y :
  csorted l -> NoDup rem -> (forall x, In x rem -> In x l) ->
  update_operators l rem add = UTrue l' rec ->
  (In y l' <-> (In y l /\ ~ In y rem) \/ In y add).
Proof.
  intros HS HND HIn. unfold update_operators.
  destruct (safe_erase_with_record rem l []) as [[o l1] rec1] eqn:E1.
  pose proof E1 as E1'. eapply (erase_record_inv l) in E1'; eauto.
  destruct E1' as [-> [HS1 HR1]].
  destruct (safe_insert_with_record add l1 rec1) as [[o2 l2] rec2] eqn:E2.
  destruct o2; [|discriminate]. intros H; inversion H; subst.
  rewrite (safe_insert_in _ _ _ _ _ y HS1 E2).
  rewrite (safe_erase_in _ _ _ _ _ y HS HND HIn E1). tauto.
Qed.

(* ------------------------------------------------------------------------- *)
(** * Multiset difference *)

Definition cnt (l : list psi) (x : psi) : nat := count_occ psi_eq_dec l x.

Lemma find_swap_pop_none x l : find_swap_pop x l = None -> ~ In x l.
Proof.
  induction l as [|y l IH]; simpl; [tauto|].
  destruct (psi_eqb y x) eqn:E; [discriminate|].
  destruct (find_swap_pop x l); [discriminate|].
  intros _ [->|H]; [rewrite psi_eqb_refl in E; discriminate|]. apply IH; auto.
Qed.

Lemma swap_pop_perm (l' : list psi) :
  Permutation (match rev l' with [] => [] | z :: r => z :: rev r end) l'.
Proof.
  destruct (rev l') as [|z r] eqn:E.
  - apply (f_equal (@rev psi)) in E. rewrite rev_involutive in E. subst. constructor.
  - apply (f_equal (@rev psi)) in E. rewrite rev_involutive in E. subst. simpl.
    apply Permutation_cons_append.
Qed.

Lemma find_swap_pop_some x l r : find_swap_pop x l = Some r -> Permutation l (x :: r).
Proof.
  revert r. induction l as [|y l IH]; simpl; intros r; [discriminate|].
  destruct (psi_eqb y x) eqn:E.
  - apply psi_eqb_spec in E. subst y. intros H; inversion H; subst.
    constructor. symmetry. apply swap_pop_perm.
  - destruct (find_swap_pop x l) as [r'|]; [|discriminate].
    intros H; inversion H; subst. rewrite (IH r' eq_refl). constructor.
Qed.

Lemma cnt_perm l1 l2 x : Permutation l1 l2 -> cnt l1 x = cnt l2 x.
Proof. intros H. apply (Permutation_count_occ psi_eq_dec); assumption. Qed.

Lemma cnt_cons x l y : cnt (x :: l) y = ((if psi_eq_dec x y then 1 else 0) + cnt l y)%nat.
Proof. unfold cnt. simpl. destruct (psi_eq_dec x y); reflexivity. Qed.

Lemma cnt_app l1 l2 x : cnt (l1 ++ l2) x = (cnt l1 x + cnt l2 x)%nat.
Proof. apply count_occ_app. Qed.

(** Invariant of merge_diff_impl in terms of counts. *)
Lemma merge_diff_impl_cnt new : forall op_rem op_add r a,
  merge_diff_impl op_rem op_add new = (r, a) ->
  forall x, cnt r x = (cnt op_rem x - cnt new x)%nat /\
            cnt a x = (cnt op_add x + (cnt new x - cnt op_rem x))%nat.
Proof.
  induction new as [|y new IH]; intros op_rem op_add r a H x; simpl in H.
  - inversion H; subst. cbn. lia.
  - destruct (find_swap_pop y op_rem) as [r'|] eqn:E.
    + pose proof (IH _ _ _ _ H x) as [H1 H2].
      apply find_swap_pop_some in E. pose proof (cnt_perm _ _ x E) as Hc.
      rewrite cnt_cons in Hc. rewrite H1, H2, (cnt_cons y new), Hc. lia.
    + pose proof (IH _ _ _ _ H x) as [H1 H2].
      apply find_swap_pop_none in E.
      rewrite H1, H2, cnt_app, !cnt_cons.
      destruct (psi_eq_dec y x) as [->|Hne].
      * assert (cnt op_rem x = 0%nat) by (apply count_occ_not_In; exact E).
        change (cnt [] x) with 0%nat. lia.
      * change (cnt [] x) with 0%nat. lia.
Qed.

Lemma merge_diff_cnt hr ha wr wa r a :
  merge_diff hr ha wr wa = (r, a) ->
  forall x, cnt r x = (cnt (hr ++ wr) x - cnt (ha ++ wa) x)%nat /\
            cnt a x = (cnt (ha ++ wa) x - cnt (hr ++ wr) x)%nat.
Proof.
  unfold merge_diff. destruct (merge_diff_impl (hr ++ wr) [] ha) as [r1 a1] eqn:E1.
  intros E2 x.
  destruct (merge_diff_impl_cnt _ _ _ _ _ E1 x) as [A1 A2].
  destruct (merge_diff_impl_cnt _ _ _ _ _ E2 x) as [B1 B2].
  rewrite B1, B2, A1, A2, !cnt_app. change (cnt [] x) with 0%nat. lia.
Qed.
