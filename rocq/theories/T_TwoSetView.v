(** * C43: iterating two sorted sets as one *)
From Coq Require Import ZArith List Bool Lia Sorting.Permutation Sorting.Sorted.
From Verif Require Import TwoSetView.
Import ListNotations.
Open Scope Z_scope.

(** ** Specification: what a std::set is, and what the two sets together should give *)
Definition is_set (l : list Z) : Prop := StronglySorted Z.lt l.
Definition disjoint (l1 l2 : list Z) : Prop := forall x, In x l1 -> ~ In x l2.
Definition once_in_order (l1 l2 out : list Z) : Prop := StronglySorted Z.lt out /\ Permutation out (l1 ++ l2).

Section Proofs.
Variables (l1 l2 : list Z).
Hypothesis (S1 : is_set l1) (S2 : is_set l2) (D : disjoint l1 l2).

Notation proceed := (proceed l1 l2).
Notation deref := (deref l1 l2).

Lemma skipn_nth (l : list Z) p : (p < length l)%nat -> exists x, nth_error l p = Some x /\ skipn p l = x :: skipn (S p) l.
Proof.
revert p. induction l as [|a l IH]; simpl; intros p H; [lia|]. destruct p; simpl; [now exists a|]. apply IH; lia.
Qed.
Lemma skipn_sorted l p : is_set l -> is_set (skipn p l).
Proof. revert p; induction l; intros [|p] H; simpl; auto. inversion H; subst. now apply IHl. Qed.

(** the states the iterator passes through *)
Definition st (i : nat) it p1 p2 := VI i it (It O1 p1) (It O2 p2) (It O1 (length l1)) (It O2 (length l2)).

Lemma proceed_spec i it p1 p2 : (p1 <= length l1)%nat -> (p2 <= length l2)%nat ->
  (p1 = length l1 /\ p2 = length l2 /\ proceed (st i it p1 p2) = VOk (st (S i) it p1 p2)) \/
  (exists x, proceed (st i it p1 p2) = VOk (st (S i) (It O1 p1) (S p1) p2) /\ (p1 < length l1)%nat /\
     nth_error l1 p1 = Some x /\ skipn p1 l1 = x :: skipn (S p1) l1 /\ Forall (Z.lt x) (skipn (S p1) l1) /\ Forall (Z.lt x) (skipn p2 l2)) \/
  (exists x, proceed (st i it p1 p2) = VOk (st (S i) (It O2 p2) p1 (S p2)) /\ (p2 < length l2)%nat /\
     nth_error l2 p2 = Some x /\ skipn p2 l2 = x :: skipn (S p2) l2 /\ Forall (Z.lt x) (skipn (S p2) l2) /\ Forall (Z.lt x) (skipn p1 l1)).
Proof.
intros H1 H2. unfold TwoSetView.proceed, iter_eqb, st; cbn [v_next1 v_end1 v_next2 v_end2 i_own i_pos owner_eqb andb v_index v_it].
assert (L : forall l p x, is_set l -> skipn p l = x :: skipn (S p) l -> Forall (Z.lt x) (skipn (S p) l)).
{ intros l p x Hs E. apply (skipn_sorted l p) in Hs. rewrite E in Hs. now inversion Hs. }
destruct (Nat.eqb_spec p1 (length l1)) as [E1|E1], (Nat.eqb_spec p2 (length l2)) as [E2|E2]; cbn [andb].
- left; auto.
- right; right. destruct (skipn_nth l2 p2) as (x & N & K); [lia|]. exists x.
  unfold i_next; cbn [content i_own i_pos]. replace (p2 <? length l2)%nat with true by (symmetry; apply Nat.ltb_lt; lia).
  cbn [vbind]. do 4 (split; [auto; lia|]). split; [now apply L|]. subst. rewrite skipn_all2 by lia. constructor.
- right; left. destruct (skipn_nth l1 p1) as (x & N & K); [lia|]. exists x.
  unfold i_next; cbn [content i_own i_pos]. replace (p1 <? length l1)%nat with true by (symmetry; apply Nat.ltb_lt; lia).
  cbn [vbind]. do 4 (split; [auto; lia|]). split; [now apply L|]. subst. rewrite skipn_all2 by lia. constructor.
- destruct (skipn_nth l1 p1) as (x & N & K); [lia|]. destruct (skipn_nth l2 p2) as (y & N' & K'); [lia|].
  assert (X := L l1 p1 x S1 K). assert (Y := L l2 p2 y S2 K').
  unfold TwoSetView.deref, i_next; cbn [content i_own i_pos]. rewrite N, N'.
  replace (p1 <? length l1)%nat with true by (symmetry; apply Nat.ltb_lt; lia).
  replace (p2 <? length l2)%nat with true by (symmetry; apply Nat.ltb_lt; lia). cbn [vbind].
  destruct (Z.ltb_spec x y); [|destruct (Z.ltb_spec y x)].
  + right; left. exists x. do 4 (split; [auto; lia|]). split; [exact X|]. rewrite K'. constructor; auto.
    eapply Forall_impl; [|exact Y]; simpl; lia.
  + right; right. exists y. do 4 (split; [auto; lia|]). split; [exact Y|]. rewrite K. constructor; auto.
    eapply Forall_impl; [|exact X]; simpl; lia.
  + exfalso. assert (x = y) by lia. subst y. apply (D x); eapply nth_error_In; eauto.
Qed.

Lemma loop_spec e n : forall i it a p1 p2 fuel, (p1 <= length l1)%nat -> (p2 <= length l2)%nat ->
  n = (length (skipn p1 l1) + length (skipn p2 l2))%nat -> (n < fuel)%nat -> v_index e = (i + S n)%nat ->
  deref it = VOk a -> Forall (Z.lt a) (skipn p1 l1) -> Forall (Z.lt a) (skipn p2 l2) ->
  exists out, loop l1 l2 (pre_incr l1 l2) fuel (st i it p1 p2) e = Some (VOk (a :: out)) /\
    StronglySorted Z.lt out /\ Permutation out (skipn p1 l1 ++ skipn p2 l2) /\ Forall (Z.lt a) out.
Proof.
induction n as [n IH] using lt_wf_ind. intros i it a p1 p2 fuel H1 H2 Hn Hf He Ha F1 F2.
destruct fuel as [|fuel]; [lia|]. cbn [loop]. unfold v_eqb at 1; rewrite He; cbn [v_index st].
replace (i =? i + S n)%nat with false by (symmetry; apply Nat.eqb_neq; lia).
unfold v_deref at 1; cbn [v_it st]; fold (st i it p1 p2). rewrite Ha. unfold pre_incr at 1.
destruct (proceed_spec i it p1 p2 H1 H2) as [(E1 & E2 & P)|[(x & P & Hp & N & K & X1 & X2)|(x & P & Hp & N & K & X1 & X2)]];
  rewrite P; cbn [vbind].
- assert (n = 0%nat) by (rewrite Hn, E1, E2, !skipn_all; reflexivity). clear Hn; subst n.
  exists []. replace (skipn p1 l1) with (@nil Z) by (now rewrite E1, skipn_all).
  replace (skipn p2 l2) with (@nil Z) by (now rewrite E2, skipn_all).
  replace (loop l1 l2 (pre_incr l1 l2) fuel (st (S i) it p1 p2) e) with (Some (VOk (@nil Z))); [repeat constructor|].
  destruct fuel; cbn [loop]; unfold v_eqb; rewrite He; cbn [v_index st];
  replace (S i =? i + 1)%nat with true by (symmetry; apply Nat.eqb_eq; lia); reflexivity.
- rewrite K in F1, Hn |- *. cbn [length] in Hn.
  destruct (IH (n - 1)%nat ltac:(lia) (S i) (It O1 p1) x (S p1) p2 fuel) as (out & L & So & Pe & Fo); auto; try lia.
  { unfold TwoSetView.deref; cbn [content i_own i_pos]. now rewrite N. }
  exists (x :: out). rewrite L. inversion F1; subst.
  split; [reflexivity|]. split; [now constructor|]. split; [simpl; now constructor|]. constructor; auto.
  eapply Forall_impl; [|exact Fo]; simpl; lia.
- rewrite K in F2, Hn |- *. cbn [length] in Hn.
  destruct (IH (n - 1)%nat ltac:(lia) (S i) (It O2 p2) x p1 (S p2) fuel) as (out & L & So & Pe & Fo); auto; try lia.
  { unfold TwoSetView.deref; cbn [content i_own i_pos]. now rewrite N. }
  exists (x :: out). rewrite L. inversion F2; subst.
  split; [reflexivity|]. split; [now constructor|].
  split; [apply Permutation_cons_app; exact Pe|]. constructor; auto.
  eapply Forall_impl; [|exact Fo]; simpl; lia.
Qed.

End Proofs.

Definition vend (l1 l2 : list Z) it := VI (length l1 + length l2) it (It O1 (length l1)) (It O2 (length l2)) (It O1 (length l1)) (It O2 (length l2)).

Lemma last_of_in l1 l2 o : content l1 l2 o <> [] -> exists a, last_of l1 l2 o = VOk a /\ In a (content l1 l2 o).
Proof.
intros H. unfold last_of. destruct (rev (content l1 l2 o)) as [|a r] eqn:E.
- apply (f_equal (@rev Z)) in E. rewrite rev_involutive in E. contradiction.
- exists a. split; auto. apply in_rev. rewrite E. now left.
Qed.

(** the constructor, case by case *)
Lemma construct_spec l1 l2 (D : disjoint l1 l2) : (l1 <> [] \/ l2 <> []) -> exists b e it,
  construct l1 l2 = VOk (b, vend l1 l2 it) /\
  ((l1 = [] /\ b = st l1 l2 0 (It O2copy 0) 0 0 /\ e = 0%nat) \/
   (l1 <> [] /\ b = st l1 l2 0 (It O1 0) 1 0 /\ (forall a y, hd_error l1 = Some a -> hd_error l2 = Some y -> a < y) /\ e = 1%nat) \/
   (l1 <> [] /\ l2 <> [] /\ b = st l1 l2 0 (It O2 0) 0 1 /\ (forall a y, hd_error l1 = Some a -> hd_error l2 = Some y -> y < a) /\ e = 2%nat)).
Proof.
intros NE. unfold construct, is_empty; cbn [content].
destruct l1 as [|a r1] eqn:E1, l2 as [|y r2] eqn:E2; cbn [andb].
- destruct NE; congruence.
- cbn. do 3 eexists. split; [reflexivity|]. left. repeat split.
- cbn. do 3 eexists. split; [reflexivity|]. right; left. repeat split; congruence.
- rewrite <- E1, <- E2 in D |- *.
  destruct (last_of_in l1 l2 O1) as (u & Lu & Iu); [simpl; congruence|].
  destruct (last_of_in l1 l2 O2) as (w & Lw & Iw); [simpl; congruence|]. cbn [content] in Iu, Iw.
  unfold TwoSetView.deref. cbn [content i_own i_pos i_begin]. rewrite E1, E2; cbn [nth_error]; rewrite <- E1, <- E2.
  assert (a <> y). { intros ->. apply (D y); rewrite ?E1, ?E2; now left. }
  assert (u <> w). { intros ->. now apply (D w). }
  cbn [vbind].
  assert (EN : exists it, (if u <? w then VOk (i_end l1 l2 O2) else if w <? u then VOk (i_end l1 l2 O1) else VThrow) = VOk it).
  { destruct (Z.ltb_spec u w); [eauto|]. destruct (Z.ltb_spec w u); [eauto|lia]. }
  destruct EN as (ie & EN).
  assert (N1 : i_next l1 l2 (i_begin O1) = VOk (It O1 1)) by (unfold i_next; cbn; now rewrite E1).
  assert (N2 : i_next l1 l2 (i_begin O2) = VOk (It O2 1)) by (unfold i_next; cbn; now rewrite E2).
  destruct (Z.ltb_spec a y) as [Hl|Hl]; [|replace (y <? a) with true by (symmetry; apply Z.ltb_lt; lia)];
    cbn [vbind]; rewrite Lu; cbn [vbind]; rewrite Lw; cbn [vbind]; rewrite EN; cbn [vbind]; change (iter_eqb (i_begin O1) (i_begin O1)) with true; change (iter_eqb (i_begin O2) (i_begin O2)) with true; change (iter_eqb (i_begin O1) (i_begin O2)) with false; change (iter_eqb (i_begin O2) (i_begin O1)) with false; cbv iota.
  + rewrite N1; cbn [vbind]. do 3 eexists. split; [reflexivity|]. right; left. rewrite E1 at 1. repeat split; try congruence.
    intros ? ?; rewrite E1, E2; simpl; congruence.
  + rewrite N2; cbn [vbind]. do 3 eexists. split; [reflexivity|]. right; right. rewrite E1 at 1. rewrite E2 at 1. repeat split; try congruence.
    intros ? ?; rewrite E1, E2; simpl. intros [=] [=]; lia.
Qed.

(** If the first set is not empty, the prefix loop ends after one round per element without throwing and without any undefined
    step, and yields every element of both sets exactly once in increasing order *)
Theorem C43_iterate_partial (l1 l2 : list Z) : is_set l1 -> is_set l2 -> disjoint l1 l2 -> l1 <> [] ->
  exists out, iterate l1 l2 (pre_incr l1 l2) (length l1 + length l2) = Some (VOk out) /\ once_in_order l1 l2 out.
Proof.
intros S1 S2 D N1. destruct (construct_spec l1 l2 D (or_introl N1)) as (b & e & it & C & CC).
unfold iterate; rewrite C.
destruct CC as [(E & _)|[(_ & -> & Lt & _)|(_ & N2 & -> & Lt & _)]]; [contradiction| |].
- destruct l1 as [|a r1] eqn:E1; [contradiction|]. rewrite <- E1 in *.
  assert (F1 : Forall (Z.lt a) r1) by (rewrite E1 in S1; now inversion S1).
  destruct (loop_spec l1 l2 S1 S2 D (vend l1 l2 it) (length r1 + length l2) 0 (It O1 0) a 1 0 (length l1 + length l2))
    as (out & L & So & Pe & Fo).
  1-8: (rewrite ?E1; simpl; try lia; auto).
  { destruct l2 as [|y r2]; constructor.
    - apply Lt; [rewrite E1|]; reflexivity.
    - assert (a < y) by (apply Lt; [rewrite E1|]; reflexivity). inversion S2; subst. eapply Forall_impl; [|eassumption]; simpl; lia. }
  rewrite E1 in Pe; simpl in Pe.
  exists (a :: out). split; [exact L|]. split; [now constructor|]. rewrite E1; simpl. now constructor.
- destruct l2 as [|a r2] eqn:E2; [contradiction|]. rewrite <- E2 in *.
  assert (F2 : Forall (Z.lt a) r2) by (rewrite E2 in S2; now inversion S2).
  destruct (loop_spec l1 l2 S1 S2 D (vend l1 l2 it) (length l1 + length r2) 0 (It O2 0) a 0 1 (length l1 + length l2))
    as (out & L & So & Pe & Fo).
  1-8: (rewrite ?E2; simpl; try lia; auto).
  { destruct l1 as [|y r1]; constructor.
    - apply Lt; [|rewrite E2]; reflexivity.
    - assert (a < y) by (apply Lt; [|rewrite E2]; reflexivity). inversion S1; subst. eapply Forall_impl; [|eassumption]; simpl; lia. }
  rewrite E2 in Pe; simpl in Pe.
  exists (a :: out). split; [exact L|]. split; [now constructor|]. rewrite E2; simpl. now apply Permutation_cons_app.
Qed.

(** Dereferencing stays inside the two sets after any number of prefix increments, also beyond end(): the iterator keeps its
    last element *)
Theorem C43_deref (l1 l2 : list Z) (n : nat) : is_set l1 -> is_set l2 -> disjoint l1 l2 -> l1 <> [] \/ l2 <> [] ->
  exists a, deref_after l1 l2 n = VOk a /\ In a (l1 ++ l2).
Proof.
intros S1 S2 D NE. destruct (construct_spec l1 l2 D NE) as (b & e & it & C & CC).
unfold deref_after; rewrite C; cbn [vbind].
assert (G : forall n i it p1 p2 a, (p1 <= length l1)%nat -> (p2 <= length l2)%nat -> deref l1 l2 it = VOk a -> In a (l1 ++ l2) ->
  exists a, vbind (advance l1 l2 n (st l1 l2 i it p1 p2)) (v_deref l1 l2) = VOk a /\ In a (l1 ++ l2)).
{ clear n b it C CC. induction n as [|n IH]; intros i it p1 p2 a H1 H2 Ha Ia; cbn [advance].
  - exists a. split; auto.
  - unfold pre_incr. destruct (proceed_spec l1 l2 S1 S2 D i it p1 p2 H1 H2) as [(E1 & E2 & P)|[(x & P & Hp & N & _)|(x & P & Hp & N & _)]];
    rewrite P; cbn [vbind].
    + eauto.
    + apply (IH _ _ _ _ x); auto; [unfold deref; simpl; now rewrite N|]. apply in_or_app; left. eapply nth_error_In; eauto.
    + apply (IH _ _ _ _ x); auto; [unfold deref; simpl; now rewrite N|]. apply in_or_app; right. eapply nth_error_In; eauto. }
destruct CC as [(E & -> & _)|[(N1 & -> & _)|(N1 & N2 & -> & _)]].
- destruct l2 as [|y r2]; [destruct NE; congruence|]. apply (G n _ _ _ _ y); simpl; auto; try lia.
  apply in_or_app; right; now left.
- destruct l1 as [|y r1]; [congruence|]. apply (G n _ _ _ _ y); simpl; auto; try lia.
- destruct l2 as [|y r2]; [congruence|]. apply (G n _ _ _ _ y); simpl; auto; try lia.
  apply in_or_app; right; now left.
Qed.

Lemma loop_S l1 l2 incr fuel v e : loop l1 l2 incr (S fuel) v e =
  if v_eqb v e then Some (VOk [])
  else match v_deref l1 l2 v with
    | VOk a => match incr v with
      | VOk (w, _) => match loop l1 l2 incr fuel w e with
        | Some (VOk l) => Some (VOk (a :: l))
        | r => r
        end
      | VThrow => Some VThrow | VUB => Some VUB
      end
    | VThrow => Some VThrow | VUB => Some VUB
    end.
Proof. reflexivity. Qed.

(** With an empty first set the loop yields the first element of the second set twice and its last element never: begin() lies
    in the member copy of the second set, so the constructor does not recognise it as the argument's first element *)
Theorem C43_empty_first_refuted (y z : Z) (r : list Z) : is_set (y :: r ++ [z]) ->
  iterate [] (y :: r ++ [z]) (pre_incr [] (y :: r ++ [z])) (S (S (length r))) = Some (VOk (y :: y :: r)) /\
  ~ once_in_order [] (y :: r ++ [z]) (y :: y :: r).
Proof.
intros S2; split.
- set (l2 := y :: r ++ [z]) in *. unfold iterate. cbn. fold l2.
  assert (LE : length l2 = S (S (length r))) by (unfold l2; simpl; rewrite app_length; simpl; lia).
  replace (S (length (r ++ [z]))) with (length l2) by reflexivity.
  assert (G : forall k i p it a rest, k = length rest -> deref [] l2 it = VOk a -> skipn p l2 = rest ++ [z] -> length l2 = (i + S k)%nat ->
    loop [] l2 (pre_incr [] l2) (S k) (VI i it (It O1 0) (It O2 p) (It O1 0) (It O2 (length l2)))
      (VI (length l2) (i_end [] l2 O2copy) (i_end [] l2 O1) (i_end [] l2 O2) (i_end [] l2 O1) (i_end [] l2 O2)) = Some (VOk (a :: rest))).
  { induction k as [|k IH]; intros i p it a rest Hk Ha Hs Hi.
    all: rewrite loop_S; unfold v_eqb at 1; cbn [v_index].
    all: replace (i =? length l2)%nat with false by (symmetry; apply Nat.eqb_neq; lia).
    all: unfold v_deref at 1; cbn [v_it]; rewrite Ha.
    all: assert (Hp : (p < length l2)%nat) by (destruct (Nat.lt_ge_cases p (length l2)) as [|G]; auto; rewrite skipn_all2 in Hs by lia; destruct rest; discriminate).
    all: unfold pre_incr at 1, proceed, iter_eqb; cbn [v_next1 v_end1 v_next2 v_end2 i_own i_pos owner_eqb andb Nat.eqb v_index].
    all: replace (p =? length l2)%nat with false by (symmetry; apply Nat.eqb_neq; lia).
    all: unfold i_next; cbn [content i_own i_pos]; replace (p <? length l2)%nat with true by (symmetry; apply Nat.ltb_lt; lia).
    all: change (0 =? 0)%nat with true; cbn [vbind andb].
    - destruct rest; [|discriminate]. cbn [loop]. unfold v_eqb; cbn [v_index].
      replace (S i =? length l2)%nat with true by (symmetry; apply Nat.eqb_eq; lia). reflexivity.
    - destruct rest as [|b rest]; [discriminate|]. injection Hk as Hk.
      destruct (skipn_nth l2 p Hp) as (x & N & K). rewrite K in Hs. injection Hs as -> Hs.
      rewrite (IH (S i) (S p) (It O2 p) b rest); auto; [|lia]. unfold deref; cbn. now rewrite N. }
  apply (G (S (length r)) 0%nat 0%nat (It O2copy 0) y (y :: r)); auto.
- intros [So _]. inversion So; subst. inversion H2; lia.
Qed.

(** it++ does not move the iterator: the postfix loop never ends and repeats the first element *)
Theorem C43_postfix_refuted (l1 l2 : list Z) : is_set l1 -> is_set l2 -> disjoint l1 l2 -> l1 <> [] \/ l2 <> [] ->
  exists a b e, construct l1 l2 = VOk (b, e) /\ v_deref l1 l2 b = VOk a /\ (exists w, post_incr l1 l2 b = VOk (b, w)) /\
    forall fuel, iterate l1 l2 (post_incr l1 l2) fuel = None.
Proof.
intros S1 S2 D NE. destruct (C43_deref l1 l2 0 S1 S2 D NE) as (a & Da & _).
destruct (construct_spec l1 l2 D NE) as (b & e & it & C & CC). unfold deref_after in Da; rewrite C in Da; cbn in Da.
assert (I0 : v_index b = 0%nat) by (destruct CC as [(_ & -> & _)|[(_ & -> & _)|(_ & _ & -> & _)]]; reflexivity).
assert (P : exists w, post_incr l1 l2 b = VOk (b, w)).
{ unfold post_incr.
  assert (Q : exists i0 it0 p1 p2, b = st l1 l2 i0 it0 p1 p2 /\ (p1 <= length l1)%nat /\ (p2 <= length l2)%nat).
  { destruct CC as [(_ & -> & _)|[(N1 & -> & _)|(_ & N2 & -> & _)]]; do 4 eexists; (split; [reflexivity|]); try (split; lia).
    - destruct l1; [congruence|simpl; lia].
    - destruct l2; [congruence|simpl; lia]. }
  destruct Q as (i0 & it0 & p1 & p2 & -> & H1 & H2).
  destruct (proceed_spec l1 l2 S1 S2 D i0 it0 p1 p2 H1 H2) as [(_ & _ & ->)|[(x & -> & _)|(x & -> & _)]]; simpl; eauto. }
exists a, b, (vend l1 l2 it). split; auto. split; auto. split; auto.
intros fuel. unfold iterate; rewrite C. destruct P as (w & P).
assert (NZ : (0 <> length l1 + length l2)%nat) by (destruct NE, l1, l2; simpl; congruence || lia).
induction fuel as [|fuel IH]; cbn [loop]; unfold v_eqb; rewrite I0; cbn [v_index vend];
  replace (0 =? length l1 + length l2)%nat with false by (symmetry; apply Nat.eqb_neq; exact NZ); auto.
now rewrite Da, P, IH.
Qed.

(** Two empty sets, and sets sharing their smallest or largest element, are rejected when the view is built *)
Theorem C43_rejected : construct [] [] = VThrow /\
  (forall a r1 r2, construct (a :: r1) (a :: r2) = VThrow) /\
  (forall a b r1 r2 z, a <> b -> construct (a :: r1 ++ [z]) (b :: r2 ++ [z]) = VThrow).
Proof.
split; [reflexivity|split].
- intros. unfold construct; cbn. now rewrite Z.ltb_irrefl.
- intros. unfold construct; cbn [is_empty content andb]. unfold deref; cbn.
  assert (L : forall o x r, (content (a :: r1 ++ [z]) (b :: r2 ++ [z]) o = x :: r ++ [z]) -> last_of (a :: r1 ++ [z]) (b :: r2 ++ [z]) o = VOk z).
  { intros o x r E. unfold last_of. rewrite E. rewrite app_comm_cons, rev_app_distr. reflexivity. }
  rewrite (L O1 a r1 eq_refl), (L O2 b r2 eq_refl).
  destruct (Z.ltb_spec a b); [|destruct (Z.ltb_spec b a); [|lia]]; cbn; now rewrite Z.ltb_irrefl.
Qed.

Example C43_instance : iterate [1;4;6] [2;3;9;11] (pre_incr [1;4;6] [2;3;9;11]) 7 = Some (VOk [1;2;3;4;6;9;11]) /\
  iterate [5;7] [] (pre_incr [5;7] []) 2 = Some (VOk [5;7]) /\
  iterate [] [5;7;8] (pre_incr [] [5;7;8]) 3 = Some (VOk [5;5;7]) /\
  deref_after [1;4] [2] 9 = VOk 4 /\ is_set [1;4;6] /\ is_set [2;3;9;11] /\ disjoint [1;4;6] [2;3;9;11].
Proof.
repeat split; try reflexivity; repeat constructor. intros x Hx Hy; simpl in *; lia.
Qed.

Print Assumptions C43_iterate_partial.
Print Assumptions C43_deref.
Print Assumptions C43_empty_first_refuted.
Print Assumptions C43_postfix_refuted.
Print Assumptions C43_rejected.
Print Assumptions C43_instance.
