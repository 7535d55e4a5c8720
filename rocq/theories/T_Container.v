(** Property theorems C01, C02, C03: operator order, operator container, undo records,
    difference of operator lists. *)

From Coq Require Import ZArith List Bool Lia Sorting.Sorted Sorting.Permutation.
From Verif Require Import OpContainer.
Import ListNotations.
Open Scope Z_scope.

(** ** C01: order *)

(** Independent statement of the order: lexicographic on (time, small index). *)
Definition lex_lt (a b : optime) : Prop :=
  ot_time a < ot_time b \/ (ot_time a = ot_time b /\ ot_small a < ot_small b).

Theorem C01_operator_order_strict_total :
  (forall a b, ot_lt a b = true <-> lex_lt a b) /\
  (forall a b, ot_le a b = true <-> (lex_lt a b \/ a = b)) /\
  (forall a b, ot_eqb a b = true <-> a = b) /\
  (forall a, ~ lex_lt a a) /\
  (forall a b c, lex_lt a b -> lex_lt b c -> lex_lt a c) /\
  (forall a b, lex_lt a b \/ a = b \/ lex_lt b a).
Proof.
  assert (E : forall a b, ot_lt a b = true <-> lex_lt a b) by (exact ot_lt_spec).
  repeat split; intros.
  - apply E; assumption.
  - apply E; assumption.
  - apply ot_le_spec in H. rewrite E in H. exact H.
  - apply ot_le_spec. rewrite E. exact H.
  - apply ot_eqb_spec; assumption.
  - apply ot_eqb_spec; assumption.
  - intros H. apply E in H. rewrite ot_lt_irrefl in H. discriminate.
  - apply E. apply E in H, H0. eapply ot_lt_trans; eassumption.
  - rewrite <- !E. apply ot_lt_total.
Qed.
Print Assumptions C01_operator_order_strict_total.

(** ** C01: container histories *)

Inductive ccmd := CIns (x : psi) | CErase (x : psi).

(** Model: run the commands; the answer is the bool of insert / the count of erase. *)
Definition cstep (l : container) (c : ccmd) : container * bool :=
  match c with
  | CIns x => cinsert x l
  | CErase x => let (l', n) := cerase x l in (l', Nat.eqb n 1)
  end.
Fixpoint crun (l : container) (cs : list ccmd) : container * list bool :=
  match cs with
  | [] => (l, [])
  | c :: cs' => let (l1, b) := cstep l c in let (l2, bs) := crun l1 cs' in (l2, b :: bs)
  end.

(** Specification: a partial map from times to operators; one operator per time. *)
Definition amap := optime -> option psi.
Definition aset (m : amap) (k : optime) (v : option psi) : amap :=
  fun k' => if optime_eq_dec k k' then v else m k'.
Definition sstep (m : amap) (c : ccmd) : amap * bool :=
  match c with
  | CIns x => match m (p_time x) with
              | None => (aset m (p_time x) (Some x), true)
              | Some _ => (m, false)
              end
  | CErase x => match m (p_time x) with
                | None => (m, false)
                | Some _ => (aset m (p_time x) None, true)
                end
  end.
Fixpoint srun (m : amap) (cs : list ccmd) : amap * list bool :=
  match cs with
  | [] => (m, [])
  | c :: cs' => let (m1, b) := sstep m c in let (m2, bs) := srun m1 cs' in (m2, b :: bs)
  end.

Definition represents (l : container) (m : amap) : Prop :=
  StronglySorted (fun a b => lex_lt (p_time a) (p_time b)) l /\
  forall x, In x l <-> m (p_time x) = Some x.

Definition amap_ok (m : amap) : Prop := forall k x, m k = Some x -> p_time x = k.

Lemma csorted_lex l : csorted l <-> StronglySorted (fun a b => lex_lt (p_time a) (p_time b)) l.
Proof.
  split; intros H; induction H as [|x l HS IH HF]; constructor; auto;
    (eapply Forall_impl; [|exact HF]); intros a Ha; apply ot_lt_spec; exact Ha.
Qed.

Lemma represents_lookup l m :
  amap_ok m -> represents l m -> forall k, lookup l k = m k.
Proof.
  intros Hok [HS HI] k. apply csorted_lex in HS.
  destruct (lookup l k) as [x|] eqn:E.
  - apply lookup_time in E as [<- Hin]. symmetry. apply HI. exact Hin.
  - destruct (m k) as [x|] eqn:Em; [|reflexivity].
    pose proof (Hok _ _ Em) as <-. apply HI in Em.
    rewrite (lookup_in l x HS Em) in E. discriminate.
Qed.

Lemma represents_of_lookup l m :
  csorted l -> (forall k, lookup l k = m k) -> represents l m.
Proof.
  intros HS HL. split; [apply csorted_lex; exact HS|].
  intros x. rewrite <- HL. split; [apply lookup_in; exact HS|].
  intros H. apply lookup_time in H. tauto.
Qed.

Lemma ot_eqb_dec a b : ot_eqb a b = if optime_eq_dec a b then true else false.
Proof.
  destruct (optime_eq_dec a b) as [->|H]; [apply ot_eqb_refl | apply ot_eqb_false; exact H].
Qed.

Lemma cstep_refines l m c :
  amap_ok m -> represents l m ->
  amap_ok (fst (sstep m c)) /\
  represents (fst (cstep l c)) (fst (sstep m c)) /\ snd (cstep l c) = snd (sstep m c).
Proof.
  intros Hok HR. pose proof (represents_lookup _ _ Hok HR) as HL.
  assert (HS : csorted l) by (apply csorted_lex, HR).
  assert (Hset : forall k v, (forall x, v = Some x -> p_time x = k) -> amap_ok (aset m k v)).
  { intros k v Hv k' x. unfold aset. destruct (optime_eq_dec k k') as [<-|]; [apply Hv|apply Hok]. }
  destruct c as [x|x]; simpl.
  - destruct (cinsert_lookup x l HS) as [H1 H2]. rewrite HL in H1, H2.
    destruct (m (p_time x)) eqn:Em; simpl.
    + rewrite H2 by discriminate. auto.
    + destruct H1 as [Hb Hk]; [reflexivity|]. split; [|split; [|exact Hb]].
      * apply Hset. intros y Hy; inversion Hy; reflexivity.
      * apply represents_of_lookup; [apply cinsert_sorted, HS|].
        intros k. rewrite Hk. unfold upd, aset. rewrite ot_eqb_dec, HL.
        destruct (optime_eq_dec (p_time x) k); reflexivity.
  - destruct (cerase_lookup x l HS) as [H1 H2]. rewrite HL in H1, H2.
    destruct (m (p_time x)) eqn:Em; simpl.
    + destruct H1 as [Hb Hk]; [discriminate|].
      pose proof (cerase_sorted x l HS) as HSe.
      destruct (cerase x l) as [l' n]; simpl in *. subst n.
      split; [apply Hset; discriminate|]. split; [|reflexivity].
      apply represents_of_lookup; [exact HSe|].
      intros k. rewrite Hk. unfold upd, aset. rewrite ot_eqb_dec, HL.
      destruct (optime_eq_dec (p_time x) k); reflexivity.
    + rewrite H2 by reflexivity. simpl. auto.
Qed.

(** Any history of insert and erase calls, starting from an empty container: the container is
    strictly increasing in time order, holds exactly the operators the map specification holds,
    and every call answers as the specification does. *)
Theorem C01_container_refines_map : forall cs,
  represents (fst (crun [] cs)) (fst (srun (fun _ => None) cs)) /\
  snd (crun [] cs) = snd (srun (fun _ => None) cs).
Proof.
  assert (G : forall cs l m, amap_ok m -> represents l m ->
            represents (fst (crun l cs)) (fst (srun m cs)) /\ snd (crun l cs) = snd (srun m cs)).
  { induction cs as [|c cs IH]; intros l m Hok HR; simpl; [auto|].
    destruct (cstep_refines l m c Hok HR) as [Hok' [HR' Hb]].
    destruct (cstep l c) as [l1 b]; destruct (sstep m c) as [m1 b']; simpl in *. subst b'.
    specialize (IH l1 m1 Hok' HR').
    destruct (crun l1 cs) as [l2 bs]; destruct (srun m1 cs) as [m2 bs']; simpl in *.
    destruct IH as [IH1 IH2]. subst. auto. }
  intros cs. apply G.
  - intros k x H; discriminate.
  - split; [constructor|]. intros x; simpl; split; [tauto|discriminate].
Qed.
Print Assumptions C01_container_refines_map.

(** A refused insertion leaves the container unchanged. *)
Theorem C01_refused_insert_no_change : forall l x,
  snd (cinsert x l) = false -> fst (cinsert x l) = l.
Proof.
  induction l as [|y l IH]; intros x; simpl; [discriminate|].
  destruct (psi_lt x y); [discriminate|]. destruct (psi_lt y x); [|reflexivity].
  specialize (IH x). destruct (cinsert x l) as [r b]; simpl in *. intros H. f_equal. auto.
Qed.
Print Assumptions C01_refused_insert_no_change.

(** Non-trivial instance: same time with two small indices coexist in order, a third equal key
    is refused, erase by key succeeds. *)
Definition exA := Psi (OT 5 0) ANNIHILATION_OP 1.
Definition exB := Psi (OT 5 1) CREATION_OP 0.
Definition exC := Psi (OT 2 0) CREATION_OP 3.
Example C01_instance :
  crun [] [CIns exB; CIns exA; CIns (Psi (OT 5 1) ANNIHILATION_OP 7); CIns exC; CErase exA]
  = ([exC; exB], [true; true; false; true; true]).
Proof. reflexivity. Qed.

(** ** C02: undo *)

(** For every sorted container, every duplicate-free list of stored operators to remove and
    every list to add: update_operators never fails fatally; when it reports a duplicate the
    container is the original one; when it succeeds, reverting the record gives the original. *)
Theorem C02_update_operators_undo : forall l rem add,
  StronglySorted (fun a b => lex_lt (p_time a) (p_time b)) l ->
  NoDup rem -> (forall x, In x rem -> In x l) ->
  match update_operators l rem add with
  | UFatal _ => False
  | UFalse l' _ => l' = l
  | UTrue l' rec => revert_changes l' rec = l
  end.
Proof.
  intros l rem add HS HND HIn. apply csorted_lex in HS.
  pose proof (update_operators_ok l rem add HS HND HIn) as H.
  destruct (update_operators l rem add); tauto.
Qed.
Print Assumptions C02_update_operators_undo.

(** update_operators succeeds exactly when the added operators do not collide in time with each
    other or with the operators that stay, and then the new content is (old - rem) + add. *)
Lemma safe_insert_ok_iff ops : forall l rec,
  csorted l ->
  ((exists l' rec', safe_insert_with_record ops l rec = (Ok, l', rec')) <->
   (NoDup (map p_time ops) /\ forall x y, In x ops -> In y l -> p_time x <> p_time y)).
Proof.
  induction ops as [|x ops IH]; intros l rec HS; simpl.
  - split; [|intros _; eauto]. intros _. split; [constructor|tauto].
  - destruct (cinsert_lookup x l HS) as [H1 H2].
    pose proof (cinsert_sorted x l HS) as HS'.
    pose proof (fun y => cinsert_in_iff x l y HS) as HI.
    destruct (lookup l (p_time x)) as [z|] eqn:EL.
    + rewrite H2 by discriminate. split; [intros (?&?&?); discriminate|].
      intros [_ H]. apply lookup_time in EL as [Ez Hz]. exfalso.
      apply (H x z); auto.
    + destruct H1 as [Hb _]; [reflexivity|].
      destruct (cinsert x l) as [l1 b]; simpl in *. subst b.
      rewrite (IH l1 _ HS'). clear IH.
      assert (HNx : forall y, In y l -> p_time x <> p_time y).
      { intros y Hy Heq. rewrite Heq, (lookup_in l y HS Hy) in EL. discriminate. }
      split.
      * intros [Hnd Hd]. split.
        -- constructor; [|exact Hnd]. intros Hin. apply in_map_iff in Hin as (w & Hw & Hin).
           apply (Hd w x Hin); [apply HI; auto|exact Hw].
        -- intros u v [<-|Hu] Hv; [auto|]. apply Hd; [exact Hu|]. apply HI; auto.
      * intros [Hnd Hd]. inversion Hnd as [|? ? Hx Hnd']; subst. split; [exact Hnd'|].
        intros u v Hu Hv. apply HI in Hv; [|reflexivity]. destruct Hv as [->|Hv].
        -- intros Heq. apply Hx. apply in_map_iff. eauto.
        -- apply Hd; auto.
Qed.

Theorem C02_update_operators_success : forall l rem add,
  StronglySorted (fun a b => lex_lt (p_time a) (p_time b)) l ->
  NoDup rem -> (forall x, In x rem -> In x l) ->
  ((exists l' rec, update_operators l rem add = UTrue l' rec) <->
   (NoDup (map p_time add) /\
    forall x y, In x add -> In y l -> ~ In y rem -> p_time x <> p_time y)) /\
  (forall l' rec, update_operators l rem add = UTrue l' rec ->
     StronglySorted (fun a b => lex_lt (p_time a) (p_time b)) l' /\
     forall y, In y l' <-> (In y l /\ ~ In y rem) \/ In y add).
Proof.
  intros l rem add HS HND HIn. apply csorted_lex in HS. split.
  - unfold update_operators.
    destruct (safe_erase_with_record rem l []) as [[o l1] rec1] eqn:E1.
    pose proof (fun y => safe_erase_in rem l [] l1 rec1 y HS HND HIn) as HE.
    pose proof E1 as E1'. eapply (erase_record_inv l) in E1'; eauto.
    destruct E1' as [-> [HS1 _]]. specialize (fun y => HE y eq_refl) || idtac.
    pose proof (safe_insert_ok_iff add l1 rec1 HS1) as HO.
    destruct (safe_insert_with_record add l1 rec1) as [[o2 l2] rec2] eqn:E2.
    assert (HEy : forall y, In y l1 <-> In y l /\ ~ In y rem) by (intros y; apply HE; exact E1).
    split.
    + intros (l' & rec & H). destruct o2; [|discriminate].
      destruct HO as [HO _]. destruct HO as [A B]; [eauto|]. split; [exact A|].
      intros x y Hx Hy Hr. apply B; [exact Hx|]. apply HEy; auto.
    + intros [A B]. destruct HO as [_ HO]. destruct HO as (l' & rec & H).
      { split; [exact A|]. intros x y Hx Hy. apply HEy in Hy. apply B; tauto. }
      inversion H; subst. eauto.
  - intros l' rec H. split.
    + apply csorted_lex. pose proof (update_operators_ok l rem add HS HND HIn) as H'.
      rewrite H in H'. tauto.
    + intros y. eapply update_operators_in; eauto.
Qed.
Print Assumptions C02_update_operators_success.

(** Instances: a success and a duplicate found after a partial change. *)
Definition exD := Psi (OT 9 0) CREATION_OP 2.
Definition exE := Psi (OT 7 0) ANNIHILATION_OP 2.
Example C02_instance_success :
  update_operators [exC; exA; exB] [exA] [exD]
  = UTrue [exC; exB; exD] [(exA, REMOVAL); (exD, INSERTION)] /\
  revert_changes [exC; exB; exD] [(exA, REMOVAL); (exD, INSERTION)] = [exC; exA; exB].
Proof. split; reflexivity. Qed.
Example C02_instance_duplicate :
  update_operators [exC; exA; exB] [exA] [exE; exD; exC]
  = UFalse [exC; exA; exB] [(exA, REMOVAL); (exE, INSERTION); (exD, INSERTION)].
Proof. reflexivity. Qed.

(** The hypothesis "the removed operators are stored as such" is needed: erasing by key records
    the operator given by the caller, not the erased one. *)
Theorem C02_undo_by_time_only_refuted : exists l rem add l' rec,
  StronglySorted (fun a b => lex_lt (p_time a) (p_time b)) l /\
  (forall x, In x rem -> exists y, In y l /\ p_time y = p_time x) /\
  update_operators l rem add = UTrue l' rec /\ revert_changes l' rec <> l.
Proof.
  exists [exC], [Psi (OT 2 0) ANNIHILATION_OP 8], [], [], [(Psi (OT 2 0) ANNIHILATION_OP 8, REMOVAL)].
  split; [repeat constructor|]. split.
  - intros x [<-|[]]. exists exC. simpl. auto.
  - split; [reflexivity|]. vm_compute. discriminate.
Qed.
Print Assumptions C02_undo_by_time_only_refuted.

(** ** C03: difference of operator lists *)

(** rem = old - new and add = new - old as multisets; hence nothing is in both, and
    old - rem + add = new. *)
Theorem C03_merge_diff_is_multiset_difference : forall hyb_rem hyb_add worm_old worm_new rem add,
  merge_diff hyb_rem hyb_add worm_old worm_new = (rem, add) ->
  let old := hyb_rem ++ worm_old in
  let new := hyb_add ++ worm_new in
  (forall x, count_occ psi_eq_dec rem x =
             (count_occ psi_eq_dec old x - count_occ psi_eq_dec new x)%nat) /\
  (forall x, count_occ psi_eq_dec add x =
             (count_occ psi_eq_dec new x - count_occ psi_eq_dec old x)%nat) /\
  (forall x, In x rem -> ~ In x add) /\
  Permutation (old ++ add) (new ++ rem).
Proof.
  intros hr ha wr wa r a H old new.
  pose proof (merge_diff_cnt _ _ _ _ _ _ H) as HC. unfold cnt in HC. fold old in HC. fold new in HC.
  split; [intros x; apply HC|]. split; [intros x; apply HC|]. split.
  - intros x Hr Ha. apply (count_occ_In psi_eq_dec) in Hr, Ha.
    destruct (HC x) as [A B]. rewrite A in Hr. rewrite B in Ha. lia.
  - apply (Permutation_count_occ psi_eq_dec). intros x.
    rewrite !count_occ_app. destruct (HC x) as [A B]. rewrite A, B. lia.
Qed.
Print Assumptions C03_merge_diff_is_multiset_difference.

(** A worm operator that takes over the place of a removed hybridized operator cancels. *)
Example C03_instance :
  merge_diff [exA; exC] [exD] [exB; exE] [exA; exE] = ([exB; exC], [exD]).
Proof. reflexivity. Qed.
