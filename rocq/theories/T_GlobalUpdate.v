(** * C17, C18, C55: global updates *)
From Coq Require Import ZArith Lia List Sorting.Permutation Sorting.Sorted.
From mathcomp Require Import all_ssreflect all_fingroup all_algebra.
From Verif Require Import KField OpContainer CombSort PermSign T_PermSign Updater Dist Proposal Worm HybDet GlobalUpdate.
Set Implicit Arguments.
Unset Strict Implicit.
Unset Printing Implicit Defensive.
Import GRing.Theory Num.Theory.
Local Close Scope Z_scope.
Local Open Scope nat_scope.

Delimit Scope Z_scope with coqZ.
Ltac zb := repeat match goal with
  | H : context [Z.ltb ?a ?b] |- _ => destruct (Z.ltb_spec a b)
  | |- context [Z.ltb ?a ?b] => destruct (Z.ltb_spec a b) end.

(** ** Containers built from lists *)
Lemma csorted_perm_eq l1 l2 : csorted l1 -> csorted l2 -> Permutation l1 l2 -> l1 = l2.
Proof.
  intros H1. revert l2. induction H1 as [|x l1 HS1 IH HF1]; intros l2 H2 HP.
  - apply Permutation_nil in HP. subst; reflexivity.
  - destruct l2 as [|y l2]; [symmetry in HP; apply Permutation_nil in HP; discriminate|].
    inversion H2 as [|? ? HS2 HF2]; subst.
    assert (x = y).
    { assert (Hx : In x (y :: l2)) by (apply (Permutation_in x HP); left; reflexivity).
      assert (Hy : In y (x :: l1)) by (apply (Permutation_in y (Permutation_sym HP)); left; reflexivity).
      destruct Hx as [|Hx]; [auto|]. destruct Hy as [|Hy]; [auto|].
      rewrite Forall_forall in HF1. rewrite Forall_forall in HF2.
      specialize (HF1 _ Hy). specialize (HF2 _ Hx). exfalso.
      unfold plt, psi_lt in *. apply ot_lt_asym in HF1. congruence. }
    subst y. f_equal. apply IH; auto. apply Permutation_cons_inv in HP. exact HP.
Qed.

Lemma cinsert_fresh x l : csorted l -> ~ In (p_time x) (List.map p_time l) -> snd (cinsert x l) = true.
Proof.
  induction l as [|y l IH]; simpl; intros HS HN; [reflexivity|].
  inversion HS; subst.
  destruct (psi_lt x y) eqn:E1; [reflexivity|]. destruct (psi_lt y x) eqn:E2.
  - destruct (cinsert x l) as [r b] eqn:E. simpl. apply IH; auto.
  - exfalso. apply HN. left. unfold psi_lt in *. symmetry. apply ot_lt_neither; assumption.
Qed.

Lemma insert_all_spec l : NoDup (List.map p_time l) -> csorted (insert_all l) /\ Permutation (insert_all l) l.
Proof.
  unfold insert_all.
  cut (forall acc, csorted acc -> NoDup (List.map p_time (acc ++ l)%list) ->
    csorted (foldl (fun acc x => (cinsert x acc).1) acc l) /\
    Permutation (foldl (fun acc x => (cinsert x acc).1) acc l) (acc ++ l)%list).
  { intros H HN. apply (H [::]); [constructor|exact HN]. }
  induction l as [|x l IH]; intros acc HS HN; simpl.
  - rewrite app_nil_r. split; [exact HS|reflexivity].
  - assert (HP : Permutation (fst (cinsert x acc)) (x :: acc)).
    { apply cinsert_perm. apply cinsert_fresh; [exact HS|]. intros HI.
      rewrite List.map_app in HN. simpl in HN. apply NoDup_remove_2 in HN. apply HN. rewrite in_app_iff. auto. }
    destruct (IH (fst (cinsert x acc)) (cinsert_sorted x acc HS)) as [A B].
    + eapply Permutation_NoDup; [|exact HN]. apply Permutation_map.
      rewrite HP. simpl. symmetry. apply Permutation_middle.
    + split; [exact A|]. rewrite B HP. simpl. apply Permutation_middle.
Qed.

(** ** C17 *)
Section Shift.
Variables (beta s : Z).
Hypothesis hs : (0 < s < beta)%coqZ.
Local Open Scope Z_scope.

Theorem C17_range t : 0 <= t <= beta -> 0 <= shift_time beta s t <= beta.
Proof. unfold shift_time. intros. zb; lia. Qed.

(** One-to-one on [0,beta) and on (0,beta]; only the two ends of the interval are identified. *)
Theorem C17_injective t u : 0 <= t <= beta -> 0 <= u <= beta -> shift_time beta s t = shift_time beta s u ->
  t = u \/ (t = 0 /\ u = beta) \/ (t = beta /\ u = 0).
Proof. unfold shift_time. intros. zb; lia. Qed.

Theorem C17_inverse t : 0 <= t <= beta ->
  shift_time beta (beta - s) (shift_time beta s t) = if Z.eqb t 0 then beta else t.
Proof. unfold shift_time. intros. destruct (Z.eqb_spec t 0); zb; lia. Qed.

(** Every time in (0,beta] is reached. *)
Theorem C17_surjective u : 0 < u <= beta -> exists t, 0 < t <= beta /\ shift_time beta s t = u.
Proof.
  intros H. exists (shift_time beta (beta - s) u). unfold shift_time. zb; split; lia.
Qed.

Lemma shift_lt x y : plt x y ->
  (0 <= ot_time (p_time x) <= beta) -> (0 <= ot_time (p_time y) <= beta) ->
  Z.ltb beta (ot_time (p_time x) + s) = Z.ltb beta (ot_time (p_time y) + s) ->
  plt (operator_shift beta s x) (operator_shift beta s y).
Proof.
  unfold plt, psi_lt, operator_shift, shift_time. simpl. intros H1 H2 H3 H4.
  apply ot_lt_spec in H1. apply ot_lt_spec. simpl. rewrite H4. zb; lia.
Qed.

(** A time-ordered list is cut in two pieces which are exchanged: the operators that stay below beta, and those that are moved around. *)
Theorem C17_rotation (l : container) : csorted l ->
  (forall x, In x l -> 0 <= ot_time (p_time x) <= beta) ->
  (forall x y, In x l -> In y l -> ot_time (p_time x) = 0 -> ot_time (p_time y) <> beta) ->
  exists l1 l2, l = (l1 ++ l2)%list /\
    insert_all (List.map (operator_shift beta s) l) = List.map (operator_shift beta s) (l2 ++ l1)%list /\
    csorted (List.map (operator_shift beta s) (l2 ++ l1)%list) /\
    (forall x, In x l1 -> ot_time (p_time x) + s <= beta) /\ (forall x, In x l2 -> beta < ot_time (p_time x) + s).
Proof.
  intros HS HR HB.
  set (wraps := fun x => Z.ltb beta (ot_time (p_time x) + s)).
  assert (HM : forall x y, plt x y -> wraps x = true -> wraps y = true).
  { intros x y Hxy. unfold wraps. unfold plt, psi_lt in Hxy. apply ot_lt_spec in Hxy. zb; try lia; auto. }
  assert (Hcut : exists l1 l2, l = (l1 ++ l2)%list /\ (forall x, In x l1 -> wraps x = false) /\ (forall x, In x l2 -> wraps x = true)).
  { clear HR HB. induction HS as [|x l HS IH HF]; [exists [::], [::]; simpl; tauto|].
    destruct (wraps x) eqn:E.
    - exists [::], (x :: l). split; [reflexivity|]. split; [simpl; tauto|].
      intros y [<-|Hy]; [exact E|]. rewrite Forall_forall in HF. eapply HM; eauto.
    - destruct IH as (l1 & l2 & -> & H1 & H2). exists (x :: l1), l2. split; [reflexivity|]. split; [|exact H2].
      intros y [<-|Hy]; auto. }
  destruct Hcut as (l1 & l2 & -> & H1 & H2). exists l1, l2. split; [reflexivity|].
  assert (Hmap : forall l0 b, csorted l0 -> (forall x, In x l0 -> 0 <= ot_time (p_time x) <= beta) -> (forall x, In x l0 -> wraps x = b) ->
            csorted (List.map (operator_shift beta s) l0)).
  { induction 1 as [|x l0 HS0 IH HF]; simpl; intros Hr Hw; constructor; [apply IH; auto|].
    rewrite Forall_forall in HF. apply Forall_forall. intros z Hz. apply in_map_iff in Hz as (y & <- & Hy).
    apply shift_lt; [apply HF; exact Hy|apply Hr; auto|apply Hr; auto|].
    change (wraps x = wraps y). rewrite (Hw x) ?(Hw y); auto. }
  assert (Happ : forall A (R : A -> A -> Prop) (a b : seq A), StronglySorted R (a ++ b)%list -> StronglySorted R a /\ StronglySorted R b).
  { intros A R a b. induction a as [|x a IH]; simpl; [split; [constructor|assumption]|].
    inversion 1; subst. destruct (IH H4). split; [|assumption]. constructor; [assumption|].
    rewrite Forall_forall in H5. apply Forall_forall. intros z Hz. apply H5. rewrite in_app_iff. auto. }
  assert (Hjoin : forall A (R : A -> A -> Prop) (a b : seq A), StronglySorted R a -> StronglySorted R b ->
            (forall x y, In x a -> In y b -> R x y) -> StronglySorted R (a ++ b)%list).
  { intros A R a b Ha Hb Hab. induction Ha as [|x a HSa IH HFa]; simpl; [assumption|].
    constructor; [apply IH; intros; apply Hab; simpl; auto|].
    apply Forall_forall. intros z Hz. apply in_app_iff in Hz as [Hz|Hz].
    - rewrite Forall_forall in HFa. auto.
    - apply Hab; simpl; auto. }
  destruct (Happ _ _ _ _ HS) as [S1 S2].
  assert (HR1 : forall x, In x l1 -> 0 <= ot_time (p_time x) <= beta) by (intros; apply HR; rewrite in_app_iff; auto).
  assert (HR2 : forall x, In x l2 -> 0 <= ot_time (p_time x) <= beta) by (intros; apply HR; rewrite in_app_iff; auto).
  assert (HSN : csorted (List.map (operator_shift beta s) (l2 ++ l1)%list)).
  { rewrite List.map_app. apply Hjoin; [apply (Hmap l2 true); auto|apply (Hmap l1 false); auto|].
    intros x' y' Hx Hy. apply in_map_iff in Hx as (x & <- & Hx). apply in_map_iff in Hy as (y & <- & Hy).
    assert (Hb : ot_time (p_time y) = 0 -> ot_time (p_time x) <> beta).
    { apply HB; rewrite in_app_iff; auto. }
    specialize (HR1 _ Hy). specialize (HR2 _ Hx). specialize (H1 _ Hy). specialize (H2 _ Hx).
    unfold wraps in *. unfold plt, psi_lt, operator_shift, shift_time; simpl. rewrite H1 H2.
    apply ot_lt_spec. simpl. zb; try discriminate; lia. }
  split; [|split; [exact HSN|unfold wraps in *; split; intros x Hx;
    [specialize (H1 _ Hx); apply Z.ltb_ge in H1; exact H1|specialize (H2 _ Hx); apply Z.ltb_lt in H2; exact H2]]].
  apply csorted_perm_eq; [|exact HSN|].
  - apply insert_all_spec. eapply Permutation_NoDup; [|apply csorted_NoDup_times; exact HSN].
    apply Permutation_map, Permutation_map, Permutation_app_comm.
  - destruct (@insert_all_spec (List.map (operator_shift beta s) (l1 ++ l2)%list)) as [_ P].
    + eapply Permutation_NoDup; [|apply csorted_NoDup_times; exact HSN].
      apply Permutation_map, Permutation_map, Permutation_app_comm.
    + rewrite P. apply Permutation_map, Permutation_app_comm.
Qed.
End Shift.

(** The boundary: with operators at both ends of the interval one of them is lost without an error. *)
Theorem C17_boundary_collision : exists (beta s : Z) (l : container),
  (0 < s < beta)%coqZ /\ csorted l /\ (forall x, In x l -> (0 <= ot_time (p_time x) <= beta)%coqZ) /\
  List.length (insert_all (List.map (operator_shift beta s) l)) < List.length l.
Proof.
  exists 4%coqZ, 1%coqZ, [:: Psi (OT 0 0) CREATION_OP 0; Psi (OT 4 0) ANNIHILATION_OP 0].
  split; [lia|]. split; [repeat constructor|]. split; [|reflexivity].
  intros x [<-|[<-|[]]]; simpl; lia.
Qed.

(** The shifted worm has the shifted operators; the same for exchanged flavors. *)
Theorem C17_worm_shift beta s y w : size (w_times w) = n_times y -> (0 < n_flavors y) ->
  get_operators y (worm_shift beta s w) = [seq operator_shift beta s x | x <- get_operators y w].
Proof.
move=> h n0.
have a1 n i : i < n -> 2 * i < 2 * n by move=> hi; rewrite ltn_pmul2l.
have a2 n i : i < n -> 2 * i + 1 < 2 * n by move=> hi; rewrite addn1 !mul2n -ltnS -doubleS ltnS leq_double.
have gt i : i < n_times y -> get_time (worm_shift beta s w) i = shift_time beta s (get_time w i).
  by move=> hi; rewrite /get_time (nth_map Z0) // h.
case: y h n0 gt => n /= h n0 gt; rewrite map_flatten -map_comp; congr flatten; apply/eq_in_map => it; rewrite mem_iota add0n /= => hi.
- by rewrite /operator_shift /= gt.
- by rewrite /operator_shift /= !gt ?a1 ?a2.
- by rewrite /operator_shift /= gt.
Qed.

Theorem C18_worm_exchange v y w : size (w_flavors w) = n_flavors y ->
  get_operators y (worm_exchange v w) = [seq exchange_flavor v x | x <- get_operators y w].
Proof.
move=> h.
have gt i : i < n_flavors y -> get_flavor (worm_exchange v w) i = nth 0 v (get_flavor w i).
  by move=> hi; rewrite /get_flavor (nth_map 0) // h.
have a1 n i : i < n -> 2 * i < 2 * n by move=> hi; rewrite ltn_pmul2l.
have a2 n i : i < n -> 2 * i + 1 < 2 * n by move=> hi; rewrite addn1 !mul2n -ltnS -doubleS ltnS leq_double.
case: y h gt => n /= h gt; rewrite map_flatten -map_comp; congr flatten; apply/eq_in_map => it; rewrite mem_iota add0n /= => hi;
  by rewrite /exchange_flavor /= !gt ?a1 ?a2.
Qed.

(** ** C18 *)
Section Swap.
Variable F : nat.
(** A permutation of the flavors 0..F-1. *)
Definition flavor_perm (v : seq nat) : Prop := perm_eq v (iota 0 F).
Definition inverse_of (v w : seq nat) : Prop := forall f, f < F -> nth 0 w (nth 0 v f) = f /\ nth 0 v (nth 0 w f) = f.

Lemma flavor_permP v : size v = F -> all (fun f => f < F) v -> (size (undup v) < F) = false -> flavor_perm v.
Proof.
move=> sz hF hu; have uv : uniq v.
  by move: hu; rewrite -sz ltn_size_undup => /negbFE.
apply: uniq_perm => //; first exact: iota_uniq.
have hsub : {subset v <= iota 0 F} by move=> f /(allP hF); rewrite mem_iota.
by have [] := uniq_min_size uv hsub; rewrite ?size_iota ?sz.
Qed.

Lemma foldl_set (v s r : seq nat) : size v = F -> uniq v -> uniq s -> all (fun f => f < F) s ->
  (forall f, f < F -> nth 0 (foldl (fun r f => seq.set_nth 0 r (nth 0 v f) f) r s) (nth 0 v f) = if f \in s then f else nth 0 r (nth 0 v f)).
Proof.
move=> sv uv; elim: s r => //= g s IH r /andP[ng us] /andP[hg hs] f hf.
rewrite IH // inE nth_set_nth /=.
case: (boolP (f \in s)) => hfs; first by rewrite orbT.
by rewrite orbF nth_uniq ?sv //; case: eqP => [->|].
Qed.

Lemma foldl_size (v s r : seq nat) : all (fun f => nth 0 v f < size r) s ->
  size (foldl (fun r f => seq.set_nth 0 r (nth 0 v f) f) r s) = size r.
Proof.
elim: s r => //= g s IH r /andP[hg hs].
have e : size (seq.set_nth 0 r (nth 0 v g) g) = size r by rewrite size_set_nth; apply/maxn_idPr.
by rewrite IH e.
Qed.

Lemma reverse_vecE v : flavor_perm v -> reverse_vec v = [seq index i v | i <- iota 0 F].
Proof.
move=> hv; have sv : size v = F by rewrite (perm_size hv) size_iota.
have uv : uniq v by rewrite (perm_uniq hv) iota_uniq.
have sr : size (reverse_vec v) = F.
  rewrite /reverse_vec foldl_size ?size_nseq // sv; apply/allP => f; rewrite mem_iota add0n /= => hf.
  have : nth 0 v f \in iota 0 F by rewrite -(perm_mem hv) mem_nth ?sv.
  by rewrite mem_iota.
apply: (@eq_from_nth _ 0); first by rewrite sr size_map size_iota.
move=> i; rewrite sr => hi; rewrite (nth_map 0) ?size_iota // nth_iota // add0n.
have him : i \in v by rewrite (perm_mem hv) mem_iota.
have hidx : index i v < F by rewrite -sv index_mem.
rewrite -[in LHS](nth_index 0 him) /reverse_vec foldl_set ?sv ?iota_uniq //.
- by rewrite mem_iota add0n hidx.
- by apply/allP => f; rewrite mem_iota.
Qed.

Lemma reverse_vec_perm v : flavor_perm v -> flavor_perm (reverse_vec v).
Proof.
move=> hv; rewrite reverse_vecE //.
have sv : size v = F by rewrite (perm_size hv) size_iota.
have uv : uniq v by rewrite (perm_uniq hv) iota_uniq.
have ur : uniq [seq index i v | i <- iota 0 F].
  rewrite map_inj_in_uniq ?iota_uniq // => i j; rewrite -!(perm_mem hv) => hi hj e.
  by rewrite -(nth_index 0 hi) e nth_index.
apply: uniq_perm; rewrite ?iota_uniq //.
have hsub : {subset [seq index i v | i <- iota 0 F] <= iota 0 F}.
  by move=> f /mapP[i hi ->]; rewrite mem_iota add0n /= -sv index_mem (perm_mem hv).
by have [] := uniq_min_size ur hsub; rewrite ?size_map.
Qed.

Lemma reverse_vec_inverse v : flavor_perm v -> inverse_of v (reverse_vec v).
Proof.
move=> hv; have sv : size v = F by rewrite (perm_size hv) size_iota.
have uv : uniq v by rewrite (perm_uniq hv) iota_uniq.
move=> f hf; rewrite reverse_vecE //; split.
  have hm : nth 0 v f < F by have := mem_nth 0 (n := f) (s := v); rewrite sv hf (perm_mem hv) mem_iota /=; exact.
  by rewrite (nth_map 0) ?size_iota // nth_iota // add0n index_uniq ?sv.
rewrite (nth_map 0) ?size_iota // nth_iota // add0n nth_index //.
by rewrite (perm_mem hv) mem_iota.
Qed.

Lemma reverse_vecK v : flavor_perm v -> reverse_vec (reverse_vec v) = v.
Proof.
move=> hv; have hr := reverse_vec_perm hv.
have sv : size v = F by rewrite (perm_size hv) size_iota.
have ur : uniq (reverse_vec v) by rewrite (perm_uniq hr) iota_uniq.
rewrite (reverse_vecE hr); apply: (@eq_from_nth _ 0); rewrite size_map size_iota // => i hi.
rewrite (nth_map 0) ?size_iota // nth_iota // add0n.
have [e _] := reverse_vec_inverse hv hi.
have hm : nth 0 v i < F by have := mem_nth 0 (n := i) (s := v); rewrite sv hi (perm_mem hv) mem_iota /=; exact.
by rewrite -[in index i](e) index_uniq // (perm_size hr) size_iota.
Qed.

Lemma reverse_id : reverse_vec (iota 0 F) = iota 0 F.
Proof.
rewrite reverse_vecE ?/flavor_perm // -[RHS]map_id; apply/eq_in_map => i; rewrite mem_iota add0n /= => hi.
by rewrite -[in index i](add0n i) -(nth_iota 0 0 hi) index_uniq ?iota_uniq ?size_iota.
Qed.

Definition closed (us : seq (seq nat)) : Prop := uniq us /\ (forall u, u \in us -> flavor_perm u /\ reverse_vec u \in us).

Lemma mem_set_add v us u : u \in set_add v us = (u == v) || (u \in us).
Proof. by rewrite /set_add; case: ifP => h; rewrite ?mem_rcons ?inE //; case: eqP => // ->. Qed.
Lemma uniq_set_add v us : uniq us -> uniq (set_add v us).
Proof. by rewrite /set_add; case: ifP => h u //; rewrite rcons_uniq h. Qed.

Lemma closed_add v us : flavor_perm v -> closed us -> closed (set_add (reverse_vec v) (set_add v us)).
Proof.
move=> hv [u h]; split; first by do 2 apply: uniq_set_add.
move=> w; rewrite !mem_set_add => /or3P[/eqP->|/eqP->|hw].
- by split; [exact: reverse_vec_perm|rewrite reverse_vecK // eqxx orbT].
- by split=> //; rewrite eqxx.
- by have [h1 h2] := h _ hw; split=> //; rewrite h2 !orbT.
Qed.

Lemma swap_loop_spec n l us us' : size l = n * F -> all (fun f => f < F) l -> closed us -> swap_loop F n l us = Some us' ->
  [/\ closed us', {subset us <= us'},
      forall k, k < n -> flavor_perm (take F (drop (k * F) l)) /\ take F (drop (k * F) l) \in us' &
      forall u, u \in us' -> u \in us \/ exists2 k, k < n & u = take F (drop (k * F) l) \/ u = reverse_vec (take F (drop (k * F) l))].
Proof.
elim: n l us => [|n IH] l us sl hl hc /=; first by case=> <-; split=> // u hu; left.
case: ifP => // hu.
have st : size (take F l) = F by rewrite size_take sl mulSn; case: ltnP => //; rewrite -[X in _ <= X]addn0 leq_add2l leqn0 => /eqP->; rewrite addn0.
have hp : flavor_perm (take F l).
  by apply: flavor_permP => //; apply/allP => f /mem_take; exact: (allP hl).
have sd : size (drop F l) = n * F by rewrite size_drop sl mulSn addKn.
have hd : all (fun f => f < F) (drop F l) by apply/allP => f /mem_drop; exact: (allP hl).
move=> /(IH _ _ sd hd (closed_add hp hc)) [h1 h2 h3 h4]; split=> //.
- by move=> u hu2; apply: h2; rewrite !mem_set_add hu2 !orbT.
- case=> [_|k hk]; last by have := h3 k hk; rewrite drop_drop mulSn addnC.
  by rewrite mul0n drop0; split=> //; apply: h2; rewrite !mem_set_add eqxx orbT.
- move=> u /h4[|[k hk hk2]].
    rewrite !mem_set_add => /or3P[/eqP->|/eqP->|hw]; [right|right|by left]; exists 0 => //; rewrite mul0n drop0; [by right|by left].
  by right; exists k.+1 => //; move: hk2; rewrite drop_drop mulSn addnC.
Qed.
End Swap.

(** Whatever the input: the updates that are used are permutations without the identity, no one twice, and
    with every update its inverse is used. *)
Theorem C18_closed_under_inverse spins sites user us : 0 < spins * sites ->
  swap_vectors spins sites user = SwapOk us ->
  uniq us /\ forall v, v \in us ->
    [/\ perm_eq v (iota 0 (spins * sites)), v != iota 0 (spins * sites) &
        exists2 w, w \in us & inverse_of (spins * sites) v w].
Proof.
move=> F0; rewrite /swap_vectors; set F := spins * sites; set l := user ++ _.
case: ifP => // hr; case: ifP => // /negbFE /eqP hm.
case e: (swap_loop _ _ _ _) => [us'|] // [<-].
have sl : size [seq Z.to_nat f | f <- l] = size l %/ F * F by rewrite size_map {1}(divn_eq (size l) F) hm addn0.
have hl : all (fun f => f < F) [seq Z.to_nat f | f <- l].
  rewrite all_map; apply/allP => f hf /=; move/negbT/hasPn: hr => /(_ _ hf); rewrite negb_or => /andP[/negP h1 /negP h2].
  apply/ltP; have : ~ (Z.of_nat F <= f)%coqZ by move=> /Z.leb_le.
  have : ~ (f < 0)%coqZ by move=> /Z.ltb_lt.
  lia.
have [[h1 h2] _ _ _] := @swap_loop_spec F _ _ [::] us' sl hl (conj isT (fun u (h : u \in [::]) => False_ind _ (notF h))) e.
split; first exact: filter_uniq.
move=> v; rewrite mem_filter => /andP[nv hv]; have [hp hrv] := h2 _ hv; split=> //.
exists (reverse_vec v); last exact: reverse_vec_inverse.
rewrite mem_filter hrv andbT; apply: contraNneq nv => er; by rewrite -(reverse_vecK hp) er reverse_id.
Qed.

(** Every update given by the user (or the predefined spin flip) is accepted only if it is a permutation, and is
    used unless it is the identity; nothing else but inverses is used. *)
Theorem C18_user_updates spins sites user us : 0 < spins * sites ->
  swap_vectors spins sites user = SwapOk us ->
  let F := spins * sites in
  let l := [seq Z.to_nat f | f <- user ++ spin_flip spins sites] in
  (forall k, k < size l %/ F -> let v := take F (drop (k * F) l) in perm_eq v (iota 0 F) /\ (v != iota 0 F -> v \in us)) /\
  (forall u, u \in us -> exists2 k, k < size l %/ F & let v := take F (drop (k * F) l) in u = v \/ inverse_of F v u).
Proof.
move=> F0 + F; rewrite /swap_vectors -/F; move: (user ++ _) => l.
case: ifP => // hr; case: ifP => // /negbFE /eqP hm.
case e: (swap_loop _ _ _ _) => [us'|] // [<-].
have sl : size [seq Z.to_nat f | f <- l] = size l %/ F * F by rewrite size_map {1}(divn_eq (size l) F) hm addn0.
have hl : all (fun f => f < F) [seq Z.to_nat f | f <- l].
  rewrite all_map; apply/allP => f hf /=; move/negbT/hasPn: hr => /(_ _ hf); rewrite negb_or => /andP[/negP h1 /negP h2].
  apply/ltP; have : ~ (Z.of_nat F <= f)%coqZ by move=> /Z.leb_le.
  have : ~ (f < 0)%coqZ by move=> /Z.ltb_lt.
  lia.
have [[h1 h2] _ h3 h4] := @swap_loop_spec F _ _ [::] us' sl hl (conj isT (fun u (h : u \in [::]) => False_ind _ (notF h))) e.
rewrite /= size_map; split.
  by move=> k hk; have [a b] := h3 k hk; split=> // ne; rewrite mem_filter ne.
move=> u; rewrite mem_filter => /andP[_ /h4[//|[k hk [->|->]]]]; exists k => //; [by left|right].
by apply: reverse_vec_inverse; have [] := h3 k hk.
Qed.

Example C18_instance :
  swap_vectors 2 2 [:: 1; 2; 3; 0]%coqZ = SwapOk [:: [:: 1; 2; 3; 0]; [:: 3; 0; 1; 2]; [:: 1; 0; 3; 2]] /\
  swap_vectors 2 1 [:: 0; 0]%coqZ = SwapExit /\ swap_vectors 1 2 [:: 0; 2]%coqZ = SwapAbort.
Proof. by vm_compute. Qed.
Example C17_instance : (0 < 3 < 4)%coqZ /\
  let l := [:: Psi (OT 0 0) CREATION_OP 0; Psi (OT 1 0) ANNIHILATION_OP 0; Psi (OT 2 0) CREATION_OP 1; Psi (OT 3 0) ANNIHILATION_OP 1] in
  [seq ot_time (p_time x) | x <- insert_all [seq operator_shift 4 3 x | x <- l]] = [:: 1; 2; 3; 4]%coqZ.
Proof. by split; [lia|vm_compute]. Qed.

(** ** C55: the determinant ratio of a global update *)
Local Open Scope ring_scope.

(** P A Q = L U with L unit lower and U upper triangular; the returned vector is the diagonal of U with the
    signs of both permutations in its first element (lu_product, moves.ipp:712-726). *)
Definition is_lu_vec (K : fieldType) (n : nat) (A : 'M[K]_n) (vec : seq K) : Prop :=
  exists (p q : 'S_n) (L U : 'M[K]_n),
    [/\ forall i j : 'I_n, (i < j)%N -> L i j = 0, forall i, L i i = 1, forall i j : 'I_n, (j < i)%N -> U i j = 0,
        perm_mx p *m A *m perm_mx q = L *m U &
        size vec = n /\ forall i : 'I_n, nth 0 vec i = (if i == 0%N :> nat then (-1) ^+ p * (-1) ^+ q else 1) * U i i].

Lemma is_lu_vec_det (K : fieldType) n (A : 'M[K]_n) vec : is_lu_vec A vec -> \prod_(x <- vec) x = \det A.
Proof.
case=> p [q [L [U [hL hL1 hU e [sz hv]]]]].
have dL : \det L = 1.
  rewrite det_trig; first by apply: big1.
  by apply/is_trig_mxP => i j; exact: hL.
have dU : \det U = \prod_i U i i.
  rewrite -det_tr det_trig; first by apply: eq_bigr => i _; rewrite mxE.
  by apply/is_trig_mxP => i j hij; rewrite mxE hU.
have dA : (-1) ^+ p * \det A * (-1) ^+ q = \prod_i U i i.
  by have := congr1 determinant e; rewrite !det_mulmx !det_perm dL mul1r dU.
rewrite (big_nth 0) sz big_mkord (eq_bigr _ (fun i _ => hv i)) big_split /= -dA.
case: n A L U p q hL hL1 hU e sz hv dL dU dA => [|n] A L U p q *.
  have -> : p = 1%g by apply/permP; case. have -> : q = 1%g by apply/permP; case.
  by rewrite big_ord0 !odd_perm1 !expr0 !mul1r mulr1.
rewrite big_ord_recl /= big1 // mulr1.
by case: (odd_perm p); case: (odd_perm q); rewrite !(expr0, expr1, mulr1, mul1r, mulN1r, mulrN1, opprK).
Qed.

Section C55.
Variable K : numFieldType.
Variables (F : psi -> psi -> K) (blk : nat -> nat) (nblk : nat) (lu : seq psi -> seq psi -> seq K).
Hypothesis Fblk : forall x y, blk (p_flavor x) != blk (p_flavor y) -> F x y = 0.
Hypothesis lu_ok : forall xs ys, size xs = size ys -> is_lu_vec (matL psi0 psi0 F (size xs) xs ys) (lu xs ys).
Variable eps : K.
(** every flavor belongs to a block *)
Definition in_blocks (s : seq psi) : bool := all (fun x => blk (p_flavor x) < nblk)%N s.
(** as many annihilation as creation operators in each block *)
Definition balanced (cd c : seq psi) : bool := all (fun b => size (inb blk b c) == size (inb blk b cd)) (iota 0 nblk).
Notation det_rat := (det_rat blk nblk lu eps).

Lemma foldl_ratio (a b : nat -> K) s r : foldl (fun r i => r * a i / b i) r s = r * \prod_(i <- s) a i / \prod_(i <- s) b i.
Proof.
elim: s r => [|i s IH] r /=; first by rewrite !big_nil mulr1 divr1.
rewrite IH !big_cons invfM -!mulrA; congr (_ * (_ * _)); rewrite mulrCA; congr (_ * _).
Qed.

Lemma det_rat_vecE new old : det_rat_vec eps new old = \prod_(x <- new | kept eps new x) x / \prod_(x <- old) x.
Proof.
pose a i := if (i < size new)%N && kept eps new (nth 0 new i) then nth 0 new i else 1.
pose b i := if (i < size old)%N then nth 0 old i else 1.
have -> : det_rat_vec eps new old = foldl (fun r i => r * a i / b i) 1 (iota 0 (maxn (size new) (size old))).
  rewrite /det_rat_vec; elim: (iota _ _) 1 => //= i s IH r; rewrite IH; congr (foldl _ _ _).
  by rewrite /a /b; case: ifP; case: ifP; rewrite ?mulr1 ?divr1.
have iE n : iota 0 n = index_iota 0 n by rewrite /index_iota subn0.
rewrite foldl_ratio mul1r; congr (_ / _).
  rewrite (big_nth 0) iE.
  rewrite (big_cat_nat _ _ _ (leq0n (size new))) ?leq_maxl //= [X in _ * X]big1_seq ?mulr1; last first.
    by move=> i; rewrite mem_index_iota /a => /andP[_ /andP[h _]]; rewrite ltnNge h.
  rewrite [RHS]big_mkcond; apply: eq_big_nat => i /andP[_ hi]; by rewrite /a hi.
rewrite (big_nth 0) iE.
rewrite (big_cat_nat _ _ _ (leq0n (size old))) ?leq_maxr //= [X in _ * X]big1_seq ?mulr1; last first.
  by move=> i; rewrite mem_index_iota /b => /andP[_ /andP[h _]]; rewrite ltnNge h.
apply: eq_big_nat => i /andP[_ hi]; by rewrite /b hi.
Qed.

Lemma prod_abs_sort (s : seq K) : \prod_(x <- abs_sort s) x = \prod_(x <- s) x.
Proof. by apply: perm_big; rewrite perm_sort. Qed.

Lemma block_vec_prod cd c : all (fun b => size (inb blk b c) == size (inb blk b cd)) (iota 0 nblk) ->
  \prod_(x <- block_vec blk nblk lu cd c) x =
  \prod_(b <- iota 0 nblk) detL psi0 psi0 F (size (inb blk b c)) (inb blk b c) (inb blk b cd).
Proof.
move=> h; rewrite /block_vec big_flatten big_map; apply: eq_big_seq => b hb.
by rewrite (is_lu_vec_det (lu_ok (eqP (allP h _ hb)))).
Qed.

(** The claim, when no factor of the new determinant is discarded: the ratio is exact, and the new vector
    represents the new determinant. [old] represents the old determinant d0. *)
Theorem C55_ratio_exact cd c old d0 : in_blocks (cd ++ c) -> uniq (map p_time cd) -> uniq (map p_time c) -> (0 < size cd)%N ->
  \prod_(x <- old) x = d0 ->
  (balanced cd c -> all (kept eps (abs_sort (block_vec blk nblk lu cd c))) (block_vec blk nblk lu cd c)) ->
  let: (rat, new, old') := det_rat cd c old in
  [/\ rat = hyb_det F cd c / d0, \prod_(x <- old') x = d0 & rat != 0 -> \prod_(x <- new) x = hyb_det F cd c].
Proof.
rewrite /in_blocks all_cat => /andP[kcd kc] ucd uc n0 <- hk; rewrite /GlobalUpdate.det_rat.
case: ifP => hb.
  have [b hbi hne] := hasP hb; split=> //; last by rewrite eqxx.
  by rewrite (hyb_det_unbalanced Fblk hne) mul0r.
have bal : balanced cd c.
  by move/negbT: hb; rewrite -all_predC => /allP h; apply/allP => b /h /=; rewrite negbK eq_sym.
have inB s : in_blocks s -> all (fun x => blk (p_flavor x) \in iota 0 nblk) s by move/allP => h; apply/allP => x /h; rewrite mem_iota.
have [l1 [b1 e1]] := comb_total (map p_time (by_blocks blk (iota 0 nblk) c)).
have [l2 [b2 e2]] := comb_total (map p_time (by_blocks blk (iota 0 nblk) cd)).
have hd := hyb_det_blocks Fblk (iota_uniq _ _) (inB _ kcd) (inB _ kc) ucd uc bal e1 e2.
case ev: (block_vec blk nblk lu cd c) => [|v0 vs].
  suff : size (block_vec blk nblk lu cd c) = size cd by rewrite ev => e; rewrite -e in n0.
  have -> : size (block_vec blk nblk lu cd c) = size (by_blocks blk (iota 0 nblk) cd).
    rewrite !size_flatten /shape -!map_comp; congr sumn; apply/eq_in_map => b hbi /=.
    have e := eqP (allP bal _ hbi).
    by have [p [q [L [U [_ _ _ _ [-> _]]]]]] := lu_ok e.
  by rewrite (perm_size (perm_by_blocks (iota_uniq _ _) (inB _ kcd))).
have {}hk := hk bal; rewrite -ev /csign e1 e2; set vec := block_vec _ _ _ _ _ in ev hk *.
have hp : \prod_(x <- abs_sort vec | kept eps (abs_sort vec) x) x = \prod_(x <- vec) x.
  rewrite -prod_abs_sort big_mkcond; apply: eq_big_seq => x; rewrite mem_sort => hx.
  by rewrite (allP hk).
split.
- by rewrite det_rat_vecE prod_abs_sort hp block_vec_prod // hd mulrA [(-1) ^+ b2 * _]mulrC.
- exact: prod_abs_sort.
move=> _; have sz : (0 < size (abs_sort vec))%N by rewrite size_sort ev.
rewrite hd -block_vec_prod // -/vec -(prod_abs_sort vec).
case: (abs_sort vec) sz => //= a s _; rewrite !big_cons mulrA; congr (_ * _ * _); exact: mulrC.
Qed.

(** Otherwise the factors that are relatively small, in particular all zeros, are silently left out: the ratio
    is never zero, even if the new determinant is. *)
Theorem C55_never_zero cd c old : in_blocks cd -> 0 <= eps -> \prod_(x <- old) x != 0 ->
  all (fun b => size (inb blk b c) == size (inb blk b cd)) (iota 0 nblk) -> (0 < size cd)%N ->
  (det_rat cd c old).1.1 != 0.
Proof.
move=> kcd he ho bal n0; rewrite /GlobalUpdate.det_rat.
have -> : has (fun b => size (inb blk b cd) != size (inb blk b c)) (iota 0 nblk) = false.
  by apply/negbTE; rewrite -all_predC; apply/allP => b /(allP bal) /=; rewrite negbK eq_sym.
have inB s : in_blocks s -> all (fun x => blk (p_flavor x) \in iota 0 nblk) s by move/allP => h; apply/allP => x /h; rewrite mem_iota.
case ev: (block_vec blk nblk lu cd c) => [|v0 vs].
  suff : size (block_vec blk nblk lu cd c) = size cd by rewrite ev => e; rewrite -e in n0.
  have -> : size (block_vec blk nblk lu cd c) = size (by_blocks blk (iota 0 nblk) cd).
    rewrite !size_flatten /shape -!map_comp; congr sumn; apply/eq_in_map => b hbi /=.
    have e := eqP (allP bal _ hbi).
    by have [p [q [L [U [_ _ _ _ [-> _]]]]]] := lu_ok e.
  by rewrite (perm_size (perm_by_blocks (iota_uniq _ _) (inB _ kcd))).
rewrite /= det_rat_vecE prod_abs_sort !mulf_neq0 ?signr_eq0 ?invr_eq0 //.
rewrite prodf_seq_neq0; apply/allP => x _; apply/implyP => hk; apply: contraTneq hk => ->.
by rewrite /kept mul0r normr0 -real_leNgt ?real0 // ger0_real.
Qed.
End C55.

Section C55inst.
Let K := rat_numFieldType.
Let op1 := Psi (OT 1 0) CREATION_OP 0.
Let op2 := Psi (OT 2 0) ANNIHILATION_OP 0.
(** The claim of C55 fails: the new determinant is 0 but the ratio is not. *)
Theorem C55_refuted : exists (F : psi -> psi -> K) (lu : seq psi -> seq psi -> seq K) (cd c : seq psi) (old : seq K) (eps : K),
  [/\ 0 < eps, forall xs ys, size xs = size ys -> is_lu_vec (matL psi0 psi0 F (size xs) xs ys) (lu xs ys),
      \prod_(x <- old) x != 0, hyb_det F cd c = 0 & (det_rat (fun=> 0%N) 1 lu eps cd c old).1.1 = 1].
Proof.
exists (fun _ _ => 0), (fun xs _ => nseq (size xs) 0), [:: op1], [:: op2], [:: 1], (4%:R^-1).
split=> //.
- move=> xs ys _; exists 1%g, 1%g, 1%:M, 0; split.
  + by move=> i j hij; rewrite mxE -val_eqE /= ltn_eqF.
  + by move=> i; rewrite mxE eqxx.
  + by move=> i j _; rewrite mxE.
  + rewrite mulmx0; have -> : matL psi0 psi0 (fun _ _ => 0) (size xs) xs ys = 0 :> 'M[K]_(size xs) by apply/matrixP => i j; rewrite !mxE.
    by rewrite mulmx0 mul0mx.
  + by split; [rewrite size_nseq|move=> i; rewrite mxE mulr0 nth_nseq ltn_ord].
- by rewrite big_seq1 oner_eq0.
- by rewrite /hyb_det /= /detL det_mx11 mxE.
Qed.
(** A constant hybridization function: its matrices have rank one. *)
Definition luc (xs ys : seq psi) : seq K := if xs is _ :: xs' then 2%:R :: nseq (size xs') 0 else [::].
Lemma luc_ok xs ys : size xs = size ys -> is_lu_vec (matL psi0 psi0 (fun _ _ => 2%:R : K) (size xs) xs ys) (luc xs ys).
Proof.
move=> _; exists 1%g, 1%g, (\matrix_(i, j) ((i == j) || (j == 0%N :> nat))%:R), (\matrix_(i, j) (if i == 0%N :> nat then 2%:R else 0)); split.
- move=> i j hij; rewrite mxE; have -> : (j == 0%N :> nat) = false by apply/negbTE; rewrite -lt0n; exact: leq_ltn_trans hij.
  by rewrite -val_eqE /= ltn_eqF.
- by move=> i; rewrite mxE eqxx.
- by move=> i j hij; rewrite mxE gtn_eqF //; exact: leq_ltn_trans hij.
- rewrite !perm_mx1 mul1mx mulmx1; apply/matrixP => i j; rewrite !mxE.
  have h0 : (0 < size xs)%N by exact: leq_ltn_trans (ltn_ord i).
  rewrite (bigD1 (Ordinal h0)) //= !mxE /= orbT mul1r big1 ?addr0 // => k hk.
  by rewrite !mxE; have -> : (k == 0%N :> nat) = false; [exact/negbTE|rewrite mulr0].
- split; first by case: xs => //= x xs; rewrite size_nseq.
  move=> i; rewrite mxE; case: xs i => [|x xs] [] // [|i] hi /=; first by rewrite !odd_perm1 !expr0 !mul1r.
  by rewrite mulr0 nth_nseq if_same.
Qed.
Example C55_instance :
  all (kept (4%:R^-1) (abs_sort (block_vec (fun=> 0%N) 1 luc [:: op1] [:: op2]))) (block_vec (fun=> 0%N) 1 luc [:: op1] [:: op2]) /\
  (det_rat (fun=> 0%N) 1 luc (4%:R^-1) [:: op1] [:: op2] [:: 3%:R]).1.1 = 2%:R / 3%:R.
Proof. by split; [vm_compute|apply/eqP; vm_compute]. Qed.
End C55inst.

(** ** The whole global update: Metropolis test and bookkeeping (extends C05) *)
Section Whole.
Variable K : numFieldType.
Variables (W : Type) (w_ops : W -> seq psi) (MS : Type) (m_cd m_c : MS -> seq psi).
Variable m_build : seq (psi * psi) -> MS.
Variable tr : container -> K.
Variables (F : psi -> psi -> K) (blk : nat -> nat) (nblk : nat) (lu : seq psi -> seq psi -> seq K) (wf : MS -> Prop).
Hypothesis Fblk : forall x y, blk (p_flavor x) != blk (p_flavor y) -> F x y = 0.
Hypothesis lu_ok : forall xs ys, size xs = size ys -> is_lu_vec (matL psi0 psi0 F (size xs) xs ys) (lu xs ys).
Hypothesis build_ok : forall cd c, size cd = size c -> uniq (map p_time (cd ++ c)) ->
  in_blocks blk nblk (cd ++ c) -> hyb_det F cd c != 0 ->
  let m := m_build (zip cd c) in wf m /\ Permutation (m_cd m) cd /\ Permutation (m_c m) c.
Hypothesis wf_det : forall m, wf m -> hyb_det F (m_cd m) (m_c m) != 0.
Variable eps : K.
Add Field Kf : (kfield_theory K).
Notation consistent := (@consistent K W w_ops MS m_cd m_c (hyb_det F) wf tr).
Notation gupd := (global_update w_ops m_cd m_c m_build tr blk nblk lu eps).

(** New operators, their determinant times trace, and the same for the present configuration. *)
Definition new_cd (hop : psi -> psi) (mc : config K W MS) := map hop (m_cd (mstate _ _ _ mc)).
Definition new_c (hop : psi -> psi) (mc : config K W MS) := map hop (m_c (mstate _ _ _ mc)).
Definition new_w (wop : W -> W) (mc : config K W MS) := worm_ops W w_ops (omap wop (Updater.worm _ _ _ mc)).
Definition new_ops hop wop mc := new_cd hop mc ++ new_c hop mc ++ new_w wop mc.
Definition weight (mc : config K W MS) : K :=
  hyb_det F (m_cd (mstate _ _ _ mc)) (m_c (mstate _ _ _ mc)) * tr (operators _ _ _ mc).

Lemma sign_algebra (q q' D T D' T' nD nT nD' nT' : K) : q != 0 -> D != 0 -> T != 0 -> nD != 0 -> nT != 0 -> nD' != 0 -> nT' != 0 ->
  q * D * T / (nD * nT) * (q' / q * (D' * T' / (D * T)) / (nD' * nT' / (nD * nT))) = q' * D' * T' / (nD' * nT').
Proof. by move=> *; kfield K. Qed.

Theorem C55_global_update_metropolis hop wop r mc dv :
  consistent mc -> \prod_(x <- dv) x = hyb_det F (m_cd (mstate _ _ _ mc)) (m_c (mstate _ _ _ mc)) ->
  0 <= r -> (0 < size (m_cd (mstate _ _ _ mc)))%N ->
  uniq (map p_time (new_ops hop wop mc)) -> in_blocks blk nblk (new_cd hop mc ++ new_c hop mc) ->
  (let v := block_vec blk nblk lu (new_cd hop mc) (new_c hop mc) in
   balanced blk nblk (new_cd hop mc) (new_c hop mc) -> all (kept eps (abs_sort v)) v) ->
  exists mc' dv' acc, gupd hop wop r mc dv = Some (mc', dv', acc) /\
    consistent mc' /\ \prod_(x <- dv') x = hyb_det F (m_cd (mstate _ _ _ mc')) (m_c (mstate _ _ _ mc')) /\
    (forall ops', csorted ops' -> Permutation ops' (new_ops hop wop mc) ->
      acc = (r < `|hyb_det F (new_cd hop mc) (new_c hop mc) * tr ops' / weight mc|) /\
      if acc then [/\ operators _ _ _ mc' = ops', Updater.worm _ _ _ mc' = omap wop (Updater.worm _ _ _ mc),
        Permutation (m_cd (mstate _ _ _ mc')) (new_cd hop mc) & Permutation (m_c (mstate _ _ _ mc')) (new_c hop mc)] else mc' = mc).
Proof.
move=> HC dvE r0 n0 unew kn hk; move: (HC) => [HS [HP [Hwf [Hlen [Htr [Htr0 [Hps Hsg]]]]]]].
set cd := new_cd hop mc in hk; set c := new_c hop mc in hk.
have ucd : uniq (map p_time cd) by move: unew; rewrite /new_ops map_cat cat_uniq => /andP[].
have uc : uniq (map p_time c).
  by move: unew; rewrite /new_ops !map_cat !cat_uniq => /and3P[_ _ /andP[]].
have ucc : uniq (map p_time (cd ++ c)).
  by move: unew; rewrite /new_ops catA [in X in X -> _]map_cat cat_uniq => /andP[].
have szc : size cd = size c by rewrite !size_map.
have szn : (0 < size cd)%N by rewrite size_map.
have d0 := wf_det Hwf.
pose ops := insert_all (new_ops hop wop mc).
have [oS oP] : csorted ops /\ Permutation ops (new_ops hop wop mc) by apply/insert_all_spec/NoDup_uniq.
have opsE ops' : csorted ops' -> Permutation ops' (new_ops hop wop mc) -> ops' = ops.
  move=> h1 h2; apply: csorted_perm_eq => //; exact: (Permutation_trans h2 (Permutation_sym oP)).
rewrite /global_update eqn0Ngt n0 /= -/(new_cd hop mc) -/(new_c hop mc) -/(new_w wop mc) -/(new_ops hop wop mc) -/ops -/cd -/c.
case: (eqVneq (tr ops) 0) => [t0|t0].
  exists mc, dv, false; split; [reflexivity|split; [exact: HC|split; [exact: dvE|]]].
  move=> ops' h1 h2; rewrite (opsE _ h1 h2) t0 mulr0 mul0r normr0; split=> //.
  by apply/esym/negbTE; rewrite -real_leNgt ?real0 ?ger0_real.
have := C55_ratio_exact Fblk lu_ok kn ucd uc szn dvE hk.
case: (det_rat _ _ _ _ _ _ _) => [[rat new] old'] [eR eO eN].
have eP : rat * (tr ops / trace _ _ _ mc) = hyb_det F cd c * tr ops / weight mc.
  by rewrite eR /weight -Htr invfM !mulrA; congr (_ * _); rewrite -!mulrA; congr (_ * _); exact: mulrC.
rewrite eP; case: ifP => hr; last first.
  exists mc, old', false; split; [reflexivity|split; [exact: HC|split; [exact: eO|]]].
  by move=> ops' h1 h2; rewrite (opsE _ h1 h2) hr.
have rat0 : rat != 0.
  by apply: contraTneq hr => e; rewrite -eP e mul0r normr0 -real_leNgt ?real0 ?ger0_real.
have hd0 : hyb_det F cd c != 0 by apply: contraNneq rat0 => e; rewrite eR e mul0r.
have [bwf [bcd bc]] := build_ok szc ucc kn hd0.
set mn := m_build _ in bwf bcd bc *.
have len : length (m_c mn) = length (m_cd mn).
  by rewrite (Permutation_length bcd) (Permutation_length bc) !length_size szc.
have nd : NoDup (all_times (m_cd mn) (m_c mn) (new_w wop mc)).
  have unew' : NoDup (List.map p_time (cd ++ c ++ new_w wop mc)) by apply/NoDup_uniq; exact: unew.
  apply: Permutation_NoDup unew'; rewrite -!app_cat !List.map_app /all_times.
  by apply: Permutation_app; [|apply: Permutation_app => //]; apply: Permutation_map; exact: Permutation_sym.
have [s [es [_ _]]] := C08_permutation_sign_is_reordering_sign _ _ _ len nd.
rewrite -/(new_w wop mc) es.
have hdE : hyb_det F (m_cd mn) (m_c mn) = hyb_det F cd c.
  by apply: hyb_det_ext; exact: Permutation_perm_eq.
eexists; eexists; exists true; split; first reflexivity.
split; last first.
  split; first by rewrite /= hdE eN.
  by move=> ops' h1 h2; rewrite (opsE _ h1 h2) hr; split=> //; split.
rewrite /Updater.consistent /=; split=> //; split.
  apply: (Permutation_trans oP); rewrite /new_ops -!app_cat.
  by apply: Permutation_app; [exact: Permutation_sym|apply: Permutation_app => //; exact: Permutation_sym].
split; [exact: bwf|split; [exact: esym len|split; [by []|split; [exact: t0|split; [exact: es|]]]]].
rewrite Hsg hdE /weight -Htr /mysign.
set D := hyb_det F _ _ in d0 *; set T := trace _ _ _ mc in Htr0 *; set D' := hyb_det F cd c in hd0 *; set T' := tr ops in t0 *.
have sn b : `|sgK K b| = 1 by case: b; rewrite /sgK ?normrN normr1.
have s0 b : sgK K b != 0 by rewrite -normr_eq0 sn oner_eq0.
rewrite !normrM !sn !mul1r normfV !normrM.
have := s0 (perm_sign K W MS mc); move: (sgK K (perm_sign K W MS mc)) => q q0; move: (sgK K s) => q'.
by apply: sign_algebra; rewrite ?normr_eq0.
Qed.
End Whole.

(** A configuration with one pair of operators meets all hypotheses, with a global shift by 1 modulo 4. *)
Section WholeInst.
Let K := rat_numFieldType.
Let F (x y : psi) : K := 2%:R.
Let MS := (seq psi * seq psi)%type.
Let op1 := Psi (OT 1 0) CREATION_OP 0.
Let op2 := Psi (OT 2 0) ANNIHILATION_OP 0.
Let wf (m : MS) := hyb_det F m.1 m.2 != 0.
Let sgn_of : option bool := compute_permutation_sign_impl [:: op1] [:: op2] [::].
Example C55_update_instance : exists b : bool,
  let mc : config K unit MS := Conf K unit MS [:: op1; op2] ([:: op1], [:: op2]) None 1 (if b then -1 else 1) b in
  [/\ @consistent K unit (fun=> [::]) MS fst snd (hyb_det F) wf (fun=> 1) mc,
      hyb_det F [:: op1] [:: op2] = 2%:R,
      forall cd c, size cd = size c -> hyb_det F cd c != 0 ->
        let m : MS := (unzip1 (zip cd c), unzip2 (zip cd c)) in wf m /\ Permutation m.1 cd /\ Permutation m.2 c &
      uniq (map p_time (new_ops (fun=> [::]) fst snd (operator_shift 4 1) id mc))].
Proof.
have d2 : hyb_det F [:: op1] [:: op2] = 2%:R by rewrite /hyb_det /= /detL det_mx11 mxE.
exists (if sgn_of is Some b then b else false) => mc0; split=> //; last first.
  by move=> cd c e; rewrite /wf /= unzip1_zip ?unzip2_zip ?e // => h; split.
rewrite /Updater.consistent /=; split; first by do !constructor.
split; first by [].
split; first by rewrite /wf /= d2.
do 4!split=> //.
by rewrite d2 /mysign; apply/eqP; vm_compute.
Qed.
End WholeInst.

Print Assumptions C17_range.
Print Assumptions C17_injective.
Print Assumptions C17_inverse.
Print Assumptions C17_surjective.
Print Assumptions C17_rotation.
Print Assumptions C17_boundary_collision.
Print Assumptions C17_worm_shift.
Print Assumptions C18_worm_exchange.
Print Assumptions C18_closed_under_inverse.
Print Assumptions C18_user_updates.
Print Assumptions C55_ratio_exact.
Print Assumptions C55_never_zero.
Print Assumptions C55_refuted.
Print Assumptions C55_global_update_metropolis.
