(** * C29: sectors *)
From Coq Require Import ZArith.
From mathcomp Require Import all_ssreflect zify.
From Verif Require Import Fermion Clustering Sectors T_Clustering T_Fermion.
Set Implicit Arguments.
Unset Strict Implicit.
Unset Printing Implicit Defensive.
Local Close Scope Z_scope.
Local Open Scope nat_scope.


(** ** Specification *)
(** Fock states whose orbital f is exchanged: the action of c+_f or c_f up to sign. *)
Definition ex (s f : nat) : nat := Nat.lxor s (Nat.pow 2 f).
Definition bit (s f : nat) : bool := Nat.testbit s f.
(** The relation merged by the code: states connected by the Hamiltonian, and states which one and the same operator
    maps to states connected by the Hamiltonian. *)
Inductive merged (n : nat) (ham : seq (nat * nat)) : nat -> nat -> Prop :=
| m_ham s s' : linked ham s s' -> merged n ham s s'
| m_op s s' f : s < 2 ^ n -> s' < 2 ^ n -> f < n -> bit s f = bit s' f -> linked ham (ex s f) (ex s' f) -> merged n ham s s'
| m_sym s s' : merged n ham s s' -> merged n ham s' s
| m_trans s s' s'' : merged n ham s s' -> merged n ham s' s'' -> merged n ham s s''.

Lemma pow_expn n : Nat.pow 2 n = 2 ^ n.
Proof. by elim: n => //= n ->; rewrite expnS; lia. Qed.
Lemma ex_lt n s f : f < n -> s < 2 ^ n -> ex s f < 2 ^ n.
Proof. by move=> hf hs; have := @flip_lt n s f; rewrite /flip pow_expn /ex => h; apply/ltP; apply: h; apply/ltP. Qed.
Lemma ex_ex s f : ex (ex s f) f = s. Proof. exact: flip_flip. Qed.
Lemma bit_ex s f : bit (ex s f) f = ~~ bit s f.
Proof. by rewrite /bit /ex (flip_bit s f f) Nat.eqb_refl; case: Nat.testbit. Qed.

(** ** Stored entries *)
Lemma mem_stored d m r c : ((r, c) \in stored d m) = [&& r < d, c < d & m r c].
Proof.
apply/flattenP/and3P => [[t /mapP[c' hc' ->] /mapP[r' hr' [-> ->]]]|[hr hc hm]].
  by move: hr' hc'; rewrite mem_filter !mem_iota /= => /andP[-> ->] ->.
exists [seq (r0, c) | r0 <- iota 0 d & m r0 c]; first by apply/mapP; exists c; rewrite ?mem_iota.
by apply/mapP; exists r; rewrite // mem_filter hm mem_iota.
Qed.
Definition op_pattern (creation : bool) n f := if creation then cdag_pattern n f else c_pattern n f.
Lemma mem_op_pattern creation n f r c : f < n ->
  ((r, c) \in op_pattern creation n f) = [&& r < 2 ^ n, c < 2 ^ n, bit c f == creation & r == ex c f].
Proof.
move=> hf; have h a b : a < 2 ^ n -> b < 2 ^ n -> ~~ Z.eqb (c_op n f a b) 0 = bit a f && (b == ex a f).
  move=> ha hb; have [||| _ [h _]] := @C28_entries n f a b; try by rewrite ?pow_expn; apply/ltP.
  apply/idP/idP => [/negP ne|/andP[h1 /eqP h2]].
    by have [h1 h2] := h.1 (fun e => ne ltac:(by rewrite e)); rewrite /bit h1 h2 /ex eqxx.
  by apply/negP => /Z.eqb_eq; apply: (h.2 (conj h1 h2)).
rewrite /op_pattern; case: creation; rewrite mem_stored.
  case: (ltnP r (2 ^ n)) => // hr; case: (ltnP c (2 ^ n)) => // hc /=; rewrite /cdag_op h // eqb_id.
  by [].
case: (ltnP r (2 ^ n)) => // hr; case: (ltnP c (2 ^ n)) => // hc /=; rewrite h //.
apply/andP/andP => [[h1 /eqP ->]|[h1 /eqP ->]]; rewrite ?bit_ex ?ex_ex ?h1 ?eqxx //.
by move: h1; case: (bit c f).
Qed.

(** ** Calls of connect_vertices for one operator *)
Lemma merge_calls_sound pat labels nc a b : (a, b) \in merge_calls pat labels nc ->
  exists i, [/\ a < nc, b < nc, block_nonzero pat labels i a & block_nonzero pat labels i b].
Proof.
case/flattenP => t /mapP[i hi ->] /mapP[j hj [-> ->]]; exists i.
set rows := [seq _ <- _ | _] in hj *.
have hr x : x \in rows -> x < nc /\ block_nonzero pat labels i x by rewrite mem_filter mem_iota => /andP[-> /andP[_ ->]].
have h1 : j \in rows by exact: mem_behead.
have h2 : head 0 rows \in rows by move: hj; case: (rows) => //= x l _; rewrite mem_head.
by have [? ?] := hr _ h1; have [? ?] := hr _ h2.
Qed.
Lemma merge_calls_complete pat labels nc i a b : i < nc -> a < nc -> b < nc ->
  block_nonzero pat labels i a -> block_nonzero pat labels i b -> linked (merge_calls pat labels nc) a b.
Proof.
move=> hi ha hb ba bb; set rows := [seq j <- iota 0 nc | block_nonzero pat labels i j].
have toh x : x \in rows -> linked (merge_calls pat labels nc) (head 0 rows) x.
  case e : rows => [//|y l]; rewrite inE /= => /orP[/eqP ->|hx]; first exact: l_refl.
  apply: l_edge; apply/flattenP; exists [seq (y, j) | j <- l]; last by apply/mapP; exists x.
  by apply/mapP; exists i; rewrite ?mem_iota // -/rows e.
by apply: l_trans (l_sym (toh a _)) (toh b _); rewrite mem_filter mem_iota ?ba ?bb.
Qed.

(** ** Sector of a state *)
Definition sec_of (lab1 lab2 : seq nat) (s : nat) : nat := nth 0 lab2 (nth 0 lab1 s).
Lemma assign_cat lab1 lab2 a b Se : assign lab1 lab2 (a ++ b) Se = assign lab1 lab2 b (assign lab1 lab2 a Se).
Proof. by elim: a Se => //= x a IH Se; rewrite IH. Qed.
Lemma assign_ok lab1 lab2 K m : (forall s, s < m -> sec_of lab1 lab2 s < K) ->
  let Se := assign lab1 lab2 (iota 0 m) (Sectors K [::] [::] (nseq K [::])) in
  [/\ num_sectors Se = K, sector_of_state Se = [seq sec_of lab1 lab2 s | s <- iota 0 m],
      index_in_sector Se = [seq count (fun s' => sec_of lab1 lab2 s' == sec_of lab1 lab2 s) (iota 0 s) | s <- iota 0 m],
      size (sector_members Se) = K &
      forall k, nth [::] (sector_members Se) k = [seq s <- iota 0 m | sec_of lab1 lab2 s == k]].
Proof.
elim: m => [|m IH] h; first by split=> //= [|k]; rewrite ?size_nseq // nth_nseq; case: ifP.
have [|h1 h2 h3 h4 h5] := IH; first by move=> s hs; apply: h; exact: ltnW.
rewrite -[m.+1]addn1 iotaD add0n assign_cat; move: (assign _ _ _ _) h1 h2 h3 h4 h5 => Se h1 h2 h3 h4 h5 /=.
rewrite -/(sec_of lab1 lab2 m); split=> //.
- by rewrite h2 map_cat cats1.
- by rewrite h3 map_cat cats1 /= h5 size_filter.
- by rewrite size_set_nth h4; have := h m (ltnSn m); lia.
- move=> k; rewrite nth_set_nth /= filter_cat /= -h5 eq_sym; case: eqP => [->|_]; by rewrite ?cats1 ?cats0.
Qed.

Section Part.
Variables (n : nat) (ham : seq (nat * nat)).
Hypothesis hamok : all (fun e => (e.1 < 2 ^ n) && (e.2 < 2 ^ n)) ham.

Lemma all_calls_ok labels nc : all (fun e => (e.1 < nc) && (e.2 < nc)) (all_merge_calls n labels nc).
Proof.
apply/allP => -[a b] /flattenP[t /mapP[f _ ->]]; rewrite mem_cat => /orP[] /merge_calls_sound[i [h1 h2 _ _]] /=; by rewrite h1 h2.
Qed.

(** Everything known about the result. *)
Lemma partition_ok : exists Se, [/\ partition n ham = Some Se,
    size (sector_of_state Se) = 2 ^ n /\ size (sector_members Se) = num_sectors Se,
    forall s s', s < 2 ^ n -> s' < 2 ^ n -> (nth 0 (sector_of_state Se) s = nth 0 (sector_of_state Se) s' <-> merged n ham s s'),
    forall s, s < 2 ^ n -> nth 0 (sector_of_state Se) s < num_sectors Se /\
       nth 0 (nth [::] (sector_members Se) (nth 0 (sector_of_state Se) s)) (nth 0 (index_in_sector Se) s) = s &
    forall k, [/\ k < num_sectors Se -> nth [::] (sector_members Se) k != [::], uniq (nth [::] (sector_members Se) k) &
       forall s, s \in nth [::] (sector_members Se) k <-> s < 2 ^ n /\ nth 0 (sector_of_state Se) s = k]].
Proof.
have [lab1 [mem1 [e1 s1 lk1 [b1 ne1 _] m1]]] := C27_components hamok.
have [lab2 [mem2 [e2 s2 lk2 [b2 ne2 _] m2]]] := C27_components (all_calls_ok lab1 (size mem1)).
rewrite /partition e1 e2.
have hs s : s < 2 ^ n -> sec_of lab1 lab2 s < size mem2 by move=> h; apply: b2; exact: b1.
have [h1 h2 h3 h4 h5] := assign_ok hs; set Se := assign _ _ _ _ in h1 h2 h3 h4 h5 *; exists Se.
have so s : s < 2 ^ n -> nth 0 (sector_of_state Se) s = sec_of lab1 lab2 s.
  by move=> h; rewrite h2 (nth_map 0) ?size_iota // nth_iota.
have repr_of b : b < size mem1 -> exists s, s < 2 ^ n /\ nth 0 lab1 s = b.
  move=> hb; have := ne1 b hb; case e : (nth [::] mem1 b) => [//|s l] _.
  by have := (m1 b s).1; rewrite e mem_head => -[]// ? [_ ?]; exists s.
have bnz creation f i j : f < n -> reflect (exists s, [/\ s < 2 ^ n, bit s f = creation, nth 0 lab1 s = j & nth 0 lab1 (ex s f) = i])
    (block_nonzero (op_pattern creation n f) lab1 i j).
  move=> hf; apply: (iffP hasP) => [[[r c]]|[s [hs1 hb hj hi]]].
    by rewrite mem_op_pattern // => /and4P[hr hc /eqP hb /eqP hrc] /= /andP[/eqP hi /eqP hj]; exists c; rewrite -hrc.
  by exists (ex s f, s) => /=; [rewrite mem_op_pattern // hs1 ex_lt // hb !eqxx|rewrite hi hj !eqxx].
split=> //.
- by rewrite h2 size_map size_iota h1.
- move=> s s' hs1 hs2; rewrite !so // /sec_of; rewrite lk2 ?b1 //; split.
    have gen a b : linked (all_merge_calls n lab1 (size mem1)) a b -> (a < size mem1 <-> b < size mem1) /\
        forall t t', t < 2 ^ n -> t' < 2 ^ n -> nth 0 lab1 t = a -> nth 0 lab1 t' = b -> merged n ham t t'.
      elim=> {a b} [a b hab|a|a b _ [q1 q2]|a b c _ [q1 q2] _ [q3 q4]].
      - have [f [cr [hf hab2]]] : exists f cr, f < n /\ (a, b) \in merge_calls (op_pattern cr n f) lab1 (size mem1).
          case/flattenP: hab => t /mapP[f hf ->]; rewrite mem_cat mem_iota in hf * => /orP[h|h]; [exists f, true|exists f, false]; by [].
        have [i [ha hb /(bnz cr _ _ _ hf)[u [hu bu lu xu]] /(bnz cr _ _ _ hf)[v [hv bv lv xv]]]] := merge_calls_sound hab2.
        split=> // t t' ht ht' et et'.
        apply: (@m_trans _ _ _ u); first by apply: m_ham; apply/lk1 => //; rewrite et lu.
        apply: (@m_trans _ _ _ v); last by apply: m_ham; apply/lk1 => //; rewrite et' lv.
        by apply: (@m_op _ _ _ _ f); rewrite ?bu ?bv //; apply/lk1; rewrite ?ex_lt // xu xv.
      - by split=> // t t' ht ht' et et'; apply: m_ham; apply/lk1 => //; rewrite et et'.
      - by split; [tauto|move=> t t' ht ht' et et'; apply: m_sym; exact: q2].
      - split; first tauto.
        move=> t t' ht ht' et et'; have hb : b < size mem1 by apply: q1.1; rewrite -et; exact: b1.
        have [u [hu eu]] := repr_of b hb; exact: m_trans (q2 t u ht hu et eu) (q4 u t' hu ht' eu et').
    by move=> h; have [_] := gen _ _ h; apply.
  move=> hm; have gen t t' : merged n ham t t' -> (t < 2 ^ n <-> t' < 2 ^ n) /\
      (t < 2 ^ n -> linked (all_merge_calls n lab1 (size mem1)) (nth 0 lab1 t) (nth 0 lab1 t')).
    elim=> {s s' hs1 hs2 hm t t'} [s s' hl|s s' f hs1 hs2 hf hb hl|s s' _ [q1 q2]|s s' s'' _ [q1 q2] _ [q3 q4]].
    - have dom : s < 2 ^ n <-> s' < 2 ^ n.
        elim: hl => {s s'} [a b /(allP hamok) /andP[-> ->]|//|a b _|a b c _ ? _ ?] //; tauto.
      by split=> // hs1; rewrite (lk1 s s' hs1 (dom.1 hs1)).2 //; exact: l_refl.
    - split=> // _; have e : nth 0 lab1 (ex s f) = nth 0 lab1 (ex s' f) by apply/lk1; rewrite ?ex_lt.
      have hl2 : linked (merge_calls (op_pattern (bit s f) n f) lab1 (size mem1)) (nth 0 lab1 s) (nth 0 lab1 s').
        apply: (@merge_calls_complete _ _ _ (nth 0 lab1 (ex s f))); rewrite ?b1 ?ex_lt //; apply/(bnz _ _ _ _ hf).
          by exists s.
        by exists s'; rewrite hb e.
      apply: linked_mono hl2 => x hx; apply/flattenP.
      exists (merge_calls (cdag_pattern n f) lab1 (size mem1) ++ merge_calls (c_pattern n f) lab1 (size mem1)).
        by apply/mapP; exists f; rewrite ?mem_iota.
      by rewrite mem_cat; move: hx; rewrite /op_pattern; case: (bit s f) => ->; rewrite ?orbT.
    - by split; [tauto|move=> h; apply: l_sym; apply: q2; tauto].
    - by split; [tauto|move=> h; apply: l_trans (q2 h) (q4 _); tauto].
  by have [_] := gen s s' hm; apply.
- move=> s hs1; rewrite h1 so //; split; first exact: hs.
  rewrite h5 h3 (nth_map 0) ?size_iota // nth_iota // add0n -size_filter.
  set p := fun s' => sec_of lab1 lab2 s' == sec_of lab1 lab2 s.
  have -> : iota 0 (2 ^ n) = iota 0 s ++ s :: iota s.+1 (2 ^ n - s.+1).
    by rewrite -{1}(subnKC hs1) addSnnS iotaD.
  have pp : p s by rewrite /p eqxx.
  by rewrite filter_cat /= pp nth_cat ltnn subnn.
- move=> k; rewrite h1 h5; split.
  + move=> hk; have := ne2 k hk; case e : (nth [::] mem2 k) => [//|b l] _.
    have := (m2 k b).1; rewrite e mem_head => -[]// hb [_ eb].
    have [s [hs1 es]] := repr_of b hb.
    apply/eqP => e3; have : s \in [seq s <- iota 0 (2 ^ n) | sec_of lab1 lab2 s == k] by rewrite mem_filter mem_iota /sec_of es eb eqxx.
    by rewrite e3.
  + by rewrite filter_uniq // iota_uniq.
  + move=> s; rewrite mem_filter mem_iota /= add0n; split=> [/andP[/eqP e h]|[h e]]; first by rewrite so.
    by rewrite -e so // eqxx.
Qed.
End Part.

(** C29. For every number of flavors and every pattern of Hamiltonian entries the code finishes; every state lies in
    exactly one sector, at the recorded position; no sector is empty. *)
Theorem C29_partition n ham : all (fun e => (e.1 < 2 ^ n) && (e.2 < 2 ^ n)) ham ->
  exists Se, [/\ partition n ham = Some Se,
    size (sector_of_state Se) = 2 ^ n /\ size (sector_members Se) = num_sectors Se,
    forall s, s < 2 ^ n -> nth 0 (sector_of_state Se) s < num_sectors Se /\
       nth 0 (nth [::] (sector_members Se) (nth 0 (sector_of_state Se) s)) (nth 0 (index_in_sector Se) s) = s &
    forall k, [/\ k < num_sectors Se -> nth [::] (sector_members Se) k != [::], uniq (nth [::] (sector_members Se) k) &
       forall s, s \in nth [::] (sector_members Se) k <-> s < 2 ^ n /\ nth 0 (sector_of_state Se) s = k]].
Proof. by move=> h; have [Se [h1 h2 _ h4 h5]] := partition_ok h; exists Se. Qed.
Print Assumptions C29_partition.

(** C29. The Hamiltonian has no entry between different sectors. *)
Theorem C29_block_diagonal n ham Se r c : all (fun e => (e.1 < 2 ^ n) && (e.2 < 2 ^ n)) ham ->
  partition n ham = Some Se -> (r, c) \in ham -> nth 0 (sector_of_state Se) r = nth 0 (sector_of_state Se) c.
Proof.
move=> h e hrc; have [Se' [e' _ h3 _ _]] := partition_ok h; move: e'; rewrite e => -[?]; subst Se'.
have /andP[/= hr hc] := allP h _ hrc; apply/h3 => //; apply: m_ham; exact: l_edge.
Qed.
Print Assumptions C29_block_diagonal.

(** C29. Exactly which states share a sector: the closure of one merging pass. *)
Theorem C29_same_sector n ham Se s s' : all (fun e => (e.1 < 2 ^ n) && (e.2 < 2 ^ n)) ham -> partition n ham = Some Se ->
  s < 2 ^ n -> s' < 2 ^ n -> (nth 0 (sector_of_state Se) s = nth 0 (sector_of_state Se) s' <-> merged n ham s s').
Proof. by move=> h e; have [Se' [e' _ h3 _ _]] := partition_ok h; move: e'; rewrite e => -[->]; exact: h3. Qed.
Print Assumptions C29_same_sector.

(** C29. States of one block of the Hamiltonian are mapped by an operator into one sector. *)
Theorem C29_block_destination n ham Se s s' f : all (fun e => (e.1 < 2 ^ n) && (e.2 < 2 ^ n)) ham -> partition n ham = Some Se ->
  s < 2 ^ n -> s' < 2 ^ n -> f < n -> linked ham s s' -> bit s f = bit s' f ->
  nth 0 (sector_of_state Se) (ex s f) = nth 0 (sector_of_state Se) (ex s' f).
Proof.
move=> h e hs hs' hf hl hb; apply/(C29_same_sector h e); rewrite ?ex_lt //.
by apply: (@m_op _ _ _ _ f); rewrite ?ex_lt ?bit_ex ?hb ?ex_ex.
Qed.
Print Assumptions C29_block_destination.

(** ** Recorded destinations *)
Definition sec (Se : sectors) (s : nat) : nat := nth 0 (sector_of_state Se) s.
Lemma destinations_ok Se pat k : (forall e, e \in pat -> sec Se e.2 < num_sectors Se) ->
  match nth None (destinations Se pat) k with
  | Some l => exists e, [/\ e \in pat, sec Se e.2 = k & sec Se e.1 = l]
  | None => forall e, e \in pat -> sec Se e.2 <> k
  end.
Proof.
rewrite /destinations; elim/last_ind: pat => [|pat e IH] h; first by rewrite /= nth_nseq if_same.
rewrite -cats1 foldl_cat /= nth_set_nth /=; case: eqP => [->|ne].
  by exists e; rewrite mem_cat mem_seq1 eqxx orbT.
have {}IH := IH (fun x hx => h x ltac:(by rewrite mem_rcons inE hx orbT)).
case: (nth None _ k) IH => [l [x [h1 h2 h3]]|IH]; first by exists x; rewrite mem_cat h1.
move=> x; rewrite mem_cat mem_seq1 => /orP[|/eqP ->]; [exact: IH|by move/esym].
Qed.

(** C29. The recorded destination is nirvana exactly if the operator annihilates the whole sector; otherwise it is the
    sector of the image of one of its states. *)
Theorem C29_recorded n ham Se creation f k : all (fun e => (e.1 < 2 ^ n) && (e.2 < 2 ^ n)) ham -> partition n ham = Some Se -> f < n ->
  match nth None (sector_connection n Se creation f) k with
  | Some l => exists s, [/\ s < 2 ^ n, bit s f = creation, sec Se s = k & sec Se (ex s f) = l]
  | None => forall s, s < 2 ^ n -> sec Se s = k -> bit s f <> creation
  end.
Proof.
move=> h e hf; have [Se' [e' _ h3 h4 _]] := partition_ok h; move: e'; rewrite e => -[?]; subst Se'.
have := @destinations_ok Se (op_pattern creation n f) k; rewrite -/(sector_connection n Se creation f) => hd.
have {hd} := hd _; case: (nth None _ k) => [l|] hd.
  case: hd => [[r c]|]; first by rewrite mem_op_pattern // => /and4P[_ hc _ _]; exact: (h4 c hc).1.
  by move=> [r c]; rewrite mem_op_pattern //= => -[/and4P[hr hc /eqP hb /eqP ->] h1 h2]; exists c.
move=> s hs hk hb; apply: (hd _ (ex s f, s)) hk; last by rewrite mem_op_pattern // ex_lt // hs hb !eqxx.
by move=> [r c]; rewrite mem_op_pattern // => /and4P[_ hc _ _]; exact: (h4 c hc).1.
Qed.
Print Assumptions C29_recorded.

(** C29, part that holds: if the sectors are labelled by conserved charges which every operator shifts, every state of a
    sector that the operator does not annihilate is mapped into the recorded destination. Without the hypothesis that
    states of equal charge share a sector the statement is false, see [C29_destination_refuted]. *)
Theorem C29_destination_partial (T : Type) (charge : nat -> T) n ham Se creation f s :
  all (fun e => (e.1 < 2 ^ n) && (e.2 < 2 ^ n)) ham -> partition n ham = Some Se ->
  (forall r c, (r, c) \in ham -> charge r = charge c) ->
  (forall g t t', g < n -> t < 2 ^ n -> t' < 2 ^ n -> bit t g = bit t' g -> (charge t = charge t' <-> charge (ex t g) = charge (ex t' g))) ->
  (forall t t', t < 2 ^ n -> t' < 2 ^ n -> charge t = charge t' -> sec Se t = sec Se t') ->
  f < n -> s < 2 ^ n -> bit s f = creation ->
  nth None (sector_connection n Se creation f) (sec Se s) = Some (sec Se (ex s f)).
Proof.
move=> h e hQ hsh hcomp hf hs hb; have := C29_recorded creation (sec Se s) h e hf.
case: (nth None _ _) => [l [t [ht bt et <-]]|/(_ s hs erefl) //]; congr Some.
apply: hcomp; rewrite ?ex_lt //; apply/(hsh f t s) => //; first by rewrite bt hb.
move: et; rewrite /sec => /(C29_same_sector h e ht hs) hm.
have lq a b : linked ham a b -> charge a = charge b.
  by elim=> {a b} [a b /hQ|//|a b _ ->|a b c _ -> _ ->].
elim: hm => {s hs hb t ht bt} [a b /lq //|a b g ha hb hg hbit /lq|a b _ -> //|a b c _ -> _ -> //].
by move/(hsh g a b hg ha hb hbit).
Qed.
Print Assumptions C29_destination_partial.

(** The case that breaks C29: four orbitals, H = 11 n_2 (c+_0 c_1 + h.c.) - 2 n_3 (c+_0 c_1 + h.c.), entries of
    modulus at most 10 dropped (model.cutoff_ham). *)
Definition bad_us : seq (nat * nat * nat * nat * Z) :=
  [:: (0, 2, 2, 1, 11%Z); (1, 2, 2, 0, 11%Z); (0, 3, 3, 1, (-2)%Z); (1, 3, 3, 0, (-2)%Z)].

(** C29 fails: a creation operator maps two states of one sector into different sectors, one of which is recorded. *)
Theorem C29_destination_refuted : exists n us ts cutoff Se s f,
  partition n (ham_pattern n us ts cutoff) = Some Se /\ all (fun e => (e.1 < 2 ^ n) && (e.2 < 2 ^ n)) (ham_pattern n us ts cutoff) /\
  [/\ f < n, s < 2 ^ n & bit s f = true] /\
  nth None (sector_connection n Se true f) (sec Se s) <> Some (sec Se (ex s f)).
Proof.
have e : ham_pattern 4 bad_us [::] 10%Z = [:: (10, 9); (9, 10)] by vm_compute.
pose Se := odflt (Sectors 0 [::] [::] [::]) (partition 4 [:: (10, 9); (9, 10)]).
exists 4, bad_us, [::], 10%Z, Se, 13, 3; rewrite e.
split; first by vm_compute.
split; first by vm_compute.
split; first by split.
by vm_compute.
Qed.
Print Assumptions C29_destination_refuted.

(** Two orbitals with hopping: sectors by particle number. *)
Example C29_instance : exists Se, let ham := ham_pattern 2 [::] [:: (0, 1, 1%Z); (1, 0, 1%Z)] 0%Z in
  partition 2 ham = Some Se /\ sector_of_state Se = [:: 0; 1; 1; 2] /\
  all (fun e => (e.1 < 2 ^ 2) && (e.2 < 2 ^ 2)) ham /\
  (let charge s := bit s 0 + bit s 1 in
   [/\ forall r c, (r, c) \in ham -> charge r = charge c,
       forall g t t', g < 2 -> t < 2 ^ 2 -> t' < 2 ^ 2 -> bit t g = bit t' g -> (charge t = charge t' <-> charge (ex t g) = charge (ex t' g)) &
       forall t t', t < 2 ^ 2 -> t' < 2 ^ 2 -> charge t = charge t' -> sec Se t = sec Se t']).
Proof.
eexists; cbv zeta; have -> : ham_pattern 2 [::] [:: (0, 1, 1%Z); (1, 0, 1%Z)] 0%Z = [:: (2, 1); (1, 2)] by vm_compute.
split; first by vm_compute.
split; first by []. split; first by [].
split.
- by move=> r c; rewrite !inE => /orP[] /eqP[-> ->].
- have [h|] := boolP (all (fun g => all (fun t => all (fun t' => (bit t g == bit t' g) ==>
     ((bit t 0 + bit t 1 == bit t' 0 + bit t' 1) == (bit (ex t g) 0 + bit (ex t g) 1 == bit (ex t' g) 0 + bit (ex t' g) 1)))
     (iota 0 4)) (iota 0 4)) (iota 0 2)); last by vm_compute.
  move=> g t t' hg ht ht' hb.
  have mi m x : x < m -> x \in iota 0 m by rewrite mem_iota.
  have := allP (allP (allP h g (mi _ _ hg)) t (mi _ _ ht)) t' (mi _ _ ht'); rewrite hb eqxx /= => /eqP h2.
  by split=> /eqP; [rewrite h2 => /eqP|rewrite -h2 => /eqP].
- by move=> [|[|[|[|t]]]] // [|[|[|[|t']]]] //; vm_compute.
Qed.
