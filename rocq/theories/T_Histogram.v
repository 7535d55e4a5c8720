(** * C37, C38, C39: histograms, step sizes, thermalization

    src/update_histogram.hpp, modelled in Histogram.v. *)
From Coq Require Import ZArith QArith Qround List Bool Lia Lqa.
From Verif Require Import Histogram.
Import ListNotations.
Open Scope Q_scope.

(* ---------------------------------------------------------------------- *)
(** ** Specification: sums over lists *)
Fixpoint qsum (l : list Q) : Q := match l with [] => 0 | x :: r => x + qsum r end.

Lemma upd_length {A} (f : A -> A) i l : length (upd f i l) = length l.
Proof. revert i; induction l as [|x l IH]; intros [|i]; simpl; auto. Qed.
Lemma nth_upd {A} (f : A -> A) i j l d : nth j (upd f i l) d = if Nat.eqb i j && Nat.ltb j (length l) then f (nth j l d) else nth j l d.
Proof.
  revert i j; induction l as [|x l IH]; intros i j.
  - destruct i, j; simpl; rewrite ?andb_false_r; auto.
  - destruct i, j; simpl; auto. rewrite IH. reflexivity.
Qed.
Lemma qsum_upd i l v : (i < length l)%nat -> qsum (upd (fun x => x + v) i l) == qsum l + v.
Proof.
  revert i; induction l as [|x l IH]; intros [|i] h; simpl in *; try lia; try ring.
  rewrite IH by lia; ring.
Qed.
Lemma qsum_repeat0 n : qsum (repeat 0 n) == 0.
Proof. induction n; simpl; [ring|rewrite IHn; ring]. Qed.

(* ---------------------------------------------------------------------- *)
(** ** C37: histograms *)
(** The bin of a distance is the p with p*w <= d < (p+1)*w, w the bin width. *)
Definition in_bin (mx : Q) (nb p : nat) (d : Q) : Prop :=
  qn p * (mx / qn nb) <= d /\ d < (qn p + 1) * (mx / qn nb).
Definition wf (h : hist) : Prop :=
  length (h_sum h) = num_bins h /\ length (h_sum2 h) = num_bins h /\ 0 < h_max h /\ (0 < num_bins h)%nat.

Lemma qn_pos n : (0 < n)%nat -> 0 < qn n.
Proof. intro h; unfold qn, Qlt; simpl; lia. Qed.
Lemma qn_S n : qn (S n) == qn n + 1.
Proof. unfold qn; rewrite Nat2Z.inj_succ; unfold Z.succ; rewrite inject_Z_plus; reflexivity. Qed.

Lemma floor_bin mx nb p d : 0 < mx -> (0 < nb)%nat -> Qfloor (qn nb * d / mx) = Z.of_nat p <-> in_bin mx nb p d.
Proof.
  intros hm hn; pose proof (qn_pos nb hn) as hq.
  assert (E : qn nb * d / mx == d / (mx / qn nb)).
  { field. split; intro h; rewrite h in *; lra. }
  assert (W : 0 < mx / qn nb) by (apply Qlt_shift_div_l; lra).
  unfold in_bin; split; intro H.
  - pose proof (Qfloor_le (qn nb * d / mx)) as A. pose proof (Qlt_floor (qn nb * d / mx)) as B.
    rewrite H in A, B. rewrite inject_Z_plus in B. fold (qn p) in A, B. rewrite E in A, B. split.
    + apply Qle_shift_div_l in A || idtac. setoid_replace d with (d / (mx / qn nb) * (mx / qn nb)).
      apply Qmult_le_compat_r; [auto|lra]. field. split; intro h; rewrite h in *; lra.
    + setoid_replace d with (d / (mx / qn nb) * (mx / qn nb)) at 1.
      apply Qmult_lt_compat_r; auto. field. split; intro h; rewrite h in *; lra.
  - destruct H as [A B]. rewrite (Qfloor_comp _ _ E).
    assert (A' : qn p <= d / (mx / qn nb)) by (apply Qle_shift_div_l; auto).
    assert (B' : d / (mx / qn nb) < qn p + 1) by (apply Qlt_shift_div_r; auto).
    pose proof (Qfloor_le (d / (mx / qn nb))) as A2. pose proof (Qlt_floor (d / (mx / qn nb))) as B2.
    assert (X1 : qn p < inject_Z (Qfloor (d / (mx / qn nb)) + 1)) by (eapply Qle_lt_trans; [exact A'|exact B2]).
    assert (X2 : inject_Z (Qfloor (d / (mx / qn nb))) < inject_Z (Z.of_nat p + 1)).
    { rewrite inject_Z_plus. fold (qn p). change (inject_Z 1) with 1. eapply Qle_lt_trans; [exact A2|exact B']. }
    change (qn p) with (inject_Z (Z.of_nat p)) in X1. rewrite <- Zlt_Qlt in X1, X2. lia.
Qed.

(** The counters after one sample: exactly the bin of the distance changes; a distance outside the range
    changes nothing and is reported. *)
Theorem C37_add_sample h d v : wf h -> 0 <= d ->
  (exists p, (p < num_bins h)%nat /\ in_bin (h_max h) (num_bins h) p d /\ snd (add_sample h d v) = true /\
     let h' := fst (add_sample h d v) in
     wf h' /\ num_bins h' = num_bins h /\ h_max h' = h_max h /\ h_n h' = S (h_n h) /\
     nth p (h_cnt h') 0 = nth p (h_cnt h) 0 + 1 /\ nth p (h_sum h') 0 = nth p (h_sum h) 0 + v /\
     nth p (h_sum2 h') 0 = nth p (h_sum2 h) 0 + v * v /\
     forall q, q <> p -> nth q (h_cnt h') 0 = nth q (h_cnt h) 0 /\ nth q (h_sum h') 0 = nth q (h_sum h) 0 /\
                         nth q (h_sum2 h') 0 = nth q (h_sum2 h) 0) \/
  (h_max h <= d /\ add_sample h d v = (h, false)).
Proof.
  intros W hd; destruct W as (w1 & w2 & w3 & w4).
  unfold add_sample. destruct ((0 <=? bin_of h d)%Z && (bin_of h d <? Z.of_nat (num_bins h))%Z) eqn:E.
  - apply andb_true_iff in E as [E1 E2]. apply Z.leb_le in E1. apply Z.ltb_lt in E2.
    left. exists (Z.to_nat (bin_of h d)). set (p := Z.to_nat (bin_of h d)).
    assert (hp : (p < num_bins h)%nat) by (unfold p; lia). split; [exact hp|].
    split. { apply floor_bin; auto. unfold p; rewrite Z2Nat.id by lia. reflexivity. }
    split; [reflexivity|]. cbn [fst]. cbv zeta.
    assert (nb : num_bins (Hist (S (h_n h)) (h_max h) (upd (fun x => x + v) p (h_sum h)) (upd (fun x => x + v * v) p (h_sum2 h)) (upd (fun x => x + 1) p (h_cnt h))) = num_bins h).
    { unfold num_bins; simpl. apply upd_length. }
    split. { unfold wf; rewrite nb; simpl; rewrite !upd_length; auto. }
    split; [exact nb|]. split; [reflexivity|]. split; [reflexivity|]. simpl.
    rewrite !nth_upd, !w1, !w2, Nat.eqb_refl. fold (num_bins h).
    apply Nat.ltb_lt in hp as hp'. rewrite hp'. simpl. repeat split; rewrite !nth_upd;
    apply Nat.eqb_neq in H; rewrite Nat.eqb_sym, H; reflexivity.
  - right. split; [|reflexivity].
    apply andb_false_iff in E. pose proof (qn_pos _ w4) as hq.
    assert (hnn : (0 <= bin_of h d)%Z).
    { unfold bin_of. change 0%Z with (Qfloor 0). apply Qfloor_resp_le.
      apply Qle_shift_div_l; auto. assert (0 <= qn (num_bins h) * d) by (apply Qmult_le_0_compat; lra). lra. }
    destruct E as [E|E]; [apply Z.leb_gt in E; lia|apply Z.ltb_ge in E].
    unfold bin_of in E. pose proof (Qfloor_le (qn (num_bins h) * d / h_max h)) as A.
    assert (B : qn (num_bins h) <= qn (num_bins h) * d / h_max h).
    { eapply Qle_trans; [|exact A]. unfold qn. rewrite <- Zle_Qle. exact E. }
    assert (C : qn (num_bins h) * h_max h <= qn (num_bins h) * d).
    { setoid_replace (qn (num_bins h) * d) with (qn (num_bins h) * d / h_max h * h_max h) by (field; intro h0; rewrite h0 in *; lra).
      apply Qmult_le_compat_r; lra. }
    rewrite !(Qmult_comm (qn (num_bins h))) in C. apply Qmult_le_r in C; auto.
Qed.

(** Runs: [samples] are distances with their values. *)
Definition add_all (h : hist) (samples : list (Q * Q)) : hist :=
  fold_left (fun h s => fst (add_sample h (fst s) (snd s))) samples h.
Definition in_range (mx : Q) (samples : list (Q * Q)) : list (Q * Q) :=
  filter (fun s => qlt (fst s) mx) samples.

Lemma add_in_range h d v : wf h -> 0 <= d ->
  let h' := fst (add_sample h d v) in
  wf h' /\ num_bins h' = num_bins h /\ h_max h' = h_max h /\
  (if qlt d (h_max h) then
     h_n h' = S (h_n h) /\ qsum (h_cnt h') == qsum (h_cnt h) + 1 /\ qsum (h_sum h') == qsum (h_sum h) + v
   else h' = h).
Proof.
  intros W hd. destruct (C37_add_sample h d v W hd) as [(p & hp & hb & ht & H)|[hm E]].
  - cbv zeta in *. destruct H as (H1 & H2 & H3 & H4 & _). repeat (split; [assumption|]).
    assert (hl : qlt d (h_max h) = true).
    { destruct W as (_ & _ & w3 & w4). destruct hb as [_ hb]. unfold qlt. apply negb_true_iff.
      destruct (Qle_bool (h_max h) d) eqn:F; auto. apply Qle_bool_iff in F. exfalso.
      assert (X : (qn p + 1) * (h_max h / qn (num_bins h)) <= h_max h).
      { rewrite <- qn_S. pose proof (qn_pos _ w4) as hq.
        setoid_replace (qn (S p) * (h_max h / qn (num_bins h))) with (qn (S p) * h_max h / qn (num_bins h)) by (field; intro h0; rewrite h0 in *; lra).
        apply Qle_shift_div_r; auto. rewrite Qmult_comm. apply Qmult_le_l; auto.
        unfold qn. rewrite <- Zle_Qle. lia. }
      lra. }
    rewrite hl. split; [assumption|].
    unfold add_sample in *. destruct ((0 <=? bin_of h d)%Z && (bin_of h d <? Z.of_nat (num_bins h))%Z) eqn:E; [|discriminate].
    apply andb_true_iff in E as [E1 E2]. apply Z.leb_le in E1. apply Z.ltb_lt in E2. simpl.
    destruct W as (w1 & w2 & w3 & w4). unfold num_bins in *.
    split; apply qsum_upd; lia.
  - rewrite E. simpl. split; [assumption|]. split; [reflexivity|]. split; [reflexivity|].
    unfold qlt. apply Qle_bool_iff in hm. rewrite hm. reflexivity.
Qed.

(** After any number of samples the total attempts, the number of samples and the total of the values are
    those of the in-range samples. *)
Theorem C37_totals nb mx samples : (0 < nb)%nat -> 0 < mx -> (forall s, In s samples -> 0 <= fst s) ->
  let h := add_all (h_init nb mx) samples in
  h_n h = length (in_range mx samples) /\
  qsum (h_cnt h) == qn (length (in_range mx samples)) /\
  qsum (h_sum h) == qsum (map snd (in_range mx samples)) /\
  num_bins h = nb.
Proof.
  intros hn hm hs.
  assert (G : forall samples h, wf h -> h_max h = mx -> (forall s, In s samples -> 0 <= fst s) ->
     let h' := add_all h samples in
     (h_n h' = h_n h + length (in_range mx samples))%nat /\ qsum (h_cnt h') == qsum (h_cnt h) + qn (length (in_range mx samples)) /\
     qsum (h_sum h') == qsum (h_sum h) + qsum (map snd (in_range mx samples)) /\ num_bins h' = num_bins h).
  { clear. induction samples as [|[d v] r IH]; intros h W hm hs; cbv zeta.
    - simpl. unfold qn; simpl. repeat split; try lia; try ring.
    - simpl. destruct (add_in_range h d v W (hs _ (or_introl eq_refl))) as (W' & nb' & mx' & T).
      destruct (IH (fst (add_sample h d v)) W' (eq_trans mx' hm) (fun s hs' => hs s (or_intror hs'))) as (I1 & I2 & I3 & I4).
      rewrite hm in T. unfold in_range in *. simpl. destruct (qlt d mx).
      + destruct T as (T1 & T2 & T3). simpl.
        split; [unfold add_all in *; lia|]. split; [|split; [|congruence]].
        * unfold add_all in *; rewrite I2, T2, qn_S; ring.
        * unfold add_all in *; rewrite I3, T3; ring.
      + rewrite T in *. auto. }
  assert (W0 : wf (h_init nb mx)).
  { unfold wf, num_bins; simpl; rewrite !repeat_length; auto. }
  destruct (G samples (h_init nb mx) W0 eq_refl hs) as (A & B & C & D). cbv zeta.
  split; [exact A|]. split; [|split].
  - rewrite B. simpl. rewrite qsum_repeat0. ring.
  - rewrite C. simpl. rewrite qsum_repeat0. ring.
  - rewrite D. unfold num_bins; simpl. apply repeat_length.
Qed.

(** With values between 0 and 1 (accepted: 1, rejected: 0) no bin has more accepts than attempts. *)
Theorem C37_accepted_le_attempted nb mx samples : (0 < nb)%nat -> 0 < mx ->
  (forall s, In s samples -> 0 <= fst s /\ 0 <= snd s <= 1) ->
  forall p, 0 <= nth p (h_sum (add_all (h_init nb mx) samples)) 0 <= nth p (h_cnt (add_all (h_init nb mx) samples)) 0.
Proof.
  intros hn hm hs.
  assert (G : forall samples h, wf h -> (forall s, In s samples -> 0 <= fst s /\ 0 <= snd s <= 1) ->
     (forall p, 0 <= nth p (h_sum h) 0 <= nth p (h_cnt h) 0) -> forall p, 0 <= nth p (h_sum (add_all h samples)) 0 <= nth p (h_cnt (add_all h samples)) 0).
  { clear. induction samples as [|[d v] r IH]; intros h W hs hp; [exact hp|]. simpl.
    destruct (hs _ (or_introl eq_refl)) as [h1 h2]. simpl in h1, h2.
    apply IH; [apply (add_in_range h d v W h1)|intros s h'; apply hs; right; exact h'|].
    intro p. destruct (C37_add_sample h d v W h1) as [(q & _ & _ & _ & H)|[_ E]]; [|rewrite E; apply hp].
    cbv zeta in H. destruct H as (_ & _ & _ & _ & c1 & c2 & _ & co).
    destruct (Nat.eq_dec p q) as [->|ne].
    - rewrite c1, c2. specialize (hp q). lra.
    - destruct (co p ne) as (-> & -> & _). apply hp. }
  apply G; auto.
  - unfold wf, num_bins; simpl; rewrite !repeat_length; auto.
  - intro p; simpl. replace (nth p (repeat 0 nb) 0) with 0; [lra|].
    symmetry. destruct (nth_in_or_default p (repeat 0 nb) 0) as [h|h]; auto. apply repeat_spec in h; auto.
Qed.

(** Consecutive rebinning keeps the total of the entries it covers; nothing is lost when the number of
    entries is a multiple of the bin size. *)
Lemma block_sumE arr n i : block_sum arr n i == qsum (map (fun j => nth (i * n + j) arr 0) (seq 0 n)).
Proof.
  unfold block_sum.
  assert (G : forall l a, fold_left (fun s j => s + nth (i * n + j) arr 0) l a == a + qsum (map (fun j => nth (i * n + j) arr 0) l)).
  { induction l as [|x l IH]; intro a; simpl; [ring|rewrite IH; ring]. }
  rewrite G; ring.
Qed.
Lemma qsum_app a b : qsum (a ++ b) == qsum a + qsum b.
Proof. induction a; simpl; [ring|rewrite IHa; ring]. Qed.
Lemma qsum_firstn arr m : (m <= length arr)%nat -> qsum (map (fun j => nth j arr 0) (seq 0 m)) == qsum (firstn m arr).
Proof.
  revert m; induction arr as [|x arr IH]; intros [|m] h; simpl in *; try lia; try reflexivity.
  rewrite <- seq_shift, map_map, IH by lia. reflexivity.
Qed.
Theorem C37_rebin_blocks arr n : (0 < n)%nat ->
  qsum (rebin_blocks arr n) == qsum (firstn (length arr / n * n) arr) /\
  (Nat.modulo (length arr) n = 0%nat -> qsum (rebin_blocks arr n) == qsum arr).
Proof.
  intro hn.
  assert (A : qsum (rebin_blocks arr n) == qsum (firstn (length arr / n * n) arr)).
  { unfold rebin_blocks.
    assert (G : forall k, (k * n <= length arr)%nat -> qsum (map (block_sum arr n) (seq 0 k)) == qsum (firstn (k * n) arr)).
    { intros k hk. rewrite <- (qsum_firstn arr (k * n)) by lia. induction k as [|k IH]; [reflexivity|].
      rewrite seq_S, map_app, qsum_app, IH by lia. simpl.
      replace (n + k * n)%nat with (k * n + n)%nat by lia.
      rewrite seq_app, map_app, qsum_app, block_sumE. simpl.
      assert (E : map (fun j => nth (k * n + j) arr 0) (seq 0 n) = map (fun j => nth j arr 0) (seq (k * n) n)).
      { rewrite <- (map_map (fun j => (k * n + j)%nat) (fun j => nth j arr 0)). f_equal.
        clear. generalize (k * n)%nat as a. assert (H : forall a b n, map (fun j => (a + j)%nat) (seq b n) = seq (a + b) n).
        { intros a b m; revert b; induction m as [|m IH]; intro b; simpl; [reflexivity|]. rewrite IH. f_equal. f_equal; lia. }
        intro a; rewrite H; f_equal; lia. }
      rewrite E; ring. }
    apply G. rewrite Nat.mul_comm. apply Nat.mul_div_le; lia. }
  split; [exact A|]. intro hmod. rewrite A.
  pose proof (Nat.div_mod (length arr) n ltac:(lia)) as D.
  replace (length arr / n * n)%nat with (length arr) by lia. rewrite firstn_all. reflexivity.
Qed.

(** Rebinning to another range: entry i goes to the new bin that contains the centre of the old bin i. *)
Definition centre (mx : Q) (n i : nat) : Q := (qn i + (1 # 2)) * (mx / qn n).
Fixpoint bin_total (mx mx' : Q) (n n' p i : nat) (arr : list Q) : Q :=
  match arr with
  | [] => 0
  | a :: r => (if (Qfloor (centre mx n i / (mx' / qn n')) =? Z.of_nat p)%Z then a else 0) + bin_total mx mx' n n' p (S i) r
  end.
Lemma rebin_posE mx mx' n n' i : 0 < mx' -> (0 < n')%nat -> rebin_pos mx mx' n n' i = Qfloor (centre mx n i / (mx' / qn n')).
Proof.
  intros h1 h2. apply Qfloor_comp. pose proof (qn_pos _ h2). fold (centre mx n i).
  field. split; intro h0; rewrite h0 in *; lra.
Qed.
Lemma rebin_pos_mono mx mx' n n' i j : 0 < mx -> 0 < mx' -> (0 < n)%nat -> (0 < n')%nat -> (i <= j)%nat ->
  (rebin_pos mx mx' n n' i <= rebin_pos mx mx' n n' j)%Z.
Proof.
  intros h1 h2 h3 h4 h5. rewrite !rebin_posE by auto. apply Qfloor_resp_le.
  pose proof (qn_pos _ h3); pose proof (qn_pos _ h4).
  assert (0 < mx' / qn n') by (apply Qlt_shift_div_l; lra).
  assert (0 < mx / qn n) by (apply Qlt_shift_div_l; lra).
  unfold Qdiv at 1 2. apply Qmult_le_compat_r; [|apply Qlt_le_weak, Qinv_lt_0_compat; auto].
  unfold centre. apply Qmult_le_compat_r; [|lra].
  assert (qn i <= qn j) by (unfold qn; rewrite <- Zle_Qle; lia). lra.
Qed.
Lemma rebin_pos_nonneg mx mx' n n' i : 0 < mx -> 0 < mx' -> (0 < n)%nat -> (0 < n')%nat -> (0 <= rebin_pos mx mx' n n' i)%Z.
Proof.
  intros h1 h2 h3 h4. rewrite rebin_posE by auto. change 0%Z with (Qfloor 0). apply Qfloor_resp_le.
  pose proof (qn_pos _ h3); pose proof (qn_pos _ h4).
  assert (0 < mx' / qn n') by (apply Qlt_shift_div_l; lra).
  assert (0 < mx / qn n) by (apply Qlt_shift_div_l; lra).
  apply Qle_shift_div_l; auto. unfold centre.
  assert (0 <= qn i) by (unfold qn; change 0 with (inject_Z 0); rewrite <- Zle_Qle; lia).
  rewrite Qmult_0_l. apply Qmult_le_0_compat; lra.
Qed.

Lemma bin_total_late mx mx' n n' p i arr : 0 < mx -> 0 < mx' -> (0 < n)%nat -> (0 < n')%nat ->
  (Z.of_nat p < rebin_pos mx mx' n n' i)%Z -> bin_total mx mx' n n' p i arr == 0.
Proof.
  intros h1 h2 h3 h4; revert i; induction arr as [|a arr IH]; intros i hp; cbn [bin_total]; [reflexivity|].
  rewrite <- rebin_posE by auto. destruct (Z.eqb_spec (rebin_pos mx mx' n n' i) (Z.of_nat p)) as [e|_]; [lia|].
  rewrite IH; [ring|]. pose proof (rebin_pos_mono mx mx' n n' i (S i) h1 h2 h3 h4 ltac:(lia)). lia.
Qed.
Lemma rebin_loopE mx mx' n n' p : 0 < mx -> 0 < mx' -> (0 < n)%nat -> (0 < n')%nat -> (p < n')%nat ->
  forall arr i acc, length acc = n' ->
  length (rebin_loop mx mx' n n' i arr acc) = n' /\
  nth p (rebin_loop mx mx' n n' i arr acc) 0 == nth p acc 0 + bin_total mx mx' n n' p i arr.
Proof.
  intros h1 h2 h3 h4 h5 arr; induction arr as [|a arr IH]; intros i acc hl; cbn [rebin_loop].
  - simpl. split; [exact hl|ring].
  - cbn [bin_total]. rewrite <- rebin_posE by auto. pose proof (rebin_pos_nonneg mx mx' n n' i h1 h2 h3 h4) as hp.
    set (pos := rebin_pos mx mx' n n' i) in *. cbv zeta.
    set (acc' := if _ && _ then _ else _).
    assert (L : length acc' = n') by (unfold acc'; destruct (_ && _); rewrite ?upd_length; auto).
    assert (V : nth p acc' 0 == nth p acc 0 + (if (pos =? Z.of_nat p)%Z then a else 0)).
    { unfold acc'. destruct (Z.leb_spec 0 pos); [|lia]. simpl. destruct (Z.ltb_spec pos (Z.of_nat n')).
      - rewrite nth_upd. replace (Nat.ltb p (length acc)) with true by (symmetry; apply Nat.ltb_lt; lia).
        rewrite andb_true_r. destruct (Nat.eqb_spec (Z.to_nat pos) p), (Z.eqb_spec pos (Z.of_nat p)); try lia; try ring; reflexivity.
      - destruct (Z.eqb_spec pos (Z.of_nat p)); [lia|ring]. }
    destruct (Z.ltb_spec (Z.of_nat n') pos) as [hb|hb].
    + split; [exact L|]. rewrite V. rewrite (bin_total_late mx mx' n n' p (S i) arr h1 h2 h3 h4); [ring|].
      pose proof (rebin_pos_mono mx mx' n n' i (S i) h1 h2 h3 h4 ltac:(lia)). fold pos in H. lia.
    + destruct (IH (S i) acc' L) as [I1 I2]. split; [exact I1|]. rewrite I2, V. ring.
Qed.

Theorem C37_rebin arr mx mx' n' p : 0 < mx -> 0 < mx' -> (0 < n')%nat -> (p < n')%nat ->
  length (rebin arr mx mx' n') = n' /\
  nth p (rebin arr mx mx' n') 0 == bin_total mx mx' (length arr) n' p 0 arr.
Proof.
  intros h1 h2 h3 h4. unfold rebin. destruct arr as [|a arr].
  - simpl. rewrite repeat_length. split; auto.
    destruct (nth_in_or_default p (repeat 0 n') 0) as [h|h]; [apply repeat_spec in h|]; rewrite h; reflexivity.
  - destruct (rebin_loopE mx mx' (length (a :: arr)) n' p h1 h2 ltac:(simpl; lia) h3 h4 (a :: arr) 0 (repeat 0 n') (repeat_length _ _)) as [A B].
    split; [exact A|]. rewrite B.
    replace (nth p (repeat 0 n') 0) with 0; [ring|].
    symmetry. destruct (nth_in_or_default p (repeat 0 n') 0) as [h|h]; auto. apply repeat_spec in h; auto.
Qed.

(** The total after rebinning is the total of the entries whose centre lies in the new range; in
    particular it is preserved when the range does not shrink. *)
Fixpoint covered (mx mx' : Q) (n i : nat) (arr : list Q) : Q :=
  match arr with [] => 0 | a :: r => (if qlt (centre mx n i) mx' then a else 0) + covered mx mx' n (S i) r end.
Lemma qsum_nth l : qsum l == qsum (map (fun p => nth p l 0) (seq 0 (length l))).
Proof. rewrite qsum_firstn by lia. now rewrite firstn_all. Qed.
Lemma qsum_map_add (f g : nat -> Q) l : qsum (map (fun p => f p + g p) l) == qsum (map f l) + qsum (map g l).
Proof. induction l; simpl; [ring|rewrite IHl; ring]. Qed.
Lemma qsum_map_eq (f g : nat -> Q) l : (forall p, In p l -> f p == g p) -> qsum (map f l) == qsum (map g l).
Proof. induction l; simpl; intro h; [reflexivity|]. rewrite (h a) by auto. rewrite IHl by auto. reflexivity. Qed.
Lemma qsum_select (z : Z) (a : Q) n : (0 <= z)%Z ->
  qsum (map (fun p => if (z =? Z.of_nat p)%Z then a else 0) (seq 0 n)) == if (z <? Z.of_nat n)%Z then a else 0.
Proof.
  intro hz. induction n as [|n IH]; [simpl; destruct (Z.ltb_spec z 0); [lia|reflexivity]|].
  rewrite seq_S, map_app, qsum_app, IH. cbn [map qsum plus].
  destruct (Z.ltb_spec z (Z.of_nat n)), (Z.eqb_spec z (Z.of_nat n)), (Z.ltb_spec z (Z.of_nat (S n))); try (exfalso; lia); ring.
Qed.
Lemma covered_pos mx mx' n n' i : 0 < mx -> 0 < mx' -> (0 < n)%nat -> (0 < n')%nat ->
  (Qfloor (centre mx n i / (mx' / qn n')) <? Z.of_nat n')%Z = qlt (centre mx n i) mx'.
Proof.
  intros h1 h2 h3 h4. pose proof (qn_pos _ h4) as hq.
  assert (hw : 0 < mx' / qn n') by (apply Qlt_shift_div_l; lra).
  assert (E : qn n' * (mx' / qn n') == mx') by (field; intro h0; rewrite h0 in *; lra).
  unfold qlt. destruct (Qle_bool mx' (centre mx n i)) eqn:F; cbn [negb].
  - apply Qle_bool_iff in F. apply Z.ltb_ge. rewrite <- (Qfloor_Z (Z.of_nat n')). apply Qfloor_resp_le.
    apply Qle_shift_div_l; auto. fold (qn n'). rewrite E. exact F.
  - apply Z.ltb_lt. assert (F' : centre mx n i < mx').
    { apply Qnot_le_lt. intro X. apply Qle_bool_iff in X. congruence. }
    rewrite Zlt_Qlt. eapply Qle_lt_trans; [apply Qfloor_le|]. apply Qlt_shift_div_r; auto. fold (qn n'). rewrite E. exact F'.
Qed.
Theorem C37_rebin_total arr mx mx' n' : 0 < mx -> 0 < mx' -> (0 < n')%nat ->
  qsum (rebin arr mx mx' n') == covered mx mx' (length arr) 0 arr /\
  (mx <= mx' -> qsum (rebin arr mx mx' n') == qsum arr).
Proof.
  intros h1 h2 h3.
  assert (A : qsum (rebin arr mx mx' n') == covered mx mx' (length arr) 0 arr).
  { rewrite qsum_nth. rewrite (proj1 (C37_rebin arr mx mx' n' 0 h1 h2 h3 h3)).
    rewrite (qsum_map_eq _ (fun p => bin_total mx mx' (length arr) n' p 0 arr)).
    2:{ intros p hp. apply in_seq in hp. apply C37_rebin; auto; lia. }
    assert (G : forall n r i, (r = [] \/ (0 < n)%nat) -> qsum (map (fun p => bin_total mx mx' n n' p i r) (seq 0 n')) == covered mx mx' n i r).
    { intros n r; induction r as [|a r IH]; intros i hn; cbn [bin_total covered].
      - clear. induction (seq 0 n'); simpl; [reflexivity|rewrite IHl; ring].
      - destruct hn as [hn|hn]; [discriminate|].
        rewrite qsum_map_add, IH, qsum_select by (auto; rewrite <- rebin_posE by auto; apply rebin_pos_nonneg; auto).
        rewrite covered_pos by auto. reflexivity. }
    apply G. destruct arr; [left; reflexivity|right; simpl; lia]. }
  split; [exact A|]. intro hle. rewrite A.
  assert (G : forall n r i, (i + length r <= n)%nat -> covered mx mx' n i r == qsum r).
  { intros n r; induction r as [|a r IH]; intros i hi; cbn [covered qsum length] in *; [reflexivity|].
    rewrite IH by lia. assert (hn : (0 < n)%nat) by lia. pose proof (qn_pos _ hn) as hq.
    assert (X : centre mx n i < mx').
    { unfold centre. eapply Qlt_le_trans; [|exact hle].
      setoid_replace ((qn i + (1 # 2)) * (mx / qn n)) with ((qn i + (1 # 2)) * mx / qn n) by (field; intro h0; rewrite h0 in *; lra).
      apply Qlt_shift_div_r; auto. rewrite (Qmult_comm mx). apply Qmult_lt_compat_r; auto.
      assert (qn i + 1 <= qn n). { rewrite <- qn_S. unfold qn; rewrite <- Zle_Qle; lia. } lra. }
    unfold qlt. destruct (Qle_bool mx' (centre mx n i)) eqn:F; cbn [negb]; [|reflexivity].
    apply Qle_bool_iff in F. lra. }
  apply G. lia.
Qed.
Print Assumptions C37_add_sample.
Print Assumptions C37_totals.
Print Assumptions C37_accepted_le_attempted.
Print Assumptions C37_rebin_blocks.
Print Assumptions C37_rebin.
Print Assumptions C37_rebin_total.
Example C37_instance :
  h_cnt (add_all (h_init 4 2) [(1 # 2, 1); (3 # 4, 0); (5, 1); (19 # 10, 1)]) = [0; 0 + 1 + 1; 0; 0 + 1] /\
  map Qred (rebin [1; 2; 3; 4] 2 1 2) = [1; 2] /\ map Qred (rebin [1; 2; 3; 4] 2 4 2) = [10; 0].
Proof. vm_compute. auto. Qed.

(* ---------------------------------------------------------------------- *)
(** ** C38: step sizes *)
Lemma best_ratio_counts mx cnt sum r : length cnt = length sum -> best_ratio mx cnt sum = Some r -> forall c, In c cnt -> 10 <= c.
Proof.
  revert mx sum; induction cnt as [|c cnt IH]; intros mx [|s sum] hl H x hx; try (simpl in *; (contradiction || discriminate)).
  cbn [best_ratio] in H. simpl in hx.
  unfold qlt in H. destruct (Qle_bool 10 c) eqn:E; cbn [negb] in H; [|discriminate].
  destruct hx as [<-|hx]; [apply Qle_bool_iff; exact E|]. injection hl as hl. exact (IH _ _ hl H x hx).
Qed.
Lemma bin_total_hit mx mx' n n' p arr i : ~ bin_total mx mx' n n' p i arr == 0 ->
  exists j, (i <= j < i + length arr)%nat /\ Qfloor (centre mx n j / (mx' / qn n')) = Z.of_nat p.
Proof.
  revert i; induction arr as [|a arr IH]; intros i H; cbn [bin_total] in H; [exfalso; apply H; reflexivity|].
  destruct (Z.eqb_spec (Qfloor (centre mx n i / (mx' / qn n'))) (Z.of_nat p)) as [e|ne].
  - exists i. simpl. split; [lia|exact e].
  - destruct (IH (S i)) as (j & hj & e); [intro X; apply H; rewrite X; ring|]. exists j. simpl. split; [lia|exact e].
Qed.
Lemma rebin_length arr mx mx' n' : 0 < mx -> 0 < mx' -> (0 < n')%nat -> length (rebin arr mx mx' n') = n'.
Proof. intros. apply (C37_rebin arr mx mx' n' 0); auto. Qed.

(** The histogram of shift distances up to [mx]; 7/5 mx = 21/20 * 4/3 mx is the largest step size it allows. *)
Lemma cutoff_bounds h ratio : 0 < h_max h -> forall fuel md, 0 < md <= (7 # 5) * h_max h ->
  0 < snd (cutoff_loop fuel h ratio (21 # 20) md) <= (7 # 5) * h_max h.
Proof.
  intro hm. induction fuel as [|fuel IH]; intros md hmd; [exact hmd|]. cbn [cutoff_loop].
  destruct (best_ratio _ _ _) as [mx|] eqn:B; [|exact hmd].
  destruct (qlt mx 0); [exact hmd|].
  destruct (qlt _ ratio).
  { apply IH. split.
    - apply Qlt_shift_div_l; lra.
    - apply Qle_shift_div_r; lra. }
  destruct (qlt ratio _); [|apply IH; exact hmd].
  apply IH. split; [lra|].
  assert (C : 10 <= nth 3 (rebin (h_cnt h) (h_max h) md 4) 0).
  { eapply best_ratio_counts; [|exact B|].
    - rewrite !rebin_length by (lra || lia). reflexivity.
    - apply nth_In. rewrite rebin_length by (lra || lia). lia. }
  rewrite (proj2 (C37_rebin (h_cnt h) (h_max h) md 4 3 hm (proj1 hmd) ltac:(lia) ltac:(lia))) in C.
  destruct (bin_total_hit (h_max h) md (length (h_cnt h)) 4 3 (h_cnt h) 0) as (j & hj & e); [intro X; rewrite X in C; lra|].
  pose proof (Qfloor_le (centre (h_max h) (length (h_cnt h)) j / (md / qn 4))) as F. rewrite e in F.
  assert (hn : (0 < length (h_cnt h))%nat) by lia. pose proof (qn_pos _ hn) as hq.
  assert (X : centre (h_max h) (length (h_cnt h)) j < h_max h).
  { unfold centre.
    setoid_replace ((qn j + (1 # 2)) * (h_max h / qn (length (h_cnt h)))) with ((qn j + (1 # 2)) * h_max h / qn (length (h_cnt h))) by (field; intro h0; rewrite h0 in *; lra).
    apply Qlt_shift_div_r; auto. rewrite (Qmult_comm (h_max h)). apply Qmult_lt_compat_r; auto.
    assert (qn j + 1 <= qn (length (h_cnt h))). { rewrite <- qn_S. unfold qn; rewrite <- Zle_Qle; lia. } lra. }
  set (c := centre _ _ _) in *. clearbody c.
  change (qn 4) with 4 in F. change (inject_Z (Z.of_nat 3)) with 3 in F.
  assert (G : 3 * (md / 4) <= c).
  { setoid_replace c with (c / (md / 4) * (md / 4)) by (field; lra). apply Qmult_le_compat_r; [exact F|].
    apply Qle_shift_div_l; lra. }
  assert (md / 4 == md * (1 # 4)) by (field). lra.
Qed.

Definition cut_ok (mx : Q) (c : Q) : Prop := 0 < c <= (7 # 5) * mx.
Definition opt_ok (nb : nat) (mx : Q) (o : opt) : Prop :=
  o_nb o = nb /\ o_max o = mx /\ length (o_hist o) = length (o_cut o) /\
  (forall h, In h (o_hist o) -> h_max h = mx) /\ (forall c, In c (o_cut o) -> cut_ok mx c).
Lemma In_upd {A} (f : A -> A) i l x : In x (upd f i l) -> In x l \/ exists y, In y l /\ x = f y.
Proof.
  revert i; induction l as [|a l IH]; intros [|i] H; simpl in *; try tauto.
  - destruct H as [<-|H]; [right; exists a; auto|auto].
  - destruct H as [<-|H]; [auto|]. destruct (IH _ H) as [?|(y & ? & ?)]; [auto|right; exists y; auto].
Qed.
Lemma add_ok nb mx o d v f : opt_ok nb mx o -> opt_ok nb mx (o_add o d v f).
Proof.
  intros (a & b & c & e & g). unfold opt_ok, o_add; simpl. rewrite upd_length. repeat (split; [assumption|]).
  split; [|exact g]. intros h H. destruct (In_upd _ _ _ _ H) as [?|(y & hy & ->)]; [auto|].
  unfold add_sample. destruct (_ && _); simpl; auto.
Qed.
Lemma reset_ok nb mx o : opt_ok nb mx o -> opt_ok nb mx (o_reset o).
Proof.
  intros (a & b & c & e & g). unfold opt_ok, o_reset; simpl. rewrite map_length. repeat (split; [assumption|]).
  split; [|exact g]. intros h H. apply in_map_iff in H as (y & <- & hy). simpl; auto.
Qed.
Lemma qmax_spec x y : (x <= qmax x y /\ y <= qmax x y) /\ (qmax x y = x \/ qmax x y = y).
Proof.
  unfold qmax. destruct (Qle_bool x y) eqn:E.
  - apply Qle_bool_iff in E. repeat split; auto; lra.
  - assert (~ x <= y) by (intro H; apply Qle_bool_iff in H; congruence). repeat split; auto; lra.
Qed.
Lemma max_elem_in l : l <> [] -> In (max_elem l) l /\ forall x, In x l -> x <= max_elem l.
Proof.
  destruct l as [|a l]; [congruence|]. intros _. simpl.
  assert (G : forall l a, (fold_left qmax l a = a \/ In (fold_left qmax l a) l) /\ a <= fold_left qmax l a /\ forall x, In x l -> x <= fold_left qmax l a).
  { clear. induction l as [|b l IH]; intro a; simpl; [split; [auto|split; [lra|tauto]]|].
    destruct (IH (qmax a b)) as (I1 & I2 & I3). destruct (qmax_spec a b) as ((M1 & M2) & M3). split; [|split].
    - destruct I1 as [I1|I1]; [|auto]. rewrite I1. destruct M3 as [->| ->]; auto.
    - lra.
    - intros x [<-|hx]; [lra|auto]. }
  destruct (G l a) as (A & B & C). split; [destruct A as [A|A]; [left; symmetry; exact A|right; exact A]|]. intros x [<-|hx]; auto.
Qed.
Lemma update_ok nb mx o ratio : (0 < nb)%nat -> 0 < mx -> opt_ok nb mx o -> o_cut o <> [] ->
  opt_ok nb mx (fst (o_update o ratio (21 # 20))) /\ length (o_cut (fst (o_update o ratio (21 # 20)))) = length (o_cut o) /\
  mx / qn nb <= snd (o_update o ratio (21 # 20)) <= (7 # 5) * mx.
Proof.
  intros hn hm (a & b & c & e & g) ne.
  assert (L : length (new_cuts ratio (21 # 20) (o_hist o) (o_cut o)) = length (o_cut o)).
  { unfold new_cuts. rewrite map_length, combine_length, c. lia. }
  assert (K : forall x, In x (new_cuts ratio (21 # 20) (o_hist o) (o_cut o)) -> cut_ok mx x).
  { intros x hx. apply in_map_iff in hx as ([h y] & <- & hy). simpl.
    pose proof (e h (in_combine_l _ _ _ _ hy)) as eh. pose proof (g y (in_combine_r _ _ _ _ hy)) as gy.
    unfold cut_ok, h_update_cutoff in *. rewrite <- eh in *. apply cutoff_bounds; assumption. }
  unfold o_update; cbn [fst snd]. split; [|split].
  - unfold opt_ok; cbn [o_nb o_max o_hist o_cut]. rewrite L. repeat (split; [assumption|]). exact K.
  - cbn [o_cut]. exact L.
  - rewrite a, b. destruct (qmax_spec (max_elem (new_cuts ratio (21 # 20) (o_hist o) (o_cut o))) (mx / qn nb)) as ((M1 & M2) & M3).
    split; [exact M2|]. destruct M3 as [-> | ->].
    + destruct (max_elem_in (new_cuts ratio (21 # 20) (o_hist o) (o_cut o))) as [I _].
      { intro X. rewrite X in L. simpl in L. destruct (o_cut o); [congruence|discriminate]. }
      apply K in I. destruct I; auto.
    + pose proof (qn_pos _ hn). apply Qle_shift_div_r; auto.
      assert (1 <= qn nb) by (unfold qn; change 1 with (inject_Z 1); rewrite <- Zle_Qle; lia).
      setoid_replace mx with (mx * 1) at 1 by ring. setoid_replace ((7#5) * mx * qn nb) with (mx * ((7 # 5) * qn nb)) by ring.
      apply Qmult_le_l; auto. lra.
Qed.

Definition dist_ok (nb : nat) (mx d : Q) : Prop := mx / qn nb <= d <= (7 # 5) * mx.
Definition sim_ok (nb : nat) (mx : Q) (fl : nat) (st : bool * shift) : Prop :=
  length (s_dist (snd st)) = fl /\ length (o_cut (s_opt (snd st))) = fl /\ opt_ok nb mx (s_opt (snd st)) /\
  forall d, In d (s_dist (snd st)) -> dist_ok nb mx d.

Lemma params_ok nb mx : (0 < nb)%nat -> 0 < mx -> forall n o, opt_ok nb mx o -> o_cut o <> [] ->
  let r := shift_params n o in
  length (fst r) = n /\ opt_ok nb mx (snd r) /\ length (o_cut (snd r)) = length (o_cut o) /\ forall d, In d (fst r) -> dist_ok nb mx d.
Proof.
  intros hn hm. induction n as [|n IH]; intros o ho ne; cbv zeta; cbn [shift_params].
  - simpl. split; [reflexivity|]. split; [exact ho|]. split; [reflexivity|]. intros d [].
  - destruct (update_ok nb mx o (1 # 100) hn hm ho ne) as (U1 & U2 & U3).
    destruct (o_update o (1 # 100) (21 # 20)) as [o1 d]. cbn [fst snd] in *.
    assert (ne1 : o_cut o1 <> []) by (intro X; rewrite X in U2; destruct (o_cut o); [congruence|discriminate]).
    specialize (IH o1 U1 ne1). cbv zeta in IH. destruct (shift_params n o1) as [ds o2]. cbn [fst snd] in *.
    destruct IH as (I1 & I2 & I3 & I4). simpl. split; [lia|]. split; [exact I2|]. split; [lia|].
    intros x [<-|H]; [exact U3|exact (I4 _ H)].
Qed.

(** In every state of a run all step sizes lie in [mx/num_bins, 7/5 mx], mx = beta/2; the same for the
    value handed to the worm mover. *)
Theorem C38_bounds beta nb fl es : 0 < beta -> (0 < nb)%nat -> (0 < fl)%nat ->
  let s := snd (shift_run (false, shift_init beta fl nb) es) in
  length (s_dist s) = fl /\ forall d, In d (s_dist s) -> (beta / 2) / qn nb <= d <= (7 # 5) * (beta / 2).
Proof.
  intros hb hn hf. set (mx := beta / 2).
  assert (hm : 0 < mx) by (unfold mx; apply Qlt_shift_div_l; lra).
  assert (c0 : cut_ok mx mx) by (unfold cut_ok; lra).
  assert (d0 : dist_ok nb mx mx).
  { unfold dist_ok. pose proof (qn_pos _ hn). split; [|lra]. apply Qle_shift_div_r; auto.
    assert (1 <= qn nb) by (unfold qn; change 1 with (inject_Z 1); rewrite <- Zle_Qle; lia).
    setoid_replace mx with (mx * 1) at 1 by ring. apply Qmult_le_l; auto. }
  assert (I0 : sim_ok nb mx fl (false, shift_init beta fl nb)).
  { unfold sim_ok, opt_ok, shift_init; simpl. rewrite !repeat_length. repeat (split; [reflexivity|]). split; [split; [reflexivity|]|].
    - split; [reflexivity|]. split; [reflexivity|]. split.
      + intros h H; apply repeat_spec in H; subst; reflexivity.
      + intros c H; apply repeat_spec in H; subst; exact c0.
    - intros d H; apply repeat_spec in H; subst; exact d0. }
  assert (G : forall es st, sim_ok nb mx fl st -> sim_ok nb mx fl (shift_run st es)).
  { clear - hm hn hf. induction es as [|e es IH]; intros st H; [exact H|]. simpl. apply IH.
    destruct st as [th s]. destruct H as (H1 & H2 & H3 & H4). simpl in H1, H2, H3, H4. destruct e; simpl.
    - unfold sim_ok; simpl. repeat (split; [assumption|]). split; [apply add_ok; exact H3|exact H4].
    - destruct th; [unfold sim_ok; simpl; auto|].
      assert (ne : o_cut (s_opt s) <> []) by (intro X; rewrite X in H2; simpl in H2; lia).
      pose proof (params_ok nb mx hn hm (length (s_dist s)) (s_opt s) H3 ne) as P. cbv zeta in P.
      unfold shift_update. destruct (shift_params (length (s_dist s)) (s_opt s)) as [ds o]. cbn [fst snd] in P.
      destruct P as (P1 & P2 & P3 & P4). unfold sim_ok; simpl. split; [lia|]. split; [lia|]. split; [exact P2|exact P4].
    - unfold sim_ok; simpl. repeat (split; [assumption|]). split; [apply reset_ok; exact H3|exact H4].
    - unfold sim_ok; simpl; auto. }
  destruct (G es _ I0) as (A & _ & _ & B). cbv zeta. split; [exact A|exact B].
Qed.
Theorem C38_mover beta nb o : 0 < beta -> (0 < nb)%nat -> opt_ok nb (beta / 2) o -> o_cut o <> [] ->
  opt_ok nb (beta / 2) (fst (mover_update o)) /\ (beta / 2) / qn nb <= snd (mover_update o) <= (7 # 5) * (beta / 2).
Proof.
  intros hb hn ho ne. destruct (update_ok nb (beta / 2) o (1 # 10) hn) as (A & B & C); auto.
  apply Qlt_shift_div_l; lra.
Qed.

(** After thermalization the step sizes never change again. *)
Theorem C38_constant s es : s_dist (snd (shift_run (true, s) es)) = s_dist s.
Proof.
  assert (G : forall es s, exists s', shift_run (true, s) es = (true, s') /\ s_dist s' = s_dist s).
  { clear. induction es as [|e es IH]; intro s; [exists s; auto|].
    unfold shift_run in *; simpl. destruct e; simpl.
    - destruct (IH (shift_sample s d accepted f)) as (s' & A & B). exists s'; split; [exact A|rewrite B; reflexivity].
    - apply IH.
    - destruct (IH (shift_reset s)) as (s' & A & B). exists s'; split; [exact A|rewrite B; reflexivity].
    - apply IH. }
  destruct (G es s) as (s' & -> & B). exact B.
Qed.
Print Assumptions C38_bounds.
Print Assumptions C38_mover.
Print Assumptions C38_constant.

(** A run that changes the step sizes, differently for the two flavors (see C15). *)
Definition ex_samples : list ev :=
  flat_map (fun p => repeat (EvSample ((qn (fst p) + (1 # 2)) / 32) (snd p) 0) 10)
    [(0, true); (8, false); (14, false); (16, false); (18, false); (24, false)]%nat
  ++ flat_map (fun p => repeat (EvSample ((qn (fst p) + (1 # 2)) / 32) (snd p) 1) 10)
    [(0, true); (8, false); (14, false); (16, false); (18, false); (24, false)]%nat.
Example C38_instance :
  map Qred (s_dist (snd (shift_run (false, shift_init 2 2 32) (ex_samples ++ [EvUpdate])))) =
  [Qred ((20 # 21) ^ 10); Qred ((20 # 21) ^ 11)].
Proof. vm_compute. reflexivity. Qed.

(* ---------------------------------------------------------------------- *)
(** ** C39: thermalization checker *)
Theorem C39_monotone t es : tc_done t = true -> tc_run t es = t.
Proof.
  intro h. induction es as [|e es IH]; [reflexivity|]. unfold tc_run in *; simpl.
  replace (tc_step t e) with t; [exact IH|]. destruct e; simpl; unfold tc_add, tc_update; rewrite h; reflexivity.
Qed.
Theorem C39_by_max mx es steps : (mx <= steps)%Z -> tc_done (tc_update (tc_run (tc_init mx) es) steps) = true.
Proof.
  intro h. assert (G : forall es t, tc_max (tc_run t es) = tc_max t).
  { clear. induction es as [|e es IH]; intro t; [reflexivity|]. simpl. rewrite IH.
    destruct e; simpl; unfold tc_add, tc_update;
      repeat match goal with |- context [if ?b then _ else _] => destruct b end; reflexivity. }
  unfold tc_update. destruct (tc_done (tc_run (tc_init mx) es)) eqn:E; [exact E|].
  rewrite G. simpl. apply Z.leb_le in h. rewrite h. reflexivity.
Qed.
(** The number of steps is available from the declaration on, never before, and does not change any more. *)
Theorem C39_available mx es es' :
  (tc_get (tc_run (tc_init mx) es) = None <-> tc_done (tc_run (tc_init mx) es) = false) /\
  (forall a, tc_get (tc_run (tc_init mx) es) = Some a -> tc_get (tc_run (tc_init mx) (es ++ es')) = Some a).
Proof.
  split.
  - unfold tc_get. destruct (tc_done _); split; congruence.
  - intros a H. unfold tc_run at 1. rewrite fold_left_app. fold (tc_run (tc_init mx) es).
    change (fold_left tc_step es' ?t) with (tc_run t es').
    rewrite C39_monotone; [exact H|]. unfold tc_get in H. destruct (tc_done _); congruence.
Qed.
(** It is positive and not larger than the step at which thermalization was declared, if steps are. *)
Theorem C39_value t steps a : tc_done t = false -> (0 < steps)%Z ->
  tc_get (tc_update t steps) = Some a -> (0 < a <= steps)%Z.
Proof.
  intros h hs H. unfold tc_update in H. rewrite h in H.
  destruct (Z.leb_spec (tc_max t) steps); [injection H as <-; lia|].
  destruct (Z.ltb_spec 0 (tc_actual t)).
  - destruct (Z.ltb_spec steps (tc_actual t)); unfold tc_get in H; simpl in H; [rewrite h in H; discriminate|]. injection H as <-; lia.
  - unfold tc_get in H. destruct (_ <? 10000)%Z; [rewrite h in H; discriminate|].
    destruct (tc_flat (tc_series t)); simpl in H; try rewrite h in H; discriminate.
Qed.
(** Without the time limit it is declared only after an actual number of steps was set from at least
    10000 samples whose second half is flat. *)
Theorem C39_needs_samples t steps : tc_done t = false -> (steps < tc_max t)%Z -> (tc_actual t <= 0)%Z ->
  tc_done (tc_update t steps) = false /\
  (tc_actual (tc_update t steps) <> tc_actual t -> (10000 <= Z.of_nat (length (tc_series t)))%Z /\ tc_flat (tc_series t) = true).
Proof.
  intros h hs ha. unfold tc_update. rewrite h.
  destruct (Z.leb_spec (tc_max t) steps); [lia|]. destruct (Z.ltb_spec 0 (tc_actual t)); [lia|].
  destruct (Z.ltb_spec (Z.of_nat (length (tc_series t))) 10000) as [hl|hl]; [tauto|].
  destruct (tc_flat (tc_series t)) eqn:F; simpl; (split; [auto|intro; try congruence; auto]).
Qed.
Print Assumptions C39_monotone.
Print Assumptions C39_by_max.
Print Assumptions C39_available.
Print Assumptions C39_value.
Print Assumptions C39_needs_samples.
Example C39_instance :
  tc_get (tc_run (tc_init 100) [TAdd 1; TUpdate 5; TUpdate 99]) = None /\
  tc_get (tc_run (tc_init 100) [TAdd 1; TUpdate 5; TUpdate 101; TUpdate 200]) = Some 101%Z.
Proof. vm_compute. auto. Qed.

(** PertOrderRecorder keeps the last [mx] entries. *)
Theorem C39_recorder mx xs : (0 < mx)%nat -> fold_left (rec_push mx) xs [] = skipn (length xs - mx) xs.
Proof.
  intro hm. induction xs as [|x xs IH] using rev_ind; [reflexivity|].
  rewrite fold_left_app, IH. simpl. unfold rec_push.
  rewrite app_length, skipn_length, app_length. simpl.
  destruct (Nat.ltb_spec mx (length xs - (length xs - mx) + 1)).
  - replace (length xs + 1 - mx)%nat with (S (length xs - mx)) by lia.
    rewrite skipn_app. replace (S (length xs - mx) - length xs)%nat with 0%nat by lia. simpl (skipn 0 _).
    assert (hl : (length xs - mx < length xs)%nat) by lia. revert hl. generalize (length xs - mx)%nat as k. clear.
    induction xs as [|y xs IH]; intros k hk; simpl in *; [lia|]. destruct k; [reflexivity|]. simpl. apply IH; lia.
  - replace (length xs - mx)%nat with 0%nat by lia. replace (length xs + 1 - mx)%nat with 0%nat by lia. reflexivity.
Qed.
Print Assumptions C39_recorder.
