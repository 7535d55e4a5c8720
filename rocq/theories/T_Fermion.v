(** * C28: canonical anticommutation relations *)
From Coq Require Import Arith ZArith List Bool Lia.
From Verif Require Import Fermion.
Import ListNotations.
Open Scope Z_scope.

(** ** Bits *)
Lemma lt_pow2_bits a n : (a < 2 ^ n)%nat <-> forall k, (n <= k)%nat -> Nat.testbit a k = false.
Proof.
  split.
  - intros h k hk. rewrite <- (Nat.mod_small a (2 ^ n)) by exact h. apply Nat.mod_pow2_bits_high. exact hk.
  - intros h. assert (e : (a mod 2 ^ n)%nat = a).
    { apply Nat.bits_inj. intros k. destruct (le_lt_dec n k) as [hk|hk].
      - rewrite Nat.mod_pow2_bits_high by exact hk. symmetry. now apply h.
      - now rewrite Nat.mod_pow2_bits_low. }
    rewrite <- e. apply Nat.mod_upper_bound. apply Nat.pow_nonzero. discriminate.
Qed.

(** A state with one occupation flipped. *)
Definition flip (s i : nat) : nat := Nat.lxor s (2 ^ i).
Lemma flip_bit s i k : Nat.testbit (flip s i) k = xorb (Nat.testbit s k) (Nat.eqb i k).
Proof. unfold flip. now rewrite Nat.lxor_spec, Nat.pow2_bits_eqb. Qed.
Lemma flip_lt n s i : (i < n)%nat -> (s < 2 ^ n)%nat -> (flip s i < 2 ^ n)%nat.
Proof.
  intros hi hs. apply lt_pow2_bits. intros k hk. rewrite flip_bit.
  rewrite (proj1 (lt_pow2_bits s n) hs) by exact hk. destruct (Nat.eqb_spec i k); [lia|reflexivity].
Qed.
Lemma flip_flip s i : flip (flip s i) i = s.
Proof. apply Nat.bits_inj. intros k. rewrite !flip_bit. now rewrite xorb_assoc, xorb_nilpotent, xorb_false_r. Qed.
Lemma flip_comm s i j : flip (flip s i) j = flip (flip s j) i.
Proof. apply Nat.bits_inj. intros k. rewrite !flip_bit, !xorb_assoc. f_equal. apply xorb_comm. Qed.
Lemma flip_inj s t i : flip s i = t <-> s = flip t i.
Proof. split; [intros <-|intros ->]; now rewrite flip_flip. Qed.

(** ** Specification: the sign of an operator is the parity of the occupations of the higher orbitals. *)
Fixpoint count_above (n i : nat) (s : nat) : nat :=
  match n with
  | O => O
  | S m => count_above m i s + (if (i <? m)%nat && Nat.testbit s m then 1 else 0)
  end.
Definition sgn (n i s : nat) : Z := if Nat.even (count_above n i s) then 1 else -1.

Lemma sgn_sq n i s : sgn n i s * sgn n i s = 1.
Proof. unfold sgn. now destruct (Nat.even _). Qed.
Lemma sgn_S n i s : sgn (S n) i s = (if (i <? n)%nat && Nat.testbit s n then - sgn n i s else sgn n i s).
Proof.
  unfold sgn. cbn [count_above]. destruct ((i <? n)%nat && Nat.testbit s n).
  - rewrite Nat.even_add. change (Nat.even 1) with false. now destruct (Nat.even (count_above n i s)).
  - now rewrite Nat.add_0_r.
Qed.
Lemma sgn_flip n i s j : (j < n)%nat -> sgn n i (flip s j) = (if (i <? j)%nat then - sgn n i s else sgn n i s).
Proof.
  assert (low : forall m, (m <= j)%nat -> sgn m i (flip s j) = sgn m i s).
  { induction m as [|m IH]; intros hm; [reflexivity|]. rewrite !sgn_S, flip_bit, IH by lia.
    destruct (Nat.eqb_spec j m); [lia|]. now rewrite xorb_false_r. }
  induction n as [|n IH]; intros hj; [lia|]. rewrite !sgn_S, flip_bit.
  destruct (Nat.eqb_spec j n) as [->|ne].
  - rewrite low by lia. destruct (Nat.ltb_spec i n); cbn [andb]; [|reflexivity].
    destruct (Nat.testbit s n); cbn [xorb]; lia.
  - rewrite xorb_false_r, IH by lia. destruct ((i <? j)%nat), ((i <? n)%nat && Nat.testbit s n); lia.
Qed.

Lemma perm_sign_sgn n i s : (i < n)%nat -> perm_sign n i s = sgn n i s.
Proof.
  intros hi. unfold perm_sign.
  assert (base : sgn (S i) i s = 1).
  { assert (z : forall m, (m <= S i)%nat -> sgn m i s = 1).
    { induction m as [|m IH]; intros hm; [reflexivity|]. rewrite sgn_S, IH by lia.
      destruct (Nat.ltb_spec i m); [lia|reflexivity]. }
    now apply z. }
  assert (gen : forall m, fold_left (fun z k => if Nat.testbit s k then Z.mul z (-1) else z) (seq (S i) m) 1 = sgn (S i + m) i s).
  { induction m as [|m IH]; [now rewrite Nat.add_0_r, base|].
    rewrite seq_S, fold_left_app, IH, Nat.add_succ_r, sgn_S. cbn [fold_left].
    destruct (Nat.ltb_spec i (S i + m)); [|lia]. cbn [andb]. destruct (Nat.testbit s (S i + m)); lia. }
  rewrite gen. now replace (S i + (n - S i))%nat with n by lia.
Qed.

(** ** Entries of the generated matrices *)
Lemma entry_app ts us r c : entry (ts ++ us) r c = entry ts r c + entry us r c.
Proof.
  unfold entry. rewrite fold_left_app.
  assert (gen : forall vs x, fold_left (fun s (t : triplet) => match t with (r', c', v) => if (r' =? r)%nat && (c' =? c)%nat then Z.add s v else s end) vs x
    = x + fold_left (fun s (t : triplet) => match t with (r', c', v) => if (r' =? r)%nat && (c' =? c)%nat then Z.add s v else s end) vs 0).
  { induction vs as [|[[r' c'] v] vs IH]; intros x; cbn [fold_left]; [lia|].
    destruct (_ && _); [rewrite IH, (IH (0 + v)); lia|apply IH]. }
  apply gen.
Qed.

Lemma c_op_entry n i r c : (i < n)%nat -> (r < 2 ^ n)%nat ->
  c_op n i r c = if Nat.testbit r i && (flip r i =? c)%nat then sgn n i r else 0.
Proof.
  intros hi hr. unfold c_op, c_triplets.
  assert (gen : forall m, entry (flat_map (fun source => if Nat.testbit source i
      then [(source, Nat.lxor source (orbital_mask i), perm_sign n i source)] else []) (seq 0 m)) r c
    = if (r <? m)%nat && (Nat.testbit r i && (flip r i =? c)%nat) then sgn n i r else 0).
  { induction m as [|m IH]; [reflexivity|]. rewrite seq_S, flat_map_app, entry_app, IH. cbn [flat_map Nat.add app].
    rewrite app_nil_r. destruct (Nat.ltb_spec r m) as [h|h]; cbn [andb].
    - destruct (Nat.ltb_spec r (S m)); [|lia]. cbn [andb].
      destruct (Nat.testbit m i); cbn [entry fold_left]; unfold entry; cbn [fold_left]; [|lia].
      destruct (Nat.eqb_spec m r); [lia|]. cbn [andb]. lia.
    - destruct (Nat.ltb_spec r (S m)) as [h1|h1]; cbn [andb].
      + assert (m = r) by lia. subst m. destruct (Nat.testbit r i); unfold entry; cbn [fold_left andb]; [|reflexivity].
        rewrite Nat.eqb_refl. cbn [andb]. fold (flip r i). unfold orbital_mask. fold (flip r i).
        destruct (flip r i =? c)%nat; [rewrite perm_sign_sgn by exact hi; lia|reflexivity].
      + destruct (Nat.testbit m i); unfold entry; cbn [fold_left]; [|reflexivity].
        destruct (Nat.eqb_spec m r); [lia|reflexivity]. }
  rewrite gen. destruct (Nat.ltb_spec r (2 ^ n)); [reflexivity|lia].
Qed.

(** ** Products *)
Lemma msum_single d k0 f : (k0 < d)%nat -> (forall k, (k < d)%nat -> k <> k0 -> f k = 0) -> msum d f = f k0.
Proof.
  unfold msum. intros hk.
  assert (gen : forall m, (forall k, (k < m)%nat -> k <> k0 -> f k = 0) ->
    fold_left (fun s k => Z.add s (f k)) (seq 0 m) 0 = if (k0 <? m)%nat then f k0 else 0).
  { induction m as [|m IH]; intros h; [reflexivity|]. rewrite seq_S, fold_left_app, IH by (intros; apply h; lia).
    cbn [fold_left Nat.add]. destruct (Nat.ltb_spec k0 m), (Nat.ltb_spec k0 (S m)); try lia.
    - rewrite (h m); lia.
    - replace m with k0 by lia. lia.
    - rewrite (h m); lia. }
  intros h. rewrite gen by exact h. destruct (Nat.ltb_spec k0 d); [reflexivity|lia].
Qed.
Lemma msum_zero d f : (forall k, (k < d)%nat -> f k = 0) -> msum d f = 0.
Proof.
  unfold msum. induction d as [|d IH]; intros h; [reflexivity|]. rewrite seq_S, fold_left_app, IH by (intros; apply h; lia).
  cbn [fold_left Nat.add]. rewrite h; lia.
Qed.

Lemma eqb_flip a b i : (flip a i =? b)%nat = (a =? flip b i)%nat.
Proof.
  destruct (Nat.eqb_spec (flip a i) b) as [e|ne]; destruct (Nat.eqb_spec a (flip b i)) as [e'|ne']; try reflexivity; exfalso.
  - apply ne'. now apply flip_inj.
  - apply ne. now apply flip_inj.
Qed.

Section Car.
Variable n : nat.
Notation d := (2 ^ n)%nat.

Lemma cc_entry i j r t : (i < n)%nat -> (j < n)%nat -> (r < d)%nat ->
  mmul d (c_op n i) (c_op n j) r t =
  if Nat.testbit r i && (Nat.testbit (flip r i) j && (flip (flip r i) j =? t)%nat) then sgn n i r * sgn n j (flip r i) else 0.
Proof.
  intros hi hj hr. unfold mmul.
  rewrite (msum_single d (flip r i)); [|now apply flip_lt|].
  - rewrite (c_op_entry n i r _ hi hr), Nat.eqb_refl, (c_op_entry n j _ t hj) by now apply flip_lt.
    rewrite andb_true_r. destruct (Nat.testbit r i); cbn [andb]; [|lia].
    destruct (_ && _); lia.
  - intros k hk ne. rewrite (c_op_entry n i r k hi hr).
    destruct (Nat.eqb_spec (flip r i) k); [congruence|]. rewrite andb_false_r. lia.
Qed.

(** {c_i, c_j} = 0 *)
Lemma car_cc i j r t : (i < n)%nat -> (j < n)%nat -> (r < d)%nat -> anti_commutator d (c_op n i) (c_op n j) r t = 0.
Proof.
  intros hi hj hr. unfold anti_commutator. rewrite !cc_entry by assumption.
  rewrite (flip_comm r j i). rewrite !flip_bit.
  destruct (Nat.eqb_spec i j) as [e|ne].
  - subst j. rewrite Nat.eqb_refl. now destruct (Nat.testbit r i).
  - destruct (Nat.eqb_spec j i); [congruence|]. rewrite !xorb_false_r.
    rewrite !(sgn_flip n) by assumption.
    destruct (Nat.testbit r i), (Nat.testbit r j), (flip (flip r i) j =? t)%nat; cbn [andb]; try lia.
    destruct (Nat.ltb_spec j i), (Nat.ltb_spec i j); lia.
Qed.

Lemma msum_ext m f g : (forall k, (k < m)%nat -> f k = g k) -> msum m f = msum m g.
Proof.
  unfold msum. induction m as [|m IH]; intros h; [reflexivity|]. rewrite seq_S, !fold_left_app, IH by (intros; apply h; lia).
  cbn [fold_left Nat.add]. rewrite h; lia.
Qed.
Lemma mmul_transpose a b r t : mmul d (fun x y => a y x) (fun x y => b y x) r t = mmul d b a t r.
Proof. unfold mmul. apply msum_ext. intros. lia. Qed.

(** {c+_i, c+_j} = 0 *)
Lemma car_dd i j r t : (i < n)%nat -> (j < n)%nat -> (t < d)%nat -> anti_commutator d (cdag_op n i) (cdag_op n j) r t = 0.
Proof.
  intros hi hj ht. unfold anti_commutator, cdag_op.
  rewrite (mmul_transpose (c_op n i) (c_op n j)), (mmul_transpose (c_op n j) (c_op n i)), Z.add_comm.
  exact (car_cc i j t r hi hj ht).
Qed.

Lemma dc_entry i j r t : (i < n)%nat -> (j < n)%nat -> (r < d)%nat ->
  mmul d (cdag_op n i) (c_op n j) r t =
  if negb (Nat.testbit r i) && (Nat.testbit (flip r i) j && (flip (flip r i) j =? t)%nat) then sgn n i (flip r i) * sgn n j (flip r i) else 0.
Proof.
  intros hi hj hr. unfold mmul, cdag_op. pose proof (flip_lt n r i hi hr) as hf.
  rewrite (msum_single d (flip r i)); [|exact hf|].
  - rewrite (c_op_entry n i _ r hi hf), flip_flip, Nat.eqb_refl, (c_op_entry n j _ t hj hf).
    rewrite andb_true_r, (flip_bit r i i), Nat.eqb_refl, xorb_true_r. destruct (Nat.testbit r i); cbn [andb negb]; [lia|].
    destruct (_ && _); lia.
  - intros k hk ne. rewrite (c_op_entry n i k r hi hk), eqb_flip.
    destruct (Nat.eqb_spec k (flip r i)); [congruence|]. rewrite andb_false_r. lia.
Qed.
Lemma cd_entry i j r t : (i < n)%nat -> (j < n)%nat -> (r < d)%nat -> (t < d)%nat ->
  mmul d (c_op n j) (cdag_op n i) r t =
  if Nat.testbit r j && (Nat.testbit t i && (flip r j =? flip t i)%nat) then sgn n j r * sgn n i t else 0.
Proof.
  intros hi hj hr ht. unfold mmul, cdag_op. pose proof (flip_lt n r j hj hr) as hf.
  rewrite (msum_single d (flip r j)); [|exact hf|].
  - rewrite (c_op_entry n j r _ hj hr), Nat.eqb_refl, (c_op_entry n i t _ hi ht).
    rewrite andb_true_r, (Nat.eqb_sym (flip t i)). destruct (Nat.testbit r j); cbn [andb]; [|lia].
    destruct (_ && _); lia.
  - intros k hk ne. rewrite (c_op_entry n j r k hj hr).
    destruct (Nat.eqb_spec (flip r j) k); [congruence|]. rewrite andb_false_r. lia.
Qed.

(** {c+_i, c_j} = delta_ij *)
Lemma car_dc i j r t : (i < n)%nat -> (j < n)%nat -> (r < d)%nat -> (t < d)%nat ->
  anti_commutator d (cdag_op n i) (c_op n j) r t = if (i =? j)%nat && (r =? t)%nat then 1 else 0.
Proof.
  intros hi hj hr ht. unfold anti_commutator. rewrite dc_entry, cd_entry by assumption.
  rewrite <- (eqb_flip (flip r j) t i), (flip_comm r j i).
  destruct (Nat.eqb_spec (flip (flip r i) j) t) as [e|ne].
  - destruct (Nat.eqb_spec i j) as [eij|nij].
    + subst j. rewrite flip_flip in e. subst t. rewrite Nat.eqb_refl, flip_bit, Nat.eqb_refl, !andb_true_r, xorb_true_r.
      destruct (Nat.testbit r i); cbn [andb negb]; rewrite sgn_sq; reflexivity.
    + cbn [andb]. subst t. rewrite !flip_bit, !(sgn_flip n) by assumption. rewrite Nat.eqb_refl.
      destruct (Nat.eqb_spec i j); [congruence|]. destruct (Nat.eqb_spec j i); [congruence|].
      rewrite !xorb_false_r, !xorb_true_r, !andb_true_r, Nat.ltb_irrefl.
      destruct (Nat.testbit r i), (Nat.testbit r j); cbn [andb negb]; try lia.
      destruct (Nat.ltb_spec j i), (Nat.ltb_spec i j); lia.
  - rewrite !andb_false_r. destruct (Nat.eqb_spec i j) as [eij|nij]; [|reflexivity]. subst j. rewrite flip_flip in ne.
    destruct (Nat.eqb_spec r t); [congruence|reflexivity].
Qed.
End Car.

(** C28. For every number of orbitals and every pair of orbitals, on all pairs of Fock states. *)
Theorem C28_anticommutation n i j r t : (i < n)%nat -> (j < n)%nat -> (r < 2 ^ n)%nat -> (t < 2 ^ n)%nat ->
  anti_commutator (2 ^ n) (c_op n i) (c_op n j) r t = 0 /\
  anti_commutator (2 ^ n) (cdag_op n i) (cdag_op n j) r t = 0 /\
  anti_commutator (2 ^ n) (cdag_op n i) (c_op n j) r t = if (i =? j)%nat && (r =? t)%nat then 1 else 0.
Proof. intros. split; [|split]; [now apply car_cc|now apply car_dd|now apply car_dc]. Qed.
Print Assumptions C28_anticommutation.

(** C28. All entries are 0, 1 or -1, at most one per row, and the only nonzero ones flip orbital i. *)
Theorem C28_entries n i r t : (i < n)%nat -> (r < 2 ^ n)%nat -> (t < 2 ^ n)%nat ->
  (c_op n i r t = 0 \/ c_op n i r t = 1 \/ c_op n i r t = -1) /\
  (c_op n i r t <> 0 <-> Nat.testbit r i = true /\ t = Nat.lxor r (2 ^ i)) /\ cdag_op n i t r = c_op n i r t.
Proof.
  intros hi hr ht. split; [|split]; [| |reflexivity]; rewrite c_op_entry by assumption; unfold sgn.
  - destruct (_ && _); [|now left]. destruct (Nat.even _); [now right; left|now right; right].
  - destruct (Nat.testbit r i); cbn [andb]; [|split; [congruence|intros [? _]; discriminate]].
    destruct (Nat.eqb_spec (flip r i) t) as [e|ne].
    + split; [intros _; split; [reflexivity|now rewrite <- e]|]. intros _. destruct (Nat.even _); lia.
    + split; [congruence|]. intros [_ e]. now elim ne.
Qed.
Print Assumptions C28_entries.

(** C28. Rows are the states before annihilation, so as matrices acting on columns the generated c_i raise bit i:
    the number operator c+_i c_i is one exactly on the states with bit i clear. *)
Theorem C28_number_operator n i r t : (i < n)%nat -> (r < 2 ^ n)%nat -> (t < 2 ^ n)%nat ->
  mmul (2 ^ n) (cdag_op n i) (c_op n i) r t = if (r =? t)%nat && negb (Nat.testbit r i) then 1 else 0.
Proof.
  intros hi hr ht. rewrite dc_entry by assumption. rewrite flip_flip, flip_bit, Nat.eqb_refl, xorb_true_r, sgn_sq.
  destruct (Nat.testbit r i), (Nat.eqb r t); reflexivity.
Qed.
Print Assumptions C28_number_operator.

(** The norm used by the debug validation is the last stored entry, so a wrong anticommutator may pass it. *)
Theorem C28_validation_refuted : exists vals m, maxAbsCoeff vals = Some m /\ m <= 0 /\ In 5 vals.
Proof. exists [5; 0], 0. cbn. intuition lia. Qed.
Print Assumptions C28_validation_refuted.
Theorem C28_validation_last vals v : maxAbsCoeff (vals ++ [v]) = Some (Z.abs v).
Proof. unfold maxAbsCoeff. now rewrite fold_left_app. Qed.
Print Assumptions C28_validation_last.

(** Three orbitals: c_0 on state 7 crosses two occupied orbitals, on state 3 one. *)
Example C28_instance : (c_op 3 0 7 6 = 1%Z /\ c_op 3 0 3 2 = (-1)%Z /\ c_op 3 2 7 3 = 1%Z /\ c_op 3 1 5 7 = 0%Z /\
  0 < 3 /\ 7 < 2 ^ 3 /\ anti_commutator 8 (cdag_op 3 1) (c_op 3 1) 5 5 = 1%Z)%nat.
Proof. repeat split; try reflexivity; cbn; lia. Qed.
