(** * C25, C26: hybridization function *)
From Coq Require Import ZArith QArith Qround Qabs List Bool Lia Lqa Logic.FinFun.
From Verif Require Import Hyb.
Import ListNotations.
Local Open Scope Q_scope.

Definition qn (n : nat) : Q := inject_Z (Z.of_nat n).
Lemma qn_S n : qn (S n) == qn n + 1.
Proof. unfold qn. rewrite Nat2Z.inj_succ. unfold Z.succ. rewrite inject_Z_plus. reflexivity. Qed.
Lemma qn_le m n : (m <= n)%nat -> qn m <= qn n.
Proof. intros H. unfold qn. rewrite <- Zle_Qle. lia. Qed.
Lemma qn_lt m n : (m < n)%nat <-> qn m < qn n.
Proof. unfold qn. rewrite <- Zlt_Qlt. lia. Qed.
Lemma qn_minus m n : (m <= n)%nat -> qn (n - m) == qn n - qn m.
Proof. intros H. unfold qn. rewrite Nat2Z.inj_sub by exact H. unfold Zminus. rewrite inject_Z_plus, inject_Z_opp. reflexivity. Qed.

(** ** Specification: the polygon through the points (k beta/N, F_k) *)
Definition on_segment (row : list Q) (k : nat) (x v : Q) : Prop :=
  exists a b, nth_error row k = Some a /\ nth_error row (S k) = Some b /\
    0 <= x - qn k /\ x - qn k < 1 /\ v == (1 - (x - qn k)) * a + (x - qn k) * b.

Lemma interpolate_spec row N x : length row = S N -> 0 <= x -> x < qn N ->
  exists k v, interpolate row x = Some v /\ (k < N)%nat /\ k = Z.to_nat (Qfloor x) /\ on_segment row k x v.
Proof.
  intros HL H0 HN. set (k := Z.to_nat (Qfloor x)).
  assert (Hf : (0 <= Qfloor x)%Z).
  { change 0%Z with (Qfloor (inject_Z 0)). apply Qfloor_resp_le. exact H0. }
  assert (Hk : qn k == inject_Z (Qfloor x)).
  { unfold qn, k. rewrite Z2Nat.id by exact Hf. reflexivity. }
  pose proof (Qfloor_le x) as H1. pose proof (Qlt_floor x) as H2.
  rewrite inject_Z_plus in H2. change (inject_Z 1) with 1 in H2. rewrite <- Hk in H1, H2.
  assert (HkN : (k < N)%nat) by (apply qn_lt; lra).
  destruct (nth_error row k) as [a|] eqn:Ea; [|apply nth_error_None in Ea; lia].
  destruct (nth_error row (S k)) as [b|] eqn:Eb; [|apply nth_error_None in Eb; lia].
  exists k, (a + (x - qn k) * (b - a)). split; [|split; [exact HkN|split; [reflexivity|]]].
  - unfold interpolate. fold k. rewrite Ea, Eb. reflexivity.
  - exists a, b. repeat split; auto; try lra.
Qed.

Section Interp.
Variables (beta : Q) (N : nat) (row : list Q).
Hypothesis beta_pos : 0 < beta.
Hypothesis N_pos : (0 < N)%nat.
Hypothesis row_len : length row = S N.

(** position on the grid *)
Definition gridpos (t : Q) : Q := t / beta * qn N.
Lemma N_gt0 : 0 < qn N.
Proof. change 0 with (qn 0). apply qn_lt. exact N_pos. Qed.
Lemma gridpos_range t : 0 <= t -> t < beta -> 0 <= gridpos t /\ gridpos t < qn N.
Proof.
  intros H0 H1. pose proof N_gt0 as HN. unfold gridpos. split.
  - apply Qmult_le_0_compat; [|lra]. apply Qle_shift_div_l; lra.
  - rewrite <- (Qmult_1_l (qn N)) at 2. apply Qmult_lt_compat_r; [exact HN|]. apply Qlt_shift_div_r; lra.
Qed.
Lemma gridpos_sub s t : gridpos t - gridpos s == (t - s) / beta * qn N.
Proof. unfold gridpos. field. lra. Qed.

Lemma hyb_pos t : 0 <= t -> hyb_value beta N row t = interpolate row (gridpos t).
Proof.
  intros H. unfold hyb_value, gridpos, qn. apply Qle_bool_iff in H. rewrite H. simpl.
  destruct interpolate; reflexivity.
Qed.
Lemma hyb_neg t : t < 0 -> hyb_value beta N row t = option_map Qopp (interpolate row (gridpos (t + beta))).
Proof.
  intros H. unfold hyb_value, gridpos, qn. destruct (Qle_bool 0 t) eqn:E; [apply Qle_bool_iff in E; lra|].
  simpl. destruct interpolate; reflexivity.
Qed.

(** No read outside the table. *)
Theorem C25_in_range t : - beta < t -> t < beta -> exists v, hyb_value beta N row t = Some v.
Proof.
  intros H1 H2. destruct (Qlt_le_dec t 0) as [H|H].
  - rewrite hyb_neg by exact H. destruct (gridpos_range (t + beta)) as [G1 G2]; [lra|lra|].
    destruct (interpolate_spec row N _ row_len G1 G2) as (k & v & -> & _). eexists; reflexivity.
  - rewrite hyb_pos by exact H. destruct (gridpos_range t) as [G1 G2]; [lra|lra|].
    destruct (interpolate_spec row N _ row_len G1 G2) as (k & v & -> & _). eexists; reflexivity.
Qed.

(** Tabulated values at the grid points. *)
Theorem C25_grid k : (k < N)%nat -> exists v, hyb_value beta N row (qn k * beta / qn N) = Some v /\ v == nth k row 0.
Proof.
  intros Hk. pose proof N_gt0 as HN.
  assert (H0 : 0 <= qn k) by (change 0 with (qn 0); apply qn_le; lia).
  assert (Ht : 0 <= qn k * beta / qn N) by (apply Qle_shift_div_l; [exact HN|]; rewrite Qmult_0_l; apply Qmult_le_0_compat; lra).
  assert (Hg : gridpos (qn k * beta / qn N) == qn k) by (unfold gridpos; field; split; lra).
  rewrite hyb_pos by exact Ht.
  destruct (interpolate_spec row N (gridpos (qn k * beta / qn N)) row_len) as (j & v & -> & Hj & Ej & a & b & Ha & Hb & _ & _ & Hv).
  { rewrite Hg; exact H0. } { rewrite Hg. apply qn_lt. exact Hk. }
  assert (E : j = k).
  { rewrite Ej. rewrite Hg. unfold qn. rewrite Qfloor_Z. apply Nat2Z.id. }
  clear Ej; subst j. exists v. split; [reflexivity|].
  rewrite (nth_error_nth _ _ 0 Ha), Hv, Hg. ring.
Qed.

(** Between grid points: on the segment, hence between the neighbouring tabulated values. *)
Theorem C25_between t : 0 <= t -> t < beta -> exists k v a b,
  hyb_value beta N row t = Some v /\ (k < N)%nat /\ nth_error row k = Some a /\ nth_error row (S k) = Some b /\
  qn k * beta / qn N <= t /\ t < qn (S k) * beta / qn N /\
  v == a + (t - qn k * beta / qn N) / (beta / qn N) * (b - a) /\
  (a <= b -> a <= v /\ v <= b) /\ (b <= a -> b <= v /\ v <= a).
Proof.
  intros H0 H1. pose proof N_gt0 as HN. rewrite hyb_pos by exact H0. destruct (gridpos_range t H0 H1) as [G1 G2].
  destruct (interpolate_spec row N _ row_len G1 G2) as (k & v & -> & Hk & _ & a & b & Ha & Hb & X1 & X2 & Hv).
  exists k, v, a, b. repeat (split; [auto; fail|]).
  assert (Et : t == gridpos t * beta / qn N) by (unfold gridpos; field; split; lra).
  assert (Ex : (t - qn k * beta / qn N) / (beta / qn N) == gridpos t - qn k) by (unfold gridpos; field; repeat split; lra).
  assert (Hb0 : 0 <= beta / qn N) by (apply Qle_shift_div_l; lra).
  split; [|split; [|split; [|split]]].
  - rewrite Et. unfold Qdiv. rewrite <- !Qmult_assoc. apply Qmult_le_compat_r; [lra|exact Hb0].
  - rewrite Et, qn_S. unfold Qdiv. rewrite <- !Qmult_assoc. apply Qmult_lt_compat_r; [|lra].
    apply Qlt_shift_div_l; lra.
  - rewrite Ex, Hv. ring.
  - intros Hab. set (x := gridpos t - qn k) in *. rewrite Hv. split; nra.
  - intros Hab. set (x := gridpos t - qn k) in *. rewrite Hv. split; nra.
Qed.

(** Antiperiodicity. *)
Theorem C25_antiperiodic t : 0 < t -> t < beta -> exists v w,
  hyb_value beta N row t = Some v /\ hyb_value beta N row (t - beta) = Some w /\ w == - v.
Proof.
  intros H0 H1. rewrite hyb_pos by lra. rewrite hyb_neg by lra.
  destruct (gridpos_range t) as [G1 G2]; [lra|lra|].
  destruct (gridpos_range (t - beta + beta)) as [F1 F2]; [lra|lra|].
  assert (E : gridpos (t - beta + beta) == gridpos t) by (unfold gridpos; field; lra).
  destruct (interpolate_spec row N _ row_len G1 G2) as (k & v & Ev & _ & Ek & a & b & Ha & Hb & _ & _ & Hv).
  destruct (interpolate_spec row N _ row_len F1 F2) as (k' & w & Ew & _ & Ek' & a' & b' & Ha' & Hb' & _ & _ & Hw).
  rewrite Ev, Ew. simpl. exists v, (- w). split; [reflexivity|]. split; [reflexivity|].
  assert (Hkk : k' = k) by (rewrite Ek', Ek, E; reflexivity). rewrite Hkk in Ha', Hb', Hw.
  rewrite Ha in Ha'. rewrite Hb in Hb'. injection Ha' as <-. injection Hb' as <-.
  rewrite Hv, Hw, E. reflexivity.
Qed.

(** Continuity on [0, beta), with the explicit modulus, and the limit at beta. *)
Variable L : Q.
Hypothesis steps : forall k a b, nth_error row k = Some a -> nth_error row (S k) = Some b -> Qabs (b - a) <= L.

Lemma abs_le x y : Qabs x <= y <-> - y <= x /\ x <= y.
Proof. apply Qabs_Qle_condition. Qed.

Lemma seg_right k x v b : on_segment row k x v -> nth_error row (S k) = Some b -> Qabs (b - v) <= L * (qn (S k) - x).
Proof.
  intros (a & b' & Ha & Hb & X1 & X2 & Hv) Hb2. rewrite Hb in Hb2. injection Hb2 as <-.
  pose proof (steps k a b' Ha Hb) as HL. apply abs_le in HL. apply abs_le. rewrite qn_S, Hv. set (y := x - qn k) in *.
  assert (E : qn k + 1 - x == 1 - y) by (unfold y; ring). rewrite E. split; nra.
Qed.
Lemma seg_left k x v a : on_segment row k x v -> nth_error row k = Some a -> Qabs (v - a) <= L * (x - qn k).
Proof.
  intros (a' & b & Ha & Hb & X1 & X2 & Hv) Ha2. rewrite Ha in Ha2. injection Ha2 as <-.
  pose proof (steps k a' b Ha Hb) as HL. apply abs_le in HL. apply abs_le. rewrite Hv. set (y := x - qn k) in *.
  split; nra.
Qed.
Lemma grid_dist d : forall k a b, nth_error row k = Some a -> nth_error row (k + d) = Some b -> (k + d <= N)%nat ->
  Qabs (b - a) <= L * qn d.
Proof.
  induction d as [|d IH]; intros k a b Ha Hb Hd.
  - rewrite Nat.add_0_r in Hb. rewrite Ha in Hb. injection Hb as <-. change (qn 0) with 0. apply abs_le. split; lra.
  - destruct (nth_error row (k + d)) as [c|] eqn:Ec; [|apply nth_error_None in Ec; lia].
    pose proof (IH k a c Ha Ec ltac:(lia)) as H1.
    rewrite Nat.add_succ_r in Hb. pose proof (steps _ c b Ec Hb) as H2.
    apply abs_le in H1. apply abs_le in H2. apply abs_le. rewrite qn_S. split; lra.
Qed.
Lemma seg_cont k x v k' y w : on_segment row k x v -> on_segment row k' y w -> x <= y -> (k' < N)%nat -> Qabs (w - v) <= L * (y - x).
Proof.
  intros S1 S2 Hxy HkN. pose proof S1 as (a & b & Ha & Hb & X1 & X2 & Hv). pose proof S2 as (a' & b' & Ha' & Hb' & Y1 & Y2 & Hw).
  destruct (Nat.lt_trichotomy k k') as [H|[H|H]].
  - assert (E : (S k + (k' - S k) = k')%nat) by lia.
    pose proof (grid_dist (k' - S k) (S k) b a' Hb ltac:(rewrite E; exact Ha') ltac:(lia)) as H1.
    pose proof (seg_right k x v b S1 Hb) as H2. pose proof (seg_left k' y w a' S2 Ha') as H3.
    rewrite qn_minus in H1 by lia. apply abs_le in H1. apply abs_le in H2. apply abs_le in H3. apply abs_le. split; lra.
  - subst k'. rewrite Ha in Ha'. rewrite Hb in Hb'. injection Ha' as <-. injection Hb' as <-.
    pose proof (steps k a b Ha Hb) as HL. apply abs_le in HL. apply abs_le. rewrite Hv, Hw. split; nra.
  - exfalso. pose proof (qn_le (S k') k H). rewrite qn_S in H0. lra.
Qed.

Theorem C25_continuous s t : 0 <= s -> s <= t -> t < beta -> exists v w,
  hyb_value beta N row s = Some v /\ hyb_value beta N row t = Some w /\
  Qabs (w - v) <= L * qn N / beta * (t - s).
Proof.
  intros H0 H1 H2. rewrite !hyb_pos by lra.
  destruct (gridpos_range s) as [G1 G2]; [lra|lra|]. destruct (gridpos_range t) as [F1 F2]; [lra|lra|].
  destruct (interpolate_spec row N _ row_len G1 G2) as (k & v & -> & Hk & _ & Sv).
  destruct (interpolate_spec row N _ row_len F1 F2) as (k' & w & -> & Hk' & _ & Sw).
  exists v, w. repeat split; auto.
  assert (Hle : gridpos s <= gridpos t).
  { unfold gridpos. apply Qmult_le_compat_r; [|apply Qlt_le_weak; exact N_gt0]. apply Qle_shift_div_l; [exact beta_pos|].
    rewrite Qmult_comm, Qmult_div_r by lra. exact H1. }
  pose proof (seg_cont _ _ _ _ _ _ Sv Sw Hle Hk') as H. rewrite gridpos_sub in H.
  eapply Qle_trans; [exact H|]. apply Qle_lteq. right. field. lra.
Qed.
Theorem C25_limit t : 0 <= t -> t < beta -> exists v,
  hyb_value beta N row t = Some v /\ Qabs (nth N row 0 - v) <= L * qn N / beta * (beta - t).
Proof.
  intros H0 H1. rewrite hyb_pos by lra. destruct (gridpos_range t) as [G1 G2]; [lra|lra|].
  destruct (interpolate_spec row N _ row_len G1 G2) as (k & v & -> & Hk & _ & Sv). exists v. split; [reflexivity|].
  destruct (nth_error row N) as [c|] eqn:Ec; [|apply nth_error_None in Ec; lia].
  rewrite (nth_error_nth _ _ 0 Ec). pose proof Sv as (a & b & Ha & Hb & _).
  pose proof (seg_right _ _ _ _ Sv Hb) as H2.
  assert (E : (S k + (N - S k) = N)%nat) by lia.
  pose proof (grid_dist (N - S k) (S k) b c Hb ltac:(rewrite E; exact Ec) ltac:(lia)) as H3.
  rewrite qn_minus in H3 by lia.
  assert (E2 : L * qn N / beta * (beta - t) == L * (qn N - gridpos t)) by (unfold gridpos; field; lra).
  rewrite E2. apply abs_le in H2. apply abs_le in H3. apply abs_le. split; lra.
Qed.
End Interp.

(** Flavors declared unconnected: all values are at most eps in size ... *)
Theorem C25_unconnected_small beta N row eps t v : 0 < beta -> (0 < N)%nat -> length row = S N ->
  is_connected eps row = false -> - beta < t -> t < beta -> hyb_value beta N row t = Some v -> Qabs v <= eps.
Proof.
  intros Hb HN HL Hc H1 H2 Hv.
  assert (Hr : forall a, In a row -> - eps <= a /\ a <= eps).
  { intros a Ha. apply Qabs_Qle_condition. destruct (Qle_bool (Qabs a) eps) eqn:E; [apply Qle_bool_iff; exact E|].
    assert (is_connected eps row = true); [|congruence]. unfold is_connected. apply existsb_exists. exists a. rewrite E. auto. }
  assert (Hg : forall x w, 0 <= x -> x < qn N -> interpolate row x = Some w -> - eps <= w /\ w <= eps).
  { intros x w G1 G2 E. destruct (interpolate_spec row N x HL G1 G2) as (k & w' & E' & _ & _ & a & b & Ha & Hb' & X1 & X2 & Hw).
    rewrite E in E'. injection E' as <-. apply nth_error_In in Ha. apply nth_error_In in Hb'.
    destruct (Hr a Ha), (Hr b Hb'). rewrite Hw. set (y := x - qn k) in *. split; nra. }
  apply Qabs_Qle_condition. destruct (Qlt_le_dec t 0) as [H|H].
  - rewrite (hyb_neg beta N row t H) in Hv. destruct (gridpos_range beta N Hb HN (t + beta)) as [G1 G2]; [lra|lra|].
    destruct interpolate as [w|] eqn:E; [|discriminate]. injection Hv as <-. destruct (Hg _ _ G1 G2 E). split; lra.
  - rewrite (hyb_pos beta N row t H) in Hv. destruct (gridpos_range beta N Hb HN t) as [G1 G2]; [lra|lra|]. eauto.
Qed.
(** ... but not zero, for any positive threshold. *)
Theorem C25_unconnected_refuted eps : 0 < eps -> exists beta N row t v, 0 < beta /\ length row = S N /\
  is_connected eps row = false /\ 0 <= t /\ t < beta /\ hyb_value beta N row t = Some v /\ 0 < v.
Proof.
  intros He. exists 1, 1%nat, [eps; eps], 0, (eps + (0 / 1 * 1 - 0) * (eps - eps)).
  split; [lra|]. split; [reflexivity|]. split.
  { unfold is_connected. simpl. rewrite !Qabs_pos by lra. assert (H : Qle_bool eps eps = true) by (apply Qle_bool_iff; lra). rewrite H. reflexivity. }
  split; [lra|]. split; [lra|]. split; [reflexivity|]. field_simplify. lra.
Qed.
(** The closed end: a time difference of exactly beta reads past the table. *)
Theorem C25_edge_refuted beta N row : 0 < beta -> (0 < N)%nat -> length row = S N -> hyb_value beta N row beta = None.
Proof.
  intros Hb HN HL. rewrite hyb_pos by lra. unfold interpolate.
  assert (E : gridpos beta N beta == qn N) by (unfold gridpos; field; lra).
  assert (Ef : Z.to_nat (Qfloor (gridpos beta N beta)) = N) by (rewrite E; unfold qn; rewrite Qfloor_Z; apply Nat2Z.id).
  rewrite Ef. rewrite (proj2 (nth_error_None row (S N))) by lia. destruct (nth_error row N); reflexivity.
Qed.
Example C25_instance : let row := [1 # 2; 1; 3 # 1] in
  option_map Qred (hyb_value 4 2 row (2 # 1)) = Some 1 /\ option_map Qred (hyb_value 4 2 row (3 # 1)) = Some (2 # 1) /\
  option_map Qred (hyb_value 4 2 row (-1 # 1)) = Some (-2 # 1) /\ hyb_value 4 2 row (4 # 1) = None /\
  (forall k a b, nth_error row k = Some a -> nth_error row (S k) = Some b -> Qabs (b - a) <= 2).
Proof.
  repeat split; try reflexivity. intros [|[|[|[|k]]]] a b; simpl; intros H1 H2; try discriminate; injection H1 as <-; injection H2 as <-; discriminate.
Qed.

(** ** C26 *)
Section Read.
Variable S : Type.
Variable neg : S -> S.
Variable zero : S.
Notation table := (table S).
Notation read_hybridization := (read_hybridization S neg zero).
Notation read_command_line := (read_command_line S neg zero).

(** A file that lists Delta_ij at every grid point: one line per (time, i, j). *)
Definition file_of (np1 n : nat) (Delta : table) : list (nat * nat * nat * S) :=
  map (fun '(t, i, j) => (t, i, j, Delta i j t)) (loop3 np1 n).
Definition inside (np1 n : nat) (i j k : nat) : Prop := (i < n /\ j < n /\ k < np1)%nat.
(** What has to come out. *)
Definition mapped (np1 n : nat) (Delta F : table) : Prop :=
  (forall i j k, inside np1 n i j k -> F j i (np1 - 1 - k)%nat = neg (Delta i j k)) /\
  (forall i j k, ~ inside np1 n i j k -> F i j k = zero).

Lemma loop3_in np1 n t i j : In (t, i, j) (loop3 np1 n) <-> inside np1 n i j t.
Proof.
  unfold loop3, inside. rewrite in_flat_map. split.
  - intros (t' & Ht & H). apply in_flat_map in H as (i' & Hi & H). apply in_map_iff in H as (j' & E & Hj).
    injection E as -> -> ->. apply in_seq in Ht. apply in_seq in Hi. apply in_seq in Hj. lia.
  - intros (Hi & Hj & Ht). exists t. split; [apply in_seq; lia|]. apply in_flat_map. exists i. split; [apply in_seq; lia|].
    apply in_map. apply in_seq; lia.
Qed.
Lemma NoDup_app_intro {A} (l l' : list A) : NoDup l -> NoDup l' -> (forall x, In x l -> ~ In x l') -> NoDup (l ++ l').
Proof.
  intros H H' Hd. induction H as [|x l Hx H IH]; simpl; [exact H'|]. constructor.
  - rewrite in_app_iff. intros [Hi|Hi]; [contradiction|]. apply (Hd x); simpl; auto.
  - apply IH. intros y Hy. apply Hd. right; exact Hy.
Qed.
Lemma flat_map_NoDup {A B} (f : A -> list B) (g : B -> A) l : NoDup l -> (forall a, In a l -> NoDup (f a)) ->
  (forall a b, In a l -> In b (f a) -> g b = a) -> NoDup (flat_map f l).
Proof.
  induction 1 as [|a l Ha Hl IH]; intros Hf Hg; simpl; [constructor|].
  apply NoDup_app_intro.
  - apply Hf; left; reflexivity.
  - apply IH; intros; [apply Hf; right|apply Hg; [right|]]; auto.
  - intros b Hb Hb'. apply in_flat_map in Hb' as (a' & Ha' & Hb').
    pose proof (Hg a b (or_introl eq_refl) Hb) as E1. pose proof (Hg a' b (or_intror Ha') Hb') as E2. subst a' a. contradiction.
Qed.
(** Each index triple is visited exactly once. *)
Lemma loop3_NoDup np1 n : NoDup (loop3 np1 n).
Proof.
  unfold loop3. apply (flat_map_NoDup _ (fun x => fst (fst x))); [apply seq_NoDup| |].
  - intros t _. apply (flat_map_NoDup _ (fun x => snd (fst x))); [apply seq_NoDup| |].
    + intros i _. apply Injective_map_NoDup; [|apply seq_NoDup]. intros x y E; injection E; auto.
    + intros i x _ H. apply in_map_iff in H as (j & <- & _). reflexivity.
  - intros t x _ H. apply in_flat_map in H as (i & _ & H). apply in_map_iff in H as (j & <- & _). reflexivity.
Qed.
Lemma loop3_length np1 n : length (loop3 np1 n) = (n * n * np1)%nat.
Proof.
  unfold loop3. rewrite flat_map_concat_map.
  assert (H : forall l, length (concat (map (fun t : nat => flat_map (fun i => map (fun j => (t, i, j)) (seq 0 n)) (seq 0 n)) l)) = (n * n * length l)%nat).
  { intros l. induction l as [|t l IH]; simpl; [lia|]. rewrite app_length, IH.
    assert (H2 : forall l', length (flat_map (fun i : nat => map (fun j : nat => (t, i, j)) (seq 0 n)) l') = (n * length l')%nat).
    { intros l'. induction l' as [|i l' IH']; simpl; [lia|]. rewrite app_length, map_length, seq_length, IH'. lia. }
    rewrite H2, seq_length. lia. }
  rewrite H, seq_length. reflexivity.
Qed.

Lemma tset_same (F : table) i j k v : tset S F i j k v i j k = v.
Proof. unfold tset. rewrite !Nat.eqb_refl. reflexivity. Qed.
Lemma tset_other (F : table) i j k v i' j' k' : (i', j', k') <> (i, j, k) -> tset S F i j k v i' j' k' = F i' j' k'.
Proof.
  intros H. unfold tset. destruct (Nat.eqb_spec i' i), (Nat.eqb_spec j' j), (Nat.eqb_spec k' k); subst; simpl; auto. congruence.
Qed.

Lemma read_loop np1 (Delta : table) extra : forall trip F, NoDup trip -> (forall t i j, In (t, i, j) trip -> (t < np1)%nat) ->
  exists F', read_file S neg np1 trip (map (fun '(t, i, j) => (t, i, j, Delta i j t)) trip ++ extra) F = Some F' /\
    (forall t i j, In (t, i, j) trip -> F' j i (np1 - 1 - t)%nat = neg (Delta i j t)) /\
    (forall t i j, (forall t', In (t', j, i) trip -> t <> (np1 - 1 - t')%nat) -> F' i j t = F i j t).
Proof.
  induction trip as [|[[t i] j] trip IH]; intros F HN Hlt; simpl.
  - exists F. split; [reflexivity|]. split; [tauto|auto].
  - rewrite !Nat.eqb_refl. simpl. inversion HN as [|? ? Hnin HN']; subst.
    destruct (IH (tset S F j i (np1 - t - 1) (neg (Delta i j t))) HN') as (F' & E & H1 & H2).
    { intros t' i' j' Hin. apply (Hlt t' i' j'). right; exact Hin. }
    assert (Ht : (t < np1)%nat) by (apply (Hlt t i j); left; reflexivity).
    exists F'. split; [exact E|]. split.
    + intros t' i' j' [Heq|Hin]; [|apply H1; exact Hin]. injection Heq as <- <- <-.
      rewrite H2; [replace (np1 - 1 - t)%nat with (np1 - t - 1)%nat by lia; apply tset_same|].
      intros t' Hin Et. assert (t' = t) by (specialize (Hlt t' i j (or_intror Hin)); lia). subst. contradiction.
    + intros t' i' j' Hn. rewrite H2 by (intros t'' Hin; apply Hn; right; exact Hin).
      apply tset_other. intros Heq. injection Heq as -> -> ->. apply (Hn t); [left; reflexivity|lia].
Qed.

(** The stored table, for every input; lines after the last expected one are ignored. *)
Theorem C26_file np1 n Delta extra : exists F,
  read_hybridization np1 n (file_of np1 n Delta ++ extra) = Some F /\ mapped np1 n Delta F.
Proof.
  destruct (read_loop np1 Delta extra (loop3 np1 n) (fun _ _ _ => zero)) as (F & E & H1 & H2).
  - apply loop3_NoDup.
  - intros t i j Hin. apply loop3_in in Hin. unfold inside in Hin. lia.
  - exists F. split; [exact E|]. split.
    + intros i j k Hin. apply H1. apply loop3_in. exact Hin.
    + intros i j k Hn. rewrite H2; [reflexivity|]. intros t' Hin Ek. apply Hn. apply loop3_in in Hin. unfold inside in *. lia.
Qed.

(** A file is accepted only if every line carries the expected indices. *)
Theorem C26_refused np1 n lines F : read_hybridization np1 n lines = Some F ->
  exists Delta extra, lines = file_of np1 n Delta ++ extra.
Proof.
  assert (H : forall trip F0 lines, NoDup trip -> read_file S neg np1 trip lines F0 = Some F ->
     exists (Delta : table) extra, lines = map (fun '(t, i, j) => (t, i, j, Delta i j t)) trip ++ extra).
  { clear lines. induction trip as [|[[t i] j] trip IH]; intros F0 lines HN E; simpl in *.
    - exists (fun _ _ _ => zero), lines. reflexivity.
    - destruct lines as [|[[[it di] dj] v] lines]; [discriminate|].
      destruct (Nat.eqb_spec it t); [|discriminate]. destruct (Nat.eqb_spec di i); [|discriminate].
      destruct (Nat.eqb_spec dj j); [|discriminate]. subst. simpl in E. inversion HN as [|? ? Hn HN']; subst.
      destruct (IH _ _ HN' E) as (Delta & extra & ->).
      exists (tset S Delta i j t v), extra. rewrite tset_same. simpl. f_equal. f_equal.
      apply map_ext_in. intros [[t' i'] j'] Hin. rewrite tset_other; [reflexivity|].
      intros Heq. injection Heq as -> -> ->. contradiction. }
  intros E. apply (H _ _ _ (loop3_NoDup np1 n) E).
Qed.

(** Reading the result again gives back the input (the sign change is an involution). *)
Theorem C26_involution np1 n Delta F F2 : (forall x, neg (neg x) = x) ->
  read_hybridization np1 n (file_of np1 n Delta) = Some F ->
  read_hybridization np1 n (file_of np1 n F) = Some F2 ->
  forall i j k, inside np1 n i j k -> F2 i j k = Delta i j k.
Proof.
  intros Hneg E1 E2 i j k Hin.
  destruct (C26_file np1 n Delta []) as (F' & E & H1 & _). rewrite app_nil_r in E. rewrite E1 in E. injection E as <-.
  destruct (C26_file np1 n F []) as (F2' & E & H2 & _). rewrite app_nil_r in E. rewrite E2 in E. injection E as <-.
  unfold inside in *. replace k with (np1 - 1 - (np1 - 1 - k))%nat at 1 by lia.
  rewrite H2 by lia. rewrite H1 by lia. apply Hneg.
Qed.

(** Values on the command line: the same table as from a file, wrong number of values refused. *)
Theorem C26_command_line np1 n Delta : exists F,
  read_command_line np1 n (map snd (file_of np1 n Delta)) = Some F /\ mapped np1 n Delta F.
Proof.
  destruct (C26_file np1 n Delta []) as (F & E & HF). exists F. split; [|exact HF].
  unfold Hyb.read_command_line, file_of. rewrite !map_length, loop3_length, Nat.eqb_refl. f_equal.
  unfold Hyb.read_hybridization, file_of in E. rewrite app_nil_r in E. revert E. generalize (fun _ _ _ : nat => zero) as F0.
  induction (loop3 np1 n) as [|[[t i] j] trip IH]; intros F0 E; simpl in *; [congruence|].
  rewrite !Nat.eqb_refl in E. simpl in E. apply IH. exact E.
Qed.
Theorem C26_command_line_size np1 n vals : length vals <> (n * n * np1)%nat -> read_command_line np1 n vals = None.
Proof. intros H. unfold Hyb.read_command_line. apply Nat.eqb_neq in H. rewrite H. reflexivity. Qed.
End Read.

Example C26_instance : exists F, read_hybridization Z Z.opp 0%Z 3 2 (file_of Z 3 2 (fun i j k => Z.of_nat (100 * i + 10 * j + k))) = Some F /\
  F 1%nat 0%nat 2%nat = (-10)%Z /\ F 0%nat 1%nat 0%nat = (-102)%Z /\
  read_hybridization Z Z.opp 0%Z 3 2 [(0, 0, 0, 1%Z); (0, 1, 0, 1%Z)]%nat = None.
Proof. eexists. split; [reflexivity|]. repeat split. Qed.
Print Assumptions C25_in_range.
Print Assumptions C25_grid.
Print Assumptions C25_between.
Print Assumptions C25_antiperiodic.
Print Assumptions C25_continuous.
Print Assumptions C25_limit.
Print Assumptions C25_unconnected_small.
Print Assumptions C25_unconnected_refuted.
Print Assumptions C25_edge_refuted.
Print Assumptions C26_file.
Print Assumptions C26_refused.
Print Assumptions C26_involution.
Print Assumptions C26_command_line.
Print Assumptions C26_command_line_size.
