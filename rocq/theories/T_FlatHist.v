(** * C35, C36: the flat-histogram weights over learning histories *)
From Coq Require Import Reals List Lra Lia Bool Arith.
From Verif Require Import FlatHist.
Import ListNotations.
Open Scope R_scope.

(** ** Specification *)

(** A learning history: samples and calls that lower the modification factor *)
Inductive op := Visit (v : nat) | Lower.
Fixpoint run (s : fh) (ops : list op) : fres fh :=
  match ops with
  | [] => FOk s
  | Visit v :: r => match measure s v with FOk s' => run s' r | FThrow => FThrow end
  | Lower :: r => run (update_lambda s) r
  end.

(** The logarithm of the modification factor after [k] reductions: halved each time, but not below the minimum *)
Definition lam (k : nat) : R := Rmax (init_log_lambda / 2 ^ k) min_log_lambda.
(** What value [v] has earned over a history that starts after [k] reductions: each visit adds the factor of its time
    divided by the target fraction *)
Fixpoint earned (t : R) (v k : nat) (ops : list op) : R :=
  match ops with
  | [] => 0
  | Visit w :: r => (if Nat.eqb w v then lam k / t else 0) + earned t v k r
  | Lower :: r => earned t v (S k) r
  end.
Fixpoint lowers (ops : list op) : nat :=
  match ops with [] => 0 | Visit _ :: r => lowers r | Lower :: r => S (lowers r) end.
(** Number of visits of [v] since the last reduction, with [n] before the history *)
Fixpoint visits (v n : nat) (ops : list op) : nat :=
  match ops with
  | [] => n
  | Visit w :: r => visits v (if Nat.eqb w v then S n else n) r
  | Lower :: r => visits v 0 r
  end.
Definition in_range (mv : nat) (ops : list op) : Prop := forall v, In (Visit v) ops -> (v <= mv)%nat.
(** The clipped exponential: 10^50 above [max_log_val], 10^-50 below its opposite *)
Definition clipped (x y : R) : Prop :=
  (Rabs x <= max_log_val -> y = exp x) /\ (max_log_val < x -> y = big) /\ (x < - max_log_val -> y = / big).

(** ** Lists *)
Lemma upd_length l i f : length (upd l i f) = length l.
Proof. revert i; induction l as [|x l IH]; intros [|i]; simpl; auto. Qed.
Lemma upd_nth l i f j : nth j (upd l i f) 0 = if Nat.eqb i j && Nat.ltb j (length l) then f (nth j l 0) else nth j l 0.
Proof.
revert i j; induction l as [|x l IH]; intros i j; destruct i, j; simpl; auto.
- now rewrite andb_false_r.
- rewrite IH. reflexivity.
Qed.
Lemma fill_nth n x i : (i < n)%nat -> nth i (fill n x) 0 = x.
Proof. unfold fill. revert i; induction n; intros [|i] H; simpl; try lia; auto. apply IHn; lia. Qed.
Lemma fill_length n x : length (fill n x) = n.
Proof. apply repeat_length. Qed.
Lemma resc_fold m n : forall k g, length (fold_left (fun g i => upd g i (fun x => x - m)) (seq k n) g) = length g /\
  forall j, nth j (fold_left (fun g i => upd g i (fun x => x - m)) (seq k n) g) 0 =
    if Nat.leb k j && Nat.ltb j (k + n) && Nat.ltb j (length g) then nth j g 0 - m else nth j g 0.
Proof.
induction n as [|n IH]; intros k g; simpl.
- split; auto. intros j.
  destruct (Nat.leb_spec k j); simpl; auto. destruct (Nat.ltb_spec j (k + 0)); simpl; auto; lia.
- destruct (IH (S k) (upd g k (fun x => x - m))) as [L N]; rewrite upd_length in L; split; auto.
  intros j; rewrite N, upd_nth, upd_length.
  destruct (Nat.eqb_spec k j) as [->|ne]; cbn [andb].
  + rewrite (proj2 (Nat.leb_gt (S j) j)) by lia. cbn [andb]. rewrite (proj2 (Nat.leb_le j j)) by lia.
    rewrite (proj2 (Nat.ltb_lt j (j + S n))) by lia. reflexivity.
  + destruct (Nat.leb_spec (S k) j).
    * rewrite (proj2 (Nat.leb_le k j)) by lia.
      replace (S k + n)%nat with (k + S n)%nat by lia. reflexivity.
    * rewrite (proj2 (Nat.leb_gt k j)) by lia. reflexivity.
Qed.
Lemma rescale_nth s v : length (log_f s) = S (max_index s) -> (v <= max_index s)%nat ->
  nth v (log_f (rescale_f s)) 0 = nth v (log_f s) 0 - max_element (log_f s).
Proof.
intros L H; unfold rescale_f; simpl.
destruct (resc_fold (max_element (log_f s)) (max_index s + 1) 0 (log_f s)) as [_ N]; rewrite N.
rewrite L, (proj2 (Nat.ltb_lt v (0 + (max_index s + 1)))), (proj2 (Nat.ltb_lt v (S (max_index s)))) by lia. reflexivity.
Qed.
Lemma rescale_length s : length (log_f (rescale_f s)) = length (log_f s).
Proof. unfold rescale_f; simpl; apply resc_fold. Qed.

Lemma fold_max_ge l : forall x, x <= fold_left Rmax l x /\ forall y, In y l -> y <= fold_left Rmax l x.
Proof.
induction l as [|a l IH]; intros x; simpl; [split; [lra|tauto]|].
destruct (IH (Rmax x a)) as [A B]; split; [generalize (Rmax_l x a); lra|].
intros y [->|H]; [generalize (Rmax_r x y); lra|auto].
Qed.
Lemma fold_max_in l : forall x, fold_left Rmax l x = x \/ In (fold_left Rmax l x) l.
Proof.
induction l as [|a l IH]; intros x; simpl; auto.
destruct (IH (Rmax x a)) as [->|H]; auto. unfold Rmax; destruct (Rle_dec x a); auto.
Qed.
Lemma fold_min_le l : forall x, fold_left Rmin l x <= x /\ forall y, In y l -> fold_left Rmin l x <= y.
Proof.
induction l as [|a l IH]; intros x; simpl; [split; [lra|tauto]|].
destruct (IH (Rmin x a)) as [A B]; split; [generalize (Rmin_l x a); lra|].
intros y [->|H]; [generalize (Rmin_r x y); lra|auto].
Qed.
Lemma fold_min_in l : forall x, fold_left Rmin l x = x \/ In (fold_left Rmin l x) l.
Proof.
induction l as [|a l IH]; intros x; simpl; auto.
destruct (IH (Rmin x a)) as [->|H]; auto. unfold Rmin; destruct (Rle_dec x a); auto.
Qed.
Lemma max_element_spec l : l <> [] -> In (max_element l) l /\ forall y, In y l -> y <= max_element l.
Proof.
destruct l as [|x l]; [tauto|intros _; simpl]; split.
- destruct (fold_max_in l x) as [->|H]; auto.
- destruct (fold_max_ge l x) as [A B]. intros y [->|H]; auto.
Qed.
Lemma min_element_spec l : l <> [] -> In (min_element l) l /\ forall y, In y l -> min_element l <= y.
Proof.
destruct l as [|x l]; [tauto|intros _; simpl]; split.
- destruct (fold_min_in l x) as [->|H]; auto.
- destruct (fold_min_le l x) as [A B]. intros y [->|H]; auto.
Qed.

Lemma Rltb_true x y : Rltb x y = true <-> x < y.
Proof. unfold Rltb; destruct (Rlt_dec x y); split; intros; auto; try discriminate; tauto. Qed.
Lemma Rltb_false x y : Rltb x y = false <-> y <= x.
Proof. unfold Rltb; destruct (Rlt_dec x y); split; intros; auto; try discriminate; lra. Qed.

(** ** The factor *)
Lemma init_gt_min : min_log_lambda < init_log_lambda.
Proof. unfold min_log_lambda, init_log_lambda; lra. Qed.
Lemma min_pos : 0 < min_log_lambda.
Proof. unfold min_log_lambda; lra. Qed.
Lemma lam0 : lam 0 = init_log_lambda.
Proof. unfold lam; simpl. rewrite Rmax_left; [field|]. generalize init_gt_min; lra. Qed.
Lemma lam_ge k : min_log_lambda <= lam k.
Proof. apply Rmax_r. Qed.
Lemma pow2_pos k : 0 < 2 ^ k.
Proof. apply pow_lt; lra. Qed.
Lemma lamS k : lam (S k) = Rmax (1 / 2 * lam k) min_log_lambda.
Proof.
unfold lam; simpl.
replace (init_log_lambda / (2 * 2 ^ k)) with (1 / 2 * (init_log_lambda / 2 ^ k)) by (field; generalize (pow2_pos k); lra).
unfold Rmax at 3; destruct (Rle_dec (init_log_lambda / 2 ^ k) min_log_lambda); auto.
rewrite !Rmax_right; auto; generalize min_pos; lra.
Qed.
Lemma ln_INR n : 0 <= ln (INR (S n)).
Proof.
rewrite <- ln_1. destruct (Req_dec (INR (S n)) 1) as [->|H]; [lra|].
left; apply ln_increasing; [lra|]. assert (1 <= INR (S n)) by (apply (le_INR 1); lia). lra.
Qed.
(** The term called the 1/n^2 limit in the code never has an effect *)
Lemma limit_idle n x : Rmax (- 2 * ln (INR (S n))) (Rmax x min_log_lambda) = Rmax x min_log_lambda.
Proof. apply Rmax_right. generalize (ln_INR n) (Rmax_r x min_log_lambda) min_pos; lra. Qed.

(** ** The state after a history *)
Lemma earned_app t v r : forall ops k, earned t v k (ops ++ r) = earned t v k ops + earned t v (lowers ops + k) r.
Proof.
induction ops as [|[w|] ops IH]; intros k; simpl; [lra| |].
- rewrite IH; lra.
- rewrite IH. now replace (lowers ops + S k)%nat with (S (lowers ops + k)) by lia.
Qed.

Section History.
Variable mv : nat.
Variable tf : list R.
Hypothesis tf_len : length tf = S mv.
Notation t v := (nth v tf 0).

(** State after [k] reductions when every value has earned [e v] and was visited [n v] times since the last one *)
Definition st (k : nat) (e : nat -> R) (n : nat -> nat) (s : fh) : Prop :=
  max_val s = mv /\ max_index s = mv /\ target s = tf /\ log_lambda s = lam k /\ done s = false /\ num_updates s = k /\
  length (log_f s) = S mv /\ length (counter s) = S mv /\
  (exists c, forall v, (v <= mv)%nat -> nth v (log_f s) 0 = e v - c) /\
  (forall v, (v <= mv)%nat -> nth v (counter s) 0 = INR (n v) / t v).

Lemma st_measure k e n s w : st k e n s -> (w <= mv)%nat -> exists s', measure s w = FOk s' /\
  st k (fun v => e v + if Nat.eqb w v then lam k / t v else 0) (fun v => if Nat.eqb w v then S (n v) else n v) s'.
Proof.
intros (a & b & c & d & e1 & f & g & h & [c0 i] & j) H. unfold measure; rewrite e1, a, b.
rewrite (proj2 (Nat.ltb_ge mv w) H). eexists; split; [reflexivity|]; unfold st; simpl.
rewrite !upd_length; repeat (split; [assumption|]); split.
- exists c0; intros v Hv; rewrite upd_nth, c, d, g, i by auto. rewrite (proj2 (Nat.ltb_lt v (S mv))) by lia.
  rewrite andb_true_r. destruct (Nat.eqb_spec w v) as [->|]; lra.
- intros v Hv; rewrite upd_nth, c, h, j by auto. rewrite (proj2 (Nat.ltb_lt v (S mv))) by lia.
  rewrite andb_true_r. destruct (Nat.eqb_spec w v) as [->|]; auto.
  rewrite S_INR. unfold Rdiv; rewrite Rmult_plus_distr_r; lra.
Qed.

Lemma st_lower k e n s : st k e n s -> st (S k) e (fun _ => 0%nat) (update_lambda s).
Proof.
intros (a & b & c & d & e1 & f & g & h & [c0 i] & j). unfold update_lambda; rewrite e1, f, d. cbv zeta; rewrite limit_idle, <- lamS.
set (s1 := FH _ _ _ _ _ _ _ _). unfold st; simpl.
rewrite fill_length; split; [auto|]; split; [auto|]; split; [auto|]; split; [auto|].
split; [auto|]; split; [auto|]; split; [|split; [auto|]].
- change (length (log_f (rescale_f s1)) = S mv). now rewrite rescale_length.
- split.
  + exists (c0 + max_element (log_f s)). intros v Hv.
    change (nth v (log_f (rescale_f s1)) 0 = e v - (c0 + max_element (log_f s))).
    rewrite rescale_nth; simpl; try lia. rewrite i by auto. lra.
  + intros v Hv. rewrite fill_nth by lia. simpl; unfold Rdiv; lra.
Qed.

Lemma st_ext k e e' n n' s : (forall v, (v <= mv)%nat -> e v = e' v) -> (forall v, (v <= mv)%nat -> n v = n' v) -> st k e n s -> st k e' n' s.
Proof.
intros H H' (a & b & c & d & e1 & f & g & h & [c0 i] & j). repeat (split; [assumption|]). split.
- exists c0; intros; rewrite <- H; auto.
- intros; rewrite <- H'; auto.
Qed.

Lemma st_run ops : in_range mv ops -> forall k e n s, st k e n s -> exists s', run s ops = FOk s' /\
  st (lowers ops + k) (fun v => e v + earned (t v) v k ops) (fun v => visits v (n v) ops) s'.
Proof.
induction ops as [|[w|] ops IH]; intros R k e n s H; simpl.
- exists s; split; auto. eapply st_ext; [| |exact H]; intros; simpl; auto; lra.
- destruct (st_measure k e n s w H) as (s1 & -> & H1); [apply R; now left|].
  destruct (IH (fun v hv => R v (or_intror hv)) _ _ _ _ H1) as (s2 & -> & H2); exists s2; split; auto.
  eapply st_ext; [| |exact H2]; intros v _; simpl; auto. lra.
- destruct (IH (fun v hv => R v (or_intror hv)) _ _ _ _ (st_lower _ _ _ _ H)) as (s2 & -> & H2); exists s2; split; auto.
  replace (S (lowers ops + k)) with (lowers ops + S k)%nat by lia. exact H2.
Qed.

Lemma st_create s : create mv tf = FOk s -> st 0 (fun _ => 0) (fun _ => 0%nat) s.
Proof.
unfold create; rewrite tf_len. rewrite (proj2 (Nat.eqb_eq (S mv) (mv + 1))) by lia. intros E; injection E as <-; unfold st; simpl.
rewrite !fill_length, lam0; repeat (split; [reflexivity||lia|]). split.
- exists 0; intros; rewrite fill_nth by lia; lra.
- intros; rewrite fill_nth by lia; simpl; unfold Rdiv; lra.
Qed.

Lemma st_ratio e s a b : max_index s = mv -> (exists c, forall v, (v <= mv)%nat -> nth v (log_f s) 0 = e v - c) -> (a <= mv)%nat -> (b <= mv)%nat -> exists y, weight_ratio s b a = FOk y /\ clipped (e a - e b) y.
Proof.
intros x2 [c0 i] Ha Hb. unfold weight_ratio, log_weight.
rewrite x2, (proj2 (Nat.ltb_ge mv b) Hb), (proj2 (Nat.leb_le b mv) Hb), (proj2 (Nat.leb_le a mv) Ha), !i by auto.
replace (- (e b - c0) - - (e a - c0)) with (e a - e b) by lra.
assert (P : 0 < max_log_val) by (unfold max_log_val; lra).
destruct (Rltb max_log_val (e a - e b)) eqn:E1.
- apply Rltb_true in E1. eexists; split; [reflexivity|]. split; [|split]; intros; auto; [|lra].
  rewrite Rabs_right in H; lra.
- apply Rltb_false in E1. destruct (Rltb (e a - e b) (- max_log_val)) eqn:E2.
  + apply Rltb_true in E2. eexists; split; [reflexivity|]. split; [|split]; intros; auto; [|lra].
    rewrite Rabs_left in H; lra.
  + apply Rltb_false in E2. eexists; split; [reflexivity|]. split; [|split]; intros; auto; lra.
Qed.
End History.

(** ** C35 *)
Section C35.
Variable mv : nat.
Variable tf : list R.
Hypothesis tf_len : length tf = S mv.

(** After any history of samples and reductions the ratio of the weights of [b] and [a] is the (clipped) exponential of what
    [a] has earned minus what [b] has earned: rescaling leaves no trace, and no call throws *)
Theorem C35_history s0 ops a b : create mv tf = FOk s0 -> in_range mv ops -> (a <= mv)%nat -> (b <= mv)%nat ->
  exists s y, run s0 ops = FOk s /\ weight_ratio s b a = FOk y /\
    clipped (earned (nth a tf 0) a 0 ops - earned (nth b tf 0) b 0 ops) y.
Proof.
intros E R Ha Hb. destruct (st_run mv tf tf_len ops R _ _ _ _ (st_create mv tf tf_len s0 E)) as (s & Hr & H).
destruct H as (_ & Hm & _ & _ & _ & _ & _ & _ & Hc & _).
destruct (st_ratio mv _ s a b Hm Hc Ha Hb) as (y & Hy & C). exists s, y; split; [exact Hr|]; split; [exact Hy|]. rewrite !Rplus_0_l in C; exact C.
Qed.
End C35.

(** The ratios of any state, clipped or not, are reciprocal and positive; a ratio with itself is 1 *)
Theorem C35_reciprocal s a b : (a <= max_index s)%nat -> (b <= max_index s)%nat -> exists x y,
  weight_ratio s b a = FOk x /\ weight_ratio s a b = FOk y /\ 0 < x /\ 0 < y /\ x * y = 1.
Proof.
intros Ha Hb. unfold weight_ratio, log_weight.
rewrite (proj2 (Nat.ltb_ge _ b) Hb), (proj2 (Nat.ltb_ge _ a) Ha), (proj2 (Nat.leb_le b _) Hb), (proj2 (Nat.leb_le a _) Ha).
set (x := - nth b (log_f s) 0); set (y := - nth a (log_f s) 0).
assert (P : 0 < max_log_val) by (unfold max_log_val; lra).
assert (B : 0 < big) by (unfold big; apply pow_lt; lra).
assert (B' : 0 < / big) by now apply Rinv_0_lt_compat.
destruct (Rltb max_log_val (x - y)) eqn:E1.
- apply Rltb_true in E1. rewrite (proj2 (Rltb_false _ _)), (proj2 (Rltb_true (y - x) _)) by lra.
  do 2 eexists; repeat split; auto. field; lra.
- apply Rltb_false in E1. destruct (Rltb (x - y) (- max_log_val)) eqn:E2.
  + apply Rltb_true in E2. rewrite (proj2 (Rltb_true _ (y - x))) by lra.
    do 2 eexists; repeat split; auto. field; lra.
  + apply Rltb_false in E2. rewrite !(proj2 (Rltb_false _ _)) by lra.
    do 2 eexists; repeat split; auto; try apply exp_pos. rewrite <- exp_plus. replace (x - y + (y - x)) with 0 by lra. apply exp_0.
Qed.

(** Ratios multiply over an intermediate value as long as none of them is clipped *)
Theorem C35_multiplicative s a b c : (a <= max_index s)%nat -> (b <= max_index s)%nat -> (c <= max_index s)%nat ->
  let l u := nth u (log_f s) 0 in
  Rabs (l a - l b) <= max_log_val -> Rabs (l b - l c) <= max_log_val -> Rabs (l a - l c) <= max_log_val ->
  exists x y z, weight_ratio s b a = FOk x /\ weight_ratio s c b = FOk y /\ weight_ratio s c a = FOk z /\ z = x * y.
Proof.
intros Ha Hb Hc l H1 H2 H3. unfold weight_ratio, log_weight.
rewrite !(proj2 (Nat.ltb_ge _ _)), !(proj2 (Nat.leb_le _ _)) by assumption.
fold (l a) (l b) (l c).
assert (Q : forall u, Rabs u <= max_log_val -> - max_log_val <= u <= max_log_val).
{ intros u Hu. unfold Rabs in Hu; destruct (Rcase_abs u); lra. }
apply Q in H1, H2, H3. rewrite !(proj2 (Rltb_false _ _)) by lra.
do 3 eexists; repeat (split; [reflexivity|]). rewrite <- exp_plus. f_equal; lra.
Qed.

(** Beyond the maximum the weight is zero; starting from beyond it the call throws *)
Theorem C35_beyond s a b : (max_index s < b)%nat -> weight_ratio s b a = FOk 0 /\
  forall c, (c <= max_index s)%nat -> weight_ratio s c b = FThrow.
Proof.
intros H; split; unfold weight_ratio, log_weight; [now rewrite (proj2 (Nat.ltb_lt _ b) H)|].
intros c Hc. now rewrite (proj2 (Nat.ltb_ge _ c) Hc), (proj2 (Nat.leb_le c _) Hc), (proj2 (Nat.leb_gt b _) H).
Qed.

(** Rescaling changes no ratio, and makes the largest log_f zero *)
Theorem C35_rescale s a b : length (log_f s) = S (max_index s) -> (a <= max_index s)%nat -> (b <= max_index s)%nat ->
  weight_ratio (rescale_f s) b a = weight_ratio s b a /\
  (exists v, (v <= max_index s)%nat /\ nth v (log_f (rescale_f s)) 0 = 0) /\ nth a (log_f (rescale_f s)) 0 <= 0.
Proof.
intros L Ha Hb; split; [|].
- unfold weight_ratio, log_weight. replace (max_index (rescale_f s)) with (max_index s) by reflexivity.
  rewrite !rescale_nth by auto.
  rewrite (proj2 (Nat.ltb_ge _ b) Hb), (proj2 (Nat.leb_le b _) Hb), (proj2 (Nat.leb_le a _) Ha).
  replace (- (nth b (log_f s) 0 - max_element (log_f s)) - - (nth a (log_f s) 0 - max_element (log_f s)))
    with (- nth b (log_f s) 0 - - nth a (log_f s) 0) by lra. reflexivity.
- destruct (max_element_spec (log_f s)) as [I M]; [intros E; rewrite E in L; discriminate|].
  split.
  + destruct (In_nth _ _ 0 I) as (v & Hv & E). exists v; split; [lia|]. rewrite rescale_nth, E by (auto; lia). lra.
  + rewrite rescale_nth by auto. assert (nth a (log_f s) 0 <= max_element (log_f s)) by (apply M, nth_In; lia). lra.
Qed.

(** Once learning is finished nothing that can still be called changes the weights *)
Theorem C35_frozen s ops : exists s', run (finish_learning s) ops = FOk s' /\ s' = finish_learning s /\
  forall all, synchronize all s' = FThrow.
Proof.
exists (finish_learning s); split; [|split]; auto.
induction ops as [|[v|] ops IH]; auto.
Qed.

(** The histogram reported after learning is normalised to a largest entry of 1, lies between 0 and 1, drops at most entries
    below 10^-10, and its entries are in inverse proportion to the weights *)
Theorem C35_histogram s a b : length (log_f s) = S (max_index s) -> (a <= max_index s)%nat -> (b <= max_index s)%nat ->
  let t := finish_learning s in
  (exists v, (v <= max_index s)%nat /\ get_histogram t v = FOk 1) /\
  exists x y w, get_histogram t a = FOk x /\ get_histogram t b = FOk y /\ weight_ratio t b a = FOk w /\ 0 <= x <= 1 /\
    (x <> 0 -> / 10 ^ 10 <= x) /\ (x <> 0 -> y <> 0 -> w * y = x) /\ (x = 0 -> 0 < y -> w < / 10 ^ 10 / y).
Proof.
intros L Ha Hb t.
set (s0 := FH (max_val s) (max_index s) (target s) (log_lambda s) (log_f s) (counter s) true (num_updates s)).
assert (L0 : length (log_f s0) = S (max_index s0)) by exact L.
assert (Et : forall v, nth v (log_f t) 0 = nth v (log_f (rescale_f s0)) 0) by reflexivity.
destruct (C35_rescale s0 a b L0 Ha Hb) as (_ & (v & Hv & E0) & Na).
destruct (C35_rescale s0 b a L0 Hb Ha) as (_ & _ & Nb).
assert (P10 : 0 < / 10 ^ 10) by (apply Rinv_0_lt_compat, pow_lt; lra).
assert (LN : - max_log_val < ln (/ 10 ^ 10) < 0).
{ split.
  - apply exp_lt_inv. rewrite exp_ln by auto. rewrite exp_Ropp. apply Rinv_lt_contravar; [apply Rmult_lt_0_compat; [apply pow_lt; lra|apply exp_pos]|].
    assert (E1 : 1 + 1 < exp 1) by (apply exp_ineq1; lra).
    assert (E2 : forall n, exp (INR n) = exp 1 ^ n).
    { induction n as [|n IH]; [apply exp_0|]. rewrite S_INR, exp_plus, IH. simpl; ring. }
    apply Rlt_trans with (exp (INR 40)); [|apply exp_increasing; unfold max_log_val; simpl; lra].
    rewrite E2. apply Rlt_le_trans with (2 ^ 40); [lra|]. apply pow_incr; lra.
  - rewrite <- ln_1. apply ln_increasing; auto. lra. }
split.
- exists v; split; [exact Hv|]. unfold get_histogram. change (done t) with true; cbn [negb]. rewrite Et, E0, (proj2 (Rltb_false _ _)) by lra. now rewrite exp_0.
- unfold get_histogram, weight_ratio, log_weight. change (done t) with true; cbn [negb].
  replace (max_index t) with (max_index s) by reflexivity.
  rewrite (proj2 (Nat.ltb_ge _ b) Hb), (proj2 (Nat.leb_le b _) Hb), (proj2 (Nat.leb_le a _) Ha), (Et a), (Et b).
  set (u := nth a (log_f (rescale_f s0)) 0) in *; set (w := nth b (log_f (rescale_f s0)) 0) in *.
  assert (X1 : forall z, z <= 0 -> 0 <= exp z <= 1).
  { intros z Hz. split; [apply Rlt_le, exp_pos|]. rewrite <- exp_0. destruct (Rle_lt_or_eq_dec _ _ Hz) as [H|H]; [apply Rlt_le, exp_increasing, H|subst; lra]. }
  assert (X2 : forall z, ln (/ 10 ^ 10) <= z -> / 10 ^ 10 <= exp z).
  { intros z Hz. rewrite <- (exp_ln _ P10) at 1. destruct (Rle_lt_or_eq_dec _ _ Hz) as [H|H]; [apply Rlt_le, exp_increasing, H|rewrite H; lra]. }
  assert (IB : / big < / 10 ^ 10) by (apply Rinv_lt_contravar; unfold big; lra).
  destruct (Rltb u (ln (/ 10 ^ 10))) eqn:Eu; destruct (Rltb w (ln (/ 10 ^ 10))) eqn:Ew;
    [apply Rltb_true in Eu; apply Rltb_true in Ew|apply Rltb_true in Eu; apply Rltb_false in Ew|apply Rltb_false in Eu; apply Rltb_true in Ew|apply Rltb_false in Eu; apply Rltb_false in Ew].
  + assert (Y : forall z, exists x y w0, FOk 0 = FOk x /\ FOk 0 = FOk y /\ FOk z = FOk w0 /\ 0 <= x <= 1 /\
      (x <> 0 -> / 10 ^ 10 <= x) /\ (x <> 0 -> y <> 0 -> w0 * y = x) /\ (x = 0 -> 0 < y -> w0 < / 10 ^ 10 / y)).
    { intros z. exists 0, 0, z. do 3 (split; [reflexivity|]). (split; [split; lra|]); (split; [intros H; now destruct H|]); (split; [intros H; now destruct H|]); intros; lra. }
    destruct (Rltb max_log_val (- w - - u)); [|destruct (Rltb (- w - - u) (- max_log_val))]; apply Y.
  + rewrite (proj2 (Rltb_false max_log_val _)) by lra.
    assert (Y : forall z, z < / 10 ^ 10 / exp w -> exists x y w0, FOk 0 = FOk x /\ FOk (exp w) = FOk y /\ FOk z = FOk w0 /\ 0 <= x <= 1 /\
      (x <> 0 -> / 10 ^ 10 <= x) /\ (x <> 0 -> y <> 0 -> w0 * y = x) /\ (x = 0 -> 0 < y -> w0 < / 10 ^ 10 / y)).
    { intros z Hz. do 3 eexists; repeat (split; [reflexivity|]). (split; [split; lra|]); (split; [intros H; now destruct H|]); (split; [intros H; now destruct H|]); intros; exact Hz. }
    destruct (Rltb (- w - - u) (- max_log_val)) eqn:E; apply Y.
    * apply Rlt_le_trans with (/ 10 ^ 10); auto. rewrite <- (Rmult_1_r (/ 10 ^ 10)) at 1. apply Rmult_le_compat_l; [lra|].
      rewrite <- Rinv_1 at 1. apply Rinv_le_contravar; [apply exp_pos|apply X1, Nb].
    * replace (- w - - u) with (u - w) by lra. unfold Rdiv. unfold Rminus. rewrite exp_plus, exp_Ropp. apply Rmult_lt_compat_r; [apply Rinv_0_lt_compat, exp_pos|].
      rewrite <- (exp_ln _ P10). now apply exp_increasing.
  + assert (Q : - w - - u > ln 1) by (rewrite ln_1; lra).
    assert (Y : forall z, exists x y w0, FOk (exp u) = FOk x /\ FOk 0 = FOk y /\ FOk z = FOk w0 /\ 0 <= x <= 1 /\
      (x <> 0 -> / 10 ^ 10 <= x) /\ (x <> 0 -> y <> 0 -> w0 * y = x) /\ (x = 0 -> 0 < y -> w0 < / 10 ^ 10 / y)).
    { intros z. do 3 eexists; repeat (split; [reflexivity|]). split; [now apply X1|]. split; [intros _; now apply X2|]. split; [intros _ H; now destruct H|]. intros; lra. }
    destruct (Rltb max_log_val (- w - - u)); [|destruct (Rltb (- w - - u) (- max_log_val))]; apply Y.
  + rewrite !(proj2 (Rltb_false _ _)) by lra. do 3 eexists; repeat (split; [reflexivity|]).
    split; [now apply X1|]. split; [intros _; now apply X2|]. split; [intros _ _; rewrite <- exp_plus; f_equal; lra|].
    intros H; generalize (exp_pos u); lra.
Qed.

(** ** Several processes *)
Lemma addl_nth a b v : length a = length b -> nth v (addl a b) 0 = nth v a 0 + nth v b 0.
Proof.
revert b v; induction a as [|x a IH]; intros [|y b] [|v] H; simpl in *; try discriminate; try lra.
apply (IH b v); lia.
Qed.
Lemma addl_length a b : length a = length b -> length (addl a b) = length a.
Proof. intros H; unfold addl; rewrite map_length, combine_length; lia. Qed.
Lemma allreduce_nth n v : forall r x, length x = n -> (forall y, In y r -> length y = n) ->
  length (fold_left addl r x) = n /\
  nth v (fold_left addl r x) 0 = nth v x 0 + fold_right (fun y u => nth v y 0 + u) 0 r.
Proof.
induction r as [|y r IH]; intros x Hx H; simpl; [split; auto; lra|].
assert (Hy := H y (or_introl eq_refl)).
destruct (IH (addl x y)) as [A B]; [rewrite addl_length; lia|intros z Hz; apply H; now right|]. split; auto.
rewrite B, addl_nth by lia. lra.
Qed.

Section Processes.
Variable mv : nat.
Variable tf : list R.
Hypothesis tf_len : length tf = S mv.

(** The average over the processes of what [v] has earned on each *)
Definition mean_earned (v : nat) (hist : list (list op)) : R :=
  fold_right (fun ops u => earned (nth v tf 0) v 0 ops + u) 0 hist / INR (length hist).

(** When the processes, each after its own history, synchronize and finish, all of them have the same weights: the (clipped)
    exponential of the difference of the averages *)
Theorem C35_synchronized hist states s0 : create mv tf = FOk s0 -> Forall2 (fun ops s => in_range mv ops /\ run s0 ops = FOk s) hist states ->
  forall s a b, In s states -> (a <= mv)%nat -> (b <= mv)%nat -> exists s' y, synchronize states s = FOk s' /\
    weight_ratio s' b a = FOk y /\ weight_ratio (finish_learning s') b a = FOk y /\
    clipped (mean_earned a hist - mean_earned b hist) y.
Proof.
intros E F s a b I Ha Hb.
assert (FS : Forall2 (fun ops s => st mv tf (lowers ops + 0) (fun v => 0 + earned (nth v tf 0) v 0 ops) (fun v => visits v 0 ops) s) hist states).
{ clear I. induction F as [|ops s1 h l [R Hr] F IH]; constructor; auto.
  destruct (st_run mv tf tf_len ops R _ _ _ _ (st_create mv tf tf_len s0 E)) as (s2 & Hr2 & H). rewrite Hr in Hr2; injection Hr2 as <-; exact H. }
assert (X : exists ops, st mv tf (lowers ops + 0) (fun v => 0 + earned (nth v tf 0) v 0 ops) (fun v => visits v 0 ops) s).
{ clear F. induction FS; destruct I; subst; eauto. }
destruct X as [ops0 (a1 & a2 & a3 & a4 & a5 & a6 & a7 & a8 & _)].
unfold synchronize; rewrite a5.
set (g := map _ _).
assert (P : length g = S mv /\ exists c, forall v, (v <= mv)%nat -> nth v g 0 = mean_earned v hist - c).
{ assert (NZ : INR (length states) <> 0) by (destruct states; [destruct I|]; apply not_0_INR; discriminate).
  assert (LL : length hist = length states) by (clear -FS; induction FS; simpl; auto).
  assert (Q : forall (h : list (list op)) (l : list fh),
    Forall2 (fun ops s => st mv tf (lowers ops + 0) (fun v => 0 + earned (nth v tf 0) v 0 ops) (fun v => visits v 0 ops) s) h l ->
    (forall y, In y (map log_f l) -> length y = S mv) /\ exists c, forall v, (v <= mv)%nat ->
      fold_right (fun y u => nth v y 0 + u) 0 (map log_f l) = fold_right (fun ops u => earned (nth v tf 0) v 0 ops + u) 0 h - c).
  { clear. induction 1 as [|ops s h l (b1 & b2 & b3 & b4 & b5 & b6 & b7 & b8 & [c1 b9] & _) F [IH1 [c IH2]]].
    - split; [intros y []|]. exists 0; intros; simpl; lra.
    - split; [intros y [<-|Hy]; auto|]. exists (c + c1); intros v Hv; simpl. rewrite IH2, b9 by auto. lra. }
  destruct (Q _ _ FS) as [L [c HC]]. subst g. destruct states as [|s1 r]; [destruct I|].
  rewrite map_length. unfold allreduce_sum. simpl map at 1 2. cbv iota beta.
  split; [apply (allreduce_nth (S mv) 0 (map log_f r) (log_f s1)); [apply L; now left|intros; apply L; now right]|].
  exists (c / INR (length (s1 :: r))). intros v Hv.
  rewrite (nth_indep _ 0 ((fun x => x / INR (length (s1 :: r))) 0)).
  2:{ rewrite map_length. destruct (allreduce_nth (S mv) v (map log_f r) (log_f s1)) as [-> _]; [apply L; now left|intros; apply L; now right|lia]. }
  rewrite (map_nth (fun x => x / INR (length (s1 :: r)))).
  destruct (allreduce_nth (S mv) v (map log_f r) (log_f s1)) as [_ ->]; [apply L; now left|intros; apply L; now right|].
  generalize (HC v Hv); simpl map; simpl fold_right at 1; intros ->. unfold mean_earned; rewrite LL. field; auto. }
destruct P as [LG HG]. exists (set_f s g).
destruct (st_ratio mv (fun v => mean_earned v hist) (set_f s g) a b) as (y & Hy & C); auto.
exists y; split; [reflexivity|]; split; [exact Hy|]; split; [|exact C]. rewrite <- Hy.
set (s1 := FH (max_val s) (max_index s) (target s) (log_lambda s) g (counter s) true (num_updates s)).
change (weight_ratio (rescale_f s1) b a = weight_ratio s1 b a). apply C35_rescale; simpl; lia.
Qed.
End Processes.

(** ** C36 *)
Definition updates_needed := 14%nat.

Lemma lam_le k j : lam (k + j) <= lam k.
Proof.
induction j as [|j IH]; [rewrite Nat.add_0_r; lra|]. rewrite Nat.add_succ_r, lamS.
apply Rmax_lub; [|apply lam_ge]. generalize (lam_ge (k + j)) min_pos; lra.
Qed.
Lemma lam_min k : (updates_needed <= k)%nat -> lam k = min_log_lambda.
Proof.
unfold updates_needed; intros H. apply Rle_antisym; [|apply lam_ge].
replace k with (14 + (k - 14))%nat by lia. eapply Rle_trans; [apply lam_le|].
unfold lam; apply Rmax_lub; [|lra]. unfold init_log_lambda, min_log_lambda; simpl; lra.
Qed.
Lemma lam_not_min k : (k < updates_needed)%nat -> 101 / 100 * min_log_lambda <= lam k.
Proof.
unfold updates_needed; intros H. apply Rle_trans with (lam 13).
- unfold lam. eapply Rle_trans; [|apply Rmax_l]. unfold init_log_lambda, min_log_lambda; simpl; lra.
- replace 13%nat with (k + (13 - k))%nat by lia. apply lam_le.
Qed.

Lemma sum_shift l : forall x, fold_left Rplus l x = x + fold_right Rplus 0 l.
Proof. induction l as [|a l IH]; intros x; simpl; [lra|rewrite IH; lra]. Qed.

Section C36.
Variable mv : nat.
Variable tf : list R.
Hypothesis tf_len : length tf = S mv.

(** The logarithm of the factor after a history depends only on the number of reductions; it never increases along the
    history, never goes below the minimum, and convergence is reported exactly from the 14th reduction on *)
Theorem C36_factor s0 ops more s s' : create mv tf = FOk s0 -> in_range mv (ops ++ more) -> run s0 ops = FOk s -> run s more = FOk s' ->
  log_lambda s = lam (lowers ops) /\ min_log_lambda <= log_lambda s' <= log_lambda s /\
  (converged s = true <-> (updates_needed <= lowers ops)%nat) /\ (converged s = true -> converged s' = true).
Proof.
intros E R Hr Hr'.
assert (R1 : in_range mv ops) by (intros v Hv; apply R, in_or_app; now left).
assert (R2 : in_range mv more) by (intros v Hv; apply R, in_or_app; now right).
destruct (st_run mv tf tf_len ops R1 _ _ _ _ (st_create mv tf tf_len s0 E)) as (s1 & Hr1 & H1).
rewrite Hr in Hr1; injection Hr1 as <-.
destruct (st_run mv tf tf_len more R2 _ _ _ _ H1) as (s1 & Hr1 & H2). rewrite Hr' in Hr1; injection Hr1 as <-.
destruct H1 as (_ & _ & _ & L1 & _), H2 as (_ & _ & _ & L2 & _). rewrite Nat.add_0_r in L1, L2.
assert (C : forall k, Rltb (lam k) (101 / 100 * min_log_lambda) = true <-> (updates_needed <= k)%nat).
{ intros k. rewrite Rltb_true. destruct (le_lt_dec updates_needed k) as [H|H].
  - rewrite lam_min by auto. generalize min_pos; intuition lra.
  - apply lam_not_min in H as H'. split; [lra|lia]. }
unfold converged. rewrite L1, L2, !C. split; [reflexivity|]; split; [split; [apply lam_ge|]|split; [tauto|lia]].
rewrite Nat.add_comm; apply lam_le.
Qed.

(** The counters of a state *)
Definition mean_of (x : nat -> R) : R := fold_right Rplus 0 (map x (seq 0 (S mv))) / INR (S mv).
Lemma st_flat k e n s : st mv tf k e n s -> let x v := INR (n v) / nth v tf 0 in
  (flat_enough s = true <-> forall v, (v <= mv)%nat -> 25 <= x v /\ 8 / 10 * mean_of x < x v).
Proof.
intros (_ & Hm & _ & _ & _ & _ & _ & Hl & _ & Hc) x. fold x in Hc.
assert (EC : counter s = map x (seq 0 (S mv))).
{ apply nth_ext with (d := 0) (d' := x 0%nat); [now rewrite map_length, seq_length|].
  intros v Hv. rewrite Hl in Hv. rewrite (map_nth x), seq_nth, Hc by lia. reflexivity. }
assert (MC : min_count = 25) by (unfold min_count, criterion; rewrite Rmax_right; lra).
unfold flat_enough. rewrite Hm, MC.
assert (EM : sum (counter s) / INR (mv + 1) = mean_of x).
{ unfold sum, mean_of; rewrite sum_shift, EC, Rplus_0_l. now rewrite Nat.add_1_r. }
rewrite EM. destruct (min_element_spec (counter s)) as [MI ML]; [rewrite EC; discriminate|].
assert (VV : forall v, (v <= mv)%nat -> In (x v) (counter s)).
{ intros v Hv; rewrite EC; apply (in_map x), in_seq; lia. }
assert (VM : exists v, (v <= mv)%nat /\ min_element (counter s) = x v).
{ rewrite EC in MI. apply in_map_iff in MI as (v & Ev & Iv). apply in_seq in Iv. exists v; split; [lia|now rewrite EC, Ev]. }
assert (POS : 25 <= min_element (counter s) -> 0 < mean_of x).
{ intros P25. unfold mean_of; rewrite <- EC. apply Rdiv_lt_0_compat; [|apply lt_0_INR; lia].
  assert (Q : forall l, (forall y, In y l -> 0 < y) -> l <> [] -> 0 < fold_right Rplus 0 l).
  { clear. induction l as [|x [|y l] IH]; [tauto| |]; intros H _.
    - simpl; generalize (H x (or_introl eq_refl)); lra.
    - assert (0 < fold_right Rplus 0 (y :: l)) by (apply IH; [intros; apply H; now right|discriminate]).
      generalize (H x (or_introl eq_refl)); simpl in *; lra. }
  apply Q; [|rewrite EC; discriminate]. intros y Hy; generalize (ML y Hy); lra. }
destruct (Rltb (min_element (counter s)) 25) eqn:E1.
- apply Rltb_true in E1. split; [discriminate|]. intros H. destruct VM as (v & Hv & Ev). destruct (H v Hv); lra.
- apply Rltb_false in E1. specialize (POS E1). rewrite Rltb_true; unfold criterion.
  assert (DV : 8 / 10 < min_element (counter s) / mean_of x <-> 8 / 10 * mean_of x < min_element (counter s)).
  { split; intros H.
    - apply (Rmult_lt_compat_r (mean_of x)) in H; auto. unfold Rdiv at 2 in H. rewrite Rmult_assoc, Rinv_l, Rmult_1_r in H; lra.
    - apply (Rmult_lt_reg_r (mean_of x)); auto. unfold Rdiv at 2. rewrite Rmult_assoc, Rinv_l; lra. }
  rewrite DV. split.
  + intros H v Hv. generalize (ML _ (VV v Hv)); lra.
  + intros H. destruct VM as (v & Hv & Ev). rewrite Ev. apply H; auto.
Qed.

(** The flatness test says yes exactly when every value was visited, in units of its target fraction, at least 25 times since
    the last reduction, and more than 0.8 times the average over the values *)
Theorem C36_flat s0 ops s : create mv tf = FOk s0 -> in_range mv ops -> run s0 ops = FOk s ->
  let x v := INR (visits v 0 ops) / nth v tf 0 in
  (flat_enough s = true <-> forall v, (v <= mv)%nat -> 25 <= x v /\ 8 / 10 * mean_of x < x v).
Proof.
intros E R Hr. destruct (st_run mv tf tf_len ops R _ _ _ _ (st_create mv tf tf_len s0 E)) as (s1 & Hr1 & H1).
rewrite Hr in Hr1; injection Hr1 as <-. exact (st_flat _ _ _ _ H1).
Qed.
End C36.

(** ** Convergence is reached: visiting all values in turn *)
Fixpoint adjusts (s : fh) (vs : list nat) : fres fh :=
  match vs with [] => FOk s | v :: r => match adjust_hist s v with FOk s' => adjusts s' r | FThrow => FThrow end end.
Lemma adjusts_app s vs ws : adjusts s (vs ++ ws) = match adjusts s vs with FOk s' => adjusts s' ws | FThrow => FThrow end.
Proof. revert s; induction vs as [|v vs IH]; intros s; simpl; auto. destruct (adjust_hist s v); auto. Qed.

Section Reached.
Variable mv : nat.
Notation tf := (fill (S mv) 1).
Lemma tf_len : length tf = S mv. Proof. apply fill_length. Qed.
Notation st := (st mv tf).

Lemma mean_const c : mean_of mv (fun _ => c) = c.
Proof.
unfold mean_of. assert (E : forall n k, fold_right Rplus 0 (map (fun _ : nat => c) (seq k n)) = INR n * c).
{ induction n as [|n IH]; intros k; simpl seq; simpl fold_right; [simpl; lra|]. rewrite IH, S_INR. lra. }
rewrite E. field. apply not_0_INR; discriminate.
Qed.

(** Within a round: values below [j] have been visited once more than the others *)
Lemma within_round r j k s : (r <= 24)%nat -> (j <= mv)%nat ->
  (exists e, st k e (fun v => if Nat.ltb v j then S r else r) s) -> exists s', adjust_hist s j = FOk s' /\
  ((j < mv)%nat -> exists e, st k e (fun v => if Nat.ltb v (S j) then S r else r) s') /\
  (j = mv -> exists e, st (if Nat.eqb r 24 then S k else k) e (fun v => if Nat.eqb r 24 then 0%nat else S r) s').
Proof.
intros Hr Hj [e H]. unfold adjust_hist. destruct (st_measure mv tf tf_len _ _ _ _ j H Hj) as (s1 & -> & H1).
eexists; split; [reflexivity|].
set (n := fun v => if Nat.eqb j v then S (if Nat.ltb v j then S r else r) else if Nat.ltb v j then S r else r) in H1.
assert (N : forall v, n v = if Nat.ltb v (S j) then S r else r).
{ intros v; unfold n. destruct (Nat.eqb_spec j v) as [->|ne].
  - now rewrite (proj2 (Nat.ltb_ge v v)), (proj2 (Nat.ltb_lt v (S v))) by lia.
  - destruct (Nat.ltb_spec v j), (Nat.ltb_spec v (S j)); auto; lia. }
destruct (flat_enough s1) eqn:EF.
- pose proof (proj1 (st_flat mv tf tf_len _ _ _ _ H1) EF) as FL.
  assert (j = mv /\ r = 24%nat) as [-> ->].
  { destruct (FL mv (le_n _)) as [A _]. rewrite fill_nth, N in A by lia.
    destruct (Nat.ltb_spec mv (S j)).
    - split; [lia|]. assert (X : 25 <= INR (S r)) by lra. replace 25 with (INR 25) in X by (simpl; lra). apply INR_le in X; lia.
    - assert (X : 25 <= INR r) by lra. replace 25 with (INR 25) in X by (simpl; lra). apply INR_le in X; lia. }
  split; [lia|intros _]. simpl. eexists. exact (st_lower mv tf tf_len _ _ _ _ H1).
- split; intros Hm.
  + eexists; eapply st_ext; [| |exact H1]; [reflexivity|intros v _; exact (N v)].
  + subst j. destruct (Nat.eqb_spec r 24) as [->|ne].
    * exfalso. enough (T : flat_enough s1 = true) by (rewrite T in EF; discriminate).
      apply (st_flat mv tf tf_len _ _ _ _ H1).
      assert (X : forall v, (v <= mv)%nat -> INR (n v) / nth v tf 0 = 25).
      { intros v Hv; rewrite N, fill_nth, (proj2 (Nat.ltb_lt v (S mv))) by lia. simpl; lra. }
      intros v Hv. rewrite (X v Hv).
      replace (mean_of mv (fun v => INR (n v) / nth v tf 0)) with 25; [lra|].
      rewrite <- (mean_const 25). unfold mean_of. f_equal. f_equal. apply map_ext_in. intros w Hw; apply in_seq in Hw. symmetry; apply X; lia.
    * eexists; eapply st_ext; [| |exact H1]; [reflexivity|]. intros v Hv; cbv beta; fold (n v). rewrite N.
      now rewrite (proj2 (Nat.ltb_lt v (S mv))) by lia.
Qed.

Lemma one_round r k s : (r <= 24)%nat -> (exists e, st k e (fun _ => r) s) -> exists s', adjusts s (seq 0 (S mv)) = FOk s' /\
  exists e, st (if Nat.eqb r 24 then S k else k) e (fun _ => if Nat.eqb r 24 then 0%nat else S r) s'.
Proof.
intros Hr [e0 H0].
assert (P : forall m j, (j + S m = S mv)%nat -> forall s, (exists e, st k e (fun v => if Nat.ltb v j then S r else r) s) ->
  exists s', adjusts s (seq j (S m)) = FOk s' /\
  exists e, st (if Nat.eqb r 24 then S k else k) e (fun _ => if Nat.eqb r 24 then 0%nat else S r) s').
{ induction m as [|m IH]; intros j Hj s1 H; change (adjusts s1 (seq j (S ?m))) with (match adjust_hist s1 j with FOk s' => adjusts s' (seq (S j) m) | FThrow => FThrow end).
  - destruct (within_round r j k s1 Hr ltac:(lia) H) as (s2 & E & _ & L). simpl. rewrite E. exists s2; split; auto. apply L; lia.
  - destruct (within_round r j k s1 Hr ltac:(lia) H) as (s2 & E & L & _).
    destruct (IH (S j) ltac:(lia) s2 (L ltac:(lia))) as (s3 & E3 & X). exists s3; split; auto.
    change (seq j (S (S m))) with (j :: seq (S j) (S m)). simpl adjusts. now rewrite E. }
apply (P mv 0%nat); [lia|]. exists e0. exact H0.
Qed.

Lemma rounds m : forall r k s, (r + m <= 25)%nat -> (r <= 24)%nat -> (exists e, st k e (fun _ => r) s) ->
  exists s', adjusts s (concat (repeat (seq 0 (S mv)) m)) = FOk s' /\
  exists e, st (if Nat.eqb (r + m) 25 then S k else k) e (fun _ => if Nat.eqb (r + m) 25 then 0%nat else (r + m)%nat) s'.
Proof.
induction m as [|m IH]; intros r k s Hm Hr H.
- exists s; split; auto. rewrite (proj2 (Nat.eqb_neq (r + 0) 25)) by lia. now rewrite Nat.add_0_r.
- cbn [repeat concat]. rewrite adjusts_app.
  destruct (one_round r k s Hr H) as (s1 & -> & H1).
  destruct (Nat.eqb_spec r 24) as [->|ne].
  + assert (m = 0)%nat as -> by lia. exists s1; split; auto.
  + destruct (IH (S r) k s1 ltac:(lia) ltac:(lia) H1) as (s2 & -> & H2). exists s2; split; auto.
    now replace (r + S m)%nat with (S r + m)%nat by lia.
Qed.

(** 14 times 25 rounds over the values are enough, whatever their number *)
Theorem C36_reached : exists s0 s, create_flat mv = FOk s0 /\ adjusts s0 (concat (repeat (concat (repeat (seq 0 (S mv)) 25)) 14)) = FOk s /\ converged s = true.
Proof.
assert (C : exists s0, create_flat mv = FOk s0).
{ unfold create_flat, create. rewrite fill_length, Nat.eqb_refl. eauto. }
destruct C as [s0 E]; exists s0.
assert (H0 : exists e, st 0 e (fun _ => 0%nat) s0).
{ eexists. apply (st_create mv tf tf_len). unfold create_flat in E. now rewrite Nat.add_1_r in E. }
assert (P : forall m k s, (exists e, st k e (fun _ => 0%nat) s) -> exists s', adjusts s (concat (repeat (concat (repeat (seq 0 (S mv)) 25)) m)) = FOk s' /\
  exists e, st (k + m) e (fun _ => 0%nat) s').
{ induction m as [|m IH]; intros k s H.
  - exists s; split; auto. now rewrite Nat.add_0_r.
  - change (repeat (concat (repeat (seq 0 (S mv)) 25)) (S m)) with (concat (repeat (seq 0 (S mv)) 25) :: repeat (concat (repeat (seq 0 (S mv)) 25)) m).
    cbn [concat]. rewrite adjusts_app. destruct (rounds 25 0 k s ltac:(lia) ltac:(lia) H) as (s1 & -> & H1).
    destruct (IH (S k) s1 H1) as (s2 & -> & H2). exists s2; split; auto. now replace (k + S m)%nat with (S k + m)%nat by lia. }
destruct (P 14%nat 0%nat s0 H0) as (s & -> & e & H). exists s; repeat split; auto.
destruct H as (_ & _ & _ & L & _). unfold converged. rewrite L, lam_min by (unfold updates_needed; lia).
apply Rltb_true. generalize min_pos; lra.
Qed.
End Reached.

(** ** A concrete history *)
(** Two spaces with target fractions 1 and 1/10; two visits of space 0, one of space 1, a reduction, one more visit of 0:
    the weight of 1 over 0 is exp (2 lam 0 + lam 1 - 10 lam 0) *)
Example C35_instance : exists s0 s, create 1 [1; 1 / 10] = FOk s0 /\ run s0 [Visit 0; Visit 1; Visit 0; Lower; Visit 0] = FOk s /\
  weight_ratio s 1 0 = FOk (exp (- 15 / 2 * init_log_lambda)).
Proof.
eexists. assert (E : create 1 [1; 1 / 10] = FOk (FH 1 1 [1; 1 / 10] init_log_lambda (fill 2 0) (fill 2 0) false 0)) by reflexivity.
destruct (C35_history 1 [1; 1 / 10] eq_refl _ [Visit 0; Visit 1; Visit 0; Lower; Visit 0] 0 1 E) as (s & y & Hr & Hw & C); try lia.
{ intros v [H|[H|[H|[H|[H|[]]]]]]; injection H || discriminate H; lia. }
exists s; split; [exact E|]; split; [exact Hr|]. rewrite Hw. f_equal. simpl in C.
assert (L1 : lam 1 = init_log_lambda / 2).
{ rewrite lamS, lam0, Rmax_left; [lra|]. unfold init_log_lambda, min_log_lambda; lra. }
rewrite lam0, L1 in C. destruct C as [C _]. rewrite C.
- f_equal. field.
- unfold max_log_val, init_log_lambda, Rabs. destruct (Rcase_abs _); lra.
Qed.

Print Assumptions C35_history.
Print Assumptions C35_reciprocal.
Print Assumptions C35_multiplicative.
Print Assumptions C35_beyond.
Print Assumptions C35_rescale.
Print Assumptions C35_histogram.
Print Assumptions C35_frozen.
Print Assumptions C35_synchronized.
Print Assumptions C35_instance.
Print Assumptions C36_factor.
Print Assumptions C36_flat.
Print Assumptions C36_reached.
