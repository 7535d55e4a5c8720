(** * C40: configuration-space bookkeeping *)
From Coq Require Import Reals List Lra Lia Bool Arith.
From Verif Require Import FlatHist ConfigSpace T_FlatHist.
Import ListNotations.
Open Scope R_scope.

(** ** Specification *)

(** What can happen to the books during a run of the simulation: a move of the sweep with its random inputs, the clock
    switching to the thermalized state, a counted Monte Carlo step, a report of the volumes, and the preparation of the
    measurement together with the histograms of all processes *)
Inductive event := Move (chs : list choice) | Therm | Step | Measure | Prepare (all : list fh).
Definition therm (s : sim) : sim :=
  Sim (worm_types s) (cur s) (hist s) (extra_weight s) (weight_map s) (num_steps s) (visited s) true.
(** The run, with the space of every counted step since the last report written down, and every report together with the
    steps it covers and the weights in force *)
Record outcome := Outcome { o_sim : sim; o_log : list space; o_reports : list (report * list space * list R) }.
Definition happen (e : event) (o : outcome) : cres outcome :=
  match e with
  | Move chs => bind (sweep_move chs (o_sim o)) (fun s => COk (Outcome s (o_log o) (o_reports o)))
  | Therm => COk (Outcome (therm (o_sim o)) (o_log o) (o_reports o))
  | Step => bind (measure_every_step (o_sim o)) (fun s => COk (Outcome s (o_log o ++ [cur (o_sim o)]) (o_reports o)))
  | Measure => let (r, s) := measure_volumes (o_sim o) in
               COk (Outcome s [] (o_reports o ++ [(r, o_log o, extra_weight (o_sim o))]))
  | Prepare all => bind (prepare all (o_sim o)) (fun s => COk (Outcome s (o_log o) (o_reports o)))
  end.
Fixpoint happens (es : list event) (o : outcome) : cres outcome :=
  match es with [] => COk o | e :: r => bind (happen e o) (happens r) end.

(** The events possible with [n] worm spaces: random worm numbers are below [n]; the measurement is prepared at most once,
    by processes that all have [n] worm spaces *)
Definition possible (n : nat) (e : event) : Prop :=
  match e with
  | Move chs => forall ch, In ch chs -> (i_worm ch < n)%nat
  | Prepare all => all <> [] /\ forall h, In h all -> length (log_f h) = S n
  | _ => True
  end.
Definition is_prepare (e : event) : bool := match e with Prepare _ => true | _ => false end.
Definition once (es : list event) : Prop := (length (filter is_prepare es) <= 1)%nat.
Definition times (w : space) (l : list space) : nat := length (filter (space_eqb w) l).
Definition active (ws : list space) (w : space) : Prop := w = Z_FUNCTION \/ In w ws.

(** ** Positions *)
Lemma space_eqb_spec a b : reflect (a = b) (space_eqb a b).
Proof. destruct a, b; constructor; congruence. Qed.
Lemma space_eqb_refl a : space_eqb a a = true.
Proof. now destruct a. Qed.

Lemma find_pos_some w ws p : find_pos w ws = Some p -> nth_error ws p = Some w.
Proof.
revert p; induction ws as [|x r IH]; intros p; simpl; [discriminate|].
destruct (space_eqb_spec x w) as [->|ne]; [now intros [= <-]|].
destruct (find_pos w r); simpl; [intros [= <-]; simpl; auto|discriminate].
Qed.
Lemma find_pos_nth w ws p : NoDup ws -> nth_error ws p = Some w -> find_pos w ws = Some p.
Proof.
intros H; revert p; induction H as [|x r H1 H2 IH]; intros [|p]; simpl; try discriminate.
- intros [= ->]; now rewrite space_eqb_refl.
- intros E. destruct (space_eqb_spec x w) as [->|ne]; [apply nth_error_In in E; contradiction|]. now rewrite (IH p E).
Qed.

Section Position.
Variable ws : list space.
Hypothesis nodup : NoDup ws.
Hypothesis noZ : ~ In Z_FUNCTION ws.

(** Every active space has a position from 0 to the number of worm spaces, every other space has none; different active
    spaces have different positions; every such position belongs to an active space *)
Theorem C40_position : (forall w, active ws w <-> exists p, position ws w = Some p /\ (p <= length ws)%nat) /\
  (forall v w p, position ws v = Some p -> position ws w = Some p -> v = w) /\
  (forall p, (p <= length ws)%nat -> exists w, active ws w /\ position ws w = Some p) /\
  position ws Z_FUNCTION = Some 0%nat /\
  forall w p, In w ws -> position ws w = Some p -> nth_error ws (p - 1) = Some w.
Proof.
split; [|split; [|split; [|split; [reflexivity|]]]].
- intros w; split.
  + unfold position; destruct (space_eqb_spec w Z_FUNCTION) as [->|ne]; [exists 0%nat; split; [auto|lia]|].
    intros [->|H]; [congruence|]. apply In_nth_error in H as [p H].
    exists (S p). rewrite (find_pos_nth w ws p nodup H); split; auto.
    apply nth_error_Some; congruence.
  + intros (p & H & _). unfold position in H; destruct (space_eqb_spec w Z_FUNCTION) as [->|ne]; [now left|right].
    destruct (find_pos w ws) eqn:E; [|discriminate]. eapply nth_error_In, find_pos_some, E.
- intros v w p; unfold position. destruct (space_eqb_spec v Z_FUNCTION) as [->|nv], (space_eqb_spec w Z_FUNCTION) as [->|nw]; auto.
  + destruct (find_pos w ws); simpl; congruence.
  + destruct (find_pos v ws); simpl; congruence.
  + destruct (find_pos v ws) eqn:Ev, (find_pos w ws) eqn:Ew; simpl; try congruence.
    apply find_pos_some in Ev, Ew. intros [= <-] [= <-]. congruence.
- intros [|p] H; [exists Z_FUNCTION; split; [now left|reflexivity]|].
  destruct (nth_error ws p) as [w|] eqn:E; [|apply nth_error_None in E; lia].
  exists w; split; [right; eapply nth_error_In, E|]. unfold position.
  destruct (space_eqb_spec w Z_FUNCTION) as [->|ne]; [apply nth_error_In in E; contradiction|].
  now rewrite (find_pos_nth w ws p nodup E).
- intros w p I; unfold position. destruct (space_eqb_spec w Z_FUNCTION) as [->|ne]; [contradiction|].
  destruct (find_pos w ws) eqn:E; [|discriminate]. apply find_pos_some in E. simpl; intros [= <-]; simpl. now rewrite Nat.sub_0_r.
Qed.
Lemma position_active w : active ws w -> exists p, position ws w = Some p /\ (p <= length ws)%nat.
Proof. apply C40_position. Qed.
Lemma position_worm w p : w <> Z_FUNCTION -> position ws w = Some p -> (1 <= p)%nat /\ nth_error ws (p - 1) = Some w.
Proof.
unfold position; destruct (space_eqb_spec w Z_FUNCTION) as [->|ne]; [congruence|intros _].
destruct (find_pos w ws) eqn:E; [|discriminate]. apply find_pos_some in E. simpl; intros [= <-]; simpl. rewrite Nat.sub_0_r. split; [lia|auto].
Qed.
End Position.

(** The lists of worm spaces the code can make *)
Lemma created_ok a b c d : NoDup (create_worm_types a b c d) /\ ~ In Z_FUNCTION (create_worm_types a b c d) /\
  In G1 (create_worm_types a b c d) /\ ~ In Unknown (create_worm_types a b c d).
Proof.
destruct a, b, c, d; unfold create_worm_types; simpl; repeat split;
  repeat (constructor; [simpl; intuition discriminate|]); try constructor; intuition discriminate.
Qed.

(** ** The invariant *)
Definition hok (n : nat) (h : fh) : Prop :=
  max_val h = n /\ max_index h = n /\ length (log_f h) = S n /\ length (counter h) = S n.
Definition inv (ws : list space) (s : sim) : Prop :=
  worm_types s = ws /\ active ws (cur s) /\ hok (length ws) (hist s) /\
  length (extra_weight s) = S (length ws) /\ length (num_steps s) = S (length ws) /\ length (visited s) = S (length ws) /\
  (forall p, (p <= length ws)%nat -> weight_ratio (hist s) p 0 = FOk (nth p (extra_weight s) 0)) /\
  (forall w p, In w ws -> position ws w = Some p -> map_find w (weight_map s) = Some (nth p (extra_weight s) 0)).

Lemma hok_ratio n h p : hok n h -> (p <= n)%nat -> exists x, weight_ratio h p 0 = FOk x /\ 0 < x.
Proof.
intros (_ & M & _) H. destruct (C35_reciprocal h 0 p) as (x & y & -> & _ & P & _); try lia. eauto.
Qed.
Lemma hok_ratio0 n h : hok n h -> weight_ratio h 0 0 = FOk 1.
Proof.
intros (_ & M & _). unfold weight_ratio, log_weight. rewrite (proj2 (Nat.ltb_ge _ _)), (proj2 (Nat.leb_le _ _)) by lia.
assert (0 < max_log_val) by (unfold max_log_val; lra).
rewrite !(proj2 (Rltb_false _ _)) by lra.
f_equal. rewrite <- exp_0. f_equal; lra.
Qed.
Lemma hok_measure n h v : hok n h -> (v <= n)%nat -> exists h', measure h v = FOk h' /\ hok n h'.
Proof.
intros (A & B & C & D) H. unfold measure. destruct (done h); [exists h; repeat split; auto|].
rewrite A, B, (proj2 (Nat.ltb_ge n v) H). eexists; split; [reflexivity|]. unfold hok; simpl; rewrite !upd_length; auto.
Qed.
Lemma hok_update n h : hok n h -> hok n (update_lambda h).
Proof.
intros (A & B & C & D). unfold update_lambda. destruct (done h); [repeat split; auto|].
unfold hok; simpl; rewrite fill_length; repeat split; auto. rewrite (proj1 (resc_fold _ _ _ _)); auto.
Qed.
Lemma hok_finish n h : hok n h -> hok n (finish_learning h).
Proof.
intros (A & B & C & D). unfold finish_learning, hok; simpl; rewrite fill_length; repeat split; auto. rewrite (proj1 (resc_fold _ _ _ _)); auto.
Qed.
Lemma finish_ratio n h p : hok n h -> (p <= n)%nat -> weight_ratio (finish_learning h) p 0 = weight_ratio h p 0.
Proof.
intros (A & B & C & D) H.
set (h1 := FH (max_val h) (max_index h) (target h) (log_lambda h) (log_f h) (counter h) true (num_updates h)).
change (weight_ratio (rescale_f h1) p 0 = weight_ratio h1 p 0). apply C35_rescale; simpl; lia.
Qed.

Lemma map_find_set w v x m : map_find w (map_set v x m) = if space_eqb v w then Some x else map_find w m.
Proof.
induction m as [|[u y] r IH]; simpl.
- destruct (space_eqb v w); auto.
- destruct (space_eqb_spec u v) as [->|ne]; simpl.
  + destruct (space_eqb v w); auto.
  + destruct (space_eqb_spec u w) as [->|ne']; auto. destruct (space_eqb_spec v w); [congruence|auto].
Qed.

Lemma apply_ok n h : hok n h -> forall ws i ex m, (i + length ws = n)%nat -> length ex = S n -> NoDup ws ->
  exists ex' m', apply_weights h ws i ex m = COk (ex', m') /\ length ex' = S n /\
  (forall p, (p <= i)%nat -> nth p ex' 0 = nth p ex 0) /\
  (forall p, (i < p <= n)%nat -> weight_ratio h p 0 = FOk (nth p ex' 0)) /\
  (forall j w, nth_error ws j = Some w -> map_find w m' = Some (nth (i + j + 1) ex' 0)) /\
  (forall w, ~ In w ws -> map_find w m' = map_find w m).
Proof.
intros H; induction ws as [|w ws IH]; intros i ex m L E ND; simpl.
- exists ex, m; repeat split; auto; [intros; simpl in *; lia|intros [|]; discriminate].
- simpl in L. destruct (hok_ratio n h (i + 1) H) as (x & Ex & _); [lia|]. rewrite Ex, E, (proj2 (Nat.ltb_lt _ _)) by lia.
  inversion ND; subst.
  destruct (IH (S i) (upd ex (i + 1) (fun _ => x)) (map_set w x m)) as (ex' & m' & -> & A & B & C & D & F); auto; [lia|now rewrite upd_length|].
  assert (X : nth (i + 1) ex' 0 = x).
  { rewrite B, upd_nth, E, Nat.eqb_refl, (proj2 (Nat.ltb_lt _ _)) by lia. reflexivity. }
  exists ex', m'; repeat split; auto.
  + intros p Hp. rewrite B, upd_nth by lia. rewrite (proj2 (Nat.eqb_neq (i + 1) p)) by lia. reflexivity.
  + intros p Hp. destruct (Nat.eq_dec p (i + 1)) as [->|]; [now rewrite X|apply C; lia].
  + intros [|j] v; simpl.
    * intros [= <-]. rewrite F, map_find_set, space_eqb_refl by auto. now rewrite Nat.add_0_r, X.
    * intros Hj. rewrite (D j v Hj). do 2 f_equal. lia.
  + intros v Hv. rewrite F, map_find_set by (simpl in Hv; tauto). destruct (space_eqb_spec w v) as [->|]; auto. simpl in Hv; tauto.
Qed.

Section Run.
Variable ws : list space.
Hypothesis created : NoDup ws /\ ~ In Z_FUNCTION ws /\ In G1 ws /\ ~ In Unknown ws.
Notation n := (length ws).

Lemma npos : (0 < n)%nat.
Proof. destruct created as (_ & _ & H & _). destruct ws; [contradiction|simpl; lia]. Qed.

Lemma set_weights_ok s h : inv ws s -> hok n h -> exists s', set_weights s h = COk s' /\ inv ws s' /\ hist s' = h /\
  cur s' = cur s /\ num_steps s' = num_steps s /\ visited s' = visited s /\ thermalized s' = thermalized s.
Proof.
intros (E & A & H0 & L1 & L2 & L3 & W & M) H. unfold set_weights; rewrite E.
destruct created as (ND & NZ & IG & NU).
destruct (apply_ok n h H ws 0 (upd (extra_weight s) 0 (fun _ => 1)) (weight_map s)) as (ex & m & -> & P1 & P2 & P3 & P4 & P5); auto.
{ now rewrite upd_length. }
simpl. eexists; split; [reflexivity|]. split; [|auto]. unfold inv; simpl. split; [auto|]; split; [auto|]; split; [auto|]; split; [auto|]; split; [auto|]; split; [auto|].
split.
- intros [|p] Hp; [|apply P3; lia]. rewrite (P2 0%nat), upd_nth, L1 by lia. simpl. now apply hok_ratio0 with n.
- intros w p I Hp. apply position_worm in Hp as [G Hp]; [|intros ->; contradiction].
  rewrite (P4 _ _ Hp). do 2 f_equal; lia.
Qed.

Lemma adjust_ok s : inv ws s -> exists s', adjust s = COk s' /\ inv ws s' /\ cur s' = cur s /\ num_steps s' = num_steps s /\
  visited s' = visited s /\ thermalized s' = thermalized s /\ (thermalized s = true -> s' = s) /\
  (done (hist s) = false -> done (hist s') = false).
Proof.
intros I; destruct I as (E & A & H & L) eqn:EI. unfold adjust. rewrite E.
destruct (Nat.eqb_spec n 0) as [Z|NZ]; [generalize npos; lia|]. simpl.
destruct (thermalized s) eqn:T; [exists s; rewrite ?T; repeat (split; [assumption||reflexivity|]); auto|].
destruct created as (ND & NZF & IG & NU).
destruct (position_active ws ND NZF _ A) as (p & -> & Hp).
unfold adjust_hist. destruct (hok_measure n _ p H Hp) as (h1 & Em & H1). rewrite Em. cbn [of_f bind].
assert (H2 : hok n (if flat_enough h1 then update_lambda h1 else h1)) by (destruct (flat_enough h1); auto; now apply hok_update).
destruct (set_weights_ok s _ I H2) as (s' & -> & I' & B1 & B2 & B3 & B4 & B5). exists s'; rewrite B1.
do 6 (split; [congruence||assumption|]). split; [discriminate|].
intros D. unfold measure in Em. rewrite D in Em. revert Em; destruct (Nat.ltb _ p); [discriminate|].
destruct (Nat.ltb _ p); intros [= <-]; destruct (flat_enough _); unfold update_lambda; simpl; rewrite ?D; auto.
Qed.

Lemma set_cur_inv s v : inv ws s -> active ws v -> inv ws (set_cur s v).
Proof. intros (E & A & H) X. split; [exact E|split; [exact X|exact H]]. Qed.

(** What a part of a transition keeps *)
Definition keeps (s s' : sim) : Prop := inv ws s' /\ num_steps s' = num_steps s /\ visited s' = visited s /\
  thermalized s' = thermalized s /\ (thermalized s = true -> hist s' = hist s /\ extra_weight s' = extra_weight s) /\
  (done (hist s) = false -> done (hist s') = false).
Lemma keeps_trans s1 s2 s3 : keeps s1 s2 -> keeps s2 s3 -> keeps s1 s3.
Proof.
intros (a1 & b1 & c1 & d1 & e1 & f1) (a2 & b2 & c2 & d2 & e2 & f2). split; [auto|]. repeat (split; [congruence|]). split; [|auto].
intros T. destruct (e1 T) as [x y]. rewrite d1 in e2. destruct (e2 T) as [x' y']. split; congruence.
Qed.
Lemma keeps_refl s : inv ws s -> keeps s s.
Proof. intros I; repeat split; auto; apply I. Qed.
Lemma keeps_move s v : inv ws s -> active ws v -> exists s', adjust (set_cur s v) = COk s' /\ keeps s s' /\ cur s' = v.
Proof.
intros I A. destruct (adjust_ok _ (set_cur_inv s v I A)) as (s' & -> & I' & B1 & B2 & B3 & B4 & B5 & B6).
exists s'; split; auto; split; [|exact B1]. split; [auto|]; split; [auto|]; split; [auto|]; split; [auto|]; split; [|exact B6].
intros T; rewrite (B5 T); auto.
Qed.

Lemma first_ok ch s : (i_worm ch < n)%nat -> inv ws s -> exists s', first_part ch s = COk s' /\ keeps s s'.
Proof.
intros Hi I; destruct I as (E & A & H) eqn:EI. destruct created as (ND & NZF & IG & NU).
unfold first_part; rewrite E.
destruct (space_eqb_spec (cur s) Z_FUNCTION) as [EZ|NE].
- destruct (nth_error ws (i_worm ch)) as [w|] eqn:Ew; [|apply nth_error_None in Ew; lia].
  destruct (keeps_move s (ins_rem w (acc1 ch) (cur s)) I) as (s' & -> & K & _); [|eauto].
  unfold ins_rem; rewrite EZ; simpl. destruct (acc1 ch); [right; eapply nth_error_In, Ew|now left].
- destruct (position_active ws ND NZF _ A) as (p & Ep & Hp). rewrite Ep.
  apply position_worm in Ep as [Gp Ep]; auto. rewrite Ep.
  destruct (keeps_move s (ins_rem (cur s) (acc1 ch) (cur s)) I) as (s' & -> & K & _); [|eauto].
  unfold ins_rem. destruct (acc1 ch); auto. destruct (space_eqb (cur s) Z_FUNCTION); [exact A|now left].
Qed.

Lemma special_ok u here must mv s : inv ws s -> (must = true -> specialized ws u = true) ->
  (here = true -> specialized ws u = true -> exists v, mv (cur s) = COk v /\ active ws v) ->
  exists s', special_part u here must mv s = COk s' /\ keeps s s'.
Proof.
intros I Hm Hv. destruct I as (E & A & H) eqn:EI. unfold special_part. rewrite E.
destruct here; simpl; [|exists s; split; auto; apply keeps_refl; auto].
destruct (specialized ws u) eqn:S.
- rewrite orb_true_r. destruct (Hv eq_refl eq_refl) as (v & -> & Av). simpl.
  destruct (keeps_move s v I Av) as (s' & -> & K & _); eauto.
- destruct must; [discriminate (Hm eq_refl)|]. simpl. exists s; split; auto; apply keeps_refl; auto.
Qed.

Lemma has_in w : has w ws = true -> In w ws.
Proof. unfold has; intros H; apply existsb_exists in H as (x & I & X). destruct (space_eqb_spec w x); [congruence|discriminate]. Qed.

Lemma transition1_ok ch s : (i_worm ch < n)%nat -> inv ws s -> exists s', transition1 ch s = COk s' /\ keeps s s'.
Proof.
intros Hi I. destruct created as (ND & NZF & IG & NU). unfold transition1.
destruct (first_ok ch s Hi I) as (s1 & -> & K1). cbn [bind].
destruct (special_ok G1_ins_rem_hyb (space_eqb (cur s1) Z_FUNCTION || space_eqb (cur s1) G1) true
  (fun c => COk (ins_rem G1 (acc2 ch) c)) s1) as (s2 & -> & K2); [apply K1|reflexivity| |].
{ intros _ _. eexists; split; [reflexivity|]. unfold ins_rem. destruct (acc2 ch); [|apply K1].
  destruct (space_eqb (cur s1) Z_FUNCTION); [now right|now left]. }
cbn [bind].
destruct (special_ok G2_ins_rem_hyb (space_eqb (cur s2) Z_FUNCTION || space_eqb (cur s2) G2) false
  (fun c => COk (ins_rem G2 (acc3 ch) c)) s2) as (s3 & -> & K3); [apply K2|discriminate| |].
{ intros _ S. apply has_in in S. eexists; split; [reflexivity|]. unfold ins_rem. destruct (acc3 ch); [|apply K2].
  destruct (space_eqb (cur s2) Z_FUNCTION); [now right|now left]. }
cbn [bind].
destruct (special_ok Connect (space_eqb (cur s3) Equal_time_G1 || space_eqb (cur s3) Two_time_G2) false
  (connect (acc4 ch)) s3) as (s4 & -> & K4); [apply K3|discriminate| |].
{ intros Hh S. simpl in S. apply andb_true_iff in S as [S1 S2]. apply has_in in S1, S2. unfold connect.
  destruct (space_eqb (cur s3) Equal_time_G1).
  - eexists; split; [reflexivity|]. destruct (acc4 ch); [now right|apply K3].
  - simpl in Hh. rewrite Hh. eexists; split; [reflexivity|]. destruct (acc4 ch); [now right|apply K3]. }
exists s4; split; auto. eauto using keeps_trans.
Qed.
Lemma transitions_ok chs : (forall ch, In ch chs -> (i_worm ch < n)%nat) -> forall s, inv ws s ->
  exists s', transitions chs s = COk s' /\ keeps s s'.
Proof.
induction chs as [|ch chs IH]; intros Hi s I; simpl; [exists s; split; auto; now apply keeps_refl|].
destruct (transition1_ok ch s (Hi ch (or_introl eq_refl)) I) as (s1 & -> & K1). cbn [bind].
destruct (IH (fun c' h => Hi c' (or_intror h)) s1) as (s2 & -> & K2); [apply K1|]. eauto using keeps_trans.
Qed.

Lemma set_true_length l i : length (set_true l i) = length l.
Proof. revert i; induction l as [|x l IH]; intros [|i]; simpl; auto. Qed.

(** Everything said about an outcome: no throw, no wrong index; the counters hold the steps logged since the last report; every
    report gives for each active space the number of steps spent there, the sum of them is the number of steps, and the volume
    times the weight of the space is that number *)
Definition counted (steps : list R) (log : list space) : Prop :=
  length steps = S n /\ fold_right Rplus 0 steps = INR (length log) /\
  forall w p, active ws w -> position ws w = Some p -> nth p steps 0 = INR (times w log).
Definition good_report (x : report * list space * list R) : Prop :=
  let '(r, log, wt) := x in counted (r_steps r) log /\ length (r_volume r) = S n /\
  nth 0 wt 0 = 1 /\ (forall p, (p <= n)%nat -> 0 < nth p wt 0) /\
  forall p, (p <= n)%nat -> nth p (r_volume r) 0 * nth p wt 0 = nth p (r_steps r) 0.
Definition good (o : outcome) : Prop :=
  inv ws (o_sim o) /\ (forall w, In w (o_log o) -> active ws w) /\ counted (num_steps (o_sim o)) (o_log o) /\
  forall x, In x (o_reports o) -> good_report x.

Lemma sum_upd l : forall i, (i < length l)%nat -> fold_right Rplus 0 (upd l i (fun x => x + 1)) = fold_right Rplus 0 l + 1.
Proof.
induction l as [|x l IH]; intros [|i] H; simpl in *; try lia; [lra|]. rewrite IH by lia; lra.
Qed.
Lemma sum_fill m x : fold_right Rplus 0 (fill m x) = INR m * x.
Proof. unfold fill; induction m as [|m IH]; [simpl; lra|]. rewrite S_INR. simpl. rewrite IH; lra. Qed.
Lemma times_app w l v : times w (l ++ [v]) = (times w l + if space_eqb w v then 1 else 0)%nat.
Proof. unfold times. rewrite filter_app, app_length; simpl. destruct (space_eqb w v); simpl; lia. Qed.

Lemma div_vec_nth x y p : length x = length y -> nth p y 0 <> 0 -> nth p (div_vec x y) 0 * nth p y 0 = nth p x 0.
Proof.
unfold div_vec. revert y p; induction x as [|u x IH]; intros [|v y] [|p] L H; simpl in *; try discriminate; try lra.
- field; auto.
- apply IH; auto; lia.
Qed.

Lemma happen_ok e o : good o -> possible n e -> (is_prepare e = true -> done (hist (o_sim o)) = false) ->
  exists o', happen e o = COk o' /\ good o' /\ (is_prepare e = false -> done (hist (o_sim o)) = false -> done (hist (o_sim o')) = false).
Proof.
intros (I & LA & C & R) P D. destruct created as (ND & NZF & IG & NU).
destruct e as [chs| | | |all]; simpl.
- assert (X : exists s', sweep_move chs (o_sim o) = COk s' /\ inv ws s' /\ num_steps s' = num_steps (o_sim o) /\
    (done (hist (o_sim o)) = false -> done (hist s') = false)).
  { unfold sweep_move, transition_between_config_spaces.
    assert (Y : exists s1, (if thermalized (o_sim o) then
          match position (worm_types (o_sim o)) (cur (o_sim o)) with
          | Some p => if Nat.ltb p (length (visited (o_sim o))) then
                        COk (Sim (worm_types (o_sim o)) (cur (o_sim o)) (hist (o_sim o)) (extra_weight (o_sim o)) (weight_map (o_sim o))
                                 (num_steps (o_sim o)) (set_true (visited (o_sim o)) p) (thermalized (o_sim o)))
                      else CUB
          | None => CUB
          end
        else COk (o_sim o)) = COk s1 /\ inv ws s1 /\ num_steps s1 = num_steps (o_sim o) /\ hist s1 = hist (o_sim o)).
    { destruct (thermalized (o_sim o)) eqn:T; [|exists (o_sim o); auto].
      destruct I as (E & A & H & L1 & L2 & L3 & W & M). rewrite E.
      destruct (position_active ws ND NZF _ A) as (p & -> & Hp). rewrite L3, (proj2 (Nat.ltb_lt _ _)) by lia.
      eexists; split; [reflexivity|]. split; [|split; reflexivity]. unfold inv; simpl. rewrite set_true_length. repeat (split; [assumption||reflexivity|]). assumption. }
    destruct Y as (s1 & -> & I1 & N1 & H1). cbn [bind].
    destruct (transitions_ok chs P s1 I1) as (s2 & Et & K). destruct I1 as (E1 & _). rewrite E1.
    destruct (Nat.eqb_spec n 0) as [Z|_]; [generalize npos; lia|]. exists s2; split; [exact Et|]. split; [apply K|]. split; [destruct K as (_ & -> & _); exact N1|].
    rewrite <- H1. apply K. }
  destruct X as (s' & -> & I' & N' & D'). cbn [bind]. eexists; split; [reflexivity|]. split; [|auto].
  split; [exact I'|]. simpl. rewrite N'. auto.
- eexists; split; [reflexivity|]. split; [|auto]. split; [|auto]. destruct I as (E & A & H). split; [exact E|split; [exact A|exact H]].
- destruct I as (E & A & H & L1 & L2 & L3 & W & M). unfold measure_every_step. rewrite E.
  destruct (space_eqb_spec (cur (o_sim o)) Unknown) as [EU|_]; [rewrite EU in A; destruct A; [discriminate|contradiction]|].
  destruct (position_active ws ND NZF _ A) as (p & Ep & Hp). rewrite Ep, L2, (proj2 (Nat.ltb_lt _ _)) by lia.
  cbn [bind]. eexists; split; [reflexivity|]. split; [|auto]. split; [|split; [|split; [|exact R]]]; simpl.
  + unfold inv; simpl. rewrite upd_length. repeat (split; [assumption||reflexivity|]). auto.
  + intros w Hw. apply in_app_or in Hw as [Hw|[<-|[]]]; auto.
  + destruct C as (C1 & C2 & C3). split; [now rewrite upd_length|]. split; [rewrite sum_upd, C2, app_length, plus_INR by lia; simpl; lra|].
    intros w q Aw Eq. rewrite upd_nth, L2, times_app, plus_INR, (C3 w q Aw Eq).
    destruct (position_active ws ND NZF _ Aw) as (q' & Eq' & Hq). rewrite Eq in Eq'; injection Eq' as <-.
    rewrite (proj2 (Nat.ltb_lt q _)), andb_true_r by lia.
    destruct (Nat.eqb_spec p q) as [->|ne], (space_eqb_spec w (cur (o_sim o))) as [->|ne']; simpl; try lra.
    * destruct (C40_position ws ND NZF) as (_ & inj & _). elim ne'. eapply inj; eauto.
    * elim ne; congruence.
- eexists; split; [reflexivity|]. split; [|auto]. destruct I as (E & A & H & L1 & L2 & L3 & W & M).
  split; [|split; [|split]]; simpl.
  + unfold inv; simpl. rewrite fill_length. repeat (split; [assumption||reflexivity|]). auto.
  + intros w [].
  + split; [now rewrite fill_length|]. split; [rewrite sum_fill; simpl; lra|].
    intros w p Aw Ep. destruct (position_active ws ND NZF _ Aw) as (p' & Ep' & Hp). rewrite Ep in Ep'; injection Ep' as <-.
    rewrite fill_nth by lia. reflexivity.
  + intros x Hx. apply in_app_or in Hx as [Hx|[<-|[]]]; auto.
    assert (POS : forall p, (p <= n)%nat -> 0 < nth p (extra_weight (o_sim o)) 0).
    { intros p Hp. destruct (hok_ratio n _ p H Hp) as (x & Ex & Px). rewrite (W p Hp) in Ex; injection Ex as ->; exact Px. }
    split; [exact C|]. split; [unfold div_vec; simpl; rewrite map_length, combine_length; lia|].
    split; [generalize (W 0%nat (Nat.le_0_l _)); rewrite (hok_ratio0 n _ H); now intros [= <-]|]. split; [exact POS|].
    intros p Hp. simpl. apply div_vec_nth; [lia|]. generalize (POS p Hp); lra.
- destruct P as [NE LEN]. unfold prepare. destruct I as (E & A & H & L) eqn:EI. rewrite E.
  destruct (Nat.eqb_spec n 0) as [Z|_]; [generalize npos; lia|].
  unfold synchronize. rewrite (D eq_refl). cbn [of_f bind].
  set (g := map _ _).
  assert (LG : length g = S n).
  { unfold g; rewrite map_length. destruct all as [|h r]; [congruence|]. simpl.
    apply (allreduce_nth (S n) 0 (map log_f r) (log_f h)); [apply LEN; now left|].
    intros y Hy. apply in_map_iff in Hy as (h' & <- & Hh). apply LEN; now right. }
  assert (HG : hok n (set_f (hist (o_sim o)) g)) by (destruct H as (x1 & x2 & x3 & x4); repeat split; auto).
  destruct (set_weights_ok (o_sim o) _ I HG) as (s1 & -> & (E1 & A1 & H1 & L1 & L2 & L3 & W & M) & B1 & B2 & B3 & B4 & B5). cbn [bind].
  eexists; split; [reflexivity|]. split; [|discriminate]. split; [|split; [exact LA|split; [|exact R]]]; simpl; [|now rewrite B3].
  unfold inv; simpl. split; [exact E1|]; split; [exact A1|]; split; [now apply hok_finish|]. repeat (split; [assumption|]). split; [|exact M].
  intros p Hp. rewrite (finish_ratio n _ p H1 Hp). auto.
Qed.

Lemma bookkeeping es s0 : create_sim ws = COk s0 -> (forall e, In e es -> possible n e) -> once es ->
  exists o, happens es (Outcome s0 [] []) = COk o /\ good o.
Proof.
intros E P O.
assert (G0 : good (Outcome s0 [] []) /\ done (hist s0) = false).
{ destruct created as (ND & NZF & IG & NU).
  unfold create_sim, create in E.
  assert (LT : length (target_fractions ws) = (n + 1)%nat) by (unfold target_fractions; simpl; rewrite map_length; lia).
  rewrite LT, Nat.eqb_refl in E. cbn [of_f bind] in E. injection E as <-. split; [|reflexivity].
  assert (HK : hok n (FH n n (target_fractions ws) init_log_lambda (fill (n + 1) 0) (fill (n + 1) 0) false 0)).
  { unfold hok; simpl; rewrite !fill_length; repeat split; lia. }
  split; [|split; [|split]]; simpl; try (intros ? []).
  - unfold inv; simpl. rewrite !fill_length, repeat_length. split; [reflexivity|]; split; [now left|]; split; [exact HK|].
    split; [lia|]; split; [lia|]; split; [lia|]. split.
    + intros p Hp. unfold weight_ratio, log_weight; simpl. rewrite (proj2 (Nat.ltb_ge _ _)), (proj2 (Nat.leb_le _ _)) by lia.
      rewrite !fill_nth by lia. assert (0 < max_log_val) by (unfold max_log_val; lra). rewrite !(proj2 (Rltb_false _ _)) by lra.
      f_equal. rewrite <- exp_0. f_equal; lra.
    + assert (Q : forall l m w, (In w l \/ map_find w m = Some 1) -> map_find w (fold_left (fun m w => map_set w 1 m) l m) = Some 1).
      { clear. induction l as [|x l IH]; intros m w; simpl; [tauto|]. intros H; apply IH. rewrite map_find_set.
        destruct (space_eqb_spec x w); auto. destruct H as [[H|H]|H]; auto. congruence. }
      intros w p Iw Ep. destruct (position_active ws ND NZF w (or_intror Iw)) as (p' & Ep' & Hp). rewrite Ep in Ep'; injection Ep' as <-.
      rewrite fill_nth by lia. apply Q; now left.
  - split; [rewrite fill_length; lia|]. split; [rewrite sum_fill; simpl; lra|].
    intros w p Aw Ep. destruct (position_active ws ND NZF _ Aw) as (p' & Ep' & Hp). rewrite Ep in Ep'; injection Ep' as <-.
    rewrite fill_nth by lia. reflexivity. }
destruct G0 as [G0 D0].
assert (Q : forall es o, good o -> (forall e, In e es -> possible n e) ->
  (once es /\ done (hist (o_sim o)) = false \/ forall e, In e es -> is_prepare e = false) -> exists o', happens es o = COk o' /\ good o').
{ clear -created. induction es as [|e es IH]; intros o G P D; simpl; [eauto|].
  destruct (happen_ok e o G (P e (or_introl eq_refl))) as (o1 & -> & G1 & D1).
  { intros X. destruct D as [[_ D]|D]; auto. rewrite (D e (or_introl eq_refl)) in X; discriminate. }
  cbn [bind]. apply IH; auto; [intros x Hx; apply P; now right|].
  destruct D as [[O D]|D]; [|right; intros x Hx; apply D; now right].
  unfold once in O; simpl in O. destruct (is_prepare e) eqn:X.
  - right. intros x Hx. destruct (is_prepare x) eqn:Y; auto. simpl in O.
    assert (In x (filter is_prepare es)) by (apply filter_In; auto). destruct (filter is_prepare es); [contradiction|simpl in O; lia].
  - left; split; auto. }
apply Q; auto.
Qed.
End Run.

(** For every choice of measurements and every sequence of events nothing throws and no index is out of range; what is counted,
    reported and stored is as described above *)
Theorem C40_bookkeeping a b c d es s0 : let ws := create_worm_types a b c d in
  create_sim ws = COk s0 -> (forall e, In e es -> possible (length ws) e) -> once es ->
  exists o, happens es (Outcome s0 [] []) = COk o /\ good ws o.
Proof. intros ws; apply bookkeeping, created_ok. Qed.

(** The weights reported with the worm spaces are what the updaters read from the map *)
Theorem C40_weights a b c d s w p : let ws := create_worm_types a b c d in inv ws s -> In w ws -> position ws w = Some p ->
  map_find w (weight_map s) = Some (nth p (extra_weight s) 0) /\ weight_ratio (hist s) p 0 = FOk (nth p (extra_weight s) 0).
Proof.
intros ws (E & A & H & L1 & L2 & L3 & W & M) I Ep. split; [auto|]. apply W.
destruct (created_ok a b c d) as (ND & NZF & IG & NU).
destruct (position_active ws ND NZF w (or_intror I)) as (p' & Ep' & Hp). rewrite Ep in Ep'; injection Ep' as <-. exact Hp.
Qed.

(** At the end of the measurement the check passes exactly when every space was the current one at the start of some move
    made in the thermalized state *)
Theorem C40_visited s : finish_measurement s = COk tt <-> thermalized s = true /\ forall p, (p < length (visited s))%nat -> nth p (visited s) false = true.
Proof.
unfold finish_measurement. destruct (thermalized s); simpl; [|split; [discriminate|intros [? _]; discriminate]].
destruct (forallb (fun b => b) (visited s)) eqn:F.
- split; auto; intros _; split; auto. intros p Hp. rewrite forallb_forall in F. apply F, nth_In, Hp.
- split; [discriminate|]. intros [_ H]. enough (T : forallb (fun b => b) (visited s) = true) by (rewrite T in F; discriminate).
  apply forallb_forall. intros x Hx.
  apply (In_nth _ _ false) in Hx as (p & Hp & <-). now apply H.
Qed.

(** The histogram of the configuration spaces counts as flat exactly when every space was visited at least 25 times since the
    last reduction of the factor, and more than 0.8 times as often as the average space, where one visit to a space with
    equal-time operators counts as ten *)
Definition per_visit (w : space) : R := match w with Equal_time_G1 | Equal_time_G2 => 10 | _ => 1 end.
Theorem C40_flat a b c d s0 ops h : let ws := create_worm_types a b c d in
  create_sim ws = COk s0 -> in_range (length ws) ops -> run (hist s0) ops = FOk h ->
  exists x : space -> R, (forall w p, active ws w -> position ws w = Some p -> x w = per_visit w * INR (visits p 0 ops)) /\
  let mean := fold_right Rplus 0 (map x (Z_FUNCTION :: ws)) / INR (S (length ws)) in
  (flat_enough h = true <-> forall w, active ws w -> 25 <= x w /\ 8 / 10 * mean < x w).
Proof.
intros ws E R Hr. destruct (created_ok a b c d) as (ND & NZF & _). fold ws in ND, NZF.
pose (x := fun w => match position ws w with Some p => per_visit w * INR (visits p 0 ops) | None => 0 end). exists x.
split; [intros w p _ Ep; unfold x; now rewrite Ep|]. intros mean.
assert (LT : length (target_fractions ws) = S (length ws)) by (unfold target_fractions; simpl; now rewrite map_length).
assert (EC : create (length ws) (target_fractions ws) = FOk (hist s0)).
{ unfold create_sim in E. destruct (create _ _); simpl in E; [|discriminate]. injection E as <-. reflexivity. }
assert (XP : forall w p, position ws w = Some p -> INR (visits p 0 ops) / nth p (target_fractions ws) 0 = x w).
{ intros w p Ep. unfold x; rewrite Ep. unfold position in Ep. destruct (space_eqb_spec w Z_FUNCTION) as [->|ne].
  - injection Ep as <-. unfold target_fractions; cbn [nth per_visit]. lra.
  - destruct (find_pos w ws) as [q|] eqn:F; [|discriminate]. injection Ep as <-. apply find_pos_some in F.
    unfold target_fractions; cbn [nth]. rewrite (nth_error_nth (map _ ws) q 0 (map_nth_error _ _ _ F)).
    destruct w; cbn [space_eqb orb per_visit]; try lra; congruence. }
assert (NT : forall p, (p <= length ws)%nat -> exists w, active ws w /\ position ws w = Some p /\ nth p (Z_FUNCTION :: ws) Z_FUNCTION = w).
{ intros [|p] Hp; [exists Z_FUNCTION; repeat split; now left|]. cbn [nth].
  assert (Hn : nth_error ws p = Some (nth p ws Z_FUNCTION)) by (apply nth_error_nth'; lia).
  exists (nth p ws Z_FUNCTION); split; [right; eapply nth_error_In, Hn|]. split; auto.
  unfold position. destruct (space_eqb_spec (nth p ws Z_FUNCTION) Z_FUNCTION) as [e|_].
  - exfalso; apply NZF; rewrite <- e. eapply nth_error_In, Hn.
  - now rewrite (find_pos_nth _ ws p ND Hn). }
assert (EM : mean_of (length ws) (fun v => INR (visits v 0 ops) / nth v (target_fractions ws) 0) = mean).
{ unfold mean_of, mean. f_equal. f_equal. apply nth_ext with (d := 0) (d' := x Z_FUNCTION); [now rewrite !map_length, seq_length|].
  intros p Hp. rewrite map_length, seq_length in Hp. rewrite (map_nth x).
  destruct (NT p ltac:(lia)) as (w & _ & Ep & ->).
  rewrite (nth_indep _ 0 ((fun v => INR (visits v 0 ops) / nth v (target_fractions ws) 0) 0%nat)) by now rewrite map_length, seq_length.
  rewrite (map_nth (fun v => INR (visits v 0 ops) / nth v (target_fractions ws) 0)), seq_nth by lia. now apply XP. }
pose proof (C36_flat (length ws) (target_fractions ws) LT _ ops h EC R Hr) as F; cbv zeta in F. rewrite EM in F. rewrite F. split.
- intros H w Aw. destruct (position_active ws ND NZF w Aw) as (p & Ep & Hp). rewrite <- (XP w p Ep). now apply H.
- intros H v Hv. destruct (NT v Hv) as (w & Aw & Ep & _). rewrite (XP w v Ep). now apply H.
Qed.

(** ** A concrete run *)
(** G2 measured as well: two steps counted in Z, a move to G2, a step counted there, a report; before that a learning move *)
Definition ex_run := [Therm; Step; Step; Move [Choice 1 true false false false]; Step; Measure].
Example C40_instance : exists s0 o, create_sim (create_worm_types true false false false) = COk s0 /\
  happens ex_run (Outcome s0 [] []) = COk o /\ cur (o_sim o) = G2 /\
  map (fun x => (r_steps (fst (fst x)), snd (fst x))) (o_reports o) = [([0 + 1 + 1; 0; 0 + 1], [Z_FUNCTION; Z_FUNCTION; G2])] /\
  good (create_worm_types true false false false) o.
Proof.
destruct (create_sim (create_worm_types true false false false)) as [s0| |] eqn:E; [|discriminate|discriminate].
destruct (C40_bookkeeping true false false false ex_run s0 E) as (o & Ho & G).
{ intros e H; unfold ex_run in H; simpl in H. decompose [or] H; subst; simpl; auto; try contradiction. intros ch [<-|[]]; simpl; lia. }
{ unfold once; simpl; lia. }
exists s0, o; split; [reflexivity|]; split; [exact Ho|]. revert Ho. injection E as <-. cbv -[fill Rplus IZR Rdiv nth]. intros [= <-].
split; [reflexivity|]; split; [reflexivity|exact G].
Qed.
Example C40_learning : exists s0 o, create_sim (create_worm_types true true true true) = COk s0 /\
  happens [Move [Choice 3 true true true true; Choice 0 false true false true]; Therm; Move []; Step; Measure] (Outcome s0 [] []) = COk o /\
  good (create_worm_types true true true true) o.
Proof.
destruct (create_sim (create_worm_types true true true true)) as [s0| |] eqn:E; [|discriminate|discriminate].
destruct (C40_bookkeeping true true true true [Move [Choice 3 true true true true; Choice 0 false true false true]; Therm; Move []; Step; Measure] s0 E) as (o & Ho & G); eauto 6.
{ intros e H; simpl in H. decompose [or] H; subst; simpl; auto; try contradiction. intros ch [<-|[<-|[]]]; simpl; lia. }
{ unfold once; simpl; lia. }
Qed.

Print Assumptions C40_position.
Print Assumptions C40_bookkeeping.
Print Assumptions C40_weights.
Print Assumptions C40_visited.
Print Assumptions C40_instance.
Print Assumptions C40_learning.
Print Assumptions C40_flat.
