(** * T_Observables: what is measured has been created, and when the results can be read (C71)

    Statements about Observables.v in terms of counts of events. *)
From Coq Require Import Decimal DecimalString DecimalNat DecimalFacts String Ascii List ZArith Bool Arith Lia Permutation.
From Verif Require Import ConfigSpace Observables.
Import ListNotations.
Local Open Scope string_scope.
Local Open Scope list_scope.

(** ** Specification: counts of events *)
Fixpoint count (f : event -> bool) (es : list event) : nat := match es with [] => 0 | e :: r => (if f e then 1 else 0) + count f r end.
Definition is_step (w : space) (e : event) : bool := match e with Step v _ => space_eqb v w | _ => false end.
Definition is_regular (w : space) (e : event) : bool := match e with Step v true => space_eqb v w | _ => false end.
Definition is_report (e : event) : bool := match e with Report _ _ _ _ => true | _ => false end.
Definition is_report_in (w : space) (e : event) : bool := match e with Report v _ _ _ => space_eqb v w | _ => false end.
Definition is_prepare (e : event) : bool := match e with Prepare => true | _ => false end.
Definition is_sweep (w : space) (e : event) : bool := match e with Sweep v => space_eqb v w | _ => false end.
(** The simulation is in Z or in a worm space that is switched on *)
Definition in_space (p : params) (w : space) : Prop :=
  w = Z_FUNCTION \/ w = G1 \/ (w = G2 /\ g2_on p = true) \/ (w = Two_time_G2 /\ two_time_on p = true)
  \/ (w = Equal_time_G1 /\ eq1_on p = true) \/ (w = Equal_time_G2 /\ eq2_on p = true).
Definition possible (p : params) (e : event) : Prop :=
  match e with Sweep w | Step w _ | Report w _ _ _ => in_space p w | Prepare => True end.

Lemma active_in p w : active p w = true <-> in_space p w.
Proof.
unfold active, in_space, worms, create_worm_types.
destruct p as [r a b c d n f m1 m2]; simpl.
destruct w, a, b, c, d; simpl; split; intuition congruence.
Qed.

(** ** Names *)
Lemma append_inj_l a : forall x y, (a ++ x)%string = (a ++ y)%string -> x = y.
Proof. induction a; simpl; intros x y H; [assumption|]. injection H; auto. Qed.
Definition digit (c : ascii) : bool := ((48 <=? nat_of_ascii c) && (nat_of_ascii c <=? 57))%nat.
Fixpoint digits (s : string) : bool := match s with "" => true | String c r => digit c && digits r end.
Definition starts (s : string) : bool := match s with "" => false | String c _ => digit c end.
Lemma dec_digits k : digits (dec k) = true.
Proof. unfold dec. induction (Nat.to_uint k); simpl; auto. Qed.
Lemma dec_inj j k : dec j = dec k -> j = k.
Proof.
unfold dec. intro H. assert (E : Nat.to_uint j = Nat.to_uint k).
{ assert (Some (Nat.to_uint j) = Some (Nat.to_uint k)) as E; [|injection E; auto].
  rewrite <- !NilEmpty.usu. now rewrite H. }
now rewrite <- (Unsigned.of_to j), <- (Unsigned.of_to k), E.
Qed.
Lemma dec_starts k x : starts (dec k ++ x)%string = true.
Proof.
assert (N : dec k <> "").
{ unfold dec. intro H. assert (E : Nat.to_uint k = Nil) by (destruct (Nat.to_uint k); simpl in H; congruence).
  revert E. rewrite <- (Unsigned.of_to k) at 1. rewrite Unsigned.to_of. apply unorm_nonnil. }
generalize (dec_digits k). destruct (dec k) as [|c r]; [congruence|]. simpl. intro H. now apply andb_prop in H.
Qed.
Lemma dash_inj a : forall b x y, digits a = true -> digits b = true ->
  (a ++ String "-" x)%string = (b ++ String "-" y)%string -> a = b /\ x = y.
Proof.
induction a as [|c a IH]; intros [|d b] x y; simpl; intros Ha Hb H.
- injection H; auto.
- injection H as H _. subst d. discriminate Hb.
- injection H as H _. subst c. discriminate Ha.
- injection H as -> H. apply andb_prop in Ha, Hb. destruct (IH _ _ _ (proj2 Ha) (proj2 Hb) H) as [-> ->]. auto.
Qed.
Lemma append_assoc a : forall b c, ((a ++ b) ++ c)%string = (a ++ (b ++ c))%string.
Proof. induction a; simpl; intros; f_equal; auto. Qed.
Lemma rate_ins k x : In x (rate (ins_rem_name k)) -> exists y, x = (dec k ++ String "-" y)%string /\
  In y ["pair_insertion_remover_attempted_scalar"; "pair_insertion_remover_valid_move_scalar"; "pair_insertion_remover_accepted_scalar"].
Proof.
unfold rate, ins_rem_name. simpl. rewrite !append_assoc. intros [<-|[<-|[<-|[]]]]; eexists; (split; [reflexivity|]); simpl; auto.
Qed.
Lemma ins_starts p x : In x (ins_rem p) -> starts x = true.
Proof.
unfold ins_rem. rewrite in_flat_map. intros (k & _ & H). destruct (rate_ins _ _ H) as (y & -> & _). apply dec_starts.
Qed.
Lemma nodup_ins l : NoDup l -> NoDup (flat_map (fun k => rate (ins_rem_name k)) l).
Proof.
induction 1 as [|k l nk nd IH]; simpl; [constructor|].
assert (A : forall y, In y (flat_map (fun k => rate (ins_rem_name k)) l) -> ~ In y (rate (ins_rem_name k))).
{ intros y. rewrite in_flat_map. intros (j & jl & Hy) Hk.
  destruct (rate_ins _ _ Hy) as (u & E & _), (rate_ins _ _ Hk) as (v & E' & _). subst y.
  destruct (dash_inj _ _ _ _ (dec_digits j) (dec_digits k) E') as [D _]. apply dec_inj in D. now subst j. }
assert (B : NoDup (rate (ins_rem_name k))).
{ unfold rate, ins_rem_name. rewrite !append_assoc. repeat constructor; simpl; intuition;
    match goal with H : (_ ++ _)%string = _ |- _ => apply append_inj_l in H; discriminate H end. }
unfold rate in *. inversion B as [|? ? b1 B1]; subst. inversion B1 as [|? ? b2 B2]; subst.
repeat constructor; simpl; intuition; try (eapply A; [eassumption|simpl; auto]; fail); simpl in *; intuition.
Qed.

(** ** The list of names that are created *)
Definition names_a : list string :=
  reim "Greens_legendre" ++ reim "Greens_legendre_rotated" ++ reim "Two_time_correlation_functions"
  ++ ["n"; "Sign"; "order"; "PerturbationOrderFlavors"].
Definition names_b (p : params) : list string :=
  shift ++ pair_flavor
  ++ ["Acceptance_rate_global_shift"; "Acceptance_rate_swap"; "Z_function_space_volume"; "Z_function_space_num_steps"]
  ++ flat_map (fun w => ["worm_space_volume_" ++ space_name w; "worm_space_num_steps_" ++ space_name w]%string) (worms p)
  ++ (if two_time_on p then reim "Two_time_G2" else [])
  ++ reim "G1" ++ (if g2_on p then reim "G2" else [])
  ++ (if eq1_on p then reim "Equal_time_G1" else []) ++ (if eq2_on p then reim "Equal_time_G2" else [])
  ++ reim "kLkR" ++ reim "k" ++ ["Pert_order_start"; "Pert_order_end"]
  ++ flat_map rate (worm_updaters p).
Lemma createdE p : created p = names_a ++ ins_rem p ++ names_b p.
Proof. unfold created, names_a, names_b. now rewrite <- !app_assoc. Qed.
Fixpoint nodupb (l : list string) : bool := match l with [] => true | x :: r => negb (existsb (String.eqb x) r) && nodupb r end.
Lemma nodupbP l : nodupb l = true -> NoDup l.
Proof.
induction l as [|x l IH]; simpl; intro H; constructor; apply andb_prop in H; destruct H as [H H2]; [|auto].
intro I. rewrite negb_true_iff in H. assert (existsb (String.eqb x) l = true); [|congruence].
rewrite existsb_exists. exists x. split; [auto|apply String.eqb_refl].
Qed.
Lemma names_ab p : nodupb (names_a ++ names_b p) = true /\ forallb (fun x => negb (starts x)) (names_a ++ names_b p) = true.
Proof.
unfold names_b, worm_updaters, removers, movers, specials, worms, create_worm_types.
destruct p as [r a b c d n f m1 m2]; simpl rank; simpl g2_on; simpl two_time_on; simpl eq1_on; simpl eq2_on.
destruct a, b, c, d; split; vm_compute; reflexivity.
Qed.
Theorem C71_names p : NoDup (created p).
Proof.
rewrite createdE. destruct (names_ab p) as [A B]. apply nodupbP in A. rewrite forallb_forall in B.
assert (I : NoDup (ins_rem p)) by (apply nodup_ins, seq_NoDup).
apply Permutation_NoDup with (l := ins_rem p ++ names_a ++ names_b p).
{ rewrite !app_assoc. apply Permutation_app_tail, Permutation_app_comm. }
revert A B. generalize (names_a ++ names_b p). intros l A B.
assert (S := ins_starts p). revert S I. generalize (ins_rem p). induction l0 as [|x l0 IH]; simpl; intros S I; [auto|].
inversion I; subst. constructor; [|apply IH; auto].
rewrite in_app_iff. intros [|E]; [auto|]. specialize (B x E). rewrite (S x) in B; [discriminate|auto].
Qed.

(** ** Accumulators *)
Notation occ := (count_occ string_dec).
Lemma find_in x m : In x (map fst m) <-> exists n, find x m = Some n.
Proof.
induction m as [|[y n] m IH]; simpl; [split; [tauto|intros [? ?]; discriminate]|].
destruct (String.eqb_spec x y) as [->|N]; [split; eauto|]. rewrite <- IH. split; [intros [E|]; [congruence|auto]|auto].
Qed.
Lemma put_spec x m : In x (map fst m) -> exists m', put x m = Ok m' /\ map fst m' = map fst m /\
  forall y, find y m' = if String.eqb y x then option_map S (find y m) else find y m.
Proof.
induction m as [|[y n] m IH]; simpl; [tauto|]. intro H.
destruct (String.eqb_spec x y) as [->|N].
- exists ((y, S n) :: m). split; [auto|split; [auto|]]. intro z. simpl. destruct (String.eqb_spec z y); auto.
- destruct H as [H|H]; [congruence|]. destruct (IH H) as (m' & E & D & F). rewrite E. exists ((y, n) :: m').
  split; [auto|split; [simpl; congruence|]]. intro z. simpl. rewrite F.
  destruct (String.eqb_spec z y) as [->|]; [|auto]. destruct (String.eqb_spec y x); [congruence|auto].
Qed.
Lemma puts_spec l : forall m, incl l (map fst m) -> exists m', puts l m = Ok m' /\ map fst m' = map fst m /\
  forall y, find y m' = option_map (fun n => n + occ l y) (find y m).
Proof.
induction l as [|x l IH]; simpl; intros m H.
- exists m. split; [auto|split; [auto|]]. intro y. destruct (find y m); simpl; [f_equal; lia|auto].
- destruct (put_spec x m) as (m1 & E & D & F); [apply H; simpl; auto|]. rewrite E. simpl.
  destruct (IH m1) as (m2 & E2 & D2 & F2); [rewrite D; intros z Hz; apply H; simpl; auto|].
  exists m2. split; [auto|split; [congruence|]]. intro y. rewrite F2, F.
  destruct (string_dec x y) as [->|N].
  + rewrite String.eqb_refl. destruct (find y m); simpl; [f_equal; lia|auto].
  + destruct (String.eqb_spec y x); [congruence|auto].
Qed.
Lemma find_none x m : ~ In x (map fst m) -> find x m = None.
Proof. rewrite find_in. destruct (find x m); [intro H; elim H; eauto|auto]. Qed.
Lemma creates_spec l : forall m, NoDup l -> (forall x, In x l -> ~ In x (map fst m)) ->
  creates l m = Ok (m ++ map (fun x => (x, 0)) l).
Proof.
induction l as [|x l IH]; simpl; intros m N D; [now rewrite app_nil_r|].
unfold create1. rewrite find_none by (apply D; auto). simpl. inversion N; subst.
rewrite IH; [|auto|].
- now rewrite <- app_assoc.
- intros y Hy. rewrite map_app, in_app_iff. simpl. intros [|[|[]]]; [eapply D; eauto|congruence].
Qed.
Lemma find_zero l x : In x l -> find x (map (fun x => (x, 0)) l) = Some 0.
Proof. induction l as [|y l IH]; simpl; [tauto|]. destruct (String.eqb_spec x y); [auto|]. intros [|]; [congruence|auto]. Qed.
Lemma map_zero (l : list string) : map fst (map (fun x => (x, 0)) l) = l.
Proof. induction l; simpl; congruence. Qed.
Lemma createE p : create p = Ok (map (fun x => (x, 0)) (created p)).
Proof. unfold create. rewrite creates_spec; [reflexivity|apply C71_names|auto]. Qed.

(** ** Batches of measure_via_hyb *)
Definition batches (max : Z) (n : nat) : nat := if (0 <? max)%Z then n / Z.to_nat max else 0.
Definition pending (max : Z) (n : nat) : Z := if (0 <? max)%Z then Z.of_nat (n mod Z.to_nat max) else Z.of_nat n.
Lemma batches0 max : batches max 0 = 0.
Proof. unfold batches. destruct (0 <? max)%Z; [|auto]. destruct (Z.to_nat max); [auto|]. apply Nat.div_small. lia. Qed.
Lemma batch max n : if (pending max n + 1 =? max)%Z then pending max (S n) = 0%Z /\ batches max (S n) = S (batches max n)
  else pending max (S n) = (pending max n + 1)%Z /\ batches max (S n) = batches max n.
Proof.
unfold pending, batches. destruct (Z.ltb_spec 0 max) as [P|P].
- remember (Z.to_nat max) as k. assert (M : max = Z.of_nat k) by lia. subst max.
  assert (K : k <> 0) by lia. pose proof (Nat.div_mod n k K) as DM. pose proof (Nat.mod_upper_bound n k K) as B.
  destruct (Z.eqb_spec (Z.of_nat (n mod k) + 1) (Z.of_nat k)) as [E|E].
  + assert (Q : S n = k * S (n / k) + 0) by nia.
    rewrite (Nat.div_unique (S n) k (S (n / k)) 0) by (lia || exact Q).
    rewrite <- (Nat.mod_unique (S n) k (S (n / k)) 0) by (lia || exact Q). auto.
  + assert (Q : S n = k * (n / k) + S (n mod k)) by lia.
    rewrite <- (Nat.div_unique (S n) k (n / k) (S (n mod k))) by (lia || exact Q).
    rewrite <- (Nat.mod_unique (S n) k (n / k) (S (n mod k))) by (lia || exact Q). split; [lia|auto].
- destruct (Z.eqb_spec (Z.of_nat n + 1) max); [lia|]. split; [lia|auto].
Qed.

(** ** Runs *)
Definition ev_names (p : params) (e : event) : list string :=
  match e with
  | Report w a b c => report_names p ++ (if space_eqb w Z_FUNCTION then z_names p a b c else [])
  | Step Z_FUNCTION _ => reim "kLkR" ++ reim "k"
  | Step Two_time_G2 _ => reim "Two_time_G2"
  | Step Equal_time_G1 _ => reim "Equal_time_G1"
  | Step Equal_time_G2 _ => reim "Equal_time_G2"
  | Prepare => ["Pert_order_start"]
  | _ => []
  end.
Fixpoint tally (p : params) (es : list event) (x : string) : nat := match es with [] => 0 | e :: r => occ (ev_names p e) x + tally p r x end.
Definition total (p : params) (es : list event) (x : string) : nat :=
  tally p es x + occ (reim "G1") x * batches (max1 p) (count (is_regular G1) es) + occ (reim "G2") x * batches (max2 p) (count (is_regular G2) es).
Lemma count_app f a b : count f (a ++ b) = count f a + count f b.
Proof. induction a; simpl; lia. Qed.
Lemma tally_app p a b x : tally p (a ++ b) x = tally p a x + tally p b x.
Proof. induction a; simpl; lia. Qed.
Fixpoint inclb (l m : list string) : bool := match l with [] => true | x :: r => existsb (String.eqb x) m && inclb r m end.
Lemma inclbP l m : inclb l m = true -> incl l m.
Proof.
induction l as [|x l IH]; simpl; intros H y; simpl; [tauto|]. apply andb_prop in H. destruct H as [H1 H2].
rewrite existsb_exists in H1. destruct H1 as (z & Z & E). apply String.eqb_eq in E. subst z. intros [<-|]; [auto|now apply IH].
Qed.
Definition ab (p : params) : list string := names_a ++ names_b p.
Lemma ab_created p : incl (ab p) (created p).
Proof. rewrite createdE. unfold ab. intros x. rewrite !in_app_iff. tauto. Qed.
Lemma ins_created p : incl (ins_rem p) (created p).
Proof. rewrite createdE. intros x. rewrite !in_app_iff. tauto. Qed.
Ltac cases p := destruct p as [r a b c d n f m1 m2]; destruct a, b, c, d.
Lemma closed_names p : incl (["Z_function_space_num_steps"] ++ map (fun w => ("worm_space_num_steps_" ++ space_name w)%string) (worms p)
  ++ ["Z_function_space_volume"] ++ map (fun w => ("worm_space_volume_" ++ space_name w)%string) (worms p)) (ab p)
  /\ incl (shift ++ pair_flavor ++ flat_map rate (worm_updaters p)) (ab p).
Proof. cases p; split; apply inclbP; vm_compute; reflexivity. Qed.
Lemma fixed_names p : incl (["order"; "PerturbationOrderFlavors"; "Acceptance_rate_global_shift"; "Acceptance_rate_swap"; "n"; "Sign";
  "Pert_order_start"; "Pert_order_end"] ++ reim "Two_time_correlation_functions"
  ++ reim "Greens_legendre" ++ reim "Greens_legendre_rotated" ++ reim "kLkR" ++ reim "k" ++ reim "G1") (ab p).
Proof. cases p; apply inclbP; vm_compute; reflexivity. Qed.
Lemma worm_names p w : in_space p w -> w <> Z_FUNCTION -> incl (reim (space_name w)) (ab p).
Proof.
intros H N. assert (H' : has w (worms p) = true).
{ apply active_in in H. unfold active in H. destruct w; try (elim N; reflexivity); exact H. }
revert H'. cases p; destruct w; simpl; intro; try discriminate; apply inclbP; vm_compute; reflexivity.
Qed.
Lemma report_created p : incl (report_names p) (created p).
Proof.
destruct (closed_names p) as [A B]. pose proof (ab_created p) as C. pose proof (ins_created p) as D.
unfold report_names. rewrite !app_assoc in *. intros x.
rewrite <- !app_assoc. rewrite !in_app_iff. intros H.
assert (In x (ins_rem p) \/ In x (ab p)); [|intuition].
destruct H as [H|[H|[H|[H|[H|H]]]]]; [right; apply A|right; apply A|right; apply A|right; apply A|left; auto|right; apply B];
  rewrite ?in_app_iff in *; tauto.
Qed.
Lemma z_created p a b c : incl (z_names p a b c) (created p).
Proof.
destruct (closed_names p) as [_ B]. pose proof (fixed_names p) as A. pose proof (ab_created p) as C. pose proof (ins_created p) as D.
unfold z_names. intros x. rewrite !in_app_iff. intros H.
assert (In x (ins_rem p) \/ In x (ab p)); [|intuition].
destruct H as [H|[H|[H|[H|H]]]]; [right; apply A; simpl in *; tauto|right; apply B|left; auto|right; apply B|right; apply A];
  rewrite ?in_app_iff in *; try tauto.
destruct H as [H|[H|[H|[H|[H|H]]]]]; simpl in H |- *; destruct a, b, c, (corr_file p); simpl in H; tauto.
Qed.
Lemma ev_created p e : possible p e -> incl (ev_names p e) (created p).
Proof.
pose proof (fixed_names p) as A. pose proof (ab_created p) as C.
destruct e as [w|w g|w a b c|]; cbn [possible]; intro H.
- intros x [].
- assert (B : incl (reim "kLkR" ++ reim "k") (ab p)).
  { intros x I. apply A. rewrite !in_app_iff in *. tauto. }
  destruct w; cbn [ev_names]; try (intros x []; fail); try (intros x I; apply C, (worm_names p _ H); [discriminate|exact I]; fail).
  intros x I. apply C, B, I.
- intros x. cbn [ev_names]. rewrite in_app_iff. destruct (space_eqb w Z_FUNCTION).
  + intros [I|I]; [now apply report_created|exact (z_created _ _ _ _ _ I)].
  + intros [I|[]]. now apply report_created.
- cbn [ev_names]. intros x [<-|[]]. apply C, A. rewrite in_app_iff. left. cbn [In]. tauto.
Qed.

Definition good (p : params) (es : list event) (s : sim) : Prop :=
  map fst (acc s) = created p /\ (forall x, In x (created p) -> Observables.find x (acc s) = Some (total p es x)) /\
  data1 s = pending (max1 p) (count (is_regular G1) es) /\ data2 s = pending (max2 p) (count (is_regular G2) es) /\
  (forall w, In w (visited s) <-> 0 < count (is_sweep w) es).
Lemma space_eqbP a b : reflect (a = b) (space_eqb a b).
Proof. destruct a, b; constructor; congruence. Qed.
Lemma put_all_good p es s l e : good p es s -> incl l (created p) ->
  (forall x, total p (es ++ [e]) x = total p es x + occ l x) -> is_regular G1 e = false -> is_regular G2 e = false ->
  (forall w, is_sweep w e = false) -> exists s', put_all l s = Ok s' /\ good p (es ++ [e]) s'.
Proof.
intros (D & F & d1 & d2 & V) I T r1 r2 sw. destruct (puts_spec l (acc s)) as (m & E & D' & F'); [now rewrite D|].
unfold put_all. rewrite E. eexists. split; [reflexivity|]. split; simpl; [congruence|].
split; [intros x Hx; rewrite F', F by auto; simpl; now rewrite T|].
rewrite !count_app. simpl. rewrite r1, r2, !Nat.add_0_r. split; [auto|split; [auto|]].
intro w. rewrite V, count_app. simpl. rewrite sw. lia.
Qed.
Lemma total_app p es e x : is_regular G1 e = false -> is_regular G2 e = false -> total p (es ++ [e]) x = total p es x + occ (ev_names p e) x.
Proof. intros r1 r2. unfold total. rewrite tally_app, !count_app. cbn [tally count]. rewrite r1, r2, !Nat.add_0_r. lia. Qed.
Lemma via_hyb_good p es s (one : bool) : good p es s -> (one = true \/ g2_on p = true) ->
  let w := if one then G1 else G2 in
  exists s', bind (via_hyb (space_name w) (if one then max1 p else max2 p) (if one then data1 s else data2 s) (acc s))
    (fun mn => Ok (if one then Sim (fst mn) (snd mn) (data2 s) (visited s) else Sim (fst mn) (data1 s) (snd mn) (visited s))) = Ok s'
  /\ good p (es ++ [Step w true]) s'.
Proof.
intros (D & F & d1 & d2 & V) W w.
assert (I : incl (reim (space_name w)) (map fst (acc s))).
{ rewrite D. intros x Hx. apply ab_created, (worm_names p w); [|subst w; destruct one; discriminate|auto].
  unfold in_space. subst w. destruct one; [auto|]. destruct W; [discriminate|auto]. }
destruct (puts_spec _ _ I) as (m & E & D' & F').
assert (VV : forall v, In v (visited s) <-> 0 < count (is_sweep v) (es ++ [Step w true])).
{ intro v. rewrite V, count_app. simpl. lia. }
unfold via_hyb. unfold good. rewrite !count_app.
assert (T : forall x, tally p (es ++ [Step w true]) x = tally p es x).
{ intro x. rewrite tally_app. subst w. destruct one; simpl; lia. }
destruct one; simpl count in *; subst w; simpl space_name in *; rewrite ?Nat.add_0_r, ?Nat.add_1_r.
- rewrite d1. pose proof (batch (max1 p) (count (is_regular G1) es)) as B.
  destruct (Z.eqb_spec (pending (max1 p) (count (is_regular G1) es) + 1) (max1 p)) as [e|e]; destruct B as [B1 B2].
  + rewrite E. simpl. eexists. split; [reflexivity|]. simpl. split; [congruence|].
    split; [|split; [congruence|split; [auto|auto]]].
    intros x Hx. rewrite F', F by auto. unfold total. rewrite T, !count_app. cbn [count is_regular space_eqb].
    rewrite ?Nat.add_0_r, ?Nat.add_1_r, B2. cbn [option_map]. f_equal. nia.
  + eexists. split; [reflexivity|]. simpl. split; [congruence|]. split; [|split; [congruence|split; [auto|auto]]].
    intros x Hx. rewrite F by auto. unfold total. rewrite T, !count_app. cbn [count is_regular space_eqb].
    rewrite ?Nat.add_0_r, ?Nat.add_1_r, B2. reflexivity.
- rewrite d2. pose proof (batch (max2 p) (count (is_regular G2) es)) as B.
  destruct (Z.eqb_spec (pending (max2 p) (count (is_regular G2) es) + 1) (max2 p)) as [e|e]; destruct B as [B1 B2].
  + rewrite E. simpl. eexists. split; [reflexivity|]. simpl. split; [congruence|].
    split; [|split; [auto|split; [congruence|auto]]].
    intros x Hx. rewrite F', F by auto. unfold total. rewrite T, !count_app. cbn [count is_regular space_eqb].
    rewrite ?Nat.add_0_r, ?Nat.add_1_r, B2. cbn [option_map]. f_equal. nia.
  + eexists. split; [reflexivity|]. simpl. split; [congruence|]. split; [|split; [auto|split; [congruence|auto]]].
    intros x Hx. rewrite F by auto. unfold total. rewrite T, !count_app. cbn [count is_regular space_eqb].
    rewrite ?Nat.add_0_r, ?Nat.add_1_r, B2. reflexivity.
Qed.
Lemma idle_good p es s e : good p es s -> ev_names p e = [] -> is_regular G1 e = false -> is_regular G2 e = false ->
  (forall w, is_sweep w e = false) -> good p (es ++ [e]) s.
Proof.
intros (D & F & d1 & d2 & V) N r1 r2 sw. split; [auto|].
split; [intros x Hx; rewrite total_app, N, Nat.add_0_r by auto; auto|].
rewrite !count_app. simpl. rewrite r1, r2, !Nat.add_0_r. split; [auto|split; [auto|]].
intro w. rewrite V, count_app. simpl. rewrite sw. lia.
Qed.
Lemma happen_good p es s e : possible p e -> good p es s -> exists s', happen p e s = Ok s' /\ good p (es ++ [e]) s'.
Proof.
intros H G. pose proof (ev_created p e H) as I.
destruct e as [w|w g|w a b c|]; simpl.
- apply active_in in H. simpl in H. rewrite H. eexists. split; [reflexivity|].
  destruct G as (D & F & d1 & d2 & V). split; [auto|]. split; [intros x Hx; rewrite total_app, Nat.add_0_r by reflexivity; auto|].
  rewrite !count_app. simpl. rewrite !Nat.add_0_r. split; [auto|split; [auto|]].
  intro v. rewrite V, count_app. simpl. destruct (space_eqbP w v); intuition (try lia; try congruence).
- assert (A : active p w = true) by now apply active_in. unfold every_step. rewrite A. cbn [negb].
  assert (P : is_regular G1 (Step w g) = false -> is_regular G2 (Step w g) = false ->
    exists s', put_all (ev_names p (Step w g)) s = Ok s' /\ good p (es ++ [Step w g]) s').
  { intros r1 r2. apply put_all_good with (es := es); auto. intro x. now apply total_app. }
  destruct w; try (apply P; destruct g; reflexivity).
  + destruct g; [apply (via_hyb_good p es s true G); auto|]. eexists. split; [reflexivity|]. now apply idle_good.
  + destruct g; [apply (via_hyb_good p es s false G); right|eexists; split; [reflexivity|]; now apply idle_good].
    cbn [possible] in H. unfold in_space in H. intuition congruence.
  + cbn [possible] in H. unfold in_space in H. intuition congruence.
- destruct G as (D & F & d1 & d2 & V). unfold report.
  destruct (puts_spec (report_names p) (acc s)) as (m & E & D' & F'); [rewrite D; apply report_created|].
  unfold put_all at 1. rewrite E. cbn [bind].
  assert (VV : forall v, In v (visited s) <-> 0 < count (is_sweep v) (es ++ [Report w a b c])).
  { intro v. rewrite V, count_app. simpl. lia. }
  unfold put_all, good. destruct (space_eqb w Z_FUNCTION) eqn:Z.
  + destruct (puts_spec (z_names p a b c) m) as (m2 & E2 & D2 & F2); [rewrite D', D; apply z_created|].
    cbn [bind acc data1 data2 visited]. rewrite E2. eexists. split; [reflexivity|]. cbn [acc data1 data2 visited]. split; [congruence|]. rewrite !count_app. cbn [count is_regular].
    rewrite !Nat.add_0_r. split; [|auto]. intros x Hx. rewrite F2, F', F by auto. cbn [option_map]. f_equal.
    rewrite total_app by reflexivity. cbn [ev_names]. rewrite Z, count_occ_app. lia.
  + eexists. split; [reflexivity|]. cbn [acc data1 data2 visited]. split; [congruence|]. rewrite !count_app. cbn [count is_regular].
    rewrite !Nat.add_0_r. split; [|auto]. intros x Hx. rewrite F', F by auto. cbn [option_map]. f_equal.
    rewrite total_app by reflexivity. cbn [ev_names]. rewrite Z, app_nil_r. lia.
- apply (put_all_good p es s (ev_names p Prepare)); auto. intro x. apply total_app; reflexivity.
Qed.
Lemma happens_good p : forall es es0 s, Forall (possible p) es -> good p es0 s -> exists s', happens p es s = Ok s' /\ good p (es0 ++ es) s'.
Proof.
induction es as [|e es IH]; simpl; intros es0 s H G; [rewrite app_nil_r; eauto|].
inversion H; subst. destruct (happen_good p es0 s e) as (s1 & E & G1); auto. rewrite E. simpl.
destruct (IH _ s1 ltac:(assumption) G1) as (s2 & E2 & G2). exists s2. rewrite <- app_assoc in G2. auto.
Qed.
Lemma run_good p es : Forall (possible p) es -> exists s, run p es = Ok s /\ good p es s.
Proof.
intro H. unfold run. rewrite createE. cbn [bind]. apply (happens_good p es []); [auto|].
split; [apply map_zero|]. cbn [acc data1 data2 visited count].
split; [intros x Hx; rewrite find_zero by auto; unfold total; cbn [count tally]; now rewrite !batches0, !Nat.mul_0_r|].
unfold pending. split; [destruct (0 <? max1 p)%Z; [destruct (Z.to_nat (max1 p)); simpl; rewrite ?Nat.sub_diag|]; reflexivity|].
split; [destruct (0 <? max2 p)%Z; [destruct (Z.to_nat (max2 p)); simpl; rewrite ?Nat.sub_diag|]; reflexivity|]. intro w. split; [intros []|lia].
Qed.

(** ** Counts of samples *)
Lemma occ_ins p x : starts x = false -> occ (ins_rem p) x = 0.
Proof. intro S. apply count_occ_not_In. intro I. apply ins_starts in I. congruence. Qed.
Definition report_a (p : params) : list string :=
  ["Z_function_space_num_steps"] ++ map (fun w => ("worm_space_num_steps_" ++ space_name w)%string) (worms p)
  ++ ["Z_function_space_volume"] ++ map (fun w => ("worm_space_volume_" ++ space_name w)%string) (worms p).
Definition report_b (p : params) : list string := shift ++ pair_flavor ++ flat_map rate (worm_updaters p).
Lemma occ_report p x : starts x = false -> occ (report_names p) x = occ (report_a p ++ report_b p) x.
Proof.
intro S. unfold report_names, report_a, report_b. rewrite !count_occ_app, (occ_ins p x S). lia.
Qed.
Definition z_a (file a b c : bool) : list string :=
  ["order"; "PerturbationOrderFlavors"] ++ shift ++ pair_flavor
  ++ (if a then ["Acceptance_rate_global_shift"] else []) ++ (if b then ["Acceptance_rate_swap"] else [])
  ++ ["n"] ++ (if file then reim "Two_time_correlation_functions" else [])
  ++ (if c then reim "Greens_legendre" ++ reim "Greens_legendre_rotated" else []) ++ ["Sign"].
Lemma occ_z p a b c x : starts x = false -> occ (z_names p a b c) x = occ (z_a (corr_file p) a b c) x.
Proof. intro S. unfold z_names, z_a. rewrite !count_occ_app, (occ_ins p x S). lia. Qed.
Lemma tally_count p x (f : event -> bool) es : Forall (possible p) es ->
  (forall e, possible p e -> occ (ev_names p e) x = if f e then 1 else 0) -> tally p es x = count f es.
Proof. intros H K. induction H as [|e es P H IH]; simpl tally; simpl count; [auto|]. now rewrite (K e P), IH. Qed.
(** A name that is filled [r] times in each report, [z] more times in reports in Z, and in the steps and preparations of [f] *)
Lemma tally_name p x (f : event -> bool) es : Forall (possible p) es -> starts x = false ->
  (forall w, f (Sweep w) = false) -> (forall w g, f (Step w g) = f (Step w false)) ->
  (forall w a b c, f (Report w a b c) = f (Report w false false false)) ->
  (forall w, in_space p w -> occ (ev_names p (Step w false)) x = if f (Step w false) then 1 else 0) ->
  (forall w a b c, in_space p w -> occ (report_a p ++ report_b p) x + (if space_eqb w Z_FUNCTION then occ (z_a (corr_file p) a b c) x else 0)
     = if f (Report w false false false) then 1 else 0) ->
  occ ["Pert_order_start"] x = (if f Prepare then 1 else 0) -> tally p es x = count f es.
Proof.
intros H S f1 f2 f3 K1 K2 K3. apply tally_count; [auto|].
intros [w|w g|w a b c|] P; [now rewrite f1| | |exact K3].
- rewrite f2, <- K1 by auto. destruct w; reflexivity.
- rewrite f3, <- (K2 w a b c P). cbn [ev_names]. rewrite count_occ_app, occ_report by auto.
  destruct (space_eqb w Z_FUNCTION); [now rewrite occ_z|reflexivity].
Qed.
Definition never (e : event) : bool := false.
Lemma count_never es : count never es = 0.
Proof. induction es; auto. Qed.
Ltac tname := let P := fresh "P" in let w := fresh "w" in
  apply tally_name; [assumption|reflexivity|reflexivity|intros w []; reflexivity|intros [] [] [] []; reflexivity
    |intros w P; unfold in_space in P; destruct w; solve [vm_compute; reflexivity | exfalso; intuition discriminate]
    | |vm_compute; reflexivity].
Ltac parts r z :=
  match goal with |- _ -> _ => idtac | |- forall w a b c, _ => idtac end;
  let w := fresh "w" in let a := fresh "u" in let b := fresh "v" in let c := fresh "t" in let P := fresh "P" in
  intros w a b c P;
  match goal with |- occ (report_a ?p ++ report_b ?p) ?x + _ = _ =>
    let R := fresh in let Q := fresh in
    assert (R : occ (report_a p ++ report_b p) x = r) by (clear - p; cases p; vm_compute; reflexivity);
    assert (Q : occ (z_a (corr_file p) a b c) x = z)
      by (clear; generalize (corr_file p); intro; repeat match goal with b : bool |- _ => destruct b end; vm_compute; reflexivity);
    rewrite R, Q; cbn [is_report_in is_step is_report is_prepare never]; destruct (space_eqb w Z_FUNCTION); reflexivity
  end.
Lemma tally_Z p es : Forall (possible p) es ->
  tally p es "Sign" = count (is_report_in Z_FUNCTION) es /\ tally p es "kLkR_Re" = count (is_step Z_FUNCTION) es /\
  tally p es "kLkR_Im" = count (is_step Z_FUNCTION) es /\ tally p es "k_Re" = count (is_step Z_FUNCTION) es /\
  tally p es "k_Im" = count (is_step Z_FUNCTION) es /\ tally p es "Z_function_space_volume" = count is_report es /\
  tally p es "Z_function_space_num_steps" = count is_report es /\ tally p es "Pert_order_start" = count is_prepare es /\
  tally p es "Pert_order_end" = count never es.
Proof.
intro H. repeat split; tname; [parts 0 1|parts 0 0|parts 0 0|parts 0 0|parts 0 0|parts 1 0|parts 1 0|parts 0 0|parts 0 0].
Qed.
Definition if_file (p : params) (e : event) : bool := corr_file p && is_report_in Z_FUNCTION e.
Lemma tally_corr p es : Forall (possible p) es -> tally p es "Two_time_correlation_functions_Re" = count (if_file p) es /\
  tally p es "Two_time_correlation_functions_Im" = count (if_file p) es.
Proof.
intro H. split; (apply tally_name; [assumption|reflexivity|intro; apply andb_false_r|intros; reflexivity|intros; reflexivity
    |intros w P; unfold in_space in P; destruct w; unfold if_file; cbn [is_report_in]; rewrite andb_false_r; solve [vm_compute; reflexivity | exfalso; intuition discriminate]
    | |unfold if_file; cbn [is_report_in]; rewrite andb_false_r; vm_compute; reflexivity]);
  intros w u v t P;
  match goal with |- occ (report_a ?p ++ report_b ?p) ?x + _ = _ =>
    assert (R : occ (report_a p ++ report_b p) x = 0) by (clear - p; cases p; vm_compute; reflexivity);
    assert (Q : occ (z_a (corr_file p) u v t) x = if corr_file p then 1 else 0)
      by (clear; generalize (corr_file p); intro; repeat match goal with b : bool |- _ => destruct b end; vm_compute; reflexivity);
    rewrite R, Q; unfold if_file; cbn [is_report_in]; destruct (space_eqb w Z_FUNCTION), (corr_file p); reflexivity
  end.
Qed.
Lemma tally_worm p es w : Forall (possible p) es -> in_space p w -> w <> Z_FUNCTION ->
  tally p es ("worm_space_volume_" ++ space_name w)%string = count is_report es /\
  tally p es ("worm_space_num_steps_" ++ space_name w)%string = count is_report es /\
  (forall x, In x (reim (space_name w)) -> tally p es x = count (if space_eqb w G1 || space_eqb w G2 then never else is_step w) es).
Proof.
intros H I N.
assert (HW : has w (worms p) = true) by (apply active_in in I; unfold active in I; destruct w; try (elim N; reflexivity); exact I).
assert (A : forall x, starts x = false -> occ (report_a p ++ report_b p) x = 0 -> (forall a b c, occ (z_a (corr_file p) a b c) x = 0) ->
  (forall v, occ (ev_names p (Step v false)) x = if (if space_eqb w G1 || space_eqb w G2 then never else is_step w) (Step v false) then 1 else 0) ->
  occ ["Pert_order_start"] x = 0 -> tally p es x = count (if space_eqb w G1 || space_eqb w G2 then never else is_step w) es).
{ intros x S R Q K E. apply tally_name; auto; try (intros; destruct (space_eqb w G1 || space_eqb w G2); reflexivity).
  - intros v a b c _. rewrite R, Q. destruct (space_eqb v Z_FUNCTION), (space_eqb w G1 || space_eqb w G2); reflexivity.
  - rewrite E. destruct (space_eqb w G1 || space_eqb w G2); reflexivity. }
assert (B : forall x, starts x = false -> occ (report_a p ++ report_b p) x = 1 -> (forall a b c, occ (z_a (corr_file p) a b c) x = 0) ->
  (forall v, occ (ev_names p (Step v false)) x = 0) -> occ ["Pert_order_start"] x = 0 -> tally p es x = count is_report es).
{ intros x S R Q K E. apply tally_name; auto; try reflexivity.
  - intros v a b c _. rewrite R, Q. destruct (space_eqb v Z_FUNCTION); reflexivity. }
clear I N H. destruct p as [r a b c d n f m1 m2]. cbn [corr_file] in *.
assert (HW' : has w (create_worm_types a b c d) = true) by exact HW. clear HW.
destruct w; try (destruct a, b, c, d; discriminate HW'); cbn [space_eqb orb] in *;
  (split; [apply B|split; [apply B|intros x [<-|[<-|[]]]; apply A]]); try reflexivity;
  try (clear; intros u v t; destruct f, u, v, t; vm_compute; reflexivity);
  try (clear; intros []; vm_compute; reflexivity);
  try (clear - HW'; destruct a, b, c, d; try discriminate HW'; vm_compute; reflexivity).
Qed.

(** ** Main statements *)
Lemma find_total p es s x : good p es s -> In x (created p) -> Observables.find x (acc s) = Some (total p es x).
Proof. intros (_ & F & _). auto. Qed.
Lemma total_other p es x : occ (reim "G1") x = 0 -> occ (reim "G2") x = 0 -> total p es x = tally p es x.
Proof. unfold total. intros -> ->. lia. Qed.
Lemma created_a p x : inclb [x] names_a = true -> In x (created p).
Proof. intro H. apply ab_created. unfold ab. rewrite in_app_iff. left. apply (inclbP _ _ H). now left. Qed.
Lemma created_f p x : inclb [x] (["Z_function_space_volume"; "Z_function_space_num_steps"; "Pert_order_start"; "Pert_order_end"]
  ++ reim "G1" ++ reim "kLkR" ++ reim "k") = true -> In x (created p).
Proof.
intro H. apply ab_created. assert (I : incl (["Z_function_space_volume"; "Z_function_space_num_steps"; "Pert_order_start"; "Pert_order_end"]
  ++ reim "G1" ++ reim "kLkR" ++ reim "k") (ab p)) by (cases p; apply inclbP; vm_compute; reflexivity).
apply I, (inclbP _ _ H). now left.
Qed.
Lemma created_w p w : in_space p w -> w <> Z_FUNCTION ->
  incl (["worm_space_volume_" ++ space_name w; "worm_space_num_steps_" ++ space_name w]%string ++ reim (space_name w)) (created p).
Proof.
intros H N. assert (HW : has w (worms p) = true) by (apply active_in in H; unfold active in H; destruct w; try (elim N; reflexivity); exact H).
assert (I : incl (["worm_space_volume_" ++ space_name w; "worm_space_num_steps_" ++ space_name w]%string ++ reim (space_name w)) (ab p)).
{ clear H N. destruct p as [r a b c d n f m1 m2]. assert (HW' : has w (create_worm_types a b c d) = true) by exact HW. clear HW.
  destruct w; destruct a, b, c, d; try discriminate HW'; apply inclbP; vm_compute; reflexivity. }
intros x Hx. now apply ab_created, I.
Qed.

(** The constructor and every run end without an exception and without undefined behavior *)
Theorem C71_run p es : Forall (possible p) es -> exists s, run p es = Ok s.
Proof. intro H. destruct (run_good p es H) as (s & E & _). eauto. Qed.

(** How many samples there are *)
Theorem C71_samples p es s : Forall (possible p) es -> run p es = Ok s ->
  let samples x n := Observables.find x (acc s) = Some n in
  samples "Sign" (count (is_report_in Z_FUNCTION) es) /\
  (forall x, In x ["kLkR_Re"; "kLkR_Im"; "k_Re"; "k_Im"] -> samples x (count (is_step Z_FUNCTION) es)) /\
  (forall x, In x ["Z_function_space_volume"; "Z_function_space_num_steps"] -> samples x (count is_report es)) /\
  samples "Pert_order_start" (count is_prepare es) /\
  (forall x, In x ["Two_time_correlation_functions_Re"; "Two_time_correlation_functions_Im"] ->
     samples x (if corr_file p then count (is_report_in Z_FUNCTION) es else 0)) /\
  (forall w, in_space p w -> w <> Z_FUNCTION ->
     samples ("worm_space_volume_" ++ space_name w)%string (count is_report es) /\
     samples ("worm_space_num_steps_" ++ space_name w)%string (count is_report es) /\
     forall x, In x [space_name w ++ "_Re"; space_name w ++ "_Im"]%string ->
       samples x (match w with
                  | G1 => batches (max1 p) (count (is_regular G1) es)
                  | G2 => batches (max2 p) (count (is_regular G2) es)
                  | _ => count (is_step w) es
                  end)).
Proof.
intros H E samples. destruct (run_good p es H) as (s' & E' & G). assert (s' = s) by congruence. subst s'. clear E'.
destruct (tally_Z p es H) as (t1 & t2 & t3 & t4 & t5 & t6 & t7 & t8 & t9). destruct (tally_corr p es H) as (t10 & t11).
assert (A : forall x, occ (reim "G1") x = 0 -> occ (reim "G2") x = 0 -> In x (created p) -> samples x (tally p es x)).
{ intros x z1 z2 I. unfold samples. now rewrite (find_total p es s x G I), total_other. }
assert (C : count (if_file p) es = if corr_file p then count (is_report_in Z_FUNCTION) es else 0).
{ clear. unfold if_file. induction es as [|e es IH]; cbn [count]; [destruct (corr_file p); auto|]. rewrite IH. destruct (corr_file p); reflexivity. }
split; [rewrite <- t1; apply A; try reflexivity; now apply created_a|].
split; [intros x Hx; cbn [In] in Hx; destruct Hx as [<-|[<-|[<-|[<-|[]]]]]; [rewrite <- t2|rewrite <- t3|rewrite <- t4|rewrite <- t5];
        apply A; try reflexivity; now apply created_f|].
split; [intros x Hx; cbn [In] in Hx; destruct Hx as [<-|[<-|[]]]; [rewrite <- t6|rewrite <- t7]; apply A; try reflexivity; now apply created_f|].
split; [rewrite <- t8; apply A; try reflexivity; now apply created_f|].
split; [intros x Hx; cbn [In] in Hx; rewrite <- C; destruct Hx as [<-|[<-|[]]]; [rewrite <- t10|rewrite <- t11]; apply A; try reflexivity; now apply created_a|].
intros w I N. destruct (tally_worm p es w H I N) as (w1 & w2 & w3). pose proof (created_w p w I N) as CW.
split; [rewrite <- w1; apply A; [destruct w; reflexivity|destruct w; reflexivity|apply CW; now left]|].
split; [rewrite <- w2; apply A; [destruct w; reflexivity|destruct w; reflexivity|apply CW; right; now left]|].
intros x Hx. assert (X : In x (created p)) by (apply CW; right; right; exact Hx).
unfold samples. rewrite (find_total p es s x G X). f_equal. unfold total. rewrite (w3 x Hx).
clear - N I Hx. cbn [In] in Hx. unfold in_space in I. destruct w; try (exfalso; intuition discriminate); cbn [space_eqb orb]; rewrite ?count_never;
  destruct Hx as [<-|[<-|[]]];
  repeat match goal with |- context [occ ?l ?x] => let v := eval vm_compute in (occ l x) in change (occ l x) with v end; lia.
Qed.

(** When solve() gets as far as the end: every space was visited, prepare_for_measurement was called, there was a report and a
    step in Z, the batches of G1 and G2 were filled, every other worm space had a step, and there was a file of correlation functions
    if their number is not 0 *)
Definition readable (p : params) (es : list event) : Prop :=
  (forall w, in_space p w -> 0 < count (is_sweep w) es) /\ 0 < count is_prepare es /\
  0 < count (is_report_in Z_FUNCTION) es /\ 0 < count (is_step Z_FUNCTION) es /\
  (0 < max1 p <= Z.of_nat (count (is_regular G1) es))%Z /\
  (g2_on p = true -> (0 < max2 p <= Z.of_nat (count (is_regular G2) es))%Z) /\
  (two_time_on p = true -> 0 < count (is_step Two_time_G2) es) /\
  (eq1_on p = true -> 0 < count (is_step Equal_time_G1) es) /\
  (eq2_on p = true -> 0 < count (is_step Equal_time_G2) es) /\
  (n_def p <> 0 -> corr_file p = true).
Lemma batches_pos max n : 0 < batches max n <-> (0 < max <= Z.of_nat n)%Z.
Proof.
unfold batches. destruct (Z.ltb_spec 0 max); [|lia]. split.
- intro P. split; [auto|]. destruct (Z.le_gt_cases max (Z.of_nat n)); [auto|]. rewrite Nat.div_small in P by lia. lia.
- intro P. apply Nat.div_str_pos. lia.
Qed.
Lemma means_spec l m : (means l m = Ok tt <-> forall x, In x l -> exists n, Observables.find x m = Some (S n)) /\ (means l m = Ok tt \/ means l m = Throw).
Proof.
induction l as [|x l [IH1 IH2]]; cbn [means]; [split; [split; [intros _ x []|auto]|auto]|].
unfold mean. destruct (Observables.find x m) as [[|k]|] eqn:E; cbn [bind]; (split; [split|]); auto; try discriminate;
  try (intro H; destruct (H x (or_introl eq_refl)); congruence).
- intros H y [<-|Hy]; [eauto|]. rewrite IH1 in H. auto.
- intro H. apply IH1. intros y Hy. apply H. now right.
Qed.
Lemma finish_spec p es s : good p es s ->
  ((forall w, in_space p w -> 0 < count (is_sweep w) es) -> exists s', finish p s = Ok s' /\
     forall x, Observables.find x (acc s') = option_map (fun n => n + occ ["Pert_order_end"] x) (Observables.find x (acc s))) /\
  (~ (forall w, in_space p w -> 0 < count (is_sweep w) es) -> finish p s = Throw).
Proof.
intros (D & F & d1 & d2 & V). destruct (puts_spec ["Pert_order_end"] (acc s)) as (m & E & D' & F').
{ rewrite D. intros x [<-|[]]. apply created_f. reflexivity. }
unfold finish, put_all. rewrite E. cbn [bind acc visited].
assert (Q : forallb (fun w => has w (visited s)) (Z_FUNCTION :: worms p) = true <-> forall w, in_space p w -> 0 < count (is_sweep w) es).
{ rewrite forallb_forall. assert (HV : forall w, has w (visited s) = true <-> 0 < count (is_sweep w) es).
  { intro w. rewrite <- V. unfold has. rewrite existsb_exists. split; [intros (v & I & B)|intro I; exists w].
    - destruct (space_eqbP w v); congruence.
    - split; [auto|]. destruct (space_eqbP w w); congruence. }
  assert (A : forall w, In w (Z_FUNCTION :: worms p) <-> in_space p w).
  { intro w. rewrite <- active_in. unfold active. cbn [In]. destruct w; cbn [space_eqb orb];
      try (split; [auto|intros _; left; reflexivity]; fail);
      (split; [intros [X|X]; [discriminate X|]; unfold has; rewrite existsb_exists; eexists; split; [exact X|reflexivity]
              |unfold has; rewrite existsb_exists; intros (v & I & B); right; destruct v; (exact I || discriminate B)]). }
  split; intros H w Hw; [apply HV, H, A, Hw|apply HV, H, A, Hw]. }
destruct (forallb (fun w => has w (visited s)) (Z_FUNCTION :: worms p)).
- split; [intros _; eexists; split; [reflexivity|exact F']|intro N; elim N; now apply Q].
- split; [intro H; apply Q in H; discriminate|reflexivity].
Qed.
(** finalize_measurement throws exactly when a space that is switched on was never the space of the simulation after a sweep *)
Theorem C71_finish p es s : Forall (possible p) es -> run p es = Ok s ->
  (finish p s = Throw <-> exists w, in_space p w /\ count (is_sweep w) es = 0) /\ finish p s <> UB.
Proof.
intros H E. destruct (run_good p es H) as (s' & E' & G). assert (s' = s) by congruence. subst s'.
destruct (finish_spec p es s G) as [A B].
assert (D : (exists w, in_space p w /\ count (is_sweep w) es = 0) \/ forall w, in_space p w -> 0 < count (is_sweep w) es).
{ assert (L : forall l, (exists w, In w l /\ in_space p w /\ count (is_sweep w) es = 0) \/ forall w, In w l -> in_space p w -> 0 < count (is_sweep w) es).
  { induction l as [|v l [(w & I & P)|IH]]; [right; intros w []|left; exists w; split; [now right|auto]|].
    destruct (active p v) eqn:Av; [destruct (Nat.eq_dec (count (is_sweep v) es) 0) as [Z|Z]|].
    - left. exists v. split; [now left|]. split; [now apply active_in|auto].
    - right. intros w [<-|I] P; [lia|auto].
    - right. intros w [<-|I] P; [apply active_in in P; congruence|auto]. }
  destruct (L [Z_FUNCTION; G1; G2; Equal_time_G1; Equal_time_G2; Two_time_G2; Unknown]) as [(w & _ & P)|P]; [left; eauto|].
  right. intros w. apply P. cbn [In]. destruct w; tauto. }
destruct D as [(w & P & Z)|P].
- rewrite B; [split; [split; eauto|discriminate]|]. intro K. specialize (K w P). lia.
- destruct (A P) as (s' & -> & _). split; [split; [discriminate|]|discriminate]. intros (w & Q & Z). specialize (P w Q). lia.
Qed.

Lemma report_pos p es x : In x (report_names p) -> 0 < count is_report es -> 0 < tally p es x.
Proof.
intro I. induction es as [|e es IH]; cbn [count tally]; [lia|].
destruct (is_report e) eqn:R; [|lia]. intros _. destruct e; try discriminate R. cbn [ev_names]. rewrite count_occ_app.
apply (count_occ_In string_dec) in I. lia.
Qed.
Lemma report_in w es : count (is_report_in w) es <= count is_report es.
Proof. induction es as [|e es IH]; cbn [count]; [auto|]. destruct e; cbn [is_report is_report_in]; try lia. destruct (space_eqb w0 w); lia. Qed.
Lemma statistics_in p x : In x (statistics p) -> x = "Pert_order_start" \/ x = "Pert_order_end" \/ In x (report_names p).
Proof.
assert (R : forall y, In x (print_rate y) -> In x (rate y)) by (intro y; unfold print_rate, rate; cbn [In]; tauto).
unfold statistics, report_names. rewrite !in_app_iff.
intros [H|[H|[H|[H|[H|H]]]]]; [cbn [In] in H; destruct H as [<-|[<-|[<-|[]]]]; [auto|auto|right; right; left; left; reflexivity]|tauto| | | |].
- assert (In x (ins_rem p)); [|tauto]. unfold ins_rem. rewrite in_flat_map in *. destruct H as (k & K & H). eauto.
- assert (In x shift); [|tauto]. unfold shift. rewrite in_app_iff. auto.
- assert (In x pair_flavor); [|tauto]. unfold pair_flavor. auto.
- assert (In x (flat_map rate (worm_updaters p))); [|tauto]. rewrite in_flat_map in *. destruct H as (k & K & H). eauto.
Qed.
Lemma reads_in p x : In x (reads p) <->
  x = "Sign" \/ (exists w, In w (worms p) /\ In x (worm_reads w)) \/ (n_def p <> 0 /\ In x (reim "Two_time_correlation_functions"))
  \/ In x (reim "kLkR" ++ reim "k") \/ In x (statistics p).
Proof.
unfold reads. rewrite !in_app_iff. unfold worms, create_worm_types.
assert (W : (exists w, In w ([G1] ++ (if g2_on p then [G2] else []) ++ (if two_time_on p then [Two_time_G2] else [])
    ++ (if eq1_on p then [Equal_time_G1] else []) ++ (if eq2_on p then [Equal_time_G2] else [])) /\ In x (worm_reads w)) <->
  In x (worm_reads G1) \/ In x (if eq1_on p then worm_reads Equal_time_G1 else []) \/ In x (if g2_on p then worm_reads G2 else [])
  \/ In x (if two_time_on p then worm_reads Two_time_G2 else []) \/ In x (if eq2_on p then worm_reads Equal_time_G2 else [])).
{ split.
  - intros (w & I & H). rewrite !in_app_iff in I.
    destruct I as [[<-|[]]|[I|[I|[I|I]]]]; [auto|destruct (g2_on p)|destruct (two_time_on p)|destruct (eq1_on p)|destruct (eq2_on p)];
      first [destruct I as [<-|[]]; tauto | destruct I].
  - intros [H|[H|[H|[H|H]]]]; [exists G1|destruct (eq1_on p); [exists Equal_time_G1|destruct H]|destruct (g2_on p); [exists G2|destruct H]
      |destruct (two_time_on p); [exists Two_time_G2|destruct H]|destruct (eq2_on p); [exists Equal_time_G2|destruct H]];
      (split; [|exact H]); rewrite !in_app_iff; cbn [In]; tauto. }
rewrite W. clear W.
assert (N : In x (if Nat.eqb (n_def p) 0 then [] else ["Sign"] ++ reim "Two_time_correlation_functions" ++ ["Sign"]) <->
  n_def p <> 0 /\ (x = "Sign" \/ In x (reim "Two_time_correlation_functions"))).
{ destruct (Nat.eqb_spec (n_def p) 0) as [Z|Z]; [split; [intros []|tauto]|]. rewrite !in_app_iff. cbn [In]. intuition. }
rewrite N. assert (S1 : In x ["Sign"] <-> x = "Sign") by (cbn [In]; intuition). rewrite S1. tauto.
Qed.
Lemma in_worms p w : In w (worms p) <-> in_space p w /\ w <> Z_FUNCTION.
Proof.
unfold worms, create_worm_types, in_space. rewrite !in_app_iff.
destruct (g2_on p), (two_time_on p), (eq1_on p), (eq2_on p); cbn [In]; destruct w; intuition (try discriminate; try congruence).
Qed.

(** solve() ends without an exception exactly for the runs of [readable]; otherwise it throws *)
Theorem C71_solve p es : Forall (possible p) es -> (solve p es = Ok tt <-> readable p es) /\ (solve p es = Ok tt \/ solve p es = Throw).
Proof.
intro H. destruct (run_good p es H) as (s & E & G). destruct (finish_spec p es s G) as [A B].
unfold solve. rewrite E. cbn [bind].
destruct (C71_finish p es s H E) as [C UBf].
destruct (C71_samples p es s H E) as (s1 & s2 & s3 & s4 & s5 & s6). cbv zeta in *.
destruct (finish p s) as [s'| |] eqn:FE; [|cbn [bind]; split; [split; [discriminate|]|auto]|elim UBf; reflexivity].
2:{ intros (V & _). destruct C as [C _]. destruct (C eq_refl) as (w & I & Z). specialize (V w I). lia. }
assert (V : forall w, in_space p w -> 0 < count (is_sweep w) es).
{ intros w I. destruct (Nat.eq_dec (count (is_sweep w) es) 0); [|lia]. destruct C as [_ C]. discriminate C. eauto. }
destruct (A V) as (s'' & X & F). injection X as <-. cbn [bind].
destruct (means_spec (reads p) (acc s')) as [M1 M2]. split; [|exact M2]. rewrite M1. clear M1 M2.
assert (K : forall x n, Observables.find x (acc s) = Some n -> occ ["Pert_order_end"] x = 0 ->
  ((exists k, Observables.find x (acc s') = Some (S k)) <-> 0 < n)).
{ intros x n Q O. rewrite F, Q. cbn [option_map]. rewrite O, Nat.add_0_r. split; [intros (k & L); injection L; lia|intro; exists (n - 1); f_equal; lia]. }
assert (KS := K "Sign" _ s1 eq_refl).
assert (KW : forall w, in_space p w -> w <> Z_FUNCTION -> forall x, In x (reim (space_name w)) ->
  ((exists k, Observables.find x (acc s') = Some (S k)) <->
   0 < match w with G1 => batches (max1 p) (count (is_regular G1) es) | G2 => batches (max2 p) (count (is_regular G2) es) | _ => count (is_step w) es end)).
{ intros w I N x Hx. destruct (s6 w I N) as (_ & _ & Q). apply K; [apply Q; exact Hx|].
  cbn [reim In] in Hx. destruct Hx as [<-|[<-|[]]]; destruct w; reflexivity. }
split.
- intro R. assert (RW : forall w, In w (worms p) -> forall x, In x (reim (space_name w)) -> exists k, Observables.find x (acc s') = Some (S k)).
  { intros w I x Hx. apply R, reads_in. right. left. exists w. split; [auto|]. unfold worm_reads. rewrite in_app_iff. auto. }
  assert (RS : forall x, In x (statistics p) -> exists k, Observables.find x (acc s') = Some (S k)).
  { intros x Hx. apply R, reads_in. tauto. }
  assert (W : forall w, in_space p w -> w <> Z_FUNCTION ->
     0 < match w with G1 => batches (max1 p) (count (is_regular G1) es) | G2 => batches (max2 p) (count (is_regular G2) es) | _ => count (is_step w) es end).
  { intros w I N. apply (KW w I N (space_name w ++ "_Re")%string); [left; reflexivity|]. apply (RW w); [now apply in_worms|left; reflexivity]. }
  split; [exact V|].
  split; [apply (K "Pert_order_start" _ s4 eq_refl), RS; left; reflexivity|].
  split; [apply KS, R, reads_in; auto|].
  split; [apply (K "k_Re" _ (s2 "k_Re" ltac:(cbn [In]; tauto)) eq_refl), R, reads_in; right; right; right; left; cbn [app reim In]; tauto|].
  split; [apply batches_pos; apply (W G1); [unfold in_space; tauto|discriminate]|].
  split; [intro O; apply batches_pos; apply (W G2); [unfold in_space; tauto|discriminate]|].
  split; [intro O; apply (W Two_time_G2); [unfold in_space; tauto|discriminate]|].
  split; [intro O; apply (W Equal_time_G1); [unfold in_space; tauto|discriminate]|].
  split; [intro O; apply (W Equal_time_G2); [unfold in_space; tauto|discriminate]|].
  intro O. destruct (corr_file p) eqn:CF; [auto|].
  pose proof (K _ _ (s5 "Two_time_correlation_functions_Re" ltac:(cbn [In]; tauto)) eq_refl) as [Q _].
  assert (0 < 0); [|lia]. apply Q, R, reads_in. right. right. left. split; [auto|]. left. reflexivity.
- intros (_ & r1 & r2 & r3 & r4 & r5 & r6 & r7 & r8 & r9) x I. apply reads_in in I.
  assert (RP : 0 < count is_report es) by (pose proof (report_in Z_FUNCTION es); lia).
  assert (RN : forall x, In x (report_names p) -> exists k, Observables.find x (acc s') = Some (S k)).
  { intros y Hy. rewrite F, (find_total p es s y G (report_created p y Hy)). cbn [option_map].
    pose proof (report_pos p es y Hy RP). exists (total p es y + occ ["Pert_order_end"] y - 1). f_equal. unfold total in *. lia. }
  destruct I as [->|[(w & Iw & Hx)|[(N & Hx)|[Hx|Hx]]]].
  + now apply KS.
  + unfold worm_reads in Hx. rewrite in_app_iff in Hx. pose proof (proj1 (in_worms p w) Iw) as [I N].
    assert (W : 0 < match w with G1 => batches (max1 p) (count (is_regular G1) es) | G2 => batches (max2 p) (count (is_regular G2) es) | _ => count (is_step w) es end).
    { unfold in_space in I. destruct w; try (exfalso; intuition discriminate); rewrite ?batches_pos; intuition (try discriminate). }
    destruct Hx as [Hx|Hx]; [|now apply (KW w I N)].
    cbn [In] in Hx. destruct Hx as [<-|[<-|[<-|[]]]]; [now apply KS| |].
    * apply RN. unfold report_names. rewrite !in_app_iff. right. right. right. left. rewrite in_map_iff. eauto.
    * apply RN. unfold report_names. rewrite !in_app_iff. right. right. left. now left.
  + pose proof (s5 x Hx) as Q. rewrite (r9 N) in Q. eapply K; [exact Q| |exact r2].
    cbn [reim In] in Hx. destruct Hx as [<-|[<-|[]]]; reflexivity.
  + eapply K; [apply s2; exact Hx| |exact r3]. cbn [reim app In] in Hx. destruct Hx as [<-|[<-|[<-|[<-|[]]]]]; reflexivity.
  + apply statistics_in in Hx. destruct Hx as [->|[->|Hx]]; [eapply K; [exact s4|reflexivity|exact r1]| |now apply RN].
    rewrite F, (find_total p es s "Pert_order_end" G (created_f p "Pert_order_end" eq_refl)). cbn [option_map].
    replace (occ ["Pert_order_end"] "Pert_order_end") with 1 by reflexivity. rewrite Nat.add_1_r. eauto.
Qed.

(** Every measured space can be read is false: one sweep, one measured step and one report in every space that is switched on are
    not enough, because the samples of G1 are passed on in batches of max_num_data_accumulated (10 by default) and what is pending
    at the end is dropped (measurement.ipp:296-323) *)
Definition everywhere (p : params) : list event := Prepare :: flat_map (fun w => [Sweep w; Step w true; Report w false false false]) (Z_FUNCTION :: worms p).
Lemma everywhere_possible p : Forall (possible p) (everywhere p).
Proof.
apply Forall_forall. intros e [<-|I]; [exact Logic.I|]. apply in_flat_map in I. destruct I as (w & [<-|Iw] & I).
- cbn [In] in I. destruct I as [<-|[<-|[<-|[]]]]; left; reflexivity.
- apply in_worms in Iw. destruct Iw as [Iw _]. cbn [In] in I. destruct I as [<-|[<-|[<-|[]]]]; exact Iw.
Qed.
Lemma everywhere_counts p w : in_space p w -> count (is_sweep w) (everywhere p) = 1 /\ count (is_regular w) (everywhere p) = 1 /\
  count (is_step w) (everywhere p) = 1 /\ count (is_report_in w) (everywhere p) = 1.
Proof.
unfold in_space, everywhere, worms, create_worm_types. destruct p as [r a b c d n f m1 m2]; cbn [g2_on two_time_on eq1_on eq2_on].
intro H. destruct w, a, b, c, d; try (exfalso; intuition discriminate); vm_compute; repeat split.
Qed.
Theorem C71_pending_refuted p : max1 p <> 1%Z ->
  exists es, Forall (possible p) es /\
    (forall w, in_space p w -> 0 < count (is_sweep w) es /\ 0 < count (is_regular w) es /\ 0 < count (is_report_in w) es) /\
    0 < count is_prepare es /\ solve p es = Throw.
Proof.
intro M. exists (everywhere p). pose proof (everywhere_possible p) as H.
split; [exact H|]. split; [intros w I; destruct (everywhere_counts p w I) as (-> & -> & _ & ->); lia|].
split; [cbn [everywhere count is_prepare]; lia|].
destruct (C71_solve p _ H) as [I [E|E]]; [|exact E]. apply I in E. destruct E as (_ & _ & _ & _ & R & _).
destruct (everywhere_counts p G1) as (_ & Q & _ & _); [unfold in_space; tauto|]. rewrite Q in R. lia.
Qed.
(** With batches of one sample the same run can be read, if there is a file for the correlation functions *)
Theorem C71_batch_one p : max1 p = 1%Z -> max2 p = 1%Z -> (n_def p <> 0 -> corr_file p = true) -> solve p (everywhere p) = Ok tt.
Proof.
intros M1 M2 N. apply (C71_solve p _ (everywhere_possible p)).
assert (C := everywhere_counts p). assert (S1 : forall w, in_space p w -> 0 < count (is_step w) (everywhere p)).
{ intros w I. destruct (C w I) as (_ & _ & -> & _). lia. }
assert (R1 : forall w, in_space p w -> (0 < 1 <= Z.of_nat (count (is_regular w) (everywhere p)))%Z).
{ intros w I. destruct (C w I) as (_ & -> & _ & _). lia. }
unfold readable. rewrite M1, M2.
split; [intros w I; destruct (C w I) as (-> & _); lia|]. split; [cbn [everywhere count is_prepare]; lia|].
split; [destruct (C Z_FUNCTION) as (_ & _ & _ & ->); [left; reflexivity|lia]|]. split; [apply S1; left; reflexivity|].
split; [apply R1; unfold in_space; tauto|].
split; [intro; apply R1; unfold in_space; tauto|].
repeat split; try (intro; apply S1; unfold in_space; tauto); exact N.
Qed.
(** measurement.nn_corr.n_def without measurement.nn_corr.def: no run can be read *)
Theorem C71_file_refuted p es : Forall (possible p) es -> n_def p <> 0 -> corr_file p = false -> solve p es = Throw.
Proof.
intros H N F. destruct (C71_solve p es H) as [I [E|E]]; [|exact E]. apply I in E.
destruct E as (_ & _ & _ & _ & _ & _ & _ & _ & _ & E). rewrite (E N) in F. discriminate.
Qed.
(** A size of the batches that is not positive: no run can be read *)
Theorem C71_size_refuted p es : Forall (possible p) es -> (max1 p <= 0)%Z -> solve p es = Throw.
Proof.
intros H N. destruct (C71_solve p es H) as [I [E|E]]; [|exact E]. apply I in E. destruct E as (_ & _ & _ & _ & E & _). lia.
Qed.
(** The check of the visited spaces does not find that no report was made in Z: Sign has no sample *)
Theorem C71_sign_refuted p es : Forall (possible p) es -> count (is_report_in Z_FUNCTION) es = 0 -> solve p es = Throw.
Proof.
intros H N. destruct (C71_solve p es H) as [I [E|E]]; [|exact E]. apply I in E. destruct E as (_ & _ & E & _). lia.
Qed.

(** A run with all worms and three orders of insertions, 20 samples of G1 in batches of 10 and 100 of G2 in one batch *)
Definition all_on : params := Params 3 true true true true 2 true 10 100.
Definition long_run : list event :=
  [Prepare] ++ flat_map (fun w => [Sweep w; Step w true; Report w true false true]) [Z_FUNCTION; G1; G2; Two_time_G2; Equal_time_G1; Equal_time_G2]
  ++ repeat (Step G1 true) 19 ++ repeat (Step G1 false) 5 ++ repeat (Step G2 true) 99.
Example C71_instance_ok : Forall (possible all_on) long_run /\ solve all_on long_run = Ok tt /\
  match run all_on long_run with
  | Ok s => Observables.find "G1_Re" (acc s) = Some 2 /\ Observables.find "G2_Im" (acc s) = Some 1 /\ Observables.find "Sign" (acc s) = Some 1
            /\ Observables.find "3-pair_insertion_remover_accepted_scalar" (acc s) = Some 7
  | _ => False
  end.
Proof.
split; [|split; [vm_compute; reflexivity|vm_compute; auto]].
apply Forall_forall. intros e I. assert (forallb (fun e => match e with Sweep w | Step w _ | Report w _ _ _ => active all_on w | Prepare => true end) long_run = true)
  as F by (vm_compute; reflexivity).
rewrite forallb_forall in F. specialize (F e I). destruct e; cbn [possible]; auto; now apply active_in.
Qed.
(** Nine samples of G1: an exception *)
Example C71_instance_nine : solve (Params 1 false false false false 0 false 10 100)
  ([Prepare; Sweep Z_FUNCTION; Step Z_FUNCTION true; Report Z_FUNCTION false false false; Sweep G1; Report G1 false false false] ++ repeat (Step G1 true) 9) = Throw
  /\ solve (Params 1 false false false false 0 false 10 100)
  ([Prepare; Sweep Z_FUNCTION; Step Z_FUNCTION true; Report Z_FUNCTION false false false; Sweep G1; Report G1 false false false] ++ repeat (Step G1 true) 10) = Ok tt.
Proof. split; vm_compute; reflexivity. Qed.
(** G2 was never visited: finalize_measurement throws *)
Example C71_instance_visited : let p := Params 1 true false false false 0 false 1 1 in
  let es := [Prepare; Sweep Z_FUNCTION; Step Z_FUNCTION true; Report Z_FUNCTION false false false; Sweep G1; Step G1 true] in
  match run p es with Ok s => finish p s = Throw | _ => False end.
Proof. vm_compute. reflexivity. Qed.

Print Assumptions C71_names.
Print Assumptions C71_run.
Print Assumptions C71_samples.
Print Assumptions C71_finish.
Print Assumptions C71_solve.
Print Assumptions C71_pending_refuted.
Print Assumptions C71_batch_one.
Print Assumptions C71_file_refuted.
Print Assumptions C71_size_refuted.
Print Assumptions C71_sign_refuted.
