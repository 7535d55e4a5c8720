(** The local Monte Carlo update.

    Modelled code: src/moves/moves.ipp:25-32 (range_check), 84-213 (LocalUpdater::update),
    244-264 (finalize_update); src/moves/moves.hpp:66-137 (counters, measure_acc_rate);
    src/mc_config.hpp:66-114 (MonteCarloConfiguration); src/util.hpp:53-55 (mysign).

    Scalars are an arbitrary mathcomp [numFieldType]: rational, real or complex numbers.
    Rounding and overflow are not modelled.

    Interfaces kept abstract here (section variables; the theorems hold for every instance):
    - the worm type and its get_operators;
    - the determinant object M (try_update / perform_update / reject_update). Its contract is
      stated below; the file DetMatrix.v proves it for the real data structure;
    - the trace bound and the lazy trace of the sliding window.
    The virtual function [propose] is an input of [update]: the theorems range over every
    proposal. The 1e-15 early exit inside lazy_eval_trace is not part of this file. *)

From Coq Require Import ZArith List Bool Lia Sorting.Permutation Sorting.Sorted.
From mathcomp Require Import ssreflect ssrfun ssrbool eqtype ssralg ssrnum.
From Verif Require Import OpContainer CombSort PermSign.
Import ListNotations.
Import GRing.Theory Num.Theory.
Local Open Scope list_scope.
Local Open Scope ring_scope.

(** ** Determinant updates: operators to remove and to add (creation, annihilation). *)
Record hyb_update := HU {
  cd_rem : list psi; c_rem : list psi; cd_add : list psi; c_add : list psi }.

(** The update can be done on the operator sets (cd, c): the removed operators are there and
    afterwards all times are different. *)
Definition hyb_possible (cd c : list psi) (u : hyb_update) : Prop :=
  exists cd0 c0,
    Permutation cd (cd_rem u ++ cd0) /\ Permutation c (c_rem u ++ c0) /\
    NoDup (map p_time ((cd_add u ++ cd0) ++ (c_add u ++ c0))).

(** (cd', c') is the result of the update. *)
Definition hyb_result (cd c : list psi) (u : hyb_update) (cd' c' : list psi) : Prop :=
  Permutation (cd' ++ cd_rem u) (cd ++ cd_add u) /\ Permutation (c' ++ c_rem u) (c ++ c_add u).

Section Updater.

Variable K : numFieldType.
Variable W : Type.                       (* worms *)
Variable w_ops : W -> list psi.          (* Worm::get_operators, src/worm.hpp:75 *)

Variable MS : Type.                      (* DeterminantMatrixPartitioned *)
Variable m_cd m_c : MS -> list psi.      (* get_cdagg_ops, get_c_ops *)
Variable m_try : MS -> hyb_update -> K * MS.
Variable m_perform m_reject : MS -> MS.

Variable trace_bound_sum : container -> K.             (* compute_trace_bound *)
Variable lazy_trace : container -> K -> bool * K.      (* lazy_eval_trace *)

(** src/util.hpp:53-55 *)
Definition mysign (x : K) : K := x / `|x|.

Definition sgK (b : bool) : K := if b then -1 else 1.

(** src/mc_config.hpp:66-114 *)
Record config := Conf {
  operators : container; mstate : MS; worm : option W;
  trace : K; sign : K; perm_sign : bool }.

Definition worm_ops (w : option W) : list psi :=
  match w with Some w => w_ops w | None => [] end.

(** What [propose] fills in (src/moves/moves.hpp:139-146); [None] when it returns false.
    [p_worm_new = None] means that it did not touch p_new_worm_ (moves.ipp:96 default). *)
Record proposal := Prop_ {
  p_hyb : hyb_update; p_worm_new : option (option W); p_corr : K }.

Record counters := Cnt { attempted : nat; valid : nat; accepted : nat }.

(** src/moves/moves.ipp:244-264: only the counters survive; the per-call fields are cleared. *)
Definition finalize (ct : counters) (vld acc : bool) : counters :=
  Cnt (S (attempted ct))
      (if vld then S (valid ct) else valid ct)
      (if vld && acc then S (accepted ct) else accepted ct).

(** src/moves/moves.ipp:25-32; true = passes *)
Definition range_check (lo hi : Z) (ops : list psi) : bool :=
  forallb (fun x => negb (Z.ltb (ot_time (p_time x)) lo || Z.ltb hi (ot_time (p_time x)))) ops.

Inductive update_result :=
| Threw (mc : config)                                   (* an exception leaves update() *)
| UB                                                    (* out-of-bounds read *)
| Done (mc : config) (ct : counters) (acc : bool).

(** src/moves/moves.ipp:183-193 (accepted) *)
Definition accept_config (mc : config) (ops : container) (ms : MS) (w : option W)
    (trace_new prob : K) : option config :=
  let ms' := m_perform ms in
  match compute_permutation_sign_impl (m_cd ms') (m_c ms') (worm_ops w) with
  | None => None
  | Some pn => Some (Conf ops ms' w trace_new
                       (sign mc * (sgK pn / sgK (perm_sign mc) * mysign prob)) pn)
  end.

(** src/moves/moves.ipp:84-213 LocalUpdater::update. [lo],[hi] are the window edges, [r] the
    random number drawn by update() itself. *)
Definition update (lo hi : Z) (mc : config) (ct : counters) (p : option proposal) (r : K)
  : update_result :=
  match p with
  | None => Done mc (finalize ct false false) false
  | Some p =>
    let w' := match p_worm_new p with None => worm mc | Some w => w end in
    let u := p_hyb p in
    let (rem, add) := merge_diff (cd_rem u ++ c_rem u) (cd_add u ++ c_add u)
                                 (worm_ops (worm mc)) (worm_ops w') in
    if negb (range_check lo hi rem && range_check lo hi add) then Threw mc
    else
    match update_operators (operators mc) rem add with
    | UFatal l => Threw (Conf l (mstate mc) (worm mc) (trace mc) (sign mc) (perm_sign mc))
    | UFalse l _ =>
        Done (Conf l (mstate mc) (worm mc) (trace mc) (sign mc) (perm_sign mc))
             (finalize ct true false) false
    | UTrue l rec =>
        let reject ms :=
          Done (Conf (revert_changes l rec) (m_reject ms) (worm mc) (trace mc) (sign mc) (perm_sign mc))
               (finalize ct true false) false in
        let accept ms trace_new prob :=
          match accept_config mc l ms w' trace_new prob with
          | None => UB
          | Some mc' => Done mc' (finalize ct true true) true
          end in
        match rem, add with
        | [], [] =>
            let (det_rat, ms) := m_try (mstate mc) u in
            let prob := p_corr p * det_rat in
            if r < `|prob| then accept ms (trace mc) prob else reject ms
        | _, _ =>
            if trace_bound_sum l == 0 then
              Done (Conf (revert_changes l rec) (mstate mc) (worm mc) (trace mc) (sign mc) (perm_sign mc))
                   (finalize ct true false) false
            else
            let (det_rat, ms) := m_try (mstate mc) u in
            if det_rat != 0 then
              let rest := p_corr p * det_rat in
              let cutoff := `|r * trace mc / rest| in
              let (acc, trace_new) := lazy_trace l cutoff in
              if acc then accept ms trace_new (rest * (trace_new / trace mc)) else reject ms
            else reject ms
        end
    end
  end.

(** src/moves/moves.hpp:111-118 measure_acc_rate: values reported and counters after. *)
Definition measure_acc_rate (ct : counters) : (nat * nat * nat) * counters :=
  ((attempted ct, valid ct, accepted ct), Cnt 0 0 0).

(** ** Contracts *)

(** Determinant object: [dt cd c] is the determinant of the hybridization matrix of the
    operator sets (a function of the sets only), [wf] the reachable states, [u_ok] the updates that the object
    can handle. [lossy cd c u]: the object returns 0 for this update whatever the determinants are (for the real
    object: operators are replaced and what stays in between is singular). T_Assembly.v proves the contract
    for DetPartitioned.v. *)
Variable dt : list psi -> list psi -> K.
Variable wf : MS -> Prop.
Variable u_ok : hyb_update -> Prop.
Variable lossy : list psi -> list psi -> hyb_update -> bool.
Definition det_contract : Prop :=
  (forall cd c cd' c', Permutation cd cd' -> Permutation c c' -> dt cd c = dt cd' c') /\
  (forall m, wf m -> dt (m_cd m) (m_c m) != 0) /\
  (forall m u, wf m -> hyb_possible (m_cd m) (m_c m) u ->
     (length (cd_add u) + length (c_rem u) = length (c_add u) + length (cd_rem u))%nat -> u_ok u ->
     let m1 := snd (m_try m u) in
     (forall cd' c', hyb_result (m_cd m) (m_c m) u cd' c' ->
        fst (m_try m u) = if lossy (m_cd m) (m_c m) u then 0 else dt cd' c' / dt (m_cd m) (m_c m)) /\
     (fst (m_try m u) != 0 ->
        wf (m_perform m1) /\
        hyb_result (m_cd m) (m_c m) u (m_cd (m_perform m1)) (m_c (m_perform m1))) /\
     wf (m_reject m1) /\ Permutation (m_cd m) (m_cd (m_reject m1)) /\
     Permutation (m_c m) (m_c (m_reject m1))).

(** Trace evaluation: [tr] is the trace of the operator product, [tr_ok] the operators for which the window
    can evaluate it. *)
Variable tr : container -> K.
Variable tr_ok : container -> Prop.
Definition trace_contract : Prop :=
  (forall l, tr_ok l -> `|tr l| <= trace_bound_sum l) /\
  (forall l cutoff, tr_ok l -> fst (lazy_trace l cutoff) = (cutoff < `|tr l|)) /\
  (forall l cutoff, tr_ok l -> fst (lazy_trace l cutoff) = true -> snd (lazy_trace l cutoff) = tr l).

(** ** The invariant of the configuration (C05) *)
Definition consistent (mc : config) : Prop :=
  let cd := m_cd (mstate mc) in
  let c := m_c (mstate mc) in
  csorted (operators mc) /\
  Permutation (operators mc) (cd ++ c ++ worm_ops (worm mc)) /\
  wf (mstate mc) /\ length cd = length c /\
  trace mc = tr (operators mc) /\ trace mc != 0 /\
  compute_permutation_sign_impl cd c (worm_ops (worm mc)) = Some (perm_sign mc) /\
  sign mc = mysign (sgK (perm_sign mc) * dt cd c * trace mc).

(** A proposal removes operators that are hybridized with the bath, keeps the numbers of
    creation and annihilation operators equal, has a positive correction factor, is one that the determinant object
    can handle, and leads to operators for which the window can evaluate the trace. *)
Definition proposal_ok (mc : config) (p : proposal) : Prop :=
  let u := p_hyb p in
  (exists cd0, Permutation (m_cd (mstate mc)) (cd_rem u ++ cd0)) /\
  (exists c0, Permutation (m_c (mstate mc)) (c_rem u ++ c0)) /\
  (length (cd_add u) + length (c_rem u) = length (c_add u) + length (cd_rem u))%nat /\
  0 < p_corr p /\ u_ok u /\
  (forall rem add l rec,
     merge_diff (cd_rem u ++ c_rem u) (cd_add u ++ c_add u) (worm_ops (worm mc))
       (worm_ops (match p_worm_new p with None => worm mc | Some w => w end)) = (rem, add) ->
     update_operators (operators mc) rem add = UTrue l rec -> tr_ok l).

(* ------------------------------------------------------------------------- *)

Lemma mysignM (x y : K) : mysign (x * y) = mysign x * mysign y.
Proof. rewrite /mysign normrM invfM. by rewrite mulrACA. Qed.

Lemma mysign_pos (x : K) : 0 < x -> mysign x = 1.
Proof. move=> H. rewrite /mysign gtr0_norm //. by rewrite divff // lt0r_neq0. Qed.

Lemma mysign_neq0 (x : K) : x != 0 -> mysign x != 0.
Proof. move=> H. by rewrite /mysign mulf_neq0 // invr_neq0 // normr_eq0. Qed.

Lemma mysignV (x : K) : mysign (x^-1) = (mysign x)^-1.
Proof. by rewrite /mysign normfV invfM. Qed.

Lemma sgK_sq b : sgK b * sgK b = 1.
Proof. case: b; rewrite /sgK ?mulrNN mulr1 //. Qed.

Lemma sgK_neq0 b : sgK b != 0.
Proof. case: b; rewrite /sgK ?oppr_eq0 oner_eq0 //. Qed.

Lemma mysign_sgK b : mysign (sgK b) = sgK b.
Proof. case: b; rewrite /mysign /sgK ?normrN normr1 divr1 //. Qed.

End Updater.

Lemma csorted_NoDup_times l : csorted l -> NoDup (map p_time l).
Proof.
  induction 1 as [|x l HS IH HF]; simpl; constructor; auto.
  intros Hin. apply in_map_iff in Hin as (y & Hy & Hin).
  rewrite Forall_forall in HF. specialize (HF _ Hin). unfold plt, psi_lt in HF.
  rewrite Hy ot_lt_irrefl in HF. discriminate.
Qed.

Lemma cinsert_perm x l : snd (cinsert x l) = true -> Permutation (fst (cinsert x l)) (x :: l).
Proof.
  induction l as [|y l IH]; simpl; intros H; [reflexivity|].
  destruct (psi_lt x y); simpl in *; [reflexivity|].
  destruct (psi_lt y x); simpl in *; [|discriminate].
  destruct (cinsert x l) as [r b]; simpl in *. rewrite (IH H). constructor.
Qed.

Lemma cerase_perm x l : csorted l -> In x l -> Permutation l (x :: fst (cerase x l)).
Proof.
  intros HS HI. pose proof (insert_after_erase x l HS HI) as E.
  assert (HN : lookup (fst (cerase x l)) (p_time x) = None).
  { destruct (cerase_lookup x l HS) as [H _].
    pose proof (lookup_in l x HS HI) as HL.
    destruct H as [_ Hk]; [congruence|]. rewrite Hk. unfold upd. rewrite ot_eqb_refl. reflexivity. }
  destruct (cinsert_lookup x _ (cerase_sorted x l HS)) as [H1 _].
  destruct (H1 HN) as [Hb _]. rewrite <- E at 1. apply cinsert_perm. exact Hb.
Qed.

Lemma safe_erase_perm ops l rec l' rec' :
  csorted l -> NoDup ops -> (forall x, In x ops -> In x l) ->
  safe_erase_with_record ops l rec = (Ok, l', rec') -> Permutation l (l' ++ ops).
Proof.
  revert l rec. induction ops as [|x ops IH]; intros l rec HS HND HIn HE; simpl in HE.
  - inversion HE; subst. rewrite app_nil_r. reflexivity.
  - inversion HND as [|? ? Hx HND']; subst.
    pose proof (cerase_perm x l HS (HIn x (or_introl erefl))) as HP.
    pose proof (cerase_sorted x l HS) as HS1.
    pose proof (fun y => cerase_in_iff x l y HS (HIn x (or_introl erefl))) as HI.
    destruct (cerase x l) as [l1 n]; simpl in *.
    destruct (Nat.eqb n 1); [|discriminate].
    apply IH in HE; auto.
    + rewrite HP HE. apply Permutation_middle.
    + intros y Hy. apply HI. split; [apply HIn; right; exact Hy|]. intros ->; contradiction.
Qed.

Lemma safe_insert_perm ops l rec l' rec' :
  safe_insert_with_record ops l rec = (Ok, l', rec') -> Permutation l' (l ++ ops).
Proof.
  revert l rec. induction ops as [|x ops IH]; intros l rec HE; simpl in HE.
  - inversion HE; subst. rewrite app_nil_r. reflexivity.
  - pose proof (cinsert_perm x l) as HP.
    destruct (cinsert x l) as [l1 b]; simpl in *. destruct b; [|discriminate].
    apply IH in HE. rewrite HE HP //. apply Permutation_middle.
Qed.

Lemma update_operators_perm l rem add l' rec :
  csorted l -> NoDup rem -> (forall x, In x rem -> In x l) ->
  update_operators l rem add = UTrue l' rec -> Permutation (l' ++ rem) (l ++ add).
Proof.
  intros HS HND HIn. unfold update_operators.
  destruct (safe_erase_with_record rem l []) as [[o l1] rec1] eqn:E1.
  destruct o; [|discriminate].
  destruct (safe_insert_with_record add l1 rec1) as [[o2 l2] rec2] eqn:E2.
  destruct o2; [|discriminate]. intros H; inversion H; subst.
  apply safe_insert_perm in E2. apply safe_erase_perm in E1; auto.
  rewrite E2 E1. rewrite <- !app_assoc. apply Permutation_app_head. apply Permutation_app_comm.
Qed.

Lemma NoDup_map_inv' {A B} (f : A -> B) l : NoDup (map f l) -> NoDup l.
Proof. apply NoDup_map_inv. Qed.

(** The removal list of merge_diff is a sub-multiset of the old operators. *)
Lemma merge_diff_rem_sub hr ha wr wa rem add :
  merge_diff hr ha wr wa = (rem, add) ->
  NoDup (hr ++ wr) -> NoDup rem /\ (forall x, In x rem -> In x (hr ++ wr)).
Proof.
  intros H HND. pose proof (merge_diff_cnt _ _ _ _ _ _ H) as HC. unfold cnt in HC.
  rewrite (NoDup_count_occ psi_eq_dec) in HND. split.
  - apply (NoDup_count_occ psi_eq_dec). intros x. specialize (HC x). specialize (HND x). lia.
  - intros x Hx. apply (count_occ_In psi_eq_dec) in Hx. apply (count_occ_In psi_eq_dec).
    specialize (HC x). lia.
Qed.

Lemma merge_diff_balance hr ha wr wa rem add :
  merge_diff hr ha wr wa = (rem, add) ->
  Permutation ((hr ++ wr) ++ add) ((ha ++ wa) ++ rem).
Proof.
  intros H. pose proof (merge_diff_cnt _ _ _ _ _ _ H) as HC. unfold cnt in HC.
  apply (Permutation_count_occ psi_eq_dec). intros x.
  rewrite !count_occ_app. specialize (HC x). rewrite !count_occ_app in HC. lia.
Qed.
