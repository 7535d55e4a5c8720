(** Property theorems C04, C05, C06: the local Monte Carlo update. *)

From Coq Require Import ZArith List Bool Lia Sorting.Permutation Sorting.Sorted.
From mathcomp Require Import ssreflect ssrfun ssrbool eqtype order ssralg ssrnum.
From Verif Require Import OpContainer CombSort PermSign Updater.
Import ListNotations.
Import GRing.Theory Num.Theory.
Local Open Scope list_scope.
Local Open Scope ring_scope.

Lemma perm_count (A B : list psi) (x : psi) :
  Permutation A B -> count_occ psi_eq_dec A x = count_occ psi_eq_dec B x.
Proof. intros H. apply (Permutation_count_occ psi_eq_dec); exact H. Qed.

Ltac pcount_hyps x :=
  repeat match goal with
  | H : Permutation ?A ?B |- _ =>
      let H' := fresh "H" in
      pose proof (perm_count A B x H) as H'; clear H; rewrite ?count_occ_app in H'
  end.
(** Permutation goals about appended operator lists, by counting. *)
Ltac pcount :=
  apply (Permutation_count_occ psi_eq_dec);
  let x := fresh "x" in intros x; rewrite ?count_occ_app; pcount_hyps x; lia.

Section T.
Variable K : numFieldType.
Variable W : Type.
Variable w_ops : W -> list psi.
Variable MS : Type.
Variable m_cd m_c : MS -> list psi.
Variable m_try : MS -> hyb_update -> K * MS.
Variable m_perform m_reject : MS -> MS.
Variable trace_bound_sum : container -> K.
Variable lazy_trace : container -> K -> bool * K.
Variable dt : list psi -> list psi -> K.
Variable wf : MS -> Prop.
Variable u_ok : hyb_update -> Prop.
Variable lossy : list psi -> list psi -> hyb_update -> bool.
Variable tr : container -> K.
Variable tr_ok : container -> Prop.

Notation config := (config K W MS).
Notation proposal := (proposal K W).
Notation wops := (worm_ops W w_ops).
Notation update := (update K W w_ops MS m_cd m_c m_try m_perform m_reject trace_bound_sum lazy_trace).
Notation det_contract := (det_contract K MS m_cd m_c m_try m_perform m_reject dt wf u_ok lossy).
Notation trace_contract := (trace_contract K trace_bound_sum lazy_trace tr tr_ok).
Notation consistent := (consistent K W w_ops MS m_cd m_c dt wf tr).
Notation proposal_ok := (proposal_ok K W w_ops MS m_cd m_c u_ok tr_ok).
Notation new_worm mc p := (match p_worm_new K W p with None => worm K W MS mc | Some w => w end).
Notation mcd mc := (m_cd (mstate K W MS mc)).
Notation mcc mc := (m_c (mstate K W MS mc)).
Notation ops mc := (operators K W MS mc).

(** Bookkeeping of one step that gets past update_operators. *)
Lemma core (mc : config) (p : proposal) rem add :
  consistent mc -> proposal_ok mc p ->
  let u := p_hyb K W p in
  merge_diff (cd_rem u ++ c_rem u) (cd_add u ++ c_add u) (wops (worm K W MS mc)) (wops (new_worm mc p))
    = (rem, add) ->
  match update_operators (ops mc) rem add with
  | UFatal _ => False
  | UFalse l _ => l = ops mc /\
      ~ (exists cd' c' ops', hyb_result (mcd mc) (mcc mc) u cd' c' /\ csorted ops' /\
            Permutation ops' (cd' ++ c' ++ wops (new_worm mc p)))
  | UTrue l rec =>
      csorted l /\ revert_changes l rec = ops mc /\
      hyb_possible (mcd mc) (mcc mc) u /\
      (exists cd' c', hyb_result (mcd mc) (mcc mc) u cd' c') /\
      (forall cd' c', hyb_result (mcd mc) (mcc mc) u cd' c' ->
         Permutation l (cd' ++ c' ++ wops (new_worm mc p)) /\ length cd' = length c')
  end.
Proof.
  intros (HS & HP & Hwf & Hlen & Htr & Htr0 & Hps & Hsg) (( cd0 & Hcd) & (c0 & Hc) & Hl & Hcorr & Hu & Htrok) u HM.
  fold u in Hcd, Hc, Hl. clear Htrok.
  set (Wo := wops (worm K W MS mc)) in *. set (Wn := wops (new_worm mc p)) in *.
  assert (HPold : Permutation (ops mc) (((cd_rem u ++ c_rem u) ++ Wo) ++ (cd0 ++ c0))).
  { clear -HP Hcd Hc. pcount. }
  assert (HND : NoDup (ops mc)) by (eapply NoDup_map_inv', csorted_NoDup_times; exact HS).
  assert (HNDo : NoDup ((cd_rem u ++ c_rem u) ++ Wo)).
  { eapply NoDup_app_remove_r. eapply Permutation_NoDup; [exact HPold|exact HND]. }
  destruct (merge_diff_rem_sub _ _ _ _ _ _ HM HNDo) as [HNDr HInr].
  assert (HInr' : forall x, In x rem -> In x (ops mc)).
  { intros x Hx. apply (Permutation_in x (Permutation_sym HPold)). apply in_or_app. left. auto. }
  pose proof (merge_diff_balance _ _ _ _ _ _ HM) as HB.
  pose proof (update_operators_ok (ops mc) rem add HS HNDr HInr') as HU.
  assert (HRes : forall cd' c', hyb_result (mcd mc) (mcc mc) u cd' c' ->
            Permutation cd' (cd_add u ++ cd0) /\ Permutation c' (c_add u ++ c0)).
  { intros cd' c' [H1 H2]. split.
    - clear -H1 Hcd. pcount.
    - clear -H2 Hc. pcount. }
  destruct (update_operators (ops mc) rem add) as [l|l rec|l rec] eqn:EU; [exact HU| |].
  - split; [exact HU|]. intros (cd' & c' & ops' & HR & HSo & HPo).
    destruct (HRes _ _ HR) as [R1 R2].
    (* the new list has distinct times, so the insertion cannot have failed *)
    assert (Hno : exists l' rec', update_operators (ops mc) rem add = UTrue l' rec').
    { unfold update_operators in EU |- *.
      destruct (safe_erase_with_record rem (ops mc) []) as [[o l1] rec1] eqn:E1.
      pose proof E1 as E1'. eapply (erase_record_inv (ops mc)) in E1'; eauto.
      destruct E1' as [-> [HS1 _]].
      pose proof (safe_erase_perm _ _ _ _ _ HS HNDr HInr' E1) as HPe.
      assert (HPn : Permutation ops' (l1 ++ add)).
      { clear -HPo R1 R2 HPe HPold HB. pcount. }
      assert (HNt : NoDup (map p_time (l1 ++ add))).
      { eapply Permutation_NoDup; [apply Permutation_map; exact HPn|].
        apply csorted_NoDup_times. exact HSo. }
      assert (G : forall add l1 rec1, csorted l1 -> NoDup (map p_time (l1 ++ add)) ->
                exists l' rec', safe_insert_with_record add l1 rec1 = (Ok, l', rec')).
      { clear. induction add as [|x add IH]; intros l1 rec1 HS HN; simpl; [eauto|].
        destruct (cinsert_lookup x l1 HS) as [H1 _].
        pose proof (cinsert_sorted x l1 HS) as HS'.
        assert (HL : lookup l1 (p_time x) = None).
        { destruct (lookup l1 (p_time x)) as [z|] eqn:E; [|reflexivity].
          apply lookup_time in E as [Ez Hz]. rewrite map_app /= in HN.
          apply NoDup_remove_2 in HN. exfalso. apply HN. apply in_or_app. left.
          rewrite -Ez. apply in_map. exact Hz. }
        destruct (H1 HL) as [Hb _]. pose proof (cinsert_perm x l1 Hb) as HPc.
        destruct (cinsert x l1) as [l2 b]; simpl in *. subst b.
        apply IH; [exact HS'|]. eapply Permutation_NoDup; [|exact HN].
        apply Permutation_map. rewrite HPc. simpl. symmetry. apply Permutation_middle. }
      destruct (G add l1 rec1 HS1 HNt) as (l' & rec' & E2). rewrite E2. eauto. }
    destruct Hno as (l' & rec' & Hno). congruence.
  - destruct HU as [HSl Hrev].
    pose proof (update_operators_perm _ _ _ _ _ HS HNDr HInr' EU) as HPu.
    assert (HPnew : Permutation l ((cd_add u ++ cd0) ++ (c_add u ++ c0) ++ Wn)).
    { clear -HPu HPold HB. pcount. }
    split; [exact HSl|]. split; [exact Hrev|].
    pose proof (csorted_NoDup_times _ HSl) as HNt.
    assert (HNt' : NoDup (map p_time ((cd_add u ++ cd0) ++ (c_add u ++ c0) ++ Wn))).
    { eapply Permutation_NoDup; [apply Permutation_map; exact HPnew|exact HNt]. }
    split.
    { exists cd0, c0. split; [exact Hcd|]. split; [exact Hc|].
      rewrite app_assoc map_app in HNt'. eapply NoDup_app_remove_r; exact HNt'. }
    split.
    { exists (cd_add u ++ cd0), (c_add u ++ c0). split.
      - clear -Hcd. pcount.
      - clear -Hc. pcount. }
    intros cd' c' HR. destruct (HRes _ _ HR) as [R1 R2]. split.
    + rewrite R1 R2. exact HPnew.
    + apply Permutation_length in R1, R2, Hcd, Hc. rewrite !app_length in R1 R2 Hcd Hc. lia.
Qed.

Lemma rng_pos (r x : K) : 0 <= r -> r < `|x| -> x != 0.
Proof. move=> H0 H1. rewrite -normr_gt0. exact: Order.POrderTheory.le_lt_trans H0 H1. Qed.

(** The Metropolis decision written with the trace cutoff. *)
Lemma cutoff_iff (r t rest t' : K) : 0 <= r -> t != 0 -> rest != 0 ->
  (`|r * t / rest| < `|t'|) = (r < `|rest * (t' / t)|).
Proof.
  move=> Hr Ht Hrest.
  rewrite !normrM !normfV (ger0_norm Hr).
  rewrite ltr_pdivr_mulr ?normr_gt0 //.
  rewrite mulrA ltr_pdivl_mulr ?normr_gt0 //. by rewrite (mulrC `|rest|).
Qed.

(** Everything about one call of update(). *)
Lemma update_spec lo hi (mc : config) ct po r :
  det_contract -> trace_contract -> consistent mc ->
  (forall p, po = Some p -> proposal_ok mc p) -> 0 <= r ->
  match update lo hi mc ct po r with
  | Threw mc' => mc' = mc /\ exists p, po = Some p
  | UB => False
  | Done mc' ct' false =>
      ops mc' = ops mc /\ worm K W MS mc' = worm K W MS mc /\ trace K W MS mc' = trace K W MS mc /\
      sign K W MS mc' = sign K W MS mc /\ perm_sign K W MS mc' = perm_sign K W MS mc /\
      Permutation (mcd mc) (mcd mc') /\ Permutation (mcc mc) (mcc mc') /\ wf (mstate K W MS mc') /\
      forall p, po = Some p ->
        ~ (exists cd' c' ops', hyb_result (mcd mc) (mcc mc) (p_hyb K W p) cd' c' /\ csorted ops' /\
            Permutation ops' (cd' ++ c' ++ wops (new_worm mc p)) /\
            lossy (mcd mc) (mcc mc) (p_hyb K W p) = false /\ r < `|p_corr K W p * (dt cd' c' / dt (mcd mc) (mcc mc)) * (tr ops' / tr (ops mc))|)
  | Done mc' ct' true =>
      consistent mc' /\ exists p, po = Some p /\ worm K W MS mc' = new_worm mc p /\
        hyb_result (mcd mc) (mcc mc) (p_hyb K W p) (mcd mc') (mcc mc') /\
        lossy (mcd mc) (mcc mc) (p_hyb K W p) = false /\ r < `|p_corr K W p * (dt (mcd mc') (mcc mc') / dt (mcd mc) (mcc mc)) * (tr (ops mc') / tr (ops mc))|
  end.
Proof.
  intros (Dext & Dnz & Dtry) (Tb & Tl & Tv) HC Hok Hr.
  pose proof HC as (HS & HP & Hwf & Hlen & Htr & Htr0 & Hps & Hsg).
  unfold Updater.update. destruct po as [p|].
  2:{ repeat split; auto. intros p Hp; discriminate. }
  specialize (Hok p erefl).
  destruct (merge_diff _ _ _ _) as [rem add] eqn:EM.
  destruct (negb (range_check lo hi rem && range_check lo hi add)); [split; [reflexivity|eauto]|].
  pose proof (core mc p rem add HC Hok EM) as Hcore.
  pose proof Hok as (_ & _ & Hlenu & Hcorr & Hu & Htrok).
  destruct (update_operators (ops mc) rem add) as [l|l rec|l rec] eqn:EU.
  - destruct Hcore.
  - destruct Hcore as [-> Hno]. repeat split; simpl; auto.
    intros p' Hp' (cd' & c' & ops' & H1 & H2 & H3 & _). inversion Hp'; subst p'.
    apply Hno. exists cd', c', ops'. auto.
  - destruct Hcore as (HSl & Hrev & Hposs & (cd1 & c1 & HR1) & Hres).
    destruct (Hres _ _ HR1) as [HPl1 Hlen1].
    pose proof (Htrok rem add l rec EM EU) as Hlok.
    pose proof (Dtry _ _ Hwf Hposs Hlenu Hu) as (Drat & Dperf & Drej1 & Drej2 & Drej3).
    (* any sorted list with the same operators is l *)
    assert (Huniq : forall cd' c' ops', hyb_result (mcd mc) (mcc mc) (p_hyb K W p) cd' c' -> csorted ops' ->
              Permutation ops' (cd' ++ c' ++ wops (new_worm mc p)) -> ops' = l).
    { intros cd' c' ops' HR HSo HPo. destruct (Hres _ _ HR) as [HPl _].
      apply csorted_ext; auto. intros k.
      assert (HPP : Permutation ops' l) by (rewrite HPo HPl; reflexivity).
      destruct (lookup l k) as [z|] eqn:E.
      - apply lookup_time in E as [<- Hz]. apply lookup_in; [exact HSo|].
        apply (Permutation_in z (Permutation_sym HPP)). exact Hz.
      - destruct (lookup ops' k) as [z|] eqn:E2; [|reflexivity].
        apply lookup_time in E2 as [<- Hz]. apply (Permutation_in z HPP) in Hz.
        rewrite (lookup_in l z HSl Hz) in E. discriminate. }
    destruct (m_try (mstate K W MS mc) (p_hyb K W p)) as [dr ms] eqn:Etry.
    simpl in Drat, Dperf, Drej1, Drej2, Drej3.
    (* reject *)
    assert (HRejNot : ~ (r < `|p_corr K W p * dr * (tr l / tr (ops mc))|) ->
      ~ (exists cd' c' ops', hyb_result (mcd mc) (mcc mc) (p_hyb K W p) cd' c' /\ csorted ops' /\
            Permutation ops' (cd' ++ c' ++ wops (new_worm mc p)) /\
            lossy (mcd mc) (mcc mc) (p_hyb K W p) = false /\ r < `|p_corr K W p * (dt cd' c' / dt (mcd mc) (mcc mc)) * (tr ops' / tr (ops mc))|)).
    { intros Hn (cd' & c' & ops' & HR & HSo & HPo & Hlo & Hlt). apply Hn.
      rewrite (Drat _ _ HR) Hlo. rewrite (Huniq _ _ _ HR HSo HPo) in Hlt. exact Hlt. }
    (* accept *)
    assert (HAcc : dr != 0 -> forall tn prob, tn = tr l -> tn != 0 ->
              prob = p_corr K W p * dr * (tr l / tr (ops mc)) ->
              r < `|prob| ->
              match
                match accept_config K W w_ops MS m_cd m_c m_perform mc l ms (new_worm mc p) tn prob with
                | Some mc' => Done K W MS mc' (finalize ct true true) true
                | None => UB K W MS
                end
              with
              | Threw mc' => mc' = mc /\ exists p0, Some p = Some p0
              | UB => False
              | Done mc' ct' true =>
                consistent mc' /\ exists p0, Some p = Some p0 /\ worm K W MS mc' = new_worm mc p0 /\
                  hyb_result (mcd mc) (mcc mc) (p_hyb K W p0) (mcd mc') (mcc mc') /\
                  lossy (mcd mc) (mcc mc) (p_hyb K W p0) = false /\ r < `|p_corr K W p0 * (dt (mcd mc') (mcc mc') / dt (mcd mc) (mcc mc)) * (tr (ops mc') / tr (ops mc))|
              | Done mc' ct' false => False
              end).
    { intros Hdr tn prob Htn Htn0 Hprob Hlt. destruct (Dperf Hdr) as [Hwf' HR'].
      destruct (Hres _ _ HR') as [HPl' Hlen'].
      pose proof (Drat _ _ HR') as Hdr'. destruct (lossy _ _ _) eqn:Hlo; [by rewrite Hdr' eqxx in Hdr|].
      unfold accept_config; cbv zeta.
      assert (HNt : NoDup (map p_time (m_cd (m_perform ms) ++ m_c (m_perform ms) ++ wops (new_worm mc p)))).
      { eapply Permutation_NoDup; [apply Permutation_map; exact HPl'|]. apply csorted_NoDup_times; exact HSl. }
      destruct (compute_permutation_sign_impl (m_cd (m_perform ms)) (m_c (m_perform ms)) (wops (new_worm mc p))) as [pn|] eqn:EP.
      2:{ exfalso. revert EP. unfold compute_permutation_sign_impl, times_work. cbv zeta.
          rewrite Hlen' PeanoNat.Nat.ltb_irrefl firstn_all.
          match goal with |- context [comb_sort _ _ ?L] => destruct (comb_sort_gt_ok L) as (l' & -> & _) end.
          - eapply Permutation_NoDup; [|exact HNt]. rewrite !map_app interleave_perm.
            + rewrite -!sort_desc_perm app_assoc. apply Permutation_app_tail. apply Permutation_app_comm.
            + rewrite -!(Permutation_length (sort_desc_perm _)) !map_length. auto.
          - discriminate. }
      split.
      - do 7 (split; [by simpl; auto|]). simpl.
        { rewrite Hsg Hprob Htn Htr.
          have Hd0 := Dnz _ Hwf. have Ht0 : tr (ops mc) != 0 by rewrite -Htr.
          rewrite Hdr'. rewrite !mysignM !mysignV !mysign_sgK (mysign_pos _ _ Hcorr) mul1r.
          set a := mysign K (dt (m_cd (mstate K W MS mc)) _). set b := mysign K (tr (ops mc)).
          have Ha : a != 0 by apply: mysign_neq0. have Hb : b != 0 by apply: mysign_neq0.
          set s := sgK K (perm_sign K W MS mc). have Hs : s != 0 by apply: sgK_neq0.
          set s' := sgK K pn. set a' := mysign K (dt _ _). set b' := mysign K (tr l).
          have E : forall x y : K, x != 0 -> x * (y / x) = y
            by move=> x y Hx; rewrite mulrCA divff // mulr1.
          by rewrite (mulrA (s' / s)) mulrACA (mulrACA s) !E // mulrA. }
      - exists p. repeat split; auto; try apply HR'. simpl. rewrite -Hdr' -Hprob. exact Hlt. }
    assert (HRej : ~ (r < `|p_corr K W p * dr * (tr l / tr (ops mc))|) ->
      forall ms', (ms' = mstate K W MS mc \/ ms' = m_reject ms) ->
      let mc' := Conf K W MS (revert_changes l rec) ms' (worm K W MS mc) (trace K W MS mc) (sign K W MS mc) (perm_sign K W MS mc) in
      ops mc' = ops mc /\ worm K W MS mc' = worm K W MS mc /\ trace K W MS mc' = trace K W MS mc /\
      sign K W MS mc' = sign K W MS mc /\ perm_sign K W MS mc' = perm_sign K W MS mc /\
      Permutation (mcd mc) (mcd mc') /\ Permutation (mcc mc) (mcc mc') /\ wf (mstate K W MS mc') /\
      forall p0, Some p = Some p0 ->
        ~ (exists cd' c' ops', hyb_result (mcd mc) (mcc mc) (p_hyb K W p0) cd' c' /\ csorted ops' /\
            Permutation ops' (cd' ++ c' ++ wops (new_worm mc p0)) /\
            lossy (mcd mc) (mcc mc) (p_hyb K W p0) = false /\ r < `|p_corr K W p0 * (dt cd' c' / dt (mcd mc) (mcc mc)) * (tr ops' / tr (ops mc))|)).
    { intros Hn ms' Hms'. simpl. do 5 (split; [auto|]).
      destruct Hms' as [-> | ->].
      - do 3 (split; [auto|]). intros p0 Hp0; inversion Hp0; subst p0. auto.
      - do 3 (split; [auto|]). intros p0 Hp0; inversion Hp0; subst p0. auto. }
    assert (HT0 : tr (ops mc) != 0) by (rewrite -Htr; exact Htr0).
    assert (Hbr2 : ~ (rem = [] /\ add = []) ->
      match
        (if trace_bound_sum l == 0 then
           Done K W MS (Conf K W MS (revert_changes l rec) (mstate K W MS mc) (worm K W MS mc)
                   (trace K W MS mc) (sign K W MS mc) (perm_sign K W MS mc)) (finalize ct true false) false
         else if dr != 0 then
           let (acc, trace_new) := lazy_trace l `|r * trace K W MS mc / (p_corr K W p * dr)| in
           if acc then
             match accept_config K W w_ops MS m_cd m_c m_perform mc l ms (new_worm mc p) trace_new
                     (p_corr K W p * dr * (trace_new / trace K W MS mc)) with
             | Some mc' => Done K W MS mc' (finalize ct true true) true
             | None => UB K W MS
             end
           else Done K W MS (Conf K W MS (revert_changes l rec) (m_reject ms) (worm K W MS mc)
                   (trace K W MS mc) (sign K W MS mc) (perm_sign K W MS mc)) (finalize ct true false) false
         else Done K W MS (Conf K W MS (revert_changes l rec) (m_reject ms) (worm K W MS mc)
                   (trace K W MS mc) (sign K W MS mc) (perm_sign K W MS mc)) (finalize ct true false) false)
      with
      | Threw mc' => mc' = mc /\ exists p0, Some p = Some p0
      | UB => False
      | Done mc' ct' false =>
      ops mc' = ops mc /\ worm K W MS mc' = worm K W MS mc /\ trace K W MS mc' = trace K W MS mc /\
      sign K W MS mc' = sign K W MS mc /\ perm_sign K W MS mc' = perm_sign K W MS mc /\
      Permutation (mcd mc) (mcd mc') /\ Permutation (mcc mc) (mcc mc') /\ wf (mstate K W MS mc') /\
      forall p0, Some p = Some p0 ->
        ~ (exists cd' c' ops', hyb_result (mcd mc) (mcc mc) (p_hyb K W p0) cd' c' /\ csorted ops' /\
            Permutation ops' (cd' ++ c' ++ wops (new_worm mc p0)) /\
            lossy (mcd mc) (mcc mc) (p_hyb K W p0) = false /\ r < `|p_corr K W p0 * (dt cd' c' / dt (mcd mc) (mcc mc)) * (tr ops' / tr (ops mc))|)
      | Done mc' ct' true =>
      consistent mc' /\ exists p0, Some p = Some p0 /\ worm K W MS mc' = new_worm mc p0 /\
        hyb_result (mcd mc) (mcc mc) (p_hyb K W p0) (mcd mc') (mcc mc') /\
        lossy (mcd mc) (mcc mc) (p_hyb K W p0) = false /\ r < `|p_corr K W p0 * (dt (mcd mc') (mcc mc') / dt (mcd mc) (mcc mc)) * (tr (ops mc') / tr (ops mc))|
      end).
    { intros _. case: eqP => [Hb0|_].
      - apply HRej; [|auto]. have Hz : tr l = 0.
        { apply/eqP. rewrite -normr_le0 -Hb0. apply Tb. exact Hlok. }
        rewrite Hz mul0r mulr0 normr0. move=> Hlt.
        by move: (Order.POrderTheory.le_lt_trans Hr Hlt); rewrite Order.POrderTheory.ltxx.
      - destruct (dr != 0) eqn:Edr.
        + have Hrest : p_corr K W p * dr != 0 by rewrite mulf_neq0 // lt0r_neq0.
          pose proof (Tl l `|r * trace K W MS mc / (p_corr K W p * dr)| Hlok) as HL1.
          pose proof (Tv l `|r * trace K W MS mc / (p_corr K W p * dr)| Hlok) as HL2.
          destruct (lazy_trace l _) as [acc tn]; simpl in HL1, HL2.
          rewrite cutoff_iff // in HL1.
          destruct acc.
          * specialize (HL2 erefl). subst tn. rewrite Htr in HL1 |- *.
            assert (HA := HAcc erefl (tr l) (p_corr K W p * dr * (tr l / tr (ops mc))) erefl).
            symmetry in HL1.
            assert (Hl0 : tr l != 0).
            { pose proof (rng_pos _ _ Hr HL1) as Hnz. apply/eqP=> Hz. by rewrite Hz mul0r mulr0 eqxx in Hnz. }
            specialize (HA Hl0 erefl HL1).
            destruct (accept_config _ _ _ _ _ _ _ _ _ _ _ _ _); exact HA.
          * apply HRej; [|auto]. rewrite -Htr. rewrite -HL1. discriminate.
        + move/negbFE/eqP: Edr => Hz. apply HRej; [|auto]. rewrite Hz mulr0 mul0r normr0. move=> Hlt.
          by move: (Order.POrderTheory.le_lt_trans Hr Hlt); rewrite Order.POrderTheory.ltxx. }
    destruct rem as [|x rem]; [destruct add as [|y add]|]; try (apply Hbr2; intros [? ?]; discriminate).
    clear Hbr2.
    assert (Hl : l = ops mc).
    { revert EU. unfold update_operators. simpl. intros H; inversion H; reflexivity. }
    assert (Htt : tr l / tr (ops mc) = 1) by (rewrite Hl divff //).
    rewrite Htt mulr1 in HRej HAcc.
    cbv zeta. case Elt : (r < `|p_corr K W p * dr|); move: (Elt) => Elt'; rewrite ?Elt.
    + pose proof (rng_pos _ _ Hr Elt) as Hnz. rewrite mulf_eq0 negb_or in Hnz. move/andP: Hnz => [_ Hnz].
      assert (HA := HAcc Hnz (trace K W MS mc) (p_corr K W p * dr)).
      rewrite {1}Hl in HA. specialize (HA Htr Htr0 erefl Elt).
      destruct (accept_config _ _ _ _ _ _ _ _ _ _ _ _ _); exact HA.
    + apply HRej; [|auto]. by rewrite Elt.
Qed.

Hypothesis HD : det_contract.
Hypothesis HT : trace_contract.

(** ** C04 *)

(** The determinant of the stored operator sets. *)
Notation det_of mc := (dt (mcd mc) (mcc mc)).

(** update() returned false: nothing observable changed. *)
Theorem C04_not_accepted_changes_nothing : forall lo hi (mc mc' : config) ct ct' po r,
  consistent mc -> (forall p, po = Some p -> proposal_ok mc p) -> 0 <= r ->
  update lo hi mc ct po r = Done K W MS mc' ct' false ->
  ops mc' = ops mc /\ worm K W MS mc' = worm K W MS mc /\
  trace K W MS mc' = trace K W MS mc /\ sign K W MS mc' = sign K W MS mc /\
  perm_sign K W MS mc' = perm_sign K W MS mc /\
  Permutation (mcd mc) (mcd mc') /\ Permutation (mcc mc) (mcc mc') /\ det_of mc' = det_of mc.
Proof.
  intros lo hi mc mc' ct ct' po r HC Hok Hr E.
  pose proof (update_spec lo hi mc ct po r HD HT HC Hok Hr) as H. rewrite E in H.
  destruct H as (H1 & H2 & H3 & H4 & H5 & H6 & H7 & _).
  do 7 (split; [auto|]). destruct HD as (Dext & _). symmetry. by apply Dext.
Qed.

(** update() left by an exception: it never reads out of bounds, and the configuration is the
    old one; this happens only for a proposal outside the window. *)
Theorem C04_exception_leaves_configuration : forall lo hi (mc : config) ct po r,
  consistent mc -> (forall p, po = Some p -> proposal_ok mc p) -> 0 <= r ->
  update lo hi mc ct po r <> UB K W MS /\
  forall mc', update lo hi mc ct po r = Threw K W MS mc' -> mc' = mc.
Proof.
  intros lo hi mc ct po r HC Hok Hr.
  pose proof (update_spec lo hi mc ct po r HD HT HC Hok Hr) as H.
  split.
  - intros E. rewrite E in H. exact H.
  - intros mc' E. rewrite E in H. apply H.
Qed.

(** Operators change only inside the window: outside [lo,hi] the map from times to operators stays. *)
Lemma safe_erase_away ops0 : forall l rec l' rec' k, csorted l -> (forall x, In x ops0 -> p_time x <> k) ->
  safe_erase_with_record ops0 l rec = (Ok, l', rec') -> lookup l' k = lookup l k /\ csorted l'.
Proof.
  induction ops0 as [|x ops0 IH]; intros l rec l' rec' k HS Hk E; simpl in E.
  - inversion E; subst. auto.
  - pose proof (cerase_sorted x l HS) as HS'. destruct (cerase_lookup x l HS) as [H1 H2].
    destruct (cerase x l) as [l1 n] eqn:Ec; simpl in *. destruct (Nat.eqb n 1) eqn:En; [|discriminate].
    apply IH with (k := k) in E; [|exact HS'|intros; apply Hk; right; auto].
    destruct E as [E1 E2]. split; [|exact E2]. rewrite E1.
    destruct (lookup l (p_time x)) eqn:El.
    + destruct H1 as [_ H1]; [discriminate|]. rewrite H1. unfold upd.
      destruct (ot_eqb (p_time x) k) eqn:Ek; [|reflexivity].
      apply ot_eqb_spec in Ek. exfalso. apply (Hk x); [left; reflexivity|congruence].
    + specialize (H2 erefl). inversion H2; subst. discriminate.
Qed.
Lemma safe_insert_away ops0 : forall l rec l' rec' k, csorted l -> (forall x, In x ops0 -> p_time x <> k) ->
  safe_insert_with_record ops0 l rec = (Ok, l', rec') -> lookup l' k = lookup l k /\ csorted l'.
Proof.
  induction ops0 as [|x ops0 IH]; intros l rec l' rec' k HS Hk E; simpl in E.
  - inversion E; subst. auto.
  - pose proof (cinsert_sorted x l HS) as HS'. destruct (cinsert_lookup x l HS) as [H1 H2].
    destruct (cinsert x l) as [l1 b] eqn:Ec; simpl in *. destruct b; [|discriminate].
    apply IH with (k := k) in E; [|exact HS'|intros; apply Hk; right; auto].
    destruct E as [E1 E2]. split; [|exact E2]. rewrite E1.
    destruct (lookup l (p_time x)) eqn:El.
    + assert (Hd : Some p <> None) by discriminate. specialize (H2 Hd). inversion H2.
    + destruct (H1 erefl) as [_ H1']. rewrite H1'. unfold upd.
      destruct (ot_eqb (p_time x) k) eqn:Ek; [|reflexivity].
      apply ot_eqb_spec in Ek. exfalso. apply (Hk x); [left; reflexivity|congruence].
Qed.
Theorem C05_changes_inside_window : forall lo hi (mc mc' : config) ct ct' po r acc k,
  consistent mc -> (forall p, po = Some p -> proposal_ok mc p) -> 0 <= r ->
  update lo hi mc ct po r = Done K W MS mc' ct' acc ->
  ~ (lo <= ot_time k <= hi)%Z -> lookup (ops mc') k = lookup (ops mc) k.
Proof.
  intros lo hi mc mc' ct ct' po r acc k HC Hok Hr E Hk. destruct acc.
  2:{ apply C04_not_accepted_changes_nothing in E; auto. destruct E as [-> _]. reflexivity. }
  revert E. unfold Updater.update. destruct po as [p|]; [|discriminate].
  destruct (merge_diff _ _ _ _) as [rem add].
  destruct (range_check lo hi rem && range_check lo hi add) eqn:ER; [|discriminate]. simpl.
  destruct (update_operators (ops mc) rem add) as [l|l rec|l rec] eqn:EU; [discriminate|discriminate|].
  assert (Hin : forall x, In x rem \/ In x add -> p_time x <> k).
  { apply andb_prop in ER. destruct ER as [R1 R2]. unfold range_check in R1, R2.
    intros x Hx Ex. apply Hk. rewrite -Ex.
    assert (Hx' : negb (Z.ltb (ot_time (p_time x)) lo || Z.ltb hi (ot_time (p_time x))) = true).
    { destruct Hx as [Hx|Hx]; [apply (proj1 (forallb_forall _ _) R1 x Hx)|apply (proj1 (forallb_forall _ _) R2 x Hx)]. }
    revert Hx'. destruct (Z.ltb_spec (ot_time (p_time x)) lo); destruct (Z.ltb_spec hi (ot_time (p_time x))); simpl; try discriminate. intros _. lia. }
  assert (HL : lookup l k = lookup (ops mc) k).
  { revert EU. unfold update_operators. destruct HC as (HS & _).
    destruct (safe_erase_with_record rem (ops mc) []) as [[o l1] rec1] eqn:E1. destruct o; [|discriminate].
    destruct (safe_erase_away _ _ _ _ _ k HS (fun x Hx => Hin x (or_introl Hx)) E1) as [L1 S1].
    destruct (safe_insert_with_record add l1 rec1) as [[o2 l2] rec2] eqn:E2. destruct o2; [|discriminate].
    destruct (safe_insert_away _ _ _ _ _ k S1 (fun x Hx => Hin x (or_intror Hx)) E2) as [L2 S2].
    intros H; inversion H; subst. congruence. }
  assert (HA : forall ms w t q, match accept_config K W w_ops MS m_cd m_c m_perform mc l ms w t q with
             | Some mc0 => Done K W MS mc0 (finalize ct true true) true
             | None => UB K W MS
             end = Done K W MS mc' ct' true -> lookup (ops mc') k = lookup (ops mc) k).
  { intros ms w t q. unfold accept_config. destruct (compute_permutation_sign_impl _ _ _); [|discriminate].
    intros H; inversion H; subst. simpl. exact HL. }
  destruct (m_try (mstate K W MS mc) (p_hyb K W p)) as [dr ms].
  assert (HB : (if trace_bound_sum l == 0
     then Done K W MS (Conf K W MS (revert_changes l rec) (mstate K W MS mc) (worm K W MS mc) (trace K W MS mc) (sign K W MS mc) (perm_sign K W MS mc)) (finalize ct true false) false
     else if dr != 0 then
           let (acc, trace_new) := lazy_trace l `|r * trace K W MS mc / (p_corr K W p * dr)| in
           if acc then
             match accept_config K W w_ops MS m_cd m_c m_perform mc l ms (new_worm mc p) trace_new
                     (p_corr K W p * dr * (trace_new / trace K W MS mc)) with
             | Some mc' => Done K W MS mc' (finalize ct true true) true
             | None => UB K W MS
             end
           else Done K W MS (Conf K W MS (revert_changes l rec) (m_reject ms) (worm K W MS mc)
                   (trace K W MS mc) (sign K W MS mc) (perm_sign K W MS mc)) (finalize ct true false) false
         else Done K W MS (Conf K W MS (revert_changes l rec) (m_reject ms) (worm K W MS mc)
                   (trace K W MS mc) (sign K W MS mc) (perm_sign K W MS mc)) (finalize ct true false) false) = Done K W MS mc' ct' true -> lookup (ops mc') k = lookup (ops mc) k).
  { case: (trace_bound_sum l == 0); [discriminate|]. case: (dr != 0); [|discriminate].
    destruct (lazy_trace l _) as [a t]. destruct a; [apply HA|discriminate]. }
  destruct rem as [|x rem]; [destruct add as [|y add]|]; try exact HB.
  case: (r < _); [apply HA|discriminate].
Qed.

(** The decision is Metropolis' rule: a valid proposal is accepted exactly when the new operators
    have distinct times and the random number is below
    |correction * det(new)/det(old) * trace(new)/trace(old)|, unless the update is one for which the determinant
    object returns 0 in any case. *)
Theorem C04_metropolis_rule : forall lo hi (mc mc' : config) ct ct' p r acc,
  consistent mc -> proposal_ok mc p -> 0 <= r ->
  update lo hi mc ct (Some p) r = Done K W MS mc' ct' acc ->
  (acc = true <->
   exists cd' c' ops',
     hyb_result (mcd mc) (mcc mc) (p_hyb K W p) cd' c' /\ csorted ops' /\
     Permutation ops' (cd' ++ c' ++ wops (new_worm mc p)) /\
     lossy (mcd mc) (mcc mc) (p_hyb K W p) = false /\
     r < `|p_corr K W p * (dt cd' c' / det_of mc) * (tr ops' / tr (ops mc))|).
Proof.
  intros lo hi mc mc' ct ct' p r acc HC Hok Hr E.
  assert (Hok' : forall p0, Some p = Some p0 -> proposal_ok mc p0)
    by (intros p0 Hp; inversion Hp; subst; exact Hok).
  pose proof (update_spec lo hi mc ct (Some p) r HD HT HC Hok' Hr) as H. rewrite E in H.
  destruct acc; split; auto; try discriminate.
  - intros _. destruct H as (HC' & p0 & Hp0 & HW & HR & Hlt). inversion Hp0; subst p0.
    exists (mcd mc'), (mcc mc'), (ops mc'). split; [exact HR|].
    destruct HC' as (HS' & HP' & _). split; [exact HS'|]. split; [rewrite HP' HW; reflexivity|exact Hlt].
  - intros Hex. destruct H as (_ & _ & _ & _ & _ & _ & _ & _ & H). exfalso. exact (H p erefl Hex).
Qed.

(** ** C05 *)

(** A history of update() calls that return; window edges, proposals and random numbers are
    arbitrary. *)
Inductive reach (mc0 : config) : config -> Prop :=
| reach_init : reach mc0 mc0
| reach_step mc lo hi ct po r mc' ct' acc :
    reach mc0 mc -> (forall p, po = Some p -> proposal_ok mc p) -> 0 <= r ->
    update lo hi mc ct po r = Done K W MS mc' ct' acc -> reach mc0 mc'.

Theorem C05_update_keeps_consistent : forall lo hi (mc mc' : config) ct ct' po r acc,
  consistent mc -> (forall p, po = Some p -> proposal_ok mc p) -> 0 <= r ->
  update lo hi mc ct po r = Done K W MS mc' ct' acc -> consistent mc'.
Proof.
  intros lo hi mc mc' ct ct' po r acc HC Hok Hr E.
  pose proof (update_spec lo hi mc ct po r HD HT HC Hok Hr) as H. rewrite E in H.
  destruct acc; [apply H|].
  destruct H as (H1 & H2 & H3 & H4 & H5 & H6 & H7 & H8 & _).
  destruct HC as (A1 & A2 & A3 & A4 & A5 & A6 & A7 & A8).
  destruct HD as (Dext & _).
  assert (Hd : det_of mc' = det_of mc) by (symmetry; apply Dext; auto).
  unfold Updater.consistent. rewrite H1 H2 H3 H4 H5 Hd.
  split; [exact A1|]. split; [rewrite -H6 -H7; exact A2|]. split; [exact H8|].
  split; [rewrite -(Permutation_length H6) -(Permutation_length H7); exact A4|].
  do 2 (split; [assumption|]). split; [|exact A8].
  rewrite -A7. revert A4 H6 H7. clear. intros A4 H6 H7.
  unfold compute_permutation_sign_impl, times_work. cbv zeta.
  rewrite -(Permutation_length H6) -(Permutation_length H7) A4 PeanoNat.Nat.ltb_irrefl.
  rewrite {1}(Permutation_length H7) !firstn_all.
  rewrite (sort_desc_ext (map p_time (mcd mc')) (map p_time (mcd mc)));
    [|apply Permutation_map; symmetry; exact H6].
  rewrite (sort_desc_ext (map p_time (mcc mc')) (map p_time (mcc mc)));
    [|apply Permutation_map; symmetry; exact H7].
  reflexivity.
Qed.

(** After any history: trace operators = determinant operators + worm operators with distinct
    times, stored trace and permutation sign are the recomputed ones, and
    sign = phase of (permutation sign * determinant * trace). *)
Theorem C05_bookkeeping_consistent : forall mc0 mc, consistent mc0 -> reach mc0 mc ->
  NoDup (map p_time (ops mc)) /\ StronglySorted (fun a b => ot_lt (p_time a) (p_time b) = true) (ops mc) /\
  Permutation (ops mc) (mcd mc ++ mcc mc ++ wops (worm K W MS mc)) /\
  trace K W MS mc = tr (ops mc) /\
  compute_permutation_sign_impl (mcd mc) (mcc mc) (wops (worm K W MS mc)) = Some (perm_sign K W MS mc) /\
  let w := (if perm_sign K W MS mc then -1 else 1) * det_of mc * tr (ops mc) in
  w != 0 /\ sign K W MS mc = w / `|w|.
Proof.
  intros mc0 mc HC HR.
  assert (H : consistent mc).
  { induction HR; [exact HC|]. eapply C05_update_keeps_consistent; eauto. }
  destruct H as (A1 & A2 & A3 & A4 & A5 & A6 & A7 & A8).
  split; [apply csorted_NoDup_times; exact A1|]. split; [exact A1|].
  do 3 (split; [assumption|]). cbv zeta. rewrite -A5. split; [|exact A8].
  destruct HD as (_ & Dnz & _). rewrite !mulf_neq0 //; [|apply Dnz; exact A3].
  by case: (perm_sign K W MS mc); rewrite ?oppr_eq0 oner_eq0.
Qed.

(** The constructor's configuration (src/mc_config.hpp:72-78, impurity.ipp:153): no operators,
    sign 1, trace of the bare impurity, is consistent. *)
Theorem C05_initial_consistent : forall m0,
  wf m0 -> m_cd m0 = [] -> m_c m0 = [] -> dt [] [] = 1 -> 0 < tr [] ->
  consistent (Conf K W MS [] m0 None (tr []) 1 false).
Proof.
  intros m0 Hw H1 H2 Hd Ht. unfold Updater.consistent. simpl. rewrite H1 H2 /= Hd.
  split; [constructor|]. split; [constructor|]. do 3 (split; [auto|]).
  split; [exact: lt0r_neq0|]. split; [reflexivity|]. by rewrite /mysign /sgK !mul1r gtr0_norm // divff // lt0r_neq0.
Qed.

(** ** C06 *)

(** Each returning call of update raises attempted by one, accepted by one exactly when it returns
    true, valid when the proposal was valid; accepted moves are valid. *)
Theorem C06_update_counts : forall lo hi (mc mc' : config) ct ct' po r acc,
  update lo hi mc ct po r = Done K W MS mc' ct' acc ->
  attempted ct' = S (attempted ct) /\
  valid ct' = (if po then S (valid ct) else valid ct) /\
  accepted ct' = (if acc then S (accepted ct) else accepted ct) /\
  (acc = true -> po <> None).
Proof.
  intros lo hi mc mc' ct ct' po r acc. unfold Updater.update.
  destruct po as [p|].
  2:{ intros H; inversion H; subst; simpl; repeat split; auto; try discriminate. }
  destruct (merge_diff _ _ _ _) as [rem add].
  destruct (negb _); [discriminate|].
  destruct (update_operators _ rem add) as [l|l rec|l rec]; [discriminate| |].
  { intros H; inversion H; subst; simpl. repeat split; auto. }
  destruct (m_try _ _) as [dr ms]. cbv zeta.
  assert (G1 : forall x, match x with Some mc' => Done K W MS mc' (finalize ct true true) true | None => UB K W MS end
                 = Done K W MS mc' ct' acc ->
               attempted ct' = S (attempted ct) /\ valid ct' = S (valid ct) /\
               accepted ct' = (if acc then S (accepted ct) else accepted ct) /\ (acc = true -> Some p <> None)).
  { intros [x|] H; inversion H; subst; simpl. repeat split; auto. discriminate. }
  assert (G2 : forall x, Done K W MS x (finalize ct true false) false = Done K W MS mc' ct' acc ->
               attempted ct' = S (attempted ct) /\ valid ct' = S (valid ct) /\
               accepted ct' = (if acc then S (accepted ct) else accepted ct) /\ (acc = true -> Some p <> None)).
  { intros x H; inversion H; subst; simpl. repeat split; auto. }
  destruct rem, add;
  repeat match goal with
  | |- (if ?b then _ else _) = _ -> _ => destruct b
  | |- (let (_, _) := ?b in _) = _ -> _ => destruct b
  end; intros H; first [eapply G1; exact H | eapply G2; exact H].
Qed.

(** Specification of the reports: what happened since the last report. *)
Inductive tally : nat * nat * nat -> list (bool * bool) -> Prop :=
| tally_nil : tally (0, 0, 0)%nat []
| tally_cons a v c vld acc h : tally (a, v, c) h -> (acc = true -> vld = true) ->
    tally (S a, if vld then S v else v, if acc then S c else c)%nat (h ++ [(vld, acc)]).

Inductive crun : counters -> list (bool * bool) -> list (nat * nat * nat) -> list (list (bool * bool)) -> Prop :=
| crun_init : crun (Cnt 0 0 0) [] [] []
| crun_update ct h reps hs lo hi mc po r mc' ct' acc :
    crun ct h reps hs -> update lo hi mc ct po r = Done K W MS mc' ct' acc ->
    crun ct' (h ++ [(if po then true else false, acc)]) reps hs
| crun_measure ct h reps hs rep ct' :
    crun ct h reps hs -> measure_acc_rate ct = (rep, ct') -> crun ct' [] (reps ++ [rep]) (hs ++ [h]).

(** Any history of updates and reports of one updater object: the counters are the numbers of
    attempted / valid / accepted calls since the last report, each report gives exactly the
    numbers of its own interval, and attempted >= valid >= accepted throughout. *)
Theorem C06_counters_exact : forall ct h reps hs, crun ct h reps hs ->
  tally (attempted ct, valid ct, accepted ct) h /\ Forall2 tally reps hs.
Proof.
  intros ct h reps hs H. induction H as [|ct h reps hs lo hi mc po r mc' ct' acc H [IH1 IH2] HU|ct h reps hs rep ct' H [IH1 IH2] HM].
  - split; constructor.
  - split; [|exact IH2]. apply C06_update_counts in HU as (-> & -> & -> & Hacc).
    destruct po as [p|].
    + apply (tally_cons _ _ _ true acc); auto.
    + destruct acc; [exfalso; apply Hacc; reflexivity|]. apply (tally_cons _ _ _ false false); auto.
  - inversion HM; subst. split; [constructor|]. apply Forall2_app; [exact IH2|]. repeat constructor. exact IH1.
Qed.

Theorem C06_tally_ordered : forall a v c h, tally (a, v, c) h ->
  (c <= v)%nat /\ (v <= a)%nat /\ a = length h /\
  v = length (filter fst h) /\ c = length (filter snd h).
Proof.
  intros a v c h H. remember (a, v, c) as t eqn:E. revert a v c E.
  induction H as [|a v c vld acc h H IH Hi]; intros a' v' c' E; inversion E; subst; simpl; [lia|].
  destruct (IH _ _ _ erefl) as (I1 & I2 & I3 & I4 & I5).
  rewrite app_length !filter_app !app_length /=.
  destruct vld, acc; simpl; try lia; discriminate Hi; reflexivity.
Qed.

End T.

Print Assumptions C04_not_accepted_changes_nothing.
Print Assumptions C04_exception_leaves_configuration.
Print Assumptions C04_metropolis_rule.
Print Assumptions C05_changes_inside_window.
Print Assumptions C05_update_keeps_consistent.
Print Assumptions C05_bookkeeping_consistent.
Print Assumptions C05_initial_consistent.
Print Assumptions C06_update_counts.
Print Assumptions C06_counters_exact.
Print Assumptions C06_tally_ordered.

(** ** An instance: the contracts are satisfiable and updates are accepted and rejected.
    Rational scalars; the determinant object is the pair of operator lists. *)
From mathcomp Require Import ssrnat rat ssrint.
Section Instance.
Open Scope ring_scope.

Fixpoint remove1 (x : psi) (l : list psi) : list psi :=
  match l with [] => [] | y :: l' => if psi_eqb y x then l' else y :: remove1 x l' end.
Definition ldiff (l rem : list psi) : list psi := fold_left (fun l x => remove1 x l) rem l.

Lemma remove1_perm x l : In x l -> Permutation l (x :: remove1 x l).
Proof.
  induction l as [|y l IH]; simpl; [tauto|]. case E: (psi_eqb y x).
  - apply psi_eqb_spec in E. subst. reflexivity.
  - intros [->|H]; [rewrite psi_eqb_refl in E; discriminate|].
    rewrite {1}(IH H). apply perm_swap.
Qed.

Lemma ldiff_perm rem : forall l l0, Permutation l (rem ++ l0) -> Permutation (ldiff l rem) l0.
Proof.
  induction rem as [|x rem IH]; intros l l0 H; simpl in *; [exact H|].
  apply IH. apply (Permutation_cons_inv (a := x)). rewrite -remove1_perm; [exact H|].
  apply (Permutation_in x (Permutation_sym H)). left; reflexivity.
Qed.

Definition eMS := (list psi * list psi * hyb_update)%type.
Definition edt (cd c : list psi) : rat := (- 2%:R) ^+ (length cd).
Definition etry (m : eMS) (u : hyb_update) : rat * eMS :=
  let '(cd, c, _) := m in
  (edt (cd_add u ++ ldiff cd (cd_rem u)) c / edt cd c, (cd, c, u)).
Definition eperform (m : eMS) : eMS :=
  let '(cd, c, u) := m in
  (cd_add u ++ ldiff cd (cd_rem u), c_add u ++ ldiff c (c_rem u), u).
Definition ereject (m : eMS) : eMS := m.
Definition ecd (m : eMS) := fst (fst m).
Definition ec (m : eMS) := snd (fst m).
Definition etr (l : container) : rat := 5%:R * (- 3%:R) ^- (length l).
Definition elazy (l : container) (cut : rat) := (cut < `|etr l|, etr l).

Lemma edt_neq0 cd c : edt cd c != 0.
Proof. apply: expf_neq0. by rewrite oppr_eq0 pnatr_eq0. Qed.

Example C04_contracts_hold :
  det_contract rat_numFieldType eMS ecd ec etry eperform ereject edt (fun _ => True) (fun _ => True) (fun _ _ _ => false) /\
  trace_contract rat_numFieldType (fun l => `|etr l|) elazy etr (fun _ => True).
Proof.
  split; [split; [|split]|split; [|split]] => //.
  - intros cd c cd' c' H1 H2. by rewrite /edt (Permutation_length H1).
  - intros m _. apply edt_neq0.
  - intros [[cd c] u0] u _ (cd0 & c0 & H1 & H2 & _) Hl. simpl in *.
    split; [|split; [|repeat split; reflexivity]].
    + intros cd' c' [R1 _]. rewrite /edt. congr (_ ^+ _ / _).
      pose proof (Permutation_length (ldiff_perm _ _ _ H1)) as L1.
      apply Permutation_length in R1, H1. rewrite !app_length in R1 H1 |- *. unfold ecd in *; simpl in *. lia.
    + intros _. split; [exact I|]. split; simpl.
      * pose proof (ldiff_perm _ _ _ H1) as L1. unfold ecd in *; simpl in *. clear -L1 H1. pcount.
      * pose proof (ldiff_perm _ _ _ H2) as L1. unfold ec in *; simpl in *. clear -L1 H2. pcount.
Qed.

Definition eupdate := update rat_numFieldType (list psi) id eMS ecd ec etry eperform ereject (fun l => `|etr l|) elazy.
Definition emc0 := Conf rat_numFieldType (list psi) eMS [] ([], [], HU [] [] [] []) None 5%:R 1 false.
Definition epair := HU [] [] [Psi (OT 7 0) CREATION_OP 0] [Psi (OT 4 0) ANNIHILATION_OP 0].
Definition eprop := Prop_ rat_numFieldType (list psi) epair None (6%:R : rat).
Definition view (x : update_result rat_numFieldType (list psi) eMS) :=
  match x with Done mc ct acc => Some (operators _ _ _ mc, sign _ _ _ mc, ct, acc) | _ => None end.

(** |6 * (-2) * (1/9)| = 4/3 : accepted for r = 1/2; sign of (perm -1) * (det -2) * (5/9) = +1. *)
Example C05_instance_accept :
  view (eupdate 0 10 emc0 (Cnt 0 0 0) (Some eprop) (2%:R^-1)) =
  Some ([Psi (OT 4 0) ANNIHILATION_OP 0; Psi (OT 7 0) CREATION_OP 0], 1, Cnt 1 1 1, true).
Proof. vm_compute. reflexivity. Qed.
(** rejected for correction 1 and r = 1/2: |1 * (-2) * (1/9)| = 2/9 *)
Example C05_instance_reject :
  view (eupdate 0 10 emc0 (Cnt 3 2 1) (Some (Prop_ rat_numFieldType (list psi) epair None 1)) (2%:R^-1)) =
  Some ([], 1, Cnt 4 3 1, false).
Proof. vm_compute. reflexivity. Qed.
Example C05_instance_hyps :
  consistent rat_numFieldType (list psi) id eMS ecd ec edt (fun _ => True) etr emc0 /\
  proposal_ok rat_numFieldType (list psi) id eMS ecd ec (fun _ => True) (fun _ => True) emc0 eprop.
Proof.
  split.
  - rewrite /emc0 (_ : 5%:R = etr []); [|by vm_compute]. apply C05_initial_consistent => //.
  - repeat split; simpl; try (exists []; reflexivity).
Qed.
End Instance.
