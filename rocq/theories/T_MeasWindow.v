(** * C54, C57: two-time correlations and static observables apply every operator once *)
From Coq Require Import ZArith Lia List Bool Sorting.Permutation Sorting.Sorted.
From mathcomp Require Import all_ssreflect all_algebra zify.
From Verif Require Import OpContainer Updater Window T_Window T_WindowTrace MeasWindow.
Import ListNotations.
Set Implicit Arguments.
Unset Strict Implicit.
Unset Printing Implicit Defensive.
Local Close Scope Z_scope.
Local Open Scope nat_scope.
Delimit Scope Z_scope with coqZ.

Section TMeas.
Variable K : numFieldType.
Variables (Ket Bra : Type) (outer : list (Bra * Ket)).
Variables (ket_invalid : Ket -> bool) (bra_invalid : Bra -> bool) (ket_nil : Ket) (bra_nil : Bra).
Variables (apply_ket : optype -> nat -> Ket -> Ket) (apply_bra : optype -> nat -> Bra -> Bra).
Variables (prop_ket : Z -> Ket -> Ket) (prop_bra : Z -> Bra -> Bra).
Variables (normalize_ket : Ket -> Ket) (normalize_bra : Bra -> Bra).
Variables (norm_ket : Ket -> K) (norm_bra : Bra -> K).
Variables (sec_ket : Ket -> nat) (sec_bra : Bra -> nat).
Variable product : Bra -> Ket -> K.
Variable tau : nat -> nat -> Z.
Variable cut : K.
Variable beta : Z.
Hypothesis H : braket_ok ket_invalid bra_invalid ket_nil bra_nil apply_ket apply_bra prop_ket prop_bra normalize_ket normalize_bra sec_ket sec_bra product.
Hypothesis tau_0 : forall n, 0 < n -> tau n 0 = 0%coqZ.
Hypothesis tau_beta : forall n, 0 < n -> tau n (2 * n) = beta.
Hypothesis tau_mono : forall n p q, p <= q -> q <= 2 * n -> (tau n p <= tau n q)%coqZ.
Hypothesis cut0 : cut = 0%R.
Hypothesis nk0 : forall k, (0 <= norm_ket k)%R.
Hypothesis nb0 : forall b, (0 <= norm_bra b)%R.

Notation kst := (ket_steps apply_ket prop_ket).
Notation reach := (reach outer ket_invalid bra_invalid ket_nil bra_nil apply_ket apply_bra prop_ket prop_bra
  normalize_ket normalize_bra norm_ket norm_bra tau cut).
Notation wf := (wf outer ket_invalid bra_invalid ket_nil bra_nil apply_ket apply_bra prop_ket prop_bra
  normalize_ket normalize_bra norm_ket norm_bra tau cut).
Notation setw := (set_window_size ket_invalid bra_invalid ket_nil bra_nil apply_ket apply_bra prop_ket prop_bra
  normalize_ket normalize_bra norm_ket norm_bra tau cut).
Notation rightto := (move_right_edge_to ket_invalid ket_nil apply_ket prop_ket normalize_ket norm_ket tau cut).
Notation leftto := (move_left_edge_to bra_invalid bra_nil apply_bra prop_bra normalize_bra norm_bra tau cut).
Notation cvalue := (corr_value ket_invalid bra_invalid apply_ket apply_bra prop_ket prop_bra normalize_ket normalize_bra product tau).
Notation svalue := (static_value ket_invalid bra_invalid product).
Notation tp := (tau_point tau).
Notation keq := (keq product).

(** An observable acting on kets and bras. *)
Definition obs_adj (ob : Bra -> Bra) (ok : Ket -> Ket) : Prop := forall b k, product (ob b) k = product b (ok k).

(** ** Specification *)
(** Operators before and not before a time, in the order of (time, index). *)
Definition opsB (t : Z) (ops : container) : list psi := List.filter (before t) ops.
Definition opsA (t : Z) (ops : container) : list psi := List.filter (fun x => ~~ before t x) ops.
Definition corr_spec (t0 t : Z) (oL oR : Ket -> Ket) (ops : container) : K :=
  sumK (List.map (fun e => product (fst e)
    (kst t (opsA t ops) beta (oL (kst t0 (opsA t0 (opsB t ops)) t (oR (kst 0%coqZ (opsB t0 ops) t0 (snd e))))))) outer).
Definition static_spec (t : Z) (o : Ket -> Ket) (ops : container) : K :=
  sumK (List.map (fun e => product (fst e) (kst t (opsA t ops) beta (o (kst 0%coqZ (opsB t ops) t (snd e))))) outer).

(** No operator exactly at a time. *)
Definition free_at (t : Z) (ops : container) : Prop := forall x, In x ops -> p_time x <> at_ t.

Lemma lost0 n ops R i : i < length outer -> lostR outer ket_invalid ket_nil apply_ket prop_ket normalize_ket norm_ket tau cut n ops R i = false.
Proof.
move=> hi; elim: R => //= R ->; rewrite cut0 GRing.mulr0 /kframe' (nth_lmap (kd K ket_nil)) ?canonR_size //=.
by rewrite Order.POrderTheory.le_gtF //; exact: nk0.
Qed.
Lemma lost0L n ops m i : i < length outer -> lostL outer bra_invalid bra_nil apply_bra prop_bra normalize_bra norm_bra tau cut n ops m i = false.
Proof.
move=> hi; elim: m => //= m ->; rewrite cut0 GRing.mulr0 /bframe' (nth_lmap (bd K bra_nil)) ?canonL_size //.
by rewrite Order.POrderTheory.le_gtF //; exact: nb0.
Qed.

(** A sum over the top frames of a well-formed window. *)
Lemma frames_sum ops (s : sw K Ket Bra) (f : (Bra * K) * (Ket * K) -> K) (g : Bra * Ket -> K) : wf ops s -> csorted ops ->
  (forall e b nb k nk, (forall k', product b k' = product (fst e) (kst (tau (nwin s) (posL s)) (left_segments tau (nwin s) (posL s) ops) beta k')) ->
     keq k (kst 0%coqZ (right_segments tau (nwin s) (posR s) ops) (tau (nwin s) (posR s)) (snd e)) -> f ((b, nb), (k, nk)) = g e) ->
  sumK (List.map f (combine (top (left_states s)) (top (right_states s)))) = sumK (List.map g outer).
Proof.
move=> [h1 h2 h3 h4 er el] hs h; rewrite er el /top; set n := nwin s in h *; set R := posR s in h h2 er *; set L := posL s in h h3 h4 el *.
have sL := canonL_size outer bra_invalid bra_nil apply_bra prop_bra normalize_bra norm_bra tau cut n ops (2 * n - L).
have sR := canonR_size outer ket_invalid ket_nil apply_ket prop_ket normalize_ket norm_ket tau cut n ops R.
apply: (@sumK_ext _ _ outer _ (ed ket_nil bra_nil)); first by rewrite List.map_length combine_length sL sR Nat.min_id.
move=> i hi; rewrite (nth_lmap (bd K bra_nil, kd K ket_nil)); last by rewrite combine_length sL sR Nat.min_id.
rewrite nth_combine ?sL ?sR //.
have := canonR_spec norm_ket cut H tau_0 tau_mono (outer:=outer) (n:=n) (ops:=ops) (R:=R) (i:=i); rewrite lost0 // => HR.
have := canonL_spec norm_bra cut H tau_beta tau_mono (outer:=outer) (n:=n) (ops:=ops) (m:=2 * n - L) (i:=i); rewrite lost0L // => HL.
have eL : 2 * n - (2 * n - L) = L by rewrite /n /L; lia.
move: HL; rewrite eL => HL.
case eb: (nth (bd K bra_nil) _ i) HL => [b nb] HL; case ek: (nth (kd K ket_nil) _ i) HR => [k nk] HR.
apply: h; first by move=> k'; apply: HL => //; exact: leq_subr.
by apply: HR => //; rewrite /R; move: h2; rewrite /n; lia.
Qed.

Lemma fsplit (f p : psi -> bool) ops : csorted ops -> (forall x y, psi_lt x y -> p y -> p x) ->
  List.filter f ops = (List.filter (fun x => p x && f x) ops ++ List.filter (fun x => ~~ p x && f x) ops)%list.
Proof.
move=> hs hp; rewrite {1}(@split_sorted p (List.filter f ops)) //; last exact: filter_sorted.
by congr (_ ++ _)%list; elim: (ops) => //= x l IH; case: (f x); rewrite ?andbF //= ?andbT IH; case: (p x).
Qed.
Lemma filter_none (f : psi -> bool) l : (forall x, In x l -> f x = false) -> List.filter f l = [].
Proof. by elim: l => //= x l IH h; rewrite h ?IH //; [move=> y hy; apply: h; right|left]. Qed.
Lemma before_down t x y : psi_lt x y -> before t y -> before t x.
Proof. by move=> h1 h2; exact: lt_trans_ h1 h2. Qed.
Ltac ords x := rewrite /rng_co /rng_cc /rng_oc /before /after /ot_le /ot_lt /=; move: (ot_time (p_time x)) (ot_small (p_time x)) => ? ?;
  repeat (case: Z.eqb_spec => ? //=); try subst; lia.

(** segments of the ket *)
Fixpoint ksegs ntau ops i : list psi := match i with 0 => [] | S j => (ksegs ntau ops j ++ ops_from_right tau ntau ops j)%list end.
(** segments of the bra, [m] steps from the last point *)
Fixpoint bsegs ntau ops m : list psi := match m with 0 => [] | S j => (ops_from_left tau ntau ops (ntau - 1 - m) ++ bsegs ntau ops j)%list end.

Lemma half2 n : (2 * n) %/ 2 = n.
Proof. by rewrite mulKn. Qed.
Lemma tp_mono ntau i j : i <= j -> j <= ntau - 1 -> (tp ntau i <= tp ntau j)%coqZ.
Proof. by move=> h1 h2; apply: tau_mono; rewrite /right_edge_pos /num_win half2; lia. Qed.

Lemma ksegs_eq ntau ops i : csorted ops -> i <= ntau - 1 -> ksegs ntau ops i = opsA (tp ntau 0) (opsB (tp ntau i) ops).
Proof.
move=> hs; elim: i => [|i IH] hi.
  by rewrite /= /opsA /opsB; elim: (ops) => //= x l IHl; case: (boolP (before _ _)) => //= hx; rewrite hx.
rewrite /= IH; last exact: ltnW. have h0 := @tp_mono ntau 0 i (leq0n _) (ltnW hi). have h1 := @tp_mono ntau i i.+1 (leqnSn _) hi.
rewrite /opsA /opsB /ops_from_right /range.
have comp (f g : psi -> bool) l : List.filter f (List.filter g l) = List.filter (fun x => f x && g x) l.
  by elim: l => //= x l IHl; case: (g x); rewrite /= ?andbT ?andbF IHl.
rewrite !comp [RHS](@fsplit _ (before (tp ntau i)) ops hs); last by move=> x y; exact: before_down.
congr (_ ++ _)%list; apply: List.filter_ext => x; move: (tp ntau 0) (tp ntau i) (tp ntau i.+1) h0 h1 => a b c h0 h1.
  ords x.
ords x.
Qed.
Lemma ksegs_chain ntau ops i : csorted ops -> i <= ntau - 1 -> chain (tp ntau 0) (ksegs ntau ops i) (tp ntau i).
Proof.
move=> hs; elim: i => [|i IH] hi /=; first lia.
apply: chain_app (IH (ltnW hi)) _; apply: range_chain => //; [exact: tp_mono|exact: rng_co_in].
Qed.
Lemma ket_at_eq ntau ops oR k i : csorted ops -> i <= ntau - 1 ->
  keq (ket_at ket_invalid apply_ket prop_ket normalize_ket tau ntau ops oR k i) (kst (tp ntau 0) (ksegs ntau ops i) (tp ntau i) (oR k)).
Proof.
move=> hs; elim: i => [|i IH] hi; first by move=> b; rewrite /= Z.sub_diag (bo_zero H).
have hc : chain (tp ntau i) (ops_from_right tau ntau ops i) (tp ntau i.+1) by apply: range_chain => //; [exact: tp_mono|exact: rng_co_in].
move=> b /=; rewrite (ek_steps H) // (keq_steps H hc (IH (ltnW hi))) (steps_app H) //.
by apply: ksegs_chain => //; exact: ltnW.
Qed.

Lemma bsegs_eq ntau ops m : csorted ops -> m <= ntau - 1 -> 0 < m ->
  (forall j, ntau - 1 - m < j -> j < ntau - 1 -> free_at (tp ntau j) ops) ->
  bsegs ntau ops m = range (rng_cc (tp ntau (ntau - 1 - m)) (tp ntau (ntau - 1))) ops.
Proof.
move=> hs; elim: m => // m IH hm _ hf; rewrite [bsegs _ _ _]/=.
case: (posnP m) => m0.
  by subst m; rewrite /= app_nil_r /ops_from_left; have -> : (ntau - 1 - 1).+1 = ntau - 1 by lia.
rewrite IH //; [|exact: ltnW|by move=> j h1 h2; apply: hf => //; lia].
have e : ntau - 1 - m = (ntau - 1 - m.+1).+1 by lia.
have h0 := @tp_mono ntau (ntau - 1 - m.+1) (ntau - 1 - m); have h1 := @tp_mono ntau (ntau - 1 - m) (ntau - 1).
have {}h0 : (tp ntau (ntau - 1 - m.+1) <= tp ntau (ntau - 1 - m))%coqZ by apply: h0; lia.
have {}h1 : (tp ntau (ntau - 1 - m) <= tp ntau (ntau - 1))%coqZ by apply: h1; lia.
have hfr : free_at (tp ntau (ntau - 1 - m)) ops by apply: hf; lia.
rewrite /ops_from_left -e /range [RHS](@fsplit _ (before (tp ntau (ntau - 1 - m))) ops hs); last by move=> x y; exact: before_down.
move: (tp ntau (ntau - 1 - m.+1)) (tp ntau (ntau - 1 - m)) (tp ntau (ntau - 1)) h0 h1 hfr => a b c h0 h1 hfr.
congr (_ ++ _)%list; apply: List.filter_ext_in => x /hfr hne; last by ords x.
have {}hne : ~ (ot_time (p_time x) = b /\ ot_small (p_time x) = 0%coqZ).
  by move: hne; rewrite /at_; case: (p_time x) => t i /= hne [? ?]; apply: hne; congr OT.
move: hne; ords x.
Qed.
Lemma bsegs_chain ntau ops m : csorted ops -> m <= ntau - 1 -> chain (tp ntau (ntau - 1 - m)) (bsegs ntau ops m) (tp ntau (ntau - 1)).
Proof.
move=> hs; elim: m => [|m IH] hm; first by rewrite /= subn0; lia.
apply: (@chain_app _ _ (tp ntau (ntau - 1 - m))); last by apply: IH; exact: ltnW.
have e : ntau - 1 - m = (ntau - 1 - m.+1).+1 by lia.
by rewrite e; apply: range_chain => //; [apply: tp_mono; lia|exact: rng_cc_in].
Qed.
Lemma bra_down_eq ntau ops b m k : csorted ops -> m <= ntau - 1 ->
  product (bra_down bra_invalid apply_bra prop_bra normalize_bra tau ntau ops b m) k =
  product b (kst (tp ntau (ntau - 1 - m)) (bsegs ntau ops m) (tp ntau (ntau - 1)) k).
Proof.
move=> hs; elim: m k => [|m IH] k hm; first by rewrite /= subn0 Z.sub_diag (bo_zero H).
have e : ntau - 1 - m = (ntau - 1 - m.+1).+1 by lia.
have hc : chain (tp ntau (ntau - 1 - m.+1)) (ops_from_left tau ntau ops (ntau - 1 - m.+1)) (tp ntau (ntau - 1 - m.+1).+1).
  by apply: range_chain => //; [apply: tp_mono; lia|exact: rng_cc_in].
rewrite [bra_down _ _ _ _ _ _ _ _ _]/= (eb_steps H) // IH; last exact: ltnW.
by rewrite -e (steps_app H) //; [rewrite e|apply: bsegs_chain => //; exact: ltnW].
Qed.

(** ** C54 *)
Lemma corr_wf ops s ntau s1 s2 : reach ops s -> 2 <= ntau ->
  setw (num_win ntau) ops (right_edge_pos ntau) (Some ITIME_LEFT) s = WOk s1 ->
  leftto ops (left_edge_pos ntau) s1 = WOk s2 ->
  wf ops s2 /\ nwin s2 = num_win ntau /\ posR s2 = right_edge_pos ntau /\ posL s2 = left_edge_pos ntau.
Proof.
rewrite /left_edge_pos /right_edge_pos /num_win half2 => /(reach_wf tau_mono)[h hr] hn e1 e2.
have [||x1 [f1 [w1 [n1 H1]]]] := setw_ok ops (n:=2 * (ntau - 1)) (r:=ntau - 1) (Some ITIME_LEFT) h; [lia|lia|].
move: e1; rewrite f1 => -[ee]; subst x1; move: H1; have -> : 1 < 2 * (ntau - 1) by lia.
move=> [p1 _].
have [||x2 [f2 [w2 [r2 [l2 [n2 _]]]]]] := leftto_ok (p:=ntau - 1 + 2 * (ntau - 1)) w1; [lia|lia|].
by move: e2; rewrite f2 => -[<-]; rewrite n2 n1 r2 l2.
Qed.

(** The measured value is the trace with the two observables inserted at the first tau point and at tau point itau,
    if no operator lies exactly on a later tau point. *)
Theorem C54_value ops s ntau s1 s2 oLb oLk oRb oRk itau : reach ops s -> 2 <= ntau -> csorted ops -> times_in beta ops ->
  setw (num_win ntau) ops (right_edge_pos ntau) (Some ITIME_LEFT) s = WOk s1 ->
  leftto ops (left_edge_pos ntau) s1 = WOk s2 ->
  obs_adj oLb oLk -> obs_adj oRb oRk -> itau <= ntau - 1 ->
  (forall j, itau < j -> j < ntau - 1 -> free_at (tp ntau j) ops) ->
  (itau = ntau - 1 -> free_at (tp ntau itau) ops) ->
  cvalue ntau ops oLb oRk itau s2 = corr_spec (tp ntau 0) (tp ntau itau) oLk oRk ops.
Proof.
move=> hr hn hs ht e1 e2 aL aR hi hf hl.
have [w2 [n2 [r2 l2]]] := corr_wf hr hn e1 e2.
have n0 : 0 < num_win ntau by rewrite /num_win; lia.
have hR : right_edge_pos ntau <= 2 * num_win ntau by rewrite /right_edge_pos /num_win half2; lia.
have hL : left_edge_pos ntau <= 2 * num_win ntau by rewrite /left_edge_pos /right_edge_pos /num_win half2; lia.
have tR : tau (num_win ntau) (right_edge_pos ntau) = tp ntau 0 by rewrite /tau_point muln0 addn0.
have tL : tau (num_win ntau) (left_edge_pos ntau) = tp ntau (ntau - 1) by rewrite /tau_point /left_edge_pos /right_edge_pos.
have hseg : chain (tp ntau 0) (opsA (tp ntau 0) (opsB (tp ntau itau) ops)) (tp ntau itau).
  by rewrite -ksegs_eq //; exact: ksegs_chain.
rewrite /corr_value; apply: (frames_sum w2 hs) => e b nb k nk; rewrite n2 r2 l2 tR tL => HL HR.
have ei : ntau - 1 - (ntau - 1 - itau) = itau by lia.
have hb := @bsegs_chain ntau ops (ntau - 1 - itau) hs (leq_subr _ _); rewrite ei in hb.
have hcL := @left_chain tau beta tau_beta tau_mono (num_win ntau) ops (left_edge_pos ntau) n0 hs hL; rewrite tL in hcL.
rewrite /corr_braket /= aL bra_down_eq ?leq_subr // ei HL (steps_app H) //.
have -> : (bsegs ntau ops (ntau - 1 - itau) ++ left_segments tau (num_win ntau) (left_edge_pos ntau) ops)%list = opsA (tp ntau itau) ops.
  rewrite (left_segments_after tau_beta tau_mono n0 hs ht hL) tL /opsA.
  rewrite [RHS](@fsplit _ (fun x => ~~ after (tp ntau (ntau - 1)) x) ops hs); last by move=> x y h1; apply: contra => h2; exact: lt_trans_ h2 h1.
  have hm := @tp_mono ntau itau (ntau - 1) hi (leqnn _).
  case: (ltnP itau (ntau - 1)) => hi'.
    rewrite bsegs_eq ?ei //; [|exact: leq_subr|lia]; rewrite /range.
    move: (tp ntau itau) (tp ntau (ntau - 1)) hm => a c hm.
    congr (_ ++ _)%list; apply: List.filter_ext => x; ords x.
  have e3 : itau = ntau - 1 by lia.
  rewrite e3 subnn [bsegs _ _ _]/=; have := hl e3; rewrite e3; move: (tp ntau (ntau - 1)) => a hfr.
  have hfr' x : In x ops -> ~ (ot_time (p_time x) = a /\ ot_small (p_time x) = 0%coqZ).
    by move=> /hfr; rewrite /at_; case: (p_time x) => t i /= hne [? ?]; apply: hne; congr OT.
  rewrite (_ : List.filter (fun x => ~~ ~~ after a x && ~~ before a x) ops = List.filter (after a) ops); last first.
    by apply: List.filter_ext => x; ords x.
  have -> : List.filter (fun x => ~~ after a x && ~~ before a x) ops = [] by apply: filter_none => x /hfr'; ords x.
  by [].
have hcA : chain (tp ntau itau) (opsA (tp ntau itau) ops) beta.
  apply: sorted_chain; first exact: filter_sorted.
    by rewrite -(@tau_beta (num_win ntau)) //; apply: tau_mono; rewrite // /right_edge_pos /num_win half2; lia.
  move=> x; rewrite filter_In => -[/ht[_ h1] h2]; move: h1 h2; move: (tp ntau itau) => a; rewrite /ptau; ords x.
apply: (keq_steps H hcA) => b'; rewrite -!aL ket_at_eq // ksegs_eq //.
apply: (keq_steps H hseg) => b''; rewrite -!aR HR (right_segments_before tau_0 tau_mono n0 hs ht hR) tR.
by [].
Qed.

(** ** C57: static observables *)
Lemma static_wf ops s s1 s2 : reach ops s -> leftto ops (nwin s) s = WOk s1 -> rightto ops (nwin s) s1 = WOk s2 ->
  wf ops s2 /\ nwin s2 = nwin s /\ posR s2 = nwin s /\ posL s2 = nwin s.
Proof.
move=> /(reach_wf tau_mono)[h hr] e1 e2.
have [||x1 [f1 [w1 [r1 [l1 [n1 _]]]]]] := leftto_ok (p:=nwin s) h; first exact: wf_n h; first lia.
move: e1; rewrite f1 => -[ee]; subst x1.
have [|x2 [f2 [w2 [r2 [l2 [n2 _]]]]]] := rightto_ok (p:=nwin s) w1; first by have := wf_n h; lia.
by move: e2; rewrite f2 => -[<-]; rewrite n2 n1 r2 l2 l1.
Qed.
Theorem C57_static ops s s1 s2 ob ok : reach ops s -> csorted ops -> times_in beta ops ->
  leftto ops (nwin s) s = WOk s1 -> rightto ops (nwin s) s1 = WOk s2 -> obs_adj ob ok ->
  free_at (tau (nwin s) (nwin s)) ops ->
  svalue ok s2 = static_spec (tau (nwin s) (nwin s)) ok ops.
Proof.
move=> hr hs ht e1 e2 ao hf; have [w2 [n2 [r2 l2]]] := static_wf hr e1 e2.
have n0 : 0 < nwin s by rewrite -n2; exact: wf_n w2.
rewrite /static_value; apply: (frames_sum w2 hs) => e b nb k nk; rewrite n2 r2 l2 => HL HR.
have hL : nwin s <= 2 * nwin s by lia.
have -> : static_braket ket_invalid bra_invalid product ok ((b, nb), (k, nk)) = product b (ok k).
  rewrite /static_braket /=; case: ifP => // /orP[h|h]; first by rewrite (bo_invb H).
  by rewrite -ao (bo_invk H).
rewrite HL (left_segments_after tau_beta tau_mono n0 hs ht hL).
have -> : List.filter (after (tau (nwin s) (nwin s))) ops = opsA (tau (nwin s) (nwin s)) ops.
  apply: List.filter_ext_in => x /hf hne; move: (tau _ _) hne => a hne.
  have {}hne : ~ (ot_time (p_time x) = a /\ ot_small (p_time x) = 0%coqZ).
    by move: hne; rewrite /at_; case: (p_time x) => t i /= hne [? ?]; apply: hne; congr OT.
  move: hne; ords x.
have hcA : chain (tau (nwin s) (nwin s)) (opsA (tau (nwin s) (nwin s)) ops) beta.
  apply: sorted_chain; first exact: filter_sorted.
    by rewrite -(@tau_beta (nwin s)) //; apply: tau_mono; lia.
  move=> x; rewrite filter_In => -[/ht[_ h1] h2]; move: h1 h2; move: (tau _ _) => a; rewrite /ptau; ords x.
apply: (keq_steps H hcA) => b'; rewrite -!ao HR (right_segments_before tau_0 tau_mono n0 hs ht hL).
by [].
Qed.
End TMeas.

(** ** Instances and refutations: one orbital, n(tau) n(0), beta = 8, three tau points 2, 4, 6 *)
Definition a_n (K : numFieldType) (k : aket K) : aket K := if k is Some (true, a) then Some (true, a) else None.
Lemma a_n_adj (K : numFieldType) : obs_adj (@a_prod K) (@a_n K) (@a_n K).
Proof. by move=> [[[] a]|] [[[] a']|]. Qed.

Notation rK := rat_numFieldType.
Notation hw := (1 / 2%:R : rK)%R.
Notation a_reachr := (reach (a_outer _) (@a_invalid rK) (@a_invalid _) None None (fun o _ => @a_c _ o) (fun o _ => a_c (a_flip o))
    (a_prop hw) (a_prop hw) id id (@a_norm _) (@a_norm _) a_tau 0%R).
Notation a_set := (set_window_size (@a_invalid rK) (@a_invalid _) None None (fun o _ => @a_c _ o) (fun o _ => a_c (a_flip o))
    (a_prop hw) (a_prop hw) id id (@a_norm _) (@a_norm _) a_tau 0%R).
Notation a_left := (move_left_edge_to (@a_invalid rK) None (fun o _ => a_c (a_flip o)) (a_prop hw) id (@a_norm _) a_tau 0%R).
Notation a_right := (move_right_edge_to (@a_invalid rK) None (fun o _ => @a_c _ o) (a_prop hw) id (@a_norm _) a_tau 0%R).
Notation a_corr := (corr_value (@a_invalid rK) (@a_invalid _) (fun o _ => @a_c _ o) (fun o _ => a_c (a_flip o)) (a_prop hw) (a_prop hw) id id (@a_prod _) a_tau).
Notation a_spec := (corr_spec (a_outer rK) (fun o _ => @a_c _ o) (a_prop hw) (@a_prod _) 8%coqZ).

Lemma a_init (ops : container) n : 1 <= n -> exists s, a_reachr ops s /\ nwin s = n.
Proof.
move=> hn; have [s [e [w0 [h1 _]]]] := @initw_ok rK (aket _) (aket _) (a_outer _) (@a_invalid _) (@a_invalid _) None None (fun o _ => @a_c _ o) (fun o _ => a_c (a_flip o)) (a_prop hw) (a_prop hw) id id (@a_norm _) (@a_norm _) a_tau 0%R ops n (SW [] [] 0 0 0 None) hn.
by exists s; split=> //; apply: reach_init hn e.
Qed.
Lemma a_corr_state ops : exists s s1 s2, a_reachr ops s /\ nwin s = 2 /\ a_set (num_win 3) ops (right_edge_pos 3) (Some ITIME_LEFT) s = WOk s1 /\
  a_left ops (left_edge_pos 3) s1 = WOk s2.
Proof.
have [s [hr hn]] := @a_init ops 2 erefl; exists s.
have [_ [_ [_ [_ /(_ 3 erefl)[s1 [s2 [_ [e1 [e2 _]]]]]]]]] := C19_no_failure a_tau_mono hr.
by exists s1, s2.
Qed.

(** Operators at 3 and 5: the correlator n(4) n(2) with two operators between is 0 and n(6) n(2) is w^6. *)
Example C54_instance : exists s s1 s2, a_reachr a_ops s /\ a_set (num_win 3) a_ops (right_edge_pos 3) (Some ITIME_LEFT) s = WOk s1 /\
  a_left a_ops (left_edge_pos 3) s1 = WOk s2 /\
  a_corr 3 a_ops (@a_n _) (@a_n _) 0 s2 = (1 / 64%:R)%R /\ a_corr 3 a_ops (@a_n _) (@a_n _) 1 s2 = 0%R /\
  a_corr 3 a_ops (@a_n _) (@a_n _) 2 s2 = (1 / 64%:R)%R.
Proof.
have [s [s1 [s2 [hr [hn [e1 e2]]]]]] := a_corr_state a_ops; exists s, s1, s2.
have norm_ge0 : forall k, (0 <= @a_norm rK k)%R by move=> [[[] a]|] //=.
have V := C54_value (a_ok hw) a_tau_0 a_tau_beta a_tau_mono erefl norm_ge0 norm_ge0 hr _ a_sorted a_times e1 e2 (@a_n_adj _) (@a_n_adj _).
have F j : j <= 2 -> free_at (tau_point a_tau 3 j) a_ops by case: j => [|[|[|j]]] // _ x [<-|[<-|[]]].
do 3!split=> //; split; [|split].
- by rewrite V // => j h1 h2; apply: F; lia.
- by rewrite V // => j h1 h2; apply: F; lia.
- by rewrite V // => *; apply: F; lia.
Qed.

(** An operator exactly on an interior tau point acts twice on the bra. *)
Theorem C54_interior_refuted : exists ops s s1 s2, a_reachr ops s /\ csorted ops /\ times_in 8 ops /\
  a_set (num_win 3) ops (right_edge_pos 3) (Some ITIME_LEFT) s = WOk s1 /\ a_left ops (left_edge_pos 3) s1 = WOk s2 /\
  a_corr 3 ops (@a_n _) (@a_n _) 0 s2 != a_spec (tau_point a_tau 3 0) (tau_point a_tau 3 0) (@a_n _) (@a_n _) ops.
Proof.
exists [Psi (OT 3%coqZ 0%coqZ) ANNIHILATION_OP 0; Psi (OT 4%coqZ 0%coqZ) CREATION_OP 0].
have [s [s1 [s2 [hr [hn [e1 e2]]]]]] := a_corr_state [Psi (OT 3%coqZ 0%coqZ) ANNIHILATION_OP 0; Psi (OT 4%coqZ 0%coqZ) CREATION_OP 0].
exists s, s1, s2; split=> //; split; first by repeat constructor.
split; first by move=> x [<-|[<-|[]]].
split=> //; split=> //.
have [w2 [n2 [r2 l2]]] := corr_wf a_tau_mono hr (erefl : 2 <= 3) e1 e2.
rewrite /corr_value /top (wf_right w2) (wf_left w2) n2 r2 l2.
by vm_compute.
Qed.
(** An operator exactly on the last tau point is missed when the left observable sits there. *)
Theorem C54_last_refuted : exists ops s s1 s2, a_reachr ops s /\ csorted ops /\ times_in 8 ops /\
  a_set (num_win 3) ops (right_edge_pos 3) (Some ITIME_LEFT) s = WOk s1 /\ a_left ops (left_edge_pos 3) s1 = WOk s2 /\
  a_corr 3 ops (@a_n _) (@a_n _) 2 s2 != a_spec (tau_point a_tau 3 0) (tau_point a_tau 3 2) (@a_n _) (@a_n _) ops.
Proof.
exists [Psi (OT 6%coqZ 0%coqZ) ANNIHILATION_OP 0; Psi (OT 7%coqZ 0%coqZ) CREATION_OP 0].
have [s [s1 [s2 [hr [hn [e1 e2]]]]]] := a_corr_state [Psi (OT 6%coqZ 0%coqZ) ANNIHILATION_OP 0; Psi (OT 7%coqZ 0%coqZ) CREATION_OP 0].
exists s, s1, s2; split=> //; split; first by repeat constructor.
split; first by move=> x [<-|[<-|[]]].
split=> //; split=> //.
have [w2 [n2 [r2 l2]]] := corr_wf a_tau_mono hr (erefl : 2 <= 3) e1 e2.
rewrite /corr_value /top (wf_right w2) (wf_left w2) n2 r2 l2.
by vm_compute.
Qed.

Lemma a_static_state ops : exists s s1 s2, a_reachr ops s /\ nwin s = 2 /\ a_left ops (nwin s) s = WOk s1 /\ a_right ops (nwin s) s1 = WOk s2.
Proof.
have [s [hr hn]] := @a_init ops 2 erefl; exists s.
have [_ [_ [_ [[s1 [s2 [_ [e1 [e2 _]]]]] _]]]] := C19_no_failure a_tau_mono hr.
by exists s1, s2.
Qed.
Example C57_instance : exists s s1 s2, let ops := [Psi (OT 5%coqZ 0%coqZ) ANNIHILATION_OP 0; Psi (OT 6%coqZ 0%coqZ) CREATION_OP 0] in
  a_reachr ops s /\ a_left ops (nwin s) s = WOk s1 /\ a_right ops (nwin s) s1 = WOk s2 /\
  static_value (@a_invalid rK) (@a_invalid _) (@a_prod _) (@a_n _) s2 = (1 / 128%:R)%R.
Proof.
have [s [s1 [s2 [hr [hn [e1 e2]]]]]] := a_static_state [Psi (OT 5%coqZ 0%coqZ) ANNIHILATION_OP 0; Psi (OT 6%coqZ 0%coqZ) CREATION_OP 0].
exists s, s1, s2; split=> //; split=> //; split=> //.
have norm_ge0 : forall k, (0 <= @a_norm rK k)%R by move=> [[[] a]|] //=.
rewrite (C57_static (a_ok hw) a_tau_0 a_tau_beta a_tau_mono erefl norm_ge0 norm_ge0 hr _ _ e1 e2 (@a_n_adj _)).
- by rewrite hn; vm_compute.
- by repeat constructor.
- by move=> x [<-|[<-|[]]].
- by rewrite hn => x [<-|[<-|[]]].
Qed.
(** An operator exactly at the time of the measurement acts on neither side. *)
Theorem C57_refuted : exists ops s s1 s2, a_reachr ops s /\ csorted ops /\ times_in 8 ops /\
  a_left ops (nwin s) s = WOk s1 /\ a_right ops (nwin s) s1 = WOk s2 /\
  static_value (@a_invalid rK) (@a_invalid _) (@a_prod _) (@a_n _) s2 !=
  static_spec (a_outer rK) (fun o _ => @a_c _ o) (a_prop hw) (@a_prod _) 8%coqZ (a_tau (nwin s) (nwin s)) (@a_n _) ops.
Proof.
exists [Psi (OT 4%coqZ 0%coqZ) ANNIHILATION_OP 0; Psi (OT 6%coqZ 0%coqZ) CREATION_OP 0].
have [s [s1 [s2 [hr [hn [e1 e2]]]]]] := a_static_state [Psi (OT 4%coqZ 0%coqZ) ANNIHILATION_OP 0; Psi (OT 6%coqZ 0%coqZ) CREATION_OP 0].
exists s, s1, s2; split=> //; split; first by repeat constructor.
split; first by move=> x [<-|[<-|[]]].
split=> //; split=> //.
have [w2 [n2 [r2 l2]]] := static_wf a_tau_mono hr e1 e2.
rewrite /static_value /top (wf_right w2) (wf_left w2) n2 r2 l2 hn.
by vm_compute.
Qed.

Print Assumptions C54_value.
Print Assumptions C54_interior_refuted.
Print Assumptions C54_last_refuted.
Print Assumptions C57_static.
Print Assumptions C57_refuted.
