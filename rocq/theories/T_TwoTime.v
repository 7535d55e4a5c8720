(** * C72: the measurement of two-time correlation functions averages over times and flavors without a bias *)
From Coq Require Import ZArith Lia.
From mathcomp Require Import all_ssreflect all_algebra all_fingroup zify ssrZ.
From Verif Require Import OpContainer Dist Proposal EigenBasis Legendre Measure Window T_Window T_WindowTrace TwoTime KField.
Import Order.Theory GRing.Theory Num.Theory.
Set Implicit Arguments.
Unset Strict Implicit.
Unset Printing Implicit Defensive.
Local Close Scope Z_scope.
Local Open Scope nat_scope.
Local Open Scope ring_scope.
Delimit Scope Z_scope with coqZ.

(** ** The set of times as a set of sites *)
Section Sets.
Variable g : nat.
Notation site := 'I_g.
(** Specification of the choice of the times: sites are drawn until there are [n] of them, those in [dup] are refused *)
Fixpoint draw_set (n : nat) (s : seq site) (A B : {set site}) : option {set site} :=
  if (n <= #|A|)%N then Some A
  else match s with
       | [::] => None
       | x :: r => if x \in B then draw_set n r A B else draw_set n r (x |: A) (x |: B)
       end.
Lemma draw_perm n (p : {perm site}) : forall (s : seq site) (A B : {set site}), draw_set n (map p s) (p @: A) (p @: B) = omap (fun X : {set site} => p @: X) (draw_set n s A B).
Proof.
have im x (X : {set site}) : (p x \in p @: X) = (x \in X) by rewrite mem_imset //; exact: perm_inj.
have card (X : {set site}) : #|p @: X| = #|X| by rewrite card_imset //; exact: perm_inj.
elim=> [|x s IH] A B /=; rewrite card; case: ifP => // _.
by rewrite im; case: ifP => // _; rewrite -!imsetU1 IH.
Qed.
Lemma draw_sub n : forall s A B X, draw_set n s A B = Some X -> A \subset X.
Proof.
elim=> [|x s IH] A B X /=; case: ifP => // _; first by case=> <-.
  by case=> <-.
case: ifP => _ /IH // h; apply: subset_trans h; exact: subsetUr.
Qed.
(** Sites that do not belong to other operators *)
Variable occ : {set site}.
Definition from n (s : seq site) (i : site) : option {set site} := draw_set n s [set i] (i |: occ).
Lemma from_exchange n s i j X : i \notin occ -> j \notin occ -> from n s i = Some X -> j \in X -> from n (map (tperm i j) s) j = Some X.
Proof.
move=> hi hj e hX; have hiX : i \in X by have := draw_sub e; rewrite sub1set.
have eo : tperm i j @: occ = occ.
  apply/setP=> k; rewrite -[k](tpermK i j) mem_imset; last exact: perm_inj.
  by rewrite tpermK; case: tpermP => // ->; rewrite ?(negbTE hi) ?(negbTE hj).
have eX : tperm i j @: X = X.
  apply/setP=> k; rewrite -[k](tpermK i j) mem_imset; last exact: perm_inj.
  by rewrite tpermK; case: tpermP => // ->; rewrite ?hiX ?hX.
have := draw_perm n (tperm i j) s [set i] (i |: occ).
by rewrite imset_set1 imsetU1 eo tpermL -/(from n s i) e /= eX.
Qed.

Variable L : nat.
Definition ways n (i : site) (X : {set site}) : nat := #|[set s : L.-tuple site | from n s i == Some X]|.
Lemma ways_exchange n (i j : site) (X : {set site}) : i \notin occ -> j \notin occ -> i \in X -> j \in X -> ways n i X = ways n j X.
Proof.
move=> hi hj iX jX; pose f (s : L.-tuple site) := [tuple of map (tperm i j) s].
have fK : involutive f by move=> s; apply: val_inj; rewrite /= -map_comp map_id_in // => k _ /=; rewrite tpermK.
rewrite /ways -(card_imset _ (inv_inj fK)); apply: eq_card => s; rewrite inE -{1}(fK s) mem_imset ?inE; last exact: inv_inj.
apply/eqP/eqP=> [/(from_exchange hi hj) /(_ jX)|/(from_exchange hj hi) /(_ iX)]; last by rewrite /= tpermC.
by rewrite -[X in from _ (tval X) _ = _ -> _]/(f (f s)) fK.
Qed.

(** The average over the chosen times and over two sets of flavors has the same mean as the value of the current one *)
Variable K : numFieldType.
Variable F : finType.
Variables (w : site -> F -> K) (a : site -> F -> K).
Hypothesis w0 : forall i f, w i f = 0 -> a i f = 0.
Notation amt := (fun (X : {set site}) f => \sum_(i in X) a i f).
Notation nrm := (fun (X : {set site}) f => \sum_(i in X) `|w i f|).
Lemma nrm_zero (X : {set site}) f : nrm X f = 0 -> amt X f = 0.
Proof.
move=> e; apply: big1 => i iX; apply: w0; apply/eqP; rewrite -normr_eq0; apply/eqP.
exact: (psumr_eq0P (fun i _ => normr_ge0 (w i f)) e).
Qed.
Lemma share (X : {set site}) f f' : (nrm X f + nrm X f') * ((amt X f + amt X f') / (nrm X f + nrm X f')) = amt X f + amt X f'.
Proof.
case: (eqVneq (nrm X f + nrm X f') 0) => [e|ne]; last by rewrite mulrCA mulfV ?mulr1.
have p h : 0 <= nrm X h by apply: sumr_ge0 => i _; exact: normr_ge0.
move/eqP: (e); rewrite paddr_eq0 // => /andP[/eqP e1 /eqP e2].
by rewrite e mul0r (nrm_zero e1) (nrm_zero e2) addr0.
Qed.
Lemma unbiased n :
  \sum_(i | i \notin occ) \sum_f `|w i f| * (\sum_(s : L.-tuple site) \sum_f' if from n s i is Some X then (amt X f + amt X f') / (nrm X f + nrm X f') else 0)
  = \sum_(i | i \notin occ) \sum_f \sum_(s : L.-tuple site) \sum_(f' : F) if from n s i is Some X then a i f else 0.
Proof.
have grp (h : {set site} -> K) i : \sum_(s : L.-tuple site) (if from n s i is Some X then h X else 0) = \sum_(X : {set site}) h X *+ ways n i X.
  rewrite (eq_bigr (fun s : L.-tuple site => \sum_(X : {set site} | from n s i == Some X) h X)); last first.
    move=> s _; case: (from n s i) => [X|]; last by rewrite big_pred0.
    rewrite (eq_bigl (pred1 X)) ?big_pred1_eq // => Y; rewrite /= eq_sym; apply/eqP/eqP=> [[]|->] //.
  rewrite (exchange_big_dep predT) //=; apply: eq_bigr => X _; rewrite sumr_const; congr (_ *+ _); apply: eq_card => s.
  by rewrite !inE.
have out i (X : {set site}) : i \notin X -> ways n i X = 0%N.
  move=> h; apply/eqP; rewrite cards_eq0; apply/eqP/setP=> s; rewrite !inE; apply/eqP=> /draw_sub.
  by rewrite sub1set (negbTE h).
(* every set that can be drawn has the same number of ways from each of its free sites *)
have [c hc] : exists c : {set site} -> nat, forall i (X : {set site}), i \notin occ -> i \in X -> ways n i X = c X.
  exists (fun X : {set site} => if [pick i in X :\: occ] is Some i then ways n i X else 0%N) => i X hi iX.
  case: pickP => [j|/(_ i)]; last by rewrite !inE hi iX.
  by rewrite !inE => /andP[jo jX]; apply: ways_exchange.
(* sets that contain an occupied site are never drawn *)
have free i (X : {set site}) : ways n i X != 0%N -> i \notin occ -> [disjoint X & occ].
  rewrite cards_eq0 => /set0Pn[s]; rewrite inE => /eqP e hi.
  have : [disjoint [set i] & occ] by rewrite disjoints1.
  have : occ \subset i |: occ by exact: subsetUr.
  move: e; rewrite /from; elim: (tval s) [set i] (i |: occ) => [|x r IH] A B /=; case: ifP => _ //; try by case=> <-.
  case: ifP => hx e hB hA; first exact: IH e hB hA.
  apply: IH e _ _; first by apply: subset_trans hB _; exact: subsetUr.
  rewrite -setI_eq0 setIUl setU_eq0 !setI_eq0 hA andbT disjoints1; apply: contraFN hx; exact: (subsetP hB).
pose cc (X : {set site}) := if [disjoint X & occ] then c X else 0%N.
have wE i (X : {set site}) : i \notin occ -> ways n i X = if i \in X then cc X else 0%N.
  move=> hi; case: ifP => iX; last by rewrite out ?iX.
  rewrite /cc; case: ifP => d; first exact: hc.
  by apply/eqP/negPn/negP=> /free -/(_ hi); rewrite d.
have regroup (h : site -> {set site} -> K) : \sum_(i | i \notin occ) \sum_(X : {set site}) h i X *+ ways n i X =
    \sum_(X : {set site}) (\sum_(i in X) h i X) *+ cc X.
  rewrite exchange_big /=; apply: eq_bigr => X _; rewrite -sumrMnl.
  rewrite (bigID [pred i | i \in X]) /= [X in _ + X]big1 ?addr0; last first.
    by move=> i /andP[hi iX]; rewrite (wE _ _ hi) (negbTE iX) mulr0n.
  rewrite [RHS](bigID [pred i | i \in occ]) /= [X in _ = X + _]big1 ?add0r; last first.
    move=> i /andP[iX io]; rewrite /cc; case: ifP => // /pred0P /(_ i); by rewrite /= iX io.
  by apply: eq_big => [i|i /andP[hi iX]]; rewrite ?(wE _ _ hi) ?iX // andbC.
transitivity (\sum_f \sum_f' \sum_(X : {set site}) (nrm X f * ((amt X f + amt X f') / (nrm X f + nrm X f'))) *+ cc X).
  rewrite exchange_big /=; apply: eq_bigr => f _.
  rewrite (eq_bigr (fun i => \sum_f' \sum_(X : {set site}) (`|w i f| * ((amt X f + amt X f') / (nrm X f + nrm X f'))) *+ ways n i X)); last first.
    move=> i _; rewrite exchange_big big_distrr /=; apply: eq_bigr => f' _; rewrite grp big_distrr /=.
    by apply: eq_bigr => X _; rewrite mulrnAr.
  rewrite exchange_big /=; apply: eq_bigr => f' _; rewrite regroup; apply: eq_bigr => X _; by rewrite -mulr_suml.
transitivity (\sum_f \sum_(f' : F) \sum_(X : {set site}) amt X f *+ cc X); last first.
  rewrite [RHS]exchange_big /=; apply: eq_bigr => f _.
  rewrite (eq_bigr (fun i => \sum_(f' : F) \sum_(X : {set site}) a i f *+ ways n i X)); last first.
    by move=> i _; rewrite exchange_big /=; apply: eq_bigr => f' _; rewrite (grp (fun=> a i f)).
  by rewrite [RHS]exchange_big /=; apply: eq_bigr => f' _; rewrite (regroup (fun i _ => a i f)).
apply: (@mulIf _ 2%:R); first by rewrite pnatr_eq0.
have dbl (h : F -> F -> K) : (\sum_f \sum_f' h f f') * 2%:R = \sum_f \sum_f' (h f f' + h f' f).
  rewrite mulr_natr mulr2n {2}exchange_big /= -big_split /=; apply: eq_bigr => f _; by rewrite -big_split.
rewrite !dbl; apply: eq_bigr => f _; apply: eq_bigr => f' _; rewrite -!big_split /=; apply: eq_bigr => X _.
by rewrite -!mulrnDl [amt X f' + _]addrC [nrm X f' + _]addrC -mulrDl share.
Qed.
End Sets.

(** ** The list of times *)
Lemma mem_zins x l y : (y \in zins x l) = (y == x) || (y \in l).
Proof.
elim: l => [|z l IH] /=; first by rewrite mem_seq1 in_nil orbF.
case: Z.ltb_spec => h1; first by rewrite !inE.
case: Z.ltb_spec => h2; first by rewrite !inE IH orbCA.
have -> : x = z by lia.
by rewrite in_cons orbA orbb.
Qed.
Lemma perm_zins x l : x \notin l -> perm_eq (zins x l) (x :: l).
Proof.
elim: l => [|z l IH] //=; rewrite inE negb_or => /andP[ne nl].
case: Z.ltb_spec => h1 //; case: Z.ltb_spec => h2; last by case/eqP: ne; lia.
rewrite -cat1s -[x :: z :: l]/([:: x] ++ [:: z] ++ l) perm_sym perm_catCA perm_cat2l /= perm_sym; exact: IH.
Qed.
Lemma ltb_trans : transitive Z.ltb.
Proof. by move=> b a c h1 h2; lia. Qed.
Lemma sorted_zins x l : sorted Z.ltb l -> sorted Z.ltb (zins x l).
Proof.
elim: l => [|z l IH] //= hp; case: Z.ltb_spec => h1 /=; first by rewrite hp andbT; lia.
case: Z.ltb_spec => h2 //=; have {}IH := IH (path_sorted hp).
have hz : all (Z.ltb z) l by exact: order_path_min ltb_trans hp.
rewrite path_min_sorted //; apply/allP=> y; rewrite mem_zins => /orP[/eqP->|hy]; first lia.
exact: (allP hz).
Qed.
Lemma mem_dup (ops : container) : forall d y, (y \in foldl (fun d x => zins (ot_time (p_time x)) d) d ops) =
  (y \in d) || (y \in [seq ot_time (p_time x) | x <- ops]).
Proof. by elim: ops => [|x ops IH] d y /=; rewrite ?orbF // IH mem_zins inE orbA [_ || (y \in d)]orbC. Qed.

Lemma gather_spec n : forall draws times dup xs, sorted Z.ltb times -> {subset times <= dup} -> gather n draws times dup = Some xs ->
  [/\ sorted Z.ltb xs, {subset times <= xs}, (forall x, x \in xs -> x \in times \/ x \in draws /\ x \notin dup) & (size times <= n)%N -> size xs = n].
Proof.
have base times xs : sorted Z.ltb times -> (n <= size times)%N -> Some times = Some xs ->
    [/\ sorted Z.ltb xs, {subset times <= xs}, (forall x, x \in xs -> x \in times) & (size times <= n)%N -> size xs = n].
  by move=> hs h [<-]; split=> // h2; apply/eqP; rewrite eqn_leq h2.
elim=> [|x draws IH] times dup xs hs hd /=.
  by case: ifP => // h /(base _ _ hs h)[h1 h2 h3 h4]; split=> // y /h3; left.
case: ifP => [h /(base _ _ hs h)[h1 h2 h3 h4]|h]; first by split=> // y /h3; left.
case: ifP => hx.
  move/IH=> /(_ hs hd)[h1 h2 h3 h4]; split=> // y /h3[|[hy hn]]; first by left.
  by right; rewrite inE hy orbT.
have nx : x \notin times by apply: contraFN hx; exact: hd.
move/IH=> /(_ (sorted_zins _ hs))[|h1 h2 h3 h4]; first by move=> y; rewrite !mem_zins => /orP[->//|/hd->]; rewrite orbT.
split=> // [y hy|y /h3[]|_].
- by apply: h2; rewrite mem_zins hy orbT.
- by rewrite mem_zins => /orP[/eqP->|]; [right; rewrite mem_head hx|left].
- by rewrite mem_zins negb_or => -[hy /andP[_ hn]]; right; rewrite inE hy orbT.
- by apply: h4; rewrite (perm_size (perm_zins nx)) /=; move/negbT: h; rewrite -ltnNge.
Qed.

Section Gather.
Variables (g : nat) (st : 'I_g -> Z).
Hypothesis st_inj : injective st.
Lemma mem_sites (A : {set 'I_g}) (i : 'I_g) : (st i \in [seq st j | j <- enum A]) = (i \in A).
Proof. by rewrite mem_map // mem_enum. Qed.
Lemma gatherE n : forall s times dup (A B : {set 'I_g}), sorted Z.ltb times -> perm_eq times [seq st i | i <- enum A] ->
  (forall i, (st i \in dup) = (i \in B)) -> A \subset B ->
  match draw_set n s A B with
  | Some X => exists xs, [/\ gather n (map st s) times dup = Some xs, sorted Z.ltb xs & perm_eq xs [seq st i | i <- enum X]]
  | None => gather n (map st s) times dup = None
  end.
Proof.
elim=> [|x s IH] times dup A B hs hp hd hAB /=; rewrite (perm_size hp) size_map -cardE.
  by case: ifP => // _; exists times.
case: ifP => _; first by exists times.
rewrite hd; case: ifP => hx; first exact: IH.
have nx : st x \notin times by rewrite (perm_mem hp) mem_sites; apply: contraFN hx; exact: (subsetP hAB).
apply: IH; first exact: sorted_zins.
- apply: perm_trans (perm_zins nx) _; apply: (@perm_trans _ (map st (x :: enum A))); first by rewrite /= perm_cons.
  apply: perm_map; apply: uniq_perm.
  + by rewrite /= mem_enum enum_uniq andbT; apply: contraFN hx; exact: (subsetP hAB).
  + exact: enum_uniq.
  + by move=> i; rewrite in_cons !mem_enum !inE.
- by move=> i; rewrite mem_zins hd !inE (inj_eq st_inj).
- exact: setUS.
Qed.
End Gather.

(** ** Containers *)
Notation I x l := (cinsert x l).1.
Definition fresh (l : container) (k : optime) : Prop := lookup l k = None.
Lemma I_sorted x l : csorted l -> csorted (I x l).
Proof. exact: cinsert_sorted. Qed.
Lemma I_lookup x l k : csorted l -> fresh l (p_time x) -> lookup (I x l) k = upd (lookup l) (p_time x) (Some x) k.
Proof. by move=> hs hf; have [h _] := cinsert_lookup x l hs; have [_ ->] := h hf. Qed.
Lemma I_fresh x l k : csorted l -> fresh l (p_time x) -> fresh l k -> p_time x <> k -> fresh (I x l) k.
Proof. by move=> hs hf hk ne; rewrite /fresh I_lookup // /upd ot_eqb_false. Qed.
Lemma insertE x l : csorted l -> fresh l (p_time x) -> safe_insert x l = MOk (I x l).
Proof. by move=> hs hf; have [h _] := cinsert_lookup x l hs; have [] := h hf; rewrite /safe_insert; case: (cinsert x l) => l' b /= ->. Qed.
Lemma I_comm x y l : csorted l -> fresh l (p_time x) -> fresh l (p_time y) -> p_time x <> p_time y -> I x (I y l) = I y (I x l).
Proof.
move=> hs hx hy ne; apply: csorted_ext; [by do 2!apply: I_sorted|by do 2!apply: I_sorted|].
move=> k; have ne' : p_time y <> p_time x by move=> h; apply: ne.
have fx : fresh (I y l) (p_time x) by exact: I_fresh.
have fy : fresh (I x l) (p_time y) by exact: I_fresh.
have sx := I_sorted x hs; have sy := I_sorted y hs.
rewrite !I_lookup // /upd !I_lookup // /upd; case E1: (ot_eqb (p_time x) k); case E2: (ot_eqb (p_time y) k) => //.
by case: ne; move/ot_eqb_spec: E1 => ->; move/ot_eqb_spec: E2 => ->.
Qed.
Lemma eraseE x l : csorted l -> fresh l (p_time x) -> safe_erase x (I x l) = MOk l.
Proof.
move=> hs hf; have e := erase_after_insert x l hs hf; have [h _] := cerase_lookup x _ (I_sorted x hs).
have [|] := h; first by rewrite I_lookup // /upd ot_eqb_refl.
by rewrite /safe_erase; case: (cerase x _) e => l' k /= -> ->.
Qed.
Lemma erase2E x y l : csorted l -> fresh l (p_time x) -> fresh l (p_time y) -> p_time x <> p_time y ->
  mbind (safe_erase x (I y (I x l))) (safe_erase y) = MOk l.
Proof.
move=> hs hx hy ne; rewrite -I_comm //.
by rewrite eraseE /= ?eraseE //; [exact: I_sorted|apply: I_fresh => // h; exact: ne].
Qed.

Notation times l := [seq ot_time (p_time y) | y <- l].
Lemma mem_times x l z : (z \in times (I x l)) = (z == ot_time (p_time x)) || (z \in times l).
Proof.
elim: l => [|y l IH] //=; rewrite /psi_lt; case h1: (ot_lt (p_time x) (p_time y)) => //=.
case h2: (ot_lt (p_time y) (p_time x)) => /=; last by rewrite inE (ot_lt_neither _ _ h1 h2) orbA orbb.
by case: (cinsert x l) IH => l' b /= IH; rewrite !inE IH orbCA.
Qed.
Lemma in_times y l : List.In y l -> ot_time (p_time y) \in times l.
Proof. by elim: l => //= z l IH [->|/IH h]; rewrite inE ?eqxx ?h ?orbT. Qed.

(** ** What is measured *)
Section Data.
Variable K : numFieldType.
Add Field Kf : (kfield_theory K).
Variable tick : K.
Variable beta : Z.
Variable t : transformer K.
Lemma leg x : compute_legendre t x (nseq (n_legendre t) 0) <> None.
Proof. by rewrite /compute_legendre size_nseq ltnn. Qed.
Notation mimpl := (measure_impl tick beta t).

(** The data of a measurement of the worm as it is, with weight 1 *)
Definition plain (w : seq psi) : darr K := if mimpl w 1 (fun _ _ => 0) is MOk d then d else fun _ _ => 0.
Lemma fold_legendre (fl : seq nat) (h : nat -> K) fs l n : forall (data : darr K),
  foldl (fun (da : darr K) il => fun fs l => if (fs == fl) && (l == il) then da fs l + h il else da fs l) data (iota 0 n) fs l =
  data fs l + (if (fs == fl) && (l < n)%N then h l else 0).
Proof.
elim: n => [|n IH] data; first by rewrite andbF addr0.
rewrite -addn1 iotaD foldl_cat /= add0n IH addn1 ltnS [(l <= n)%N]leq_eqVlt.
case: (fs == fl) => /=; last by rewrite addr0.
by case: (eqVneq l n) => [->|ne] /=; rewrite ?ltnn ?addr0.
Qed.
Lemma plain_spec w c data : same_time (nth psi0 w 0) (nth psi0 w 1) -> same_time (nth psi0 w 2) (nth psi0 w 3) ->
  exists r, mimpl w c data = MOk r /\ forall fs l, r fs l = data fs l + c * plain w fs l.
Proof.
move=> h1 h2; rewrite /plain /measure_impl h1 h2 /=; set x := (_ - 1).
case e: (compute_legendre t x _) (@leg x) => [pl|] // _; eexists; split; first reflexivity.
move=> fs l; rewrite (@fold_legendre _ (fun il => c * nth 0 (sqrt_2l_1 t) il * nth 0 pl il)).
rewrite (@fold_legendre _ (fun il => 1 * nth 0 (sqrt_2l_1 t) il * nth 0 pl il)) add0r mul1r; congr (_ + _).
by case: ifP; rewrite ?mulr0 // mulrA.
Qed.

(** *** The window: what is used of it *)
Variable St : Type.
Variables (set_window : nat -> container -> St -> mres St) (next : container -> St -> mres St) (tau_high : St -> Z)
  (n_window : St -> nat) (trace_of : container -> St -> K) (restore : container -> St -> St -> mres St).
Variables (tau : nat -> nat -> Z) (tr : container -> K).
Variables (good : container -> nat -> nat -> St -> Prop) (live : St -> Prop) (home : container -> St -> Prop).
Variable same : St -> St -> Prop.
Definition inside (ops : container) : Prop := forall y, List.In y ops -> (0 <= ot_time (p_time y) < beta)%coqZ /\ (0 <= ot_small (p_time y))%coqZ.
(** the window can be set to any size at the right end, moves to the left, and gives the trace of operators that differ from
    those it was made for by a pair inside *)
Record window_ok : Prop := WindowOk {
  wo_set : forall n ops s, live s -> (2 <= n)%N -> exists s', set_window n ops s = MOk s' /\ good ops n 0 s';
  wo_live : forall ops n R s, good ops n R s -> live s;
  wo_home : forall ops s, home ops s -> live s;
  wo_next : forall ops n R s, good ops n R s -> (R < 2 * n - 2)%N -> exists s', next ops s = MOk s' /\ good ops n R.+1 s';
  wo_high : forall ops n R s, good ops n R s -> tau_high s = tau n (R + 2);
  wo_size : forall ops n R s, good ops n R s -> n_window s = n;
  wo_trace : forall ops n R s x a b, good ops n R s -> (R <= 2 * n - 2)%N -> csorted ops -> inside ops -> (0 <= x < beta)%coqZ ->
    (tau n R <= x < tau n (R + 2))%coqZ -> p_time a = OT x 1 -> p_time b = OT x 0 -> fresh ops (OT x 1) -> fresh ops (OT x 0) ->
    trace_of (I b (I a ops)) s = tr (I b (I a ops));
  wo_restore : forall ops s s1, home ops s -> live s1 -> exists s', [/\ restore ops s s1 = MOk s', home ops s' & same s s'] }.
Hypothesis W : window_ok.
Hypothesis tau_0 : forall n, (0 < n)%N -> tau n 0 = 0%coqZ.
Hypothesis tau_beta : forall n, (0 < n)%N -> tau n (2 * n) = beta.
Hypothesis tau_mono : forall n p q, (p <= q)%N -> (q <= 2 * n)%N -> (tau n p <= tau n q)%coqZ.
Variable small : K.
Notation seek := (seek next tau_high).
Notation one := (one tick beta t next tau_high n_window trace_of small).
Notation scan := (scan tick beta t next tau_high n_window trace_of small).
Notation pass := (pass tick beta t set_window next tau_high n_window trace_of small).
Notation measure := (measure tick beta t set_window next tau_high n_window trace_of restore small).

Lemma seek_ok x ops n : (x < beta)%coqZ -> (forall k, (k <= 2 * n)%N -> x <> tau n k) -> (2 <= n)%N ->
  forall fuel R s, good ops n R s -> (R <= 2 * n - 2)%N -> (2 * n <= fuel + R + 2)%N -> (tau n R <= x)%coqZ ->
  exists s' R', [/\ seek fuel x ops s = MOk s', good ops n R' s', (R' <= 2 * n - 2)%N & (tau n R' <= x < tau n (R' + 2))%coqZ].
Proof.
move=> hx he hn; elim=> [|fuel IH] R s hg hR hf ht /=; rewrite (wo_high W hg).
  have eR : (R + 2 = 2 * n)%N by lia.
  case: Z.leb_spec => h; last by move: h; rewrite eR tau_beta; lia.
  by exists s, R; split=> //; have := he _ (leqnn _); rewrite eR tau_beta; lia.
case: Z.leb_spec => h; first by exists s, R; split=> //; have := he (R + 2)%N; lia.
have hR' : (R < 2 * n - 2)%N.
  rewrite ltn_neqAle hR andbT; apply/eqP=> e; move: h; have -> : (R + 2 = 2 * n)%N by lia.
  by rewrite tau_beta; lia.
have [s' [-> hg']] := wo_next W hg hR'; rewrite /=.
by apply: IH hg' _ _ _; try lia; have := @tau_mono n R.+1 (R + 2); lia.
Qed.

(** *** One sweep over the times *)
Variables (bg : container) (t1 : Z) (y0 y1 y2 y3 : optype).
Definition worm (F : seq nat) (x : Z) : seq psi :=
  [:: Psi (OT x 1) y0 (nth 0%N F 0); Psi (OT x 0) y1 (nth 0%N F 1); Psi (OT t1 1) y2 (nth 0%N F 2); Psi (OT t1 0) y3 (nth 0%N F 3)].
(** The operators of a configuration: those that stay and the four of the worm *)
Definition half (F : seq nat) : container := I (nth psi0 (worm F 0%coqZ) 3) (I (nth psi0 (worm F 0%coqZ) 2) bg).
Definition conf (F : seq nat) (x : Z) : container := I (nth psi0 (worm F x) 1) (I (nth psi0 (worm F x) 0) (half F)).
Hypothesis bg_sorted : csorted bg.
Hypothesis bg_inside : inside bg.
Hypothesis t1_inside : (0 <= t1 < beta)%coqZ.
Hypothesis t1_free : fresh bg (OT t1 1) /\ fresh bg (OT t1 0).
(** a time that is not one of the operators that stay *)
Definition free (x : Z) : Prop := (0 < x < beta)%coqZ /\ x <> t1 /\ forall y, List.In y bg -> ot_time (p_time y) <> x.
Lemma half_sorted F : csorted (half F).
Proof. by do 2!apply: I_sorted. Qed.
Lemma half_fresh F x k : free x -> fresh (half F) (OT x k).
Proof.
move=> [_ [h1 h2]]; have f0 : fresh bg (OT x k).
  by rewrite /fresh; case e: (lookup bg _) => [y|] //; have [e1 /h2] := lookup_time _ _ _ e; rewrite e1.
by have [g1 g2] := t1_free; do 2?apply: I_fresh => //=; rewrite ?I_sorted //=; try (by case=> ? ?; apply: h1); exact: I_sorted.
Qed.
Lemma half_inside F : inside (half F).
Proof. by move=> y /cinsert_in[->/=|/cinsert_in[->/=|]]; [lia|lia|exact: bg_inside]. Qed.
Lemma conf_inserts F x ops : csorted ops -> fresh ops (OT x 1) -> fresh ops (OT x 0) ->
  let a := Psi (OT x 1) y0 (nth 0%N F 0) in let b := Psi (OT x 0) y1 (nth 0%N F 1) in
  [/\ safe_insert a ops = MOk (I a ops), safe_insert b (I a ops) = MOk (I b (I a ops)) &
      forall (A : Type) (f : container -> mres A), mbind (safe_erase a (I b (I a ops))) (fun o => mbind (safe_erase b o) f) = f ops].
Proof.
move=> hs h1 h2 a b; have s1 := I_sorted a hs; split; first exact: insertE.
  by apply: insertE => //; apply: I_fresh.
move=> A f; have := @erase2E a b ops hs h1 h2; case: (safe_erase a _) => [o| |] /= h; try by have := h (fun e => _); case.
all: have {}h : _ := h (fun e : OT x 1 = OT x 0 => ltac:(by case: e)) => //.
by rewrite h.
Qed.

Definition weight (F : seq nat) (x : Z) : K := tr (conf F x).
Definition kept (trace0 : K) (F : seq nat) (x : Z) : bool := small * `|trace0| < `|weight F x|.
Definition term (trace0 sign : K) (fs : seq nat) (l : nat) (F : seq nat) (x : Z) : K :=
  if kept trace0 F x then sign * (weight F x / trace0) * plain (worm F x) fs l else 0.
Definition amount (trace0 : K) (F : seq nat) (x : Z) : K := if kept trace0 F x then `|weight F x / trace0| else 0.
(** a time that can be drawn: not one of the other operators and not on an edge of the windows *)
Definition usable (n : nat) (x : Z) : Prop := free x /\ forall k, (k <= 2 * n)%N -> x <> tau n k.

Lemma one_ok n trace0 sign F x0 x R s data norm : (2 <= n)%N -> usable n x -> good (half F) n R s -> (R <= 2 * n - 2)%N -> (tau n R <= x)%coqZ ->
  exists s' R' data' norm', [/\ one trace0 sign (worm F x0) x (s, half F, data, norm) = MOk (s', half F, data', norm'),
    good (half F) n R' s' /\ (R' <= 2 * n - 2)%N, (tau n R' <= x)%coqZ,
    forall fs l, data' fs l = data fs l + term trace0 sign fs l F x & norm' = norm + amount trace0 F x].
Proof.
move=> hn [hfree he] hg hR ht; have [hx _] := hfree.
have [|||s' [R' [es hg' hR' [ht1 ht2]]]] := @seek_ok x (half F) n _ he hn (2 * n)%N R s hg hR; [lia|lia|done|].
have [e1 e2 e3] := @conf_inserts F x (half F) (half_sorted F) (half_fresh F 1%coqZ hfree) (half_fresh F 0%coqZ hfree).
have et : trace_of (conf F x) s' = weight F x.
  by apply: (wo_trace W hg') => //; first [exact: half_sorted|exact: half_inside|exact: half_fresh|lia].
have [r [em hr]] := @plain_spec (worm F x) (sign * (weight F x / trace0)) data (Z.eqb_refl _) (Z.eqb_refl _).
rewrite /TwoTime.one (wo_size W hg) es /= /set_time /= e1 /= e2 /= -[cinsert _ _]/(cinsert (nth psi0 (worm F x) 1) (I (nth psi0 (worm F x) 0) (half F))) -/(conf F x) et -/(kept trace0 F x).
rewrite /term /amount; case: ifP => _.
  rewrite -[_ :: _]/(worm F x) em /= e3; exists s', R'; do 2!eexists; split; [reflexivity|by []|by []|exact: hr|by []].
by rewrite /= e3; exists s', R'; do 2!eexists; split; [reflexivity|by []|by []|move=> fs l; rewrite addr0|rewrite addr0].
Qed.
Lemma scan_ok n trace0 sign F x0 : (2 <= n)%N -> forall xs R s data norm, (forall x, x \in xs -> usable n x) -> sorted Z.ltb xs ->
  good (half F) n R s -> (R <= 2 * n - 2)%N -> (forall x, x \in xs -> (tau n R <= x)%coqZ) ->
  exists s' R' data' norm', [/\ scan trace0 sign (worm F x0) xs (s, half F, data, norm) = MOk (s', half F, data', norm'),
    good (half F) n R' s',
    forall fs l, data' fs l = data fs l + \sum_(x <- xs) term trace0 sign fs l F x & norm' = norm + \sum_(x <- xs) amount trace0 F x].
Proof.
move=> hn; elim=> [|x xs IH] R s data norm hu hsort hg hR ht.
  by exists s, R, data, norm; split=> // [fs l|]; rewrite big_nil addr0.
rewrite -[scan _ _ _ _ _]/(mbind (one trace0 sign (worm F x0) x (s, half F, data, norm)) (scan trace0 sign (worm F x0) xs)).
have [||s1 [R1 [d1 [n1 [-> [g1 hR1] ht1 hd1 hn1]]]]] := @one_ok n trace0 sign F x0 x R s data norm hn _ hg hR.
- by apply: hu; rewrite mem_head.
- by apply: ht; rewrite mem_head.
have hmin : all (Z.ltb x) xs by exact: order_path_min ltb_trans hsort.
have [|||s2 [R2 [d2 [n2 [e2 g2 hd2 hn2]]]]] := IH R1 s1 d1 n1 _ _ g1 hR1.
- by move=> y hy; apply: hu; rewrite in_cons hy orbT.
- exact: path_sorted hsort.
- by move=> y hy; have := allP hmin y hy; lia.
exists s2, R2, d2, n2; rewrite /= e2; split=> // [fs l|]; first by rewrite hd2 hd1 big_cons addrA.
by rewrite hn2 hn1 big_cons addrA.
Qed.
Lemma half_inserts F x : safe_inserts (drop 2 (worm F x)) bg = MOk (half F).
Proof.
have [g1 g2] := t1_free; rewrite /= insertE //= insertE //=; first exact: I_sorted.
by apply: I_fresh.
Qed.
Lemma half_erases F x : safe_erases (drop 2 (worm F x)) (half F) = MOk bg.
Proof.
have [g1 g2] := t1_free; have := @erase2E (nth psi0 (worm F 0%coqZ) 2) (nth psi0 (worm F 0%coqZ) 3) bg bg_sorted g1 g2.
rewrite /half /=; case: (safe_erase _ _) => [o| |] /= h; try by case: (h (fun e => ltac:(by case: e))).
by rewrite h // ; case=> -[].
Qed.
Lemma conf_erases F x : free x -> safe_erases (worm F x) (conf F x) = MOk bg.
Proof.
move=> hf; have [e1 e2 e3] := @conf_inserts F x (half F) (half_sorted F) (half_fresh F 1%coqZ hf) (half_fresh F 0%coqZ hf).
by rewrite -(half_erases F x) -(e3 _ (safe_erases (drop 2 (worm F x)))).
Qed.
Lemma pass_ok N nw trace0 sign xs F x0 s data norm : live s -> (2 <= maxn N nw)%N -> (forall x, x \in xs -> usable (maxn N nw) x) -> sorted Z.ltb xs ->
  exists s' data' norm', [/\ pass N nw trace0 sign xs (worm F x0) (s, bg, data, norm) = MOk (s', bg, data', norm'), live s',
    forall fs l, data' fs l = data fs l + \sum_(x <- xs) term trace0 sign fs l F x & norm' = norm + \sum_(x <- xs) amount trace0 F x].
Proof.
move=> hl hn hu hs; rewrite /TwoTime.pass half_inserts /=.
have [s1 [-> g1]] := wo_set W (half F) hl hn; rewrite /=.
have [||s2 [R2 [d2 [n2 [-> g2 hd hn2]]]]] := @scan_ok _ trace0 sign F x0 hn xs 0%N s1 data norm hu hs g1; first lia.
  by move=> x /hu[[hx _] _]; rewrite tau_0; lia.
by rewrite /= -[mbind (safe_erase _ _) _]/(safe_erases (drop 2 (worm F x0)) (half F)) half_erases /=; exists s2, d2, n2; split=> //; exact: wo_live g2.
Qed.
Lemma reflavor F F' x : size F' = 4%N -> [seq set_flavor p.1 p.2 | p <- zip (worm F x) F'] = worm F' x.
Proof. by move: F' => [|a [|b [|c [|d [|]]]]]. Qed.

Local Arguments TwoTime.pass : simpl never.
Lemma data_ok N s trace0 sign F F' x0 draws xs : home (conf F x0) s -> (2 <= N)%N -> size F' = 4%N -> free x0 ->
  new_times N draws x0 (conf F x0) = Some xs -> (forall x, x \in xs -> usable (maxn N (n_window s)) x) -> sorted Z.ltb xs ->
  exists d s', [/\ measure N (conf F x0) (worm F x0) trace0 sign draws F' s = Some (MOk (d, s')), home (conf F x0) s' /\ same s s' &
    forall fs l, d fs l = (\sum_(x <- xs) term trace0 sign fs l F x + \sum_(x <- xs) term trace0 sign fs l F' x)
                        / (\sum_(x <- xs) amount trace0 F x + \sum_(x <- xs) amount trace0 F' x)].
Proof.
move=> hh hN hF hx0 ex hu hs; have hn : (2 <= maxn N (n_window s))%N by rewrite leq_max hN.
rewrite /TwoTime.measure conf_erases // -[ot_time _]/x0 ex /= reflavor //.
have [s1 [d1 [n1 [-> l1 hd1 hn1]]]] := @pass_ok N (n_window s) trace0 sign xs F x0 s (fun _ _ => 0) 0 (wo_home W hh) hn hu hs.
rewrite /=; have [s2 [d2 [n2 [-> l2 hd2 hn2]]]] := @pass_ok N (n_window s) trace0 sign xs F' x0 s1 d1 n1 l1 hn hu hs.
rewrite /=; have [s3 [-> h3 h4]] := wo_restore W hh l2; rewrite /=.
by do 2!eexists; split; [reflexivity|by []|move=> fs l; rewrite /= hd2 hd1 hn2 hn1 !add0r].
Qed.

Lemma conf_time F x0 y : (y \in times (conf F x0)) = (y == x0) || (y == t1) || (y \in times bg).
Proof. by rewrite /conf /half !mem_times /= orbA orbb; case: (y == x0) => //=; rewrite orbA orbb. Qed.
(** a time at which a pair can be put: inside, and not on an edge of the windows *)
Definition offedge (n : nat) (x : Z) : Prop := (0 < x < beta)%coqZ /\ forall k, (k <= 2 * n)%N -> x <> tau n k.
Lemma new_times_spec N draws F x0 xs : (0 < N)%N -> new_times N draws x0 (conf F x0) = Some xs ->
  [/\ sorted Z.ltb xs, x0 \in xs, size xs = N & forall x, x \in xs -> x \in x0 :: draws /\ (x == x0) || (x != t1) && (x \notin times bg)].
Proof.
move=> hN; rewrite /new_times; have hd y : (y \in foldl (fun d x => zins (ot_time (p_time x)) d) [::] (conf F x0)) = (y == x0) || (y == t1) || (y \in times bg).
  by rewrite mem_dup in_nil conf_time.
move/gather_spec=> /(_ erefl)[|h1 h2 h3 h4]; first by move=> y; rewrite mem_seq1 hd => ->.
split=> //; [by apply: h2; rewrite mem_head|exact: h4|].
move=> x /h3[|[hx]]; first by rewrite mem_seq1 => /eqP->; rewrite mem_head eqxx.
by rewrite hd !negb_or => /andP[/andP[_ ->] ->]; rewrite inE hx !orbT.
Qed.
Lemma new_times_usable n N draws F x0 xs : (0 < N)%N -> free x0 -> (forall x, x \in x0 :: draws -> offedge n x) ->
  new_times N draws x0 (conf F x0) = Some xs -> forall x, x \in xs -> usable n x.
Proof.
move=> hN hx0 hd /(new_times_spec hN)[_ _ _ h] x /h[/hd[hx he]]; split=> //.
move: b => /orP[/eqP->//|/andP[/eqP h1 h2]]; split=> //; split=> // y /in_times hy e; by move: h2; rewrite -e hy.
Qed.
(** The result of the measurement: the worm is removed and put back with the pair at N different times, the present one among them,
    first with its flavors, then with others; the data are averages with the moduli of the ratios of the traces as weights *)
Theorem C72_data N s trace0 sign F F' x0 draws : home (conf F x0) s -> (2 <= N)%N -> size F' = 4%N -> free x0 ->
  (forall x, x \in x0 :: draws -> offedge (maxn N (n_window s)) x) ->
  if new_times N draws x0 (conf F x0) is Some xs then
    [/\ sorted Z.ltb xs, size xs = N, x0 \in xs & forall x, x \in xs -> x \in x0 :: draws /\ free x] /\
    exists d s', [/\ measure N (conf F x0) (worm F x0) trace0 sign draws F' s = Some (MOk (d, s')), home (conf F x0) s' /\ same s s' &
      forall fs l, d fs l = (\sum_(x <- xs) term trace0 sign fs l F x + \sum_(x <- xs) term trace0 sign fs l F' x)
                          / (\sum_(x <- xs) amount trace0 F x + \sum_(x <- xs) amount trace0 F' x)]
  else measure N (conf F x0) (worm F x0) trace0 sign draws F' s = None.
Proof.
move=> hh hN hF hx0 hd; case ex: (new_times _ _ _ _) => [xs|]; last first.
  by rewrite /TwoTime.measure conf_erases // -[ot_time _]/x0 ex.
have hN0 : (0 < N)%N by exact: ltn_trans hN.
have [h1 h2 h3 h4] := new_times_spec hN0 ex; have hu := new_times_usable hN0 hx0 hd ex.
by split; [split=> // x hx; split; [case: (h4 x hx)|case: (hu x hx)]|exact: data_ok].
Qed.

(** *** The cutoff *)
Lemma cut_bound (T : eqType) (l : seq T) (k : pred T) (r p : T -> K) (c M : K) : 0 <= c -> 0 <= M -> (forall x, x \in l -> `|p x| <= M) ->
  (forall x, x \in l -> ~~ k x -> `|r x| <= c) -> 1 <= \sum_(x <- l | k x) `|r x| ->
  `|(\sum_(x <- l | k x) r x * p x) / (\sum_(x <- l | k x) `|r x|) - (\sum_(x <- l) r x * p x) / (\sum_(x <- l) `|r x|)| <= (c * M) *+ (2 * size l).
Proof.
move=> c0 M0 hp hr; rewrite [\sum_(x <- l) r x * p x](bigID k) [\sum_(x <- l) `|r x|](bigID k) /=.
have bd (P : pred T) : `|\sum_(x <- l | P x) r x * p x| <= M * \sum_(x <- l | P x) `|r x|.
  rewrite mulr_sumr; apply: le_trans (ler_norm_sum _ _ _) _; rewrite [X in X <= _]big_seq_cond [X in _ <= X]big_seq_cond.
  by apply: ler_sum => x /andP[hx _]; rewrite normrM mulrC; apply: ler_wpmul2r; rewrite ?hp.
have nn (P : pred T) : 0 <= \sum_(x <- l | P x) `|r x| by apply: sumr_ge0 => x _; exact: normr_ge0.
have hb : \sum_(x <- l | ~~ k x) `|r x| <= c *+ size l.
  have -> : c *+ size l = \sum_(x <- l) c by rewrite big_const_seq count_predT iter_addr_0.
  rewrite [X in _ <= X](bigID k) /= ler_paddl ?sumr_ge0 //.
  by rewrite [X in X <= _]big_seq_cond [X in _ <= X]big_seq_cond; apply: ler_sum => x /andP[hx hk]; exact: hr.
move: (bd k) (bd (fun x => ~~ k x)) (nn k) (nn (fun x => ~~ k x)) hb.
set A := \sum_(x <- l | k x) r x * p x; set B := \sum_(x <- l | ~~ k x) r x * p x.
set a := \sum_(x <- l | k x) `|r x|; set b := \sum_(x <- l | ~~ k x) `|r x| => hA hB a0 b0 hb a1.
have pa : 0 < a by exact: lt_le_trans ltr01 a1.
have pab : 0 < a + b by exact: ltr_paddr.
have ab1 : 1 <= a + b by exact: ler_paddr.
have -> : A / a - (A + B) / (a + b) = (A * b - B * a) / (a * (a + b)).
  by kfield K; split; apply/eqP; rewrite lt0r_neq0.
rewrite normrM normfV [`|a * _|]ger0_norm; last by rewrite mulr_ge0 // ltW.
rewrite ler_pdivr_mulr; last exact: mulr_gt0.
apply: (@le_trans _ _ ((M * b) *+ 2 * a)).
  apply: le_trans (ler_norm_sub _ _) _; rewrite !normrM (ger0_norm a0) (ger0_norm b0) mulr2n mulrDl.
  apply: ler_add; last by apply: ler_wpmul2r.
  by apply: le_trans (ler_wpmul2r b0 hA) _; rewrite mulrAC.
have h2 : M * b *+ 2 <= c * M *+ (2 * size l).
  rewrite mulnC mulrnA ler_muln2r /= mulrC -mulrnAl; exact: ler_wpmul2r.
apply: (@le_trans _ _ (c * M *+ (2 * size l) * a)); first exact: ler_wpmul2r.
rewrite ler_wpmul2l ?mulrn_wge0 ?mulr_ge0 //.
by rewrite -[X in X <= _]mulr1; apply: ler_wpmul2l.
Qed.

(** With a cutoff below 1 the result is close to the one without *)
Theorem C72_cutoff N s sign F F' x0 draws xs (M : K) fs l : home (conf F x0) s -> (2 <= N)%N -> size F' = 4%N -> free x0 ->
  (forall x, x \in x0 :: draws -> offedge (maxn N (n_window s)) x) -> new_times N draws x0 (conf F x0) = Some xs ->
  weight F x0 != 0 -> 0 <= small -> small < 1 -> `|sign| <= 1 -> 0 <= M -> (forall x, x \in xs -> `|plain (worm F x) fs l| <= M) ->
  (forall x, x \in xs -> `|plain (worm F' x) fs l| <= M) ->
  exists d s', measure N (conf F x0) (worm F x0) (weight F x0) sign draws F' s = Some (MOk (d, s')) /\
    `|d fs l - (\sum_(x <- xs) sign * weight F x * plain (worm F x) fs l + \sum_(x <- xs) sign * weight F' x * plain (worm F' x) fs l) / weight F x0
             / ((\sum_(x <- xs) `|weight F x| + \sum_(x <- xs) `|weight F' x|) / `|weight F x0|)| <= (small * M) *+ (4 * N).
Proof.
move=> hh hN hF hx0 hdr ex hw s0 s1 hsg M0 hM hM'; have hN0 : (0 < N)%N by exact: ltn_trans hN.
have hu := new_times_usable hN0 hx0 hdr ex; have [hs hin hsz _] := new_times_spec hN0 ex.
have [d [s' [e _ hd]]] := @data_ok N s (weight F x0) sign F F' x0 draws xs hh hN hF hx0 ex hu hs; exists d, s'; split=> //.
set w0 := weight F x0; have nz : `|w0| != 0 by rewrite normr_eq0.
pose L := [seq (F, x) | x <- xs] ++ [seq (F', x) | x <- xs].
pose r (q : seq nat * Z) := weight q.1 q.2 / w0; pose p (q : seq nat * Z) := sign * plain (worm q.1 q.2) fs l.
have hMs q : q \in L -> `|p q| <= M.
  rewrite /p normrM => hq; apply: le_trans (ler_wpmul2r (normr_ge0 _) hsg) _; rewrite mul1r.
  by move: hq; rewrite mem_cat => /orP[] /mapP[x hx ->]; [exact: hM|exact: hM'].
have kE q : kept w0 q.1 q.2 = (small < `|r q|) by rewrite /kept /r normrM normfV ltr_pdivl_mulr // lt_def nz normr_ge0.
have := @cut_bound _ L (fun q => kept w0 q.1 q.2) r p small M s0 M0 hMs.
have -> : (2 * size L = 4 * N)%N by rewrite size_cat !size_map hsz; lia.
have gsum (h : seq nat * Z -> K) : \sum_(q <- L) h q = \sum_(x <- xs) h (F, x) + \sum_(x <- xs) h (F', x) by rewrite big_cat !big_map.
have gcut (h : seq nat * Z -> K) : \sum_(q <- L | kept w0 q.1 q.2) h q = \sum_(x <- xs) (if kept w0 F x then h (F, x) else 0)
    + \sum_(x <- xs) (if kept w0 F' x then h (F', x) else 0) by rewrite big_mkcond big_cat !big_map.
rewrite !gsum !gcut => h; have {h} := h _ _; rewrite hd.
have tE G x : term w0 sign fs l G x = if kept w0 G x then r (G, x) * p (G, x) else 0.
  by rewrite /term /r /p /=; case: ifP => // _; kfield K; apply/eqP; move: nz; rewrite normr_eq0.
rewrite (eq_bigr _ (fun x _ => tE F x)) (eq_bigr _ (fun x _ => tE F' x)).
have -> : (\sum_(x <- xs) sign * weight F x * plain (worm F x) fs l + \sum_(x <- xs) sign * weight F' x * plain (worm F' x) fs l) / w0 =
    \sum_(x <- xs) r (F, x) * p (F, x) + \sum_(x <- xs) r (F', x) * p (F', x).
  rewrite mulrDl !mulr_suml; congr (_ + _); apply: eq_bigr => x _; rewrite /r /p /=; kfield K; exact/eqP.
have -> : (\sum_(x <- xs) `|weight F x| + \sum_(x <- xs) `|weight F' x|) / `|w0| = \sum_(x <- xs) `|r (F, x)| + \sum_(x <- xs) `|r (F', x)|.
  by rewrite mulrDl !mulr_suml; congr (_ + _); apply: eq_bigr => x _; rewrite /r /= normrM normfV.
apply=> [q _|]; first by rewrite kE -real_leNgt ?normr_real // ger0_real.
have k0 : kept w0 F x0 by rewrite (kE (F, x0)) /r /= divff // normr1.
rewrite (big_rem x0) //= k0 /r /= divff // normr1 -addrA ler_addl addr_ge0 // sumr_ge0 // => x _; by case: ifP.
Qed.

(** *** The mean *)
Variables (g : nat) (st : 'I_g -> Z) (fl : finType) (flav : fl -> seq nat) (N L : nat) (S : 'I_g -> fl -> St) (theta : K).
Hypothesis st_inj : injective st.
Hypothesis st_in : forall i, (0 < st i < beta)%coqZ.
Hypothesis N2 : (2 <= N)%N.
Hypothesis st_edge : forall i j f k, (k <= 2 * maxn N (n_window (S j f)))%N -> st i <> tau (maxn N (n_window (S j f))) k.
Hypothesis flav4 : forall f, size (flav f) = 4%N.
Hypothesis S_home : forall i f, home (conf (flav f) (st i)) (S i f).
(** sites that belong to one of the operators that stay *)
Definition occ : {set 'I_g} := [set i | (st i == t1) || (st i \in times bg)].
(** the weight of a configuration is that of the trace times a factor with the phase [theta] that all of them share; the phase of
    the configuration *)
Definition phase (F : seq nat) (x : Z) : K := theta * (weight F x / `|weight F x|).
(** the number that the measurement adds to the accumulator, in the configuration with the pair at site [i] and the flavors [f], for
    the draws [s] and the flavors [f'] of the second sweep; Some 0 if no number is added, None if the draws are used up *)
Definition measured fs l (i : 'I_g) (f : fl) (s : L.-tuple 'I_g) (f' : fl) : option (mres K) :=
  omap (fun r => mbind r (fun ds => MOk (ds.1 fs l)))
    (measure N (conf (flav f) (st i)) (worm (flav f) (st i)) (weight (flav f) (st i)) (phase (flav f) (st i)) (map st s) (flav f') (S i f)).
Lemma free_site i : i \notin occ -> free (st i).
Proof.
rewrite inE negb_or => /andP[/eqP h1 h2]; split; first exact: st_in.
by split=> // y /in_times hy e; move: h2; rewrite -e hy.
Qed.
Lemma conf_times i f j : (st j \in times (conf (flav f) (st i))) = (j \in i |: occ).
Proof.
rewrite /conf /half !mem_times /= !inE (inj_eq st_inj).
by case: (j == i) => //=; case: (st j == t1).
Qed.
Lemma from_times i f s : i \notin occ ->
  match from occ N s i with
  | Some X => exists xs, [/\ new_times N (map st s) (st i) (conf (flav f) (st i)) = Some xs, sorted Z.ltb xs & perm_eq xs [seq st i | i <- enum X]]
  | None => new_times N (map st s) (st i) (conf (flav f) (st i)) = None
  end.
Proof.
move=> hi; apply: gatherE => //; first by rewrite enum_set1.
- by move=> j; rewrite mem_dup in_nil conf_times.
- by rewrite sub1set setU11.
Qed.
Lemma from_free i s X : i \notin occ -> from occ N s i = Some X -> forall j, j \in X -> j \notin occ.
Proof.
move=> hi; have : forall j, j \in [set i] -> j \notin occ by move=> j; rewrite inE => /eqP->.
have : occ \subset i |: occ by exact: subsetUr.
rewrite /from; elim: s [set i] (i |: occ) => [|x s IH] A B hB hA /=; case: ifP => _ //; try by case=> <-.
case: ifP => hx; first exact: IH.
apply: IH; first by apply: subset_trans hB _; exact: subsetUr.
move=> j; rewrite !inE => /orP[/eqP->|/hA]; last by rewrite inE.
have : x \notin occ by apply: contraFN hx; exact: (subsetP hB).
by rewrite inE.
Qed.
Hypothesis small0 : small = 0.
Notation wt i f := (weight (flav f) (st i)).
Notation pl fs l i f := (plain (worm (flav f) (st i)) fs l).
Lemma measuredE fs l i f s f' : i \notin occ -> wt i f != 0 ->
  measured fs l i f s f' = omap (fun X : {set 'I_g} =>
    MOk ((\sum_(j in X) theta * wt j f * pl fs l j f + \sum_(j in X) theta * wt j f' * pl fs l j f')
         / (\sum_(j in X) `|wt j f| + \sum_(j in X) `|wt j f'|))) (from occ N s i).
Proof.
move=> hi hw; have := @from_times i f s hi; case e: (from occ N s i) => [X|]; last first.
  move=> en; rewrite /measured /TwoTime.measure conf_erases; last exact: free_site.
  by rewrite -[ot_time _]/(st i) en.
move=> [xs [ex hs hp]]; rewrite /measured.
have hxs x : x \in xs -> exists2 j, x = st j & j \notin occ.
  by rewrite (perm_mem hp) => /mapP[j]; rewrite mem_enum => /(from_free hi e) hj ->; exists j.
have [|d [s' [-> _ hd]]] := @data_ok N (S i f) (wt i f) (phase (flav f) (st i)) (flav f) (flav f') (st i) (map st s) xs
  (S_home i f) N2 (flav4 f') (free_site hi) ex _ hs.
  by move=> x /hxs[j -> hj]; split; [exact: free_site|move=> k; exact: st_edge].
rewrite /= hd; congr (Some (MOk _)).
have nz : `|wt i f| != 0 by rewrite normr_eq0.
have sumE h : \sum_(x <- xs) h x = \sum_(j in X) h (st j) :> K.
  by rewrite (perm_big _ hp) big_map big_enum.
have tE h j : term (wt i f) (phase (flav f) (st i)) fs l (flav h) (st j) = `|wt i f|^-1 * (theta * wt j h * pl fs l j h).
  rewrite /term /kept small0 mul0r normr_gt0 /phase; case: (eqVneq (wt j h) 0) => [->|_] /=; first by rewrite mulr0 mul0r mulr0.
  by kfield K; split=> //; apply/eqP.
have aE h j : amount (wt i f) (flav h) (st j) = `|wt i f|^-1 * `|wt j h|.
  rewrite /amount /kept small0 mul0r normr_gt0; case: (eqVneq (wt j h) 0) => [->|_] /=; first by rewrite normr0 mulr0.
  by rewrite normrM normfV mulrC.
have tS h : \sum_(x <- xs) term (wt i f) (phase (flav f) (st i)) fs l (flav h) x = `|wt i f|^-1 * \sum_(j in X) theta * wt j h * pl fs l j h.
  by rewrite sumE big_distrr; apply: eq_bigr => j _; rewrite tE.
have aS h : \sum_(x <- xs) amount (wt i f) (flav h) x = `|wt i f|^-1 * \sum_(j in X) `|wt j h|.
  by rewrite sumE big_distrr; apply: eq_bigr => j _; rewrite aE.
by rewrite !tS !aS -!mulrDr invfM invrK mulrACA mulVf // mul1r.
Qed.
(** The measurement never fails in a configuration that can occur, and its mean over the configurations that differ in the time of the pair and in the flavors,
    each with its weight, and over the numbers drawn, is the mean of the simple measurement, which adds phase * plain. *)
Theorem C72_unbiased fs l :
  (forall i f s f', i \notin occ -> wt i f != 0 -> measured fs l i f s f' = None \/ exists c, measured fs l i f s f' = Some (MOk c)) /\
  \sum_(i | i \notin occ) \sum_f `|wt i f| * (\sum_(s : L.-tuple 'I_g) \sum_f' if measured fs l i f s f' is Some (MOk c) then c else 0)
  = \sum_(i | i \notin occ) \sum_f `|wt i f| *
      (\sum_(s : L.-tuple 'I_g) \sum_f' if measured fs l i f s f' is Some _ then phase (flav f) (st i) * pl fs l i f else 0).
Proof.
split=> [i f s f' hi hw|]; first by rewrite measuredE //; case: (from _ _ _ _) => [X|]; [right; eexists; reflexivity|left].
have := @unbiased g occ L K fl (fun i f => wt i f) (fun i f => theta * wt i f * pl fs l i f) _ N.
move=> /(_ (fun i f e => ltac:(by rewrite e mulr0 mul0r))) h.
transitivity (\sum_(i | i \notin occ) \sum_f \sum_(s : L.-tuple 'I_g) \sum_(f' : fl)
    if from occ N s i is Some X then theta * wt i f * pl fs l i f else 0).
  rewrite -h; apply: eq_bigr => i hi; apply: eq_bigr => f _.
  case: (eqVneq (wt i f) 0) => [->|hw]; first by rewrite normr0 !mul0r.
  congr (_ * _); apply: eq_bigr => s _; apply: eq_bigr => f' _; rewrite measuredE //.
  by case: (from _ _ _ _).
apply: eq_bigr => i hi; apply: eq_bigr => f _.
case: (eqVneq (wt i f) 0) => [e|hw].
  by rewrite e normr0 mul0r big1 // => s _; apply: big1 => f' _; case: (from _ _ _ _) => // X; rewrite mulr0 mul0r.
rewrite big_distrr; apply: eq_bigr => s _; rewrite big_distrr; apply: eq_bigr => f' _ /=; rewrite measuredE //.
case: (from _ _ _ _) => [X|] /=; last by rewrite mulr0.
by rewrite /phase; kfield K; apply/eqP; rewrite normr_eq0.
Qed.
End Data.

(** The code asks for at least 20 times *)
Lemma num_times_min avg : (2 <= num_times avg)%N.
Proof. rewrite /num_times; lia. Qed.

(** ** The window of the code *)
Section RealWindow.
Local Open Scope nat_scope.
Variable K : numFieldType.
Variables (Ket Bra : Type) (outer : list (Bra * Ket)).
Variables (ket_invalid : Ket -> bool) (bra_invalid : Bra -> bool) (ket_nil : Ket) (bra_nil : Bra).
Variables (apply_ket : optype -> nat -> Ket -> Ket) (apply_bra : optype -> nat -> Bra -> Bra).
Variables (prop_ket : Z -> Ket -> Ket) (prop_bra : Z -> Bra -> Bra).
Variables (normalize_ket : Ket -> Ket) (normalize_bra : Bra -> Bra).
Variables (norm_ket : Ket -> K) (norm_bra : Bra -> K).
Variables (sec_ket : Ket -> nat) (sec_bra : Bra -> nat).
Variable product : Bra -> Ket -> K.
Variable tau : nat -> nat -> Z.
Variable beta : Z.
Hypothesis H : braket_ok ket_invalid bra_invalid ket_nil bra_nil apply_ket apply_bra prop_ket prop_bra normalize_ket normalize_bra sec_ket sec_bra product.
Hypothesis nk : forall k, (0 <= norm_ket k)%R.
Hypothesis nb : forall b, (0 <= norm_bra b)%R.
Hypothesis tau_0 : forall n, 0 < n -> tau n 0 = 0%coqZ.
Hypothesis tau_beta : forall n, 0 < n -> tau n (2 * n) = beta.
Hypothesis tau_mono : forall n p q, p <= q -> q <= 2 * n -> (tau n p <= tau n q)%coqZ.
Notation sw := (sw K Ket Bra).
Notation setw := (set_window_size ket_invalid bra_invalid ket_nil bra_nil apply_ket apply_bra prop_ket prop_bra normalize_ket normalize_bra norm_ket norm_bra tau 0%R).
Notation nextw := (move_window_to_next_position ket_invalid bra_invalid ket_nil bra_nil apply_ket apply_bra prop_ket prop_bra normalize_ket normalize_bra norm_ket norm_bra tau 0%R).
Notation restorew := (restore_state ket_invalid bra_invalid ket_nil bra_nil apply_ket apply_bra prop_ket prop_bra normalize_ket normalize_bra norm_ket norm_bra tau 0%R).
Notation ctrace := (compute_trace ket_invalid bra_invalid apply_ket prop_ket normalize_ket sec_ket sec_bra product tau).
Notation reach := (reach outer ket_invalid bra_invalid ket_nil bra_nil apply_ket apply_bra prop_ket prop_bra normalize_ket normalize_bra norm_ket norm_bra tau 0%R).
Notation sweep := (sweep ket_invalid bra_invalid ket_nil bra_nil apply_ket apply_bra prop_ket prop_bra normalize_ket normalize_bra norm_ket norm_bra tau 0%R).
Definition mw (A : Type) (x : wres A) : mres A := match x with WOk a => MOk a | WThrow => MThrow | WAssert => MUB | WUB => MUB end.
(** measurement.ipp:70-71, 76, 113; get_tau_high: sliding_window.hpp:49 *)
Definition w_set (n : nat) (ops : container) (s : sw) : mres sw := mw (setw n ops 0 (Some ITIME_LEFT) s).
Definition w_next (ops : container) (s : sw) : mres sw := mw (nextw ops s).
Definition w_high (s : sw) : Z := tau (nwin s) (posL s).
Definition w_restore (ops : container) (s s1 : sw) : mres sw := mw (restorew ops (get_state s) s1).
Definition w_tr (ops : container) : K := full_trace outer apply_ket prop_ket product beta ops.
(** a window that stands at the position [R] after [R] moves from the right end *)
Definition w_good (ops : container) (n R : nat) (s : sw) : Prop :=
  exists s0, reach ops s0 /\ nwin s0 = n /\ 2 <= n /\ posR s0 = 0 /\ R <= 2 * n - 2 /\ sweep R ops s0 = WOk s.
Definition w_same (s s' : sw) : Prop :=
  nwin s' = nwin s /\ posL s' = posL s /\ posR s' = posR s /\ right_states s' = right_states s /\ left_states s' = left_states s /\
  (2 <= nwin s -> forall ops, nextw ops s' = nextw ops s).
Lemma w_goodE ops n R s : w_good ops n R s -> reach ops s /\ nwin s = n /\ posR s = R /\ posL s = R + 2 /\ 2 <= n /\ R <= 2 * n - 2.
Proof.
move=> [s0 [h1 [h2 [h3 [h4 [h5 e]]]]]]; have [|||s' [e' [r' [n' [p' [l' _]]]]]] := @C20_sweep_up _ _ _ _ _ _ _ _ _ _ _ _ _ _ _ _ _ _ tau_mono _ _ R h1; [by rewrite h2|by []|by rewrite h2|].
by move: e'; rewrite e => -[ee]; subst s'; rewrite n' h2.
Qed.
Theorem C72_window : window_ok beta w_set w_next w_high (@nwin K Ket Bra) ctrace w_restore tau w_tr w_good (fun s => exists ops, reach ops s) reach w_same.
Proof.
split.
- move=> n ops s [ops0 hs] hn; have n1 : 1 <= n by exact: ltnW.
  have hr : 2 <= n -> 0 <= 2 * n - 2 by [].
  have [hw _] := reach_wf tau_mono hs; have [s' [e [w' [n' h']]]] := @setw_ok _ _ _ _ _ _ _ _ _ _ _ _ _ _ _ _ _ _ ops0 ops n 0 (Some ITIME_LEFT) s hw n1 hr.
  exists s'; rewrite /w_set e; split=> //; exists s'; split; first exact: reach_set hs n1 hr e.
  by move: h'; rewrite hn => -[p' _].
- by move=> ops n R s /w_goodE[h _]; exists ops.
- by move=> ops s h; exists ops.
- move=> ops n R s hg hR; have [_ [_ [_ [_ [hn _]]]]] := w_goodE hg; move: hg => [s0 [h1 [h2 [_ [h4 [_ e]]]]]].
  have [|||s' [e' _]] := @C20_sweep_up _ _ _ _ _ _ _ _ _ _ _ _ _ _ _ _ _ _ tau_mono _ _ R.+1 h1; [by rewrite h2|by []|by rewrite h2|].
  exists s'; rewrite /w_next; move: (e'); rewrite /= e /= => ->; split=> //; exists s0; do 5!split=> //.
- by move=> ops n R s /w_goodE[_ [h1 [_ [h2 _]]]]; rewrite /w_high h1 h2.
- by move=> ops n R s /w_goodE[_ [h1 _]].
- move=> ops n R s x a b /w_goodE[hs [hn [hR [hL _]]]] _ so hi hx [x1 x2] ea eb f1 f2.
  have fa : fresh ops (p_time a) by rewrite ea.
  have s1 := I_sorted a so; have fb : fresh (I a ops) (p_time b) by apply: I_fresh => //; rewrite ?eb ?ea //; case.
  have ia y : List.In y (I a ops) <-> y = a \/ List.In y ops.
    by apply: cinsert_in_iff => //; have [h _] := cinsert_lookup a ops so; have [] := h fa.
  have ib y : List.In y (I b (I a ops)) <-> y = b \/ List.In y (I a ops).
    by apply: cinsert_in_iff => //; have [h _] := cinsert_lookup b _ s1; have [] := h fb.
  have s2 := I_sorted b s1.
  have conf : confined tau ops (I b (I a ops)) s.
    rewrite /confined hn hR hL; split; apply: filter_same => // y hy; rewrite ib ia; split; try (by right; right).
      move=> [e|[e|]//]; subst y; move: hy; rewrite /before ?ea ?eb => /ot_lt_spec /=; lia.
    move=> [e|[e|]//]; subst y; move: hy; rewrite /after ?ea ?eb => /ot_lt_spec /=; lia.
  apply: (C22_no_truncation H tau_0 tau_beta tau_mono) => //; first exact: reach_update hs conf.
  move=> y /ib[->|/ia[->|/hi[h1 h2]]]; rewrite ?ea ?eb !ot_le_negb; split; apply/negP=> /ot_lt_spec /=; lia.
- move=> ops s s1 hs [ops1 hs1]; have [s' [e [h1 [h2 [h3 [h4 [h5 [h6 _]]]]]]]] := @C23_restore _ _ _ _ _ _ _ _ _ _ _ _ _ _ _ _ _ _ tau_mono _ _ _ _ hs hs1.
  exists s'; rewrite /w_restore e; split=> //; exact: reach_restore hs hs1 e.
Qed.

(** The means of the measurement with this window: the states [S i f] are those of any history *)
Theorem C72_mean (tick : K) (t : transformer K) (bg : container) (t1 : Z) (y0 y1 y2 y3 : optype) :
  csorted bg -> inside beta bg -> (0 <= t1 < beta)%coqZ -> fresh bg (OT t1 1) /\ fresh bg (OT t1 0) ->
  forall (g : nat) (st : 'I_g -> Z) (fl : finType) (flav : fl -> seq nat) (N L : nat) (S : 'I_g -> fl -> sw) (theta : K),
  injective st -> (forall i, (0 < st i < beta)%coqZ) -> 2 <= N ->
  (forall i j f k, k <= 2 * maxn N (nwin (S j f)) -> st i <> tau (maxn N (nwin (S j f))) k) ->
  (forall f, size (flav f) = 4) -> (forall i f, reach (conf bg t1 y0 y1 y2 y3 (flav f) (st i)) (S i f)) ->
  let m := measured tick beta t w_set w_next w_high (@nwin K Ket Bra) ctrace w_restore w_tr 0%R bg t1 y0 y1 y2 y3 st flav N S theta in
  let wt i f := weight w_tr bg t1 y0 y1 y2 y3 (flav f) (st i) in
  forall fs l,
  (forall i f (s : L.-tuple 'I_g) f', i \notin occ bg t1 st -> wt i f != 0%R -> m fs l i f s f' = None \/ exists c, m fs l i f s f' = Some (MOk c)) /\
  (\sum_(i | i \notin occ bg t1 st) \sum_f `|wt i f| * (\sum_(s : L.-tuple 'I_g) \sum_f' if m fs l i f s f' is Some (MOk c) then c else 0)
   = \sum_(i | i \notin occ bg t1 st) \sum_f `|wt i f| *
       (\sum_(s : L.-tuple 'I_g) \sum_f' if m fs l i f s f' is Some _
          then phase w_tr bg t1 y0 y1 y2 y3 theta (flav f) (st i) * plain tick beta t (worm t1 y0 y1 y2 y3 (flav f) (st i)) fs l else 0))%R.
Proof. by move=> *; apply: (C72_unbiased tick t C72_window). Qed.
End RealWindow.

(** ** An atom with one level: occupied between 2 and 6, the second pair of the worm at 4, the first one at 3, 5 or 7 *)
Section Instance.
Local Notation Q := rat_numFieldType.
Let h : Q := 1 / 2%:R.
Definition b_bg : container := [:: Psi (OT 2 0) CREATION_OP 0; Psi (OT 6 0) ANNIHILATION_OP 0].
Definition b_site (i : 'I_3) : Z := (3 + 2 * Z.of_nat i)%coqZ.
Notation bset := (w_set (@a_invalid Q) (@a_invalid Q) None None (fun o _ => a_c o) (fun o _ => a_c (a_flip o)) (a_prop h) (a_prop h) id id (@a_norm Q) (@a_norm Q) a_tau).
Notation bnext := (w_next (@a_invalid Q) (@a_invalid Q) None None (fun o _ => a_c o) (fun o _ => a_c (a_flip o)) (a_prop h) (a_prop h) id id (@a_norm Q) (@a_norm Q) a_tau).
Notation brestore := (w_restore (@a_invalid Q) (@a_invalid Q) None None (fun o _ => a_c o) (fun o _ => a_c (a_flip o)) (a_prop h) (a_prop h) id id (@a_norm Q) (@a_norm Q) a_tau).
Notation btrace := (compute_trace (@a_invalid Q) (@a_invalid Q) (fun o _ => a_c o) (a_prop h) id (@a_sec Q) (@a_sec Q) (@a_prod Q) a_tau).
Notation btr := (w_tr (a_outer Q) (fun o _ => a_c o) (a_prop h) (@a_prod Q) 8%coqZ).
Notation breach := (reach (a_outer Q) (@a_invalid Q) (@a_invalid Q) None None (fun o _ => a_c o) (fun o _ => a_c (a_flip o)) (a_prop h) (a_prop h) id id (@a_norm Q) (@a_norm Q) a_tau 0).
Notation bconf := (conf b_bg 4%coqZ CREATION_OP ANNIHILATION_OP CREATION_OP ANNIHILATION_OP).
Notation bweight := (weight btr b_bg 4%coqZ CREATION_OP ANNIHILATION_OP CREATION_OP ANNIHILATION_OP).
Lemma b_reach ops : exists s, breach ops s /\ nwin s = 2%N.
Proof.
have [s [e [_ [h1 _]]]] := @initw_ok Q (aket Q) (aket Q) (a_outer Q) (@a_invalid Q) (@a_invalid Q) None None (fun o _ => a_c o) (fun o _ => a_c (a_flip o)) (a_prop h) (a_prop h) id id (@a_norm Q) (@a_norm Q) a_tau 0 ops 2 (SW [::] [::] 0 0 0 None) erefl.
by exists s; split=> //; apply: reach_init e.
Qed.
Example C72_instance (t : transformer Q) :
  [/\ bweight [:: 0; 0; 0; 0]%N 3%coqZ = 1 / 16%:R, bweight [:: 0; 0; 0; 0]%N 5%coqZ = 1 / 16%:R & bweight [:: 0; 0; 0; 0]%N 7%coqZ = 0] /\
  new_times 2 [:: 4; 3; 6; 5; 7]%coqZ 3 (bconf [:: 0; 0; 0; 0]%N 3%coqZ) = Some [:: 3; 5]%coqZ /\
  exists S : 'I_3 -> unit -> sw Q (aket Q) (aket Q),
    (forall i f, breach (bconf [:: 0; 0; 0; 0]%N (b_site i)) (S i f)) /\
    forall theta L fs l,
    let m := measured 1 8%coqZ t bset bnext (w_high a_tau) (fun s => nwin s) btrace brestore btr 0 b_bg 4%coqZ CREATION_OP ANNIHILATION_OP CREATION_OP ANNIHILATION_OP
       b_site (fun _ : unit_finType => [:: 0; 0; 0; 0]%N) 2 S theta in
    \sum_(i | i \notin occ b_bg 4%coqZ b_site) \sum_f `|bweight [:: 0; 0; 0; 0]%N (b_site i)| * (\sum_(s : L.-tuple 'I_3) \sum_f' if m fs l i f s f' is Some (MOk c) then c else 0)
    = \sum_(i | i \notin occ b_bg 4%coqZ b_site) \sum_f `|bweight [:: 0; 0; 0; 0]%N (b_site i)| * (\sum_(s : L.-tuple 'I_3) \sum_f' if m fs l i f s f' is Some _
        then phase btr b_bg 4%coqZ CREATION_OP ANNIHILATION_OP CREATION_OP ANNIHILATION_OP theta [:: 0; 0; 0; 0]%N (b_site i) *
             plain 1 8%coqZ t (worm 4%coqZ CREATION_OP ANNIHILATION_OP CREATION_OP ANNIHILATION_OP [:: 0; 0; 0; 0]%N (b_site i)) fs l else 0).
Proof.
split; first by split; vm_compute.
split; first by vm_compute.
have [S hS] : exists S : 'I_3 -> sw Q (aket Q) (aket Q), forall i, breach (bconf [:: 0; 0; 0; 0]%N (b_site i)) (S i) /\ nwin (S i) = 2%N.
  have [s0 [h0 n0]] := b_reach (bconf [:: 0; 0; 0; 0]%N (b_site (inord 0))).
  have [s1 [h1 n1]] := b_reach (bconf [:: 0; 0; 0; 0]%N (b_site (inord 1))).
  have [s2 [h2 n2]] := b_reach (bconf [:: 0; 0; 0; 0]%N (b_site (inord 2))).
  exists (fun i => if i == inord 0 then s0 else if i == inord 1 then s1 else s2) => i.
  case: (eqVneq i (inord 0)) => [->//|e0]; case: (eqVneq i (inord 1)) => [->//|e1].
  suff -> : i = inord 2 by [].
  by apply/val_inj; move: e0 e1; rewrite -!val_eqE /= !inordK //; case: i => [[|[|[|]]]].
exists (fun i _ => S i); split=> [i f|theta L fs l]; first by case: (hS i).
have nn (k : aket Q) : 0 <= a_norm k by case: k => [[b a]|] /=.
have inj : injective b_site by move=> i j; rewrite /b_site => e; apply/ord_inj; lia.
have ins i : (0 < b_site i < 8)%coqZ by rewrite /b_site; case: i => [[|[|[|]]]].
have edge i j (f : unit_finType) k : (k <= 2 * maxn 2 (nwin (S j)))%N -> b_site i <> a_tau (maxn 2 (nwin (S j))) k.
  have [_ ->] := hS j; rewrite /a_tau /b_site => hk e.
  have e2 : (4 * Z.of_nat k = Z.of_nat k * 2 * 2)%coqZ by lia.
  by move: e; rewrite e2 Z.div_mul //; lia.
have bs : csorted b_bg by repeat constructor.
have bi : inside 8 b_bg by move=> y [<-|[<-|[]]].
have b1 : (0 <= 4 < 8)%coqZ by lia.
have b2 : fresh b_bg (OT 4 1) /\ fresh b_bg (OT 4 0) by [].
by have [] := C72_mean (a_ok h) nn nn a_tau_0 a_tau_beta a_tau_mono 1 t (bg := b_bg) (t1 := 4%coqZ) (y0 := CREATION_OP) (y1 := ANNIHILATION_OP)
  (y2 := CREATION_OP) (y3 := ANNIHILATION_OP) (N := 2) (S := fun i _ => S i) (flav := fun _ : unit_finType => [:: 0; 0; 0; 0]%N) bs bi b1 b2 L theta inj ins isT edge (fun=> erefl) (fun i (_ : unit_finType) => proj1 (hS i)) fs l.
Qed.
End Instance.
Print Assumptions C72_data.
Print Assumptions C72_cutoff.
Print Assumptions C72_unbiased.
Print Assumptions C72_window.
Print Assumptions C72_mean.
