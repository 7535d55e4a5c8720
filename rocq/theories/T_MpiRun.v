(** * C51 and C52: the run over several MPI processes *)
From mathcomp Require Import all_ssreflect zify.
From Verif Require Import MpiRun.
Set Implicit Arguments.
Unset Strict Implicit.
Unset Printing Implicit Defensive.

Lemma kind_eqP a b : reflect (a = b) (kind_eq a b).
Proof. by case: a; case: b; constructor. Qed.

Section T.
Variables (n : nat) (flat sync : bool).
Notation state := (state n).
Notation run := (@run n flat sync).
Notation lstep := (@lstep n flat sync).

(** ** What a process expects next follows from the results it got so far *)
Inductive phase := PTherm | PStopA | PSync | PStopB | PEnd.
Definition next (ph : phase) (b : bool) : phase :=
  match ph with
  | PTherm => if b then (if flat then PSync else PStopB) else PStopA
  | PStopA => if b then PEnd else PTherm
  | PSync => PStopB
  | PStopB => if b then PEnd else PStopB
  | PEnd => PEnd
  end.
Definition phase_of (g : seq bool) : phase := foldl next PTherm g.
Definition kind_of (ph : phase) : kind :=
  match ph with PTherm => KTherm | PSync => KSync | PStopA | PStopB => KStop | PEnd => KCollect end.
Lemma phase_rcons g b : phase_of (rcons g b) = next (phase_of g) b.
Proof. by rewrite /phase_of foldl_rcons. Qed.

Definition waiting (w : place) : nat :=
  match w with WaitTherm | WaitSync | WaitStop | WaitCollect => 1 | _ => 0 end.
Definition in_loop (w : place) : bool :=
  match w with Top | WaitTherm | WaitSync | Upd | WaitStop => true | _ => false end.

(** The phase that belongs to a place *)
Definition place_ok (l : local) : Prop :=
  match pc l with
  | Top => phase_of (got l) = if allt l then PStopB else PTherm
  | WaitTherm => phase_of (got l) = PTherm /\ allt l = false
  | WaitSync => phase_of (got l) = PSync /\ allt l = true
  | Upd | WaitStop => phase_of (got l) = if allt l then PStopB else PStopA
  | Fin | Threw => phase_of (got l) = PEnd
  | Solve r => phase_of (got l) = PEnd /\ r = therm l /\ therm l
  | WaitCollect | Done => phase_of (got l) = PEnd /\ therm l
  | Mismatch => False
  end.
(** Position of the result that let the process go on to measure *)
Definition opened (g : seq bool) (k : nat) : Prop := k < size g /\ phase_of (take k g) = PTherm /\ nth false g k = true.

Record linv (l : local) : Prop := LInv {
  li_size : size (posted l) = size (got l) + waiting (pc l);
  li_kind : forall k, k < size (posted l) -> (nth (KTherm, false) (posted l) k).1 = kind_of (phase_of (take k (got l)));
  li_this : this_therm l = therm l;
  li_therm : forall k, k < size (posted l) -> nth (KTherm, false) (posted l) k = (KTherm, true) -> therm l;
  li_allt : allt l -> exists k, opened (got l) k;
  li_iter : ~~ allt l -> in_loop (pc l) -> size (got l) = (iter l).*2 + (match pc l with Upd | WaitStop => 1 | _ => 0 end);
  li_prep : forall i, List.In (EvPrepare i) (events l) -> opened (got l) i.*2 }.

Lemma take_rcons_le k (g : seq bool) b : k <= size g -> take k (rcons g b) = take k g.
Proof. by move=> h; rewrite -cats1 takel_cat. Qed.
Lemma opened_rcons g b k : opened g k -> opened (rcons g b) k.
Proof. by move=> [h1 [h2 h3]]; rewrite /opened size_rcons take_rcons_le 1?ltnW // nth_rcons h1; split=> //; apply: ltnW. Qed.
Lemma later k m g : k <= m -> m <= size g -> phase_of (take k g) <> PTherm -> phase_of (take k g) <> PStopA ->
  phase_of (take m g) <> PTherm /\ phase_of (take m g) <> PStopA.
Proof.
move=> km ms a b; elim: m km ms => [|m ih] km ms; first by rewrite leqn0 in km; move/eqP: km => km; rewrite km in a b.
have [e|lt] := eqVneq k m.+1; first by rewrite -e.
have [|//|] := ih; [lia|exact: ltnW|].
by rewrite (take_nth false) // phase_rcons; case: (phase_of _) => //=; case: (nth _ _ _).
Qed.
Lemma opened_unique g k m : opened g k -> opened g m -> k = m.
Proof.
have one k' m' : k' < m' -> opened g k' -> opened g m' -> False.
  move=> km [a [b c]] [d [e f]]; have := @later k'.+1 m' g km (ltnW d).
  rewrite (take_nth false) // phase_rcons b c /=; case: flat => /=; by move=> /(_ _ _) [].
by move=> ok om; case: (ltngtP k m) => // h; [case: (one _ _ h ok om)|case: (one _ _ h om ok)].
Qed.

(** ** The results that the processes got are those of the collective operations *)
Definition result_ok (st : state) (g : seq bool) (k : nat) : Prop :=
  match phase_of (take k g) with
  | PTherm => everyone st k /\ nth false g k = product st k
  | PStopA | PStopB => k < size (posted (st ord0)) /\ nth false g k = (brought st ord0 k).2
  | PSync | PEnd => nth false g k = true
  end.
Record ginv (st : state) : Prop := GInv {
  gi_local : forall p, linv (st p);
  gi_place : forall p, place_ok (st p);
  gi_result : forall p k, k < size (got (st p)) -> result_ok st (got (st p)) k }.

Definition extends (st st' : state) : Prop := forall q, exists e, posted (st' q) = posted (st q) ++ e.
Lemma brought_ext st st' q k : extends st st' -> k < size (posted (st q)) -> brought st' q k = brought st q k.
Proof. by move=> /(_ q) [e pe] h; rewrite /brought pe nth_cat h. Qed.
Lemma posted_ext st st' q k : extends st st' -> k < size (posted (st q)) -> k < size (posted (st' q)).
Proof. by move=> /(_ q) [e ->] h; rewrite size_cat ltn_addr. Qed.
Lemma result_ok_ext st st' g k : extends st st' -> result_ok st g k -> result_ok st' g k.
Proof.
move=> ex; rewrite /result_ok; case: (phase_of _) => //.
- move=> [/forallP ev ->]; split; first by apply/forallP => q; exact: posted_ext (ev q).
  by apply: eq_forallb => q; rewrite (brought_ext ex).
- by move=> [h ->]; split; [exact: posted_ext h|rewrite (brought_ext ex)].
- by move=> [h ->]; split; [exact: posted_ext h|rewrite (brought_ext ex)].
Qed.
Lemma result_ok_rcons st g b k : k < size g -> result_ok st g k -> result_ok st (rcons g b) k.
Proof. by move=> h; rewrite /result_ok take_rcons_le ?nth_rcons ?h // ltnW. Qed.

(** Two processes got the same results *)
Lemma agree st p q k : ginv st -> k <= size (got (st p)) -> k <= size (got (st q)) -> take k (got (st p)) = take k (got (st q)).
Proof.
move=> gi; elim: k => [|k ih] kp kq; first by rewrite !take0.
rewrite !(take_nth false) // ih ?(ltnW kp) ?(ltnW kq) //; congr rcons.
have := gi_result gi kp; have := gi_result gi kq; rewrite /result_ok ih ?(ltnW kp) ?(ltnW kq) //.
by case: (phase_of _) => //; [move=> [_ ->] [_ ->]|move=> [_ ->] [_ ->]|move=> -> ->|move=> [_ ->] [_ ->]|move=> -> ->].
Qed.
Lemma posted_kind st q k g : ginv st -> k < size (posted (st q)) -> take k (got (st q)) = g -> (brought st q k).1 = kind_of (phase_of g).
Proof. by move=> gi h <-; exact: (li_kind (gi_local gi q)). Qed.
Lemma posted_got st q k : ginv st -> k < size (posted (st q)) -> k <= size (got (st q)).
Proof.
move=> gi; rewrite (li_size (gi_local gi q)); have : waiting (pc (st q)) <= 1 by case: (pc _).
lia.
Qed.
Lemma kinds_agree st p q : ginv st -> size (got (st p)) < size (posted (st q)) ->
  (brought st q (size (got (st p)))).1 = kind_of (phase_of (got (st p))).
Proof.
move=> gi h; apply: (posted_kind gi h); rewrite -[RHS]take_size; apply: agree => //; exact: posted_got h.
Qed.
Lemma no_mismatch st p c : ginv st -> everyone st (size (got (st p))) -> kind_of (phase_of (got (st p))) = c ->
  same_kind st (size (got (st p))) c.
Proof. by move=> gi /forallP ev <-; apply/forallP => q; rewrite (kinds_agree gi) //; exact/kind_eqP. Qed.

Record step_ok (st : state) (l l' : local) : Prop := StepOk {
  so_inv : linv l';
  so_place : place_ok l';
  so_posted : exists e, posted l' = posted l ++ e;
  so_got : got l' = got l \/ exists2 b, got l' = rcons (got l) b & result_ok st (rcons (got l) b) (size (got l)) }.

(** The parts of the invariant under posting and receiving *)
Lemma kind_post l c b : linv l -> waiting (pc l) = 0 -> c = kind_of (phase_of (got l)) -> forall k, k < size (rcons (posted l) (c, b)) ->
  (nth (KTherm, false) (rcons (posted l) (c, b)) k).1 = kind_of (phase_of (take k (got l))).
Proof.
move=> li w -> k; have s := li_size li; rewrite w addn0 in s.
rewrite size_rcons ltnS nth_rcons => h; case: ltngtP h => // [lt _|-> _]; first exact: li_kind.
by rewrite s take_size.
Qed.
Lemma kind_receive l b : linv l -> waiting (pc l) = 1 -> forall k, k < size (posted l) ->
  (nth (KTherm, false) (posted l) k).1 = kind_of (phase_of (take k (rcons (got l) b))).
Proof.
move=> li w k h; have s := li_size li; rewrite w addn1 in s.
by rewrite take_rcons_le; [exact: li_kind|rewrite s in h].
Qed.
Lemma therm_post l c b : linv l -> (c, b) <> (KTherm, true) -> forall k, k < size (rcons (posted l) (c, b)) ->
  nth (KTherm, false) (rcons (posted l) (c, b)) k = (KTherm, true) -> therm l.
Proof.
move=> li ne k; rewrite size_rcons ltnS nth_rcons => h; case: ltngtP h => // lt _; exact: li_therm.
Qed.

Definition iter_off (w : place) : nat := match w with Upd | WaitStop => 1 | _ => 0 end.
Lemma linv_move l w it s ev : linv l -> waiting w = waiting (pc l) ->
  let l' := Local w it (therm l) (this_therm l) (allt l) s (posted l) (got l) ev in
  (~~ allt l -> in_loop w -> size (got l) = it.*2 + iter_off w) -> (forall i, List.In (EvPrepare i) ev -> List.In (EvPrepare i) (events l)) ->
  linv l'.
Proof.
move=> li ww l' it_ok ev_ok; split=> //=; [by rewrite ww (li_size li)|exact: li_kind|exact: li_this|exact: li_therm|exact: li_allt|].
by move=> i /ev_ok; exact: li_prep.
Qed.
Lemma linv_post l c b w ev : linv l -> waiting w = 1 -> waiting (pc l) = 0 -> c = kind_of (phase_of (got l)) ->
  let l' := Local w (iter l) (therm l) (this_therm l) (allt l) (stopped l) (rcons (posted l) (c, b)) (got l) ev in
  ((c, b) = (KTherm, true) -> therm l) ->
  (~~ allt l -> in_loop w -> size (got l) = (iter l).*2 + iter_off w) -> (forall i, List.In (EvPrepare i) ev -> List.In (EvPrepare i) (events l)) ->
  linv l'.
Proof.
move=> li w1 w0 ek l' th it_ok ev_ok; split=> //=; first by rewrite size_rcons (li_size li) w0 w1 addn0 addn1.
- exact: kind_post.
- exact: li_this.
- by move=> k; rewrite size_rcons ltnS nth_rcons => h; case: ltngtP h => // lt _; exact: li_therm.
- exact: li_allt.
- by move=> i /ev_ok; exact: li_prep.
Qed.
Lemma linv_receive l b w it al s ev : linv l -> waiting (pc l) = 1 -> waiting w = 0 ->
  let l' := Local w it (therm l) (this_therm l) al s (posted l) (rcons (got l) b) ev in
  (al -> allt l \/ phase_of (got l) = PTherm /\ b) ->
  (~~ al -> in_loop w -> (size (got l)).+1 = it.*2 + iter_off w) ->
  (forall i, List.In (EvPrepare i) ev -> List.In (EvPrepare i) (events l) \/ [/\ phase_of (got l) = PTherm, b & size (got l) = i.*2]) ->
  linv l'.
Proof.
move=> li w1 w0 l' al_ok it_ok ev_ok.
have op : phase_of (got l) = PTherm -> b -> opened (rcons (got l) b) (size (got l)).
  by move=> e eb; rewrite /opened size_rcons take_rcons_le // take_size nth_rcons ltnn eqxx eb.
split=> //=; first by rewrite (li_size li) w0 w1 addn0 size_rcons addn1.
- exact: kind_receive.
- exact: li_this.
- exact: li_therm.
- move=> /al_ok [/(li_allt li) [k ok]|[e eb]]; first by exists k; exact: opened_rcons.
  by exists (size (got l)); exact: op.
- by move=> na nl; rewrite size_rcons it_ok.
- move=> i /ev_ok [/(li_prep li)|[e eb <-]]; [exact: opened_rcons|exact: op].
Qed.
Lemma update_thermalization_inv l o : linv l -> pc l = Top -> linv (update_thermalization l o).
Proof.
move=> li e; rewrite /update_thermalization; case th: (therm l) => //.
split=> /=; rewrite ?e //=.
- by rewrite (li_size li) e.
- exact: li_kind.
- by move=> k h1 h2; have := li_therm li h1 h2; rewrite th.
- exact: li_allt.
- by move=> na _; rewrite (li_iter li na) e.
- exact: li_prep.
Qed.
Lemma update_thermalization_E l o : let l' := update_thermalization l o in
  [/\ pc l' = pc l, iter l' = iter l, allt l' = allt l, posted l' = posted l & [/\ got l' = got l, events l' = events l & therm l -> therm l']].
Proof. by rewrite /= /update_thermalization; case th: (therm l). Qed.

Lemma local_step st p o l' : ginv st -> lstep st p o = Some l' -> step_ok st (st p) l'.
Proof.
move=> gi; have li := gi_local gi p; have pl := gi_place gi p; rewrite /lstep /lstep_with.
have ext1 : exists e, posted (st p) = posted (st p) ++ e by exists [::]; rewrite cats0.
have ext2 : forall x, exists e, rcons (posted (st p)) x = posted (st p) ++ e by move=> x; exists [:: x]; rewrite cats1.
move: pl; rewrite /place_ok; case epc : (pc (st p)) => [||||||r||||] pl //=.
- (* Top *)
  have /= [e1 e2 e3 e4 [e5 e6 _]] := update_thermalization_E (st p) o.
  have li' := update_thermalization_inv o li epc; move: (update_thermalization _ _) e1 e2 e3 e4 e5 e6 li' => l e1 e2 e3 e4 e5 e6 li'.
  rewrite e3; case al: (allt (st p)) pl => pl [<-]; split; rewrite /place_ok /= ?e4 ?e5 ?e3 ?al; try (by []); try (by left).
  + by apply: linv_move; rewrite ?e1 ?epc ?e3 ?al //=.
  + apply: linv_post; rewrite ?e1 ?epc ?e3 ?e5 ?pl //=.
      by move=> [h]; rewrite -(li_this li').
    by move=> _ _; rewrite e2 (li_iter li) ?al ?epc.
- (* WaitTherm *)
  case: pl => ph al; case: ifP => // /negbFE ev; rewrite (no_mismatch gi ev) ?ph //=.
  have ro : result_ok st (rcons (got (st p)) (product st (size (got (st p))))) (size (got (st p))).
    by rewrite /result_ok take_rcons_le // take_size ph nth_rcons ltnn eqxx.
  move: ro; set b := product _ _ => ro.
  have it := li_iter li; rewrite al epc /= addn0 in it.
  case eb : b ro => ro.
  + have li1 : linv (Local Fin (iter (st p)) (therm (st p)) (this_therm (st p)) true (stopped (st p)) (posted (st p)) (rcons (got (st p)) true)
        (events (st p) ++ [:: EvPrepare (iter (st p))])).
      apply: linv_receive => //; rewrite ?epc //=; first by right.
      move=> i h; have [|[[<-]|[]]] := List.in_app_or _ _ _ h; [by left|by right; split=> //; exact: it].
    have ph1 : phase_of (rcons (got (st p)) true) = if flat then PSync else PStopB by rewrite phase_rcons ph.
    case ef : flat ph1 => ph1 [<-]; split; rewrite /place_ok /= ?ef; try (by []); try (by right; exists true).
    * by apply: (linv_post (l := Local Fin _ _ _ true _ _ _ _) li1); rewrite //= ph1.
    * by have /= := @linv_move _ Upd (iter (st p)) (stopped (st p)) (events (st p) ++ [:: EvPrepare (iter (st p))]) li1; apply.
  + move=> [<-]; split; rewrite /place_ok /= ?phase_rcons ?ph ?al; try (by []); try (by right; exists false).
    rewrite /goto /next_iter /set_stopped /receive /=; apply: linv_receive; rewrite ?epc ?al //=; last by left.
    by move=> _ _; rewrite it // addn1.
- (* WaitSync *)
  case: pl => ph al; case: ifP => // /negbFE ev; rewrite (no_mismatch gi ev) ?ph //= => -[<-].
  split; rewrite /place_ok /= ?phase_rcons ?ph ?al; try (by []); last first.
    by right; exists true => //; rewrite /result_ok take_rcons_le // take_size ph nth_rcons ltnn eqxx.
  rewrite /goto /next_iter /set_stopped /receive /=; by apply: linv_receive; rewrite ?epc ?al //=; left.
- (* Upd *)
  move=> [<-]; set ev := measure_events _.
  have evP i : List.In (EvPrepare i) (events (st p) ++ ev) -> List.In (EvPrepare i) (events (st p)).
    rewrite /ev /measure_events; case: (therm _); case: (allt _) => /=; rewrite ?cats0 // => h; have [|] := List.in_app_or _ _ _ h => //=; intuition congruence.
  have it := li_iter li; rewrite epc /= in it.
  case: ifP => c; split; rewrite /place_ok /=; try (by []); try (by left).
  + rewrite /post /log /=; apply: linv_post; rewrite ?epc //=; by rewrite pl; case: (allt _).
  + rewrite /next_iter /log /=; apply: linv_move; rewrite ?epc //=.
    by case: (allt _) c => //=; rewrite !orbT.
  + by rewrite pl; case: (allt _) c => //; rewrite !orbT.
- (* WaitStop *)
  case: ifP => // /negbFE ev.
  have av : size (got (st p)) < size (posted (st ord0)) by case: sync ev => // /forallP; exact.
  rewrite (kinds_agree gi av) pl.
  have -> : kind_of (if allt (st p) then PStopB else PStopA) = KStop by case: ifP.
  move=> /= [<-].
  have ro : result_ok st (rcons (got (st p)) (brought st ord0 (size (got (st p)))).2) (size (got (st p))).
    by rewrite /result_ok take_rcons_le // take_size pl nth_rcons ltnn eqxx; case: ifP.
  move: ro; set b := (brought _ _ _).2 => ro.
  have it := li_iter li; rewrite epc /= in it.
  case eb : b ro => ro; split; rewrite /place_ok /= ?phase_rcons ?pl; try (by []); try (by right; eexists; [reflexivity|exact: ro]).
  + rewrite /goto /next_iter /set_stopped /receive /=; by apply: linv_receive; rewrite ?epc //=; left.
  + by case: ifP.
  + rewrite /goto /next_iter /set_stopped /receive /=; apply: linv_receive; rewrite ?epc //=; [by left| |by left].
    by move=> na _; rewrite it // doubleS addn0 addn1.
  + by case: ifP.
- (* Fin *)
  move=> [<-]; case th: (therm (st p)) => /=; [case: (o_visited o)|] => /=; split; rewrite /place_ok /= ?th; try (by []); try (by left);
    by apply: linv_move; rewrite ?epc.
- (* Solve *)
  case: pl => ph [er th]; rewrite er th /=.
  have -> : (if p == ord0 then post (st p) KCollect true WaitCollect else post (st p) KCollect true WaitCollect) = post (st p) KCollect true WaitCollect by case: ifP.
  move=> [<-]; split; rewrite /place_ok /= ?th; try (by []); try (by left).
  by apply: linv_post; rewrite ?epc ?ph.
- (* WaitCollect *)
  case: pl => ph th; case: ifP => // /negbFE ev; rewrite (no_mismatch gi ev) ?ph //= => -[<-].
  split; rewrite /place_ok /= ?phase_rcons ?ph ?al; try (by []); last first.
    by right; exists true => //; rewrite /result_ok take_rcons_le // take_size ph nth_rcons ltnn eqxx.
  rewrite /goto /next_iter /set_stopped /receive /=; by apply: linv_receive; rewrite ?epc //=; left.
Qed.

(** ** What a process logged *)
Definition is_step (e : event) : bool := if e is EvStep _ then true else false.
Definition is_prepare (e : event) : bool := if e is EvPrepare _ then true else false.
Record einv (l : local) : Prop := EInv {
  ei_events : if allt l then exists pre i post, [/\ events l = pre ++ EvPrepare i :: post, all is_step pre & ~~ has is_prepare post]
              else all is_step (events l);
  ei_step : has is_step (events l) -> therm l;
  ei_open : forall k, opened (got l) k -> allt l;
  ei_end : forall k, k < size (got l) -> phase_of (take k (got l)) = PEnd -> pc l = Done /\ k.+1 = size (got l);
  ei_stopped : in_loop (pc l) -> stopped l = false;
  ei_done : pc l = Done -> 0 < size (got l) /\ phase_of (take (size (got l)).-1 (got l)) = PEnd }.
Lemma open_receive g b k : opened (rcons g b) k -> opened g k \/ [/\ k = size g, phase_of g = PTherm & b].
Proof.
rewrite /opened size_rcons ltnS => -[h [e1 e2]]; rewrite take_rcons_le // in e1; rewrite nth_rcons in e2.
by case: ltngtP h e1 e2 => // [lt _ e1 e2|-> _]; [left|rewrite take_size; right].
Qed.
Lemma end_receive l b : einv l -> pc l <> Done -> forall k, k < size (rcons (got l) b) -> phase_of (take k (rcons (got l) b)) = PEnd ->
  phase_of (got l) = PEnd /\ k = size (got l).
Proof.
move=> ei nd k; rewrite size_rcons ltnS => h; rewrite take_rcons_le //.
case: ltngtP h => // [lt _ e|-> _]; last by rewrite take_size.
by have [] := ei_end ei lt e.
Qed.
Lemma local_step2 st p o l' : ginv st -> einv (st p) -> lstep st p o = Some l' -> einv l'.
Proof.
move=> gi ei; have pl := gi_place gi p; rewrite /lstep /lstep_with.
move: pl; rewrite /place_ok; case epc : (pc (st p)) => [||||||r||||] pl //=.
- have [ev es eo ee est _] := ei; rewrite epc /= in ee est.
  rewrite /update_thermalization; case th: (therm (st p)) => /=; case al: (allt (st p)) ev => ev [<-]; split=> //=; rewrite ?al //;
    try (by move=> k h /(ee _ h) []); try (by rewrite est); try (by move=> k /eo; rewrite al);
    by move=> h; have := es h; rewrite th.
- case: pl => ph al; case: ifP => // /negbFE evy; rewrite (no_mismatch gi evy) ?ph //=.
  have nd : pc (st p) <> Done by rewrite epc.
  have [ev es eo ee est _] := ei; rewrite epc /= al in ev est.
  case eb : (product _ _)  => -[<-].
  + set l1 := log _ _.
    have : einv (goto l1 Upd) /\ einv (post l1 KSync true WaitSync).
      split; split=> //=; try (by move=> k h e; have [] := end_receive ei nd h e; rewrite ph);
        try (by exists (events (st p)), (iter (st p)), [::]); by rewrite has_cat /= orbF.
    by case; case: flat.
  + split=> //=; rewrite ?al //; last by move=> k h e; have [] := end_receive ei nd h e; rewrite ph.
    by move=> k /open_receive [/eo|[]] //; rewrite al.
- case: pl => ph al; case: ifP => // /negbFE evy; rewrite (no_mismatch gi evy) ?ph //= => -[<-].
  have nd : pc (st p) <> Done by rewrite epc.
  have [ev es eo ee est _] := ei; rewrite epc /= al in ev est.
  split=> //=; rewrite ?al //; by move=> k h e; have [] := end_receive ei nd h e; rewrite ph.
- move=> [<-]; have [ev es eo ee est _] := ei; rewrite epc /= in est ee.
  have st' : has is_step (events (st p) ++ measure_events (st p)) -> therm (st p).
    by rewrite has_cat /measure_events; case: (therm _) es => // es /=; case: (allt _); rewrite /= !orbF.
  have ev' : if allt (st p) then exists pre i post, [/\ events (st p) ++ measure_events (st p) = pre ++ EvPrepare i :: post, all is_step pre & ~~ has is_prepare post]
              else all is_step (events (st p) ++ measure_events (st p)).
    rewrite /measure_events; case: (allt (st p)) ev => [[pre [i [post [-> h1 h2]]]]|h].
      exists pre, i, (post ++ (if therm (st p) then [:: EvStep (iter (st p))] else [::]) ++ [:: EvMeasure (iter (st p))]).
      by rewrite -catA; split=> //; rewrite !has_cat (negbTE h2); case: (therm _).
    by rewrite all_cat h; case: (therm _).
  case: ifP => _; split=> //= k h /(ee _ h) [] //.
- case: ifP => // /negbFE evy.
  have av : size (got (st p)) < size (posted (st ord0)) by case: sync evy => // /forallP; exact.
  rewrite (kinds_agree gi av) pl.
  have -> : kind_of (if allt (st p) then PStopB else PStopA) = KStop by case: ifP.
  move=> /= [<-]; have nd : pc (st p) <> Done by rewrite epc.
  have [ev es eo ee est _] := ei; rewrite epc /= in est ee.
  case eb : (brought _ _ _).2; split=> //=; rewrite ?eb //.
  + by move=> k /open_receive [/eo|[_]] //; rewrite pl; case: (allt _).
  + by move=> k h e; have [] := end_receive ei nd h e; rewrite pl; case: (allt _).
  + by move=> k /open_receive [/eo|[_]] //; rewrite pl; case: (allt _).
  + by move=> k h e; have [] := end_receive ei nd h e; rewrite pl; case: (allt _).
- move=> [<-]; have [ev es eo ee est _] := ei; rewrite epc /= in est ee.
  by case: (therm (st p)) => /=; [case: (o_visited o)|]; split=> //= k h /(ee _ h) [].
- have [ev es eo ee est _] := ei; rewrite epc /= in est ee.
  by case: (p == ord0); case: ifP => _ [<-]; split=> //= k h /(ee _ h) [].
- case: pl => ph th; case: ifP => // /negbFE evy; rewrite (no_mismatch gi evy) ?ph //= => -[<-].
  have nd : pc (st p) <> Done by rewrite epc.
  have [ev es eo ee est _] := ei; split=> //=.
  + by move=> k /open_receive [/eo|[_]] //; rewrite ph.
  + by move=> k h e; have [_ ->] := end_receive ei nd h e; rewrite size_rcons.
  + by rewrite size_rcons /= take_rcons_le // take_size.
Qed.

Record inv (st : state) : Prop := Inv { in_g : ginv st; in_e : forall p, einv (st p) }.
Lemma inv0 : inv (@init n).
Proof. by split; [split|] => // p; split=> // k []. Qed.
Lemma inv_step st po : inv st -> inv (gstep flat sync st po).
Proof.
case: po => p o [gi ei]; rewrite /gstep /=; case e : (MpiRun.lstep _ _ _ _ _) => [l'|]; last by split.
have [li pl po go] := local_step gi e; have ei' := local_step2 gi (ei p) e.
have ex : extends st (update st p l').
  by move=> q; rewrite /update; case: eqP => [->|_] //; exists [::]; rewrite cats0.
split; last by move=> q; rewrite /update; case: eqP.
split; try by move=> q; rewrite /update; case: eqP => // _; [exact: (gi_local gi)|exact: (gi_place gi)].
- by move=> q; rewrite /update; case: eqP => // _; exact: (gi_local gi).
- by move=> q; rewrite /update; case: eqP => // _; exact: (gi_place gi).
move=> q k h; apply: (result_ok_ext ex); move: h; rewrite /update; case: eqP => [_|_ h]; last exact: (gi_result gi).
case: go => [->|[b -> ro]]; first exact: (gi_result gi).
rewrite size_rcons ltnS => h; case: ltngtP h => // [lt _|-> _ //].
by apply: result_ok_rcons => //; exact: (gi_result gi).
Qed.
Lemma inv_run sched : inv (run sched).
Proof.
rewrite /MpiRun.run; elim/last_ind: sched => [|s x ih]; first exact: inv0.
by rewrite foldl_rcons; exact: inv_step.
Qed.

(** ** C51 *)
(** Every process takes part in the same sequence of collective operations *)
Theorem C51_collectives sched p q k : let st := run sched in
  k < size (posted (st p)) -> k < size (posted (st q)) ->
  (nth (KTherm, false) (posted (st p)) k).1 = (nth (KTherm, false) (posted (st q)) k).1 /\ pc (st p) <> Mismatch.
Proof.
move=> st hp hq; have [gi _] := inv_run sched; rewrite -/st in gi.
split; last by move=> e; have := gi_place gi p; rewrite /place_ok e.
rewrite (li_kind (gi_local gi p) hp) (li_kind (gi_local gi q) hq).
by rewrite (agree gi (posted_got gi hp) (posted_got gi hq)).
Qed.

Lemma allt_therm st p q : inv st -> allt (st p) -> therm (st q).
Proof.
move=> [gi ei] al; have [k [k1 [k2 k3]]] := li_allt (gi_local gi p) al.
have := gi_result gi k1; rewrite /result_ok k2 k3 => -[/forallP ev pr].
have /forallP/(_ q) b := esym pr.
apply: (li_therm (gi_local gi q) (ev q)); rewrite -/(brought st q k).
move: b; have : (brought st q k).1 = KTherm.
  rewrite (posted_kind gi (ev q) (agree gi (posted_got gi (ev q)) (ltnW k1))) k2 //.
by case: (brought st q k) => a b /= -> ->.
Qed.
(** measure() is called only once every process is thermalized, and after prepare_for_measurement *)
Theorem C51_measure sched p i : let st := run sched in List.In (EvMeasure i) (events (st p)) ->
  (forall q, therm (st q)) /\
  exists pre j post, [/\ events (st p) = pre ++ EvPrepare j :: post, ~ List.In (EvMeasure i) pre & List.In (EvMeasure i) post].
Proof.
move=> st im; have iv := inv_run sched; have [gi ei] := iv; rewrite -/st in gi ei iv.
have nostep s : all is_step s -> ~ List.In (EvMeasure i) s.
  by elim: s => [|e s ih] /=; [by move=> _ []|case/andP=> h1 h2 [e1|]; [rewrite e1 in h1|exact: ih]].
case al : (allt (st p)); last by have := ei_events (ei p); rewrite al => /nostep.
split=> [q|]; first exact: allt_therm iv al.
have := ei_events (ei p); rewrite al => -[pre [j [post [e h1 h2]]]].
exists pre, j, post; split=> //; first exact: nostep.
move: im; rewrite e => im; have [/nostep //|[//|//]] := List.in_app_or _ _ _ im; exact: h1.
Qed.

(** prepare_for_measurement is called at most once, and in the same loop iteration by all *)
Theorem C51_prepare sched p q i j : let st := run sched in
  List.In (EvPrepare i) (events (st p)) -> List.In (EvPrepare j) (events (st q)) -> i = j /\ count is_prepare (events (st p)) = 1.
Proof.
move=> st ip jq; have [gi ei] := inv_run sched; rewrite -/st in gi ei.
have op := li_prep (gi_local gi p) ip; have oq := li_prep (gi_local gi q) jq.
split.
- have tr (g h : seq bool) k m : opened g k -> k < m -> take m g = take m h -> m <= size h -> opened h k.
    move=> [a [b c]] km e mh; split; first exact: leq_trans km mh.
    have t : take k g = take k h by rewrite -(take_take (ltnW km) g) e take_take // ltnW.
    by rewrite -t; split=> //; rewrite -(nth_take _ km) -e nth_take.
  have [lpq|lqp] := leqP (size (got (st p))) (size (got (st q))).
  + have e := agree gi (leqnn (size (got (st p)))) lpq.
    by have [hp _] := op; have := opened_unique (tr _ _ _ _ op hp e lpq) oq; lia.
  + have e := agree gi (leqnn (size (got (st q)))) (ltnW lqp).
    by have [hq _] := oq; have := opened_unique (tr _ _ _ _ oq hq e (ltnW lqp)) op; lia.
- have nopr s : all is_step s -> count is_prepare s = 0 by elim: s => [|[]] //=.
  have := ei_events (ei p); case: (allt (st p)) => [[pre [m [post [-> h1 h2]]]]|h].
    rewrite count_cat /= nopr // (eqP (_ : count is_prepare post == 0)) //.
    by rewrite -leqn0 leqNgt -has_count.
  exfalso; elim: (events (st p)) h ip => [|[] e s ih] //= h [] //; exact: ih.
Qed.
Lemma out_end st q : ginv st -> ~~ in_loop (pc (st q)) -> phase_of (got (st q)) = PEnd.
Proof. by move=> gi; have := gi_place gi q; rewrite /place_ok; case: (pc (st q)) => // [r [] //|[]|[]]. Qed.
Lemma end_stays k m g : k <= m -> m <= size g -> phase_of (take k g) = PEnd -> phase_of (take m g) = PEnd.
Proof.
move=> km ms h; elim: m km ms => [|m ih] km ms; first by rewrite leqn0 in km; rewrite -(eqP km).
have [e|lt] := eqVneq k m.+1; first by rewrite -e.
by rewrite (take_nth false) // phase_rcons ih //; [lia|exact: ltnW].
Qed.
(** A process outside the loop has got more results than one inside *)
Lemma out_more st p q k : ginv st -> k <= size (got (st p)) -> phase_of (take k (got (st p))) <> PEnd -> ~~ in_loop (pc (st q)) ->
  k < size (got (st q)).
Proof.
move=> gi kp ne nl; rewrite ltnNge; apply/negP => h; apply: ne; apply: (end_stays h kp).
by rewrite -(agree gi (leqnn _) (leq_trans h kp)) take_size; exact: out_end.
Qed.
(** Once a process has prepared in iteration [i], every process that is through with iteration [i] has, and so has every
    process that left the loop *)
Theorem C51_together sched p q i : let st := run sched in
  List.In (EvPrepare i) (events (st p)) -> i < iter (st q) \/ ~~ in_loop (pc (st q)) -> List.In (EvPrepare i) (events (st q)).
Proof.
move=> st ip hq; have [gi ei] := inv_run sched; rewrite -/st in gi ei.
have [o1 [o2 o3]] := li_prep (gi_local gi p) ip.
have al : allt (st q).
  apply/negPn/negP => na.
  have lt : i.*2 < size (got (st q)).
    case: hq => [lt|nl].
    - case il : (in_loop (pc (st q))); first by rewrite (li_iter (gi_local gi q) na il); lia.
      by apply: (out_more gi (ltnW o1)); rewrite ?o2 ?il.
    - by apply: (out_more gi (ltnW o1)); rewrite ?o2.
  have e := agree gi (ltnW lt) (ltnW o1).
  have e' := agree gi lt o1.
  apply: (negP na); apply: (ei_open (ei q) (k := i.*2)); split=> //; rewrite e; split=> //.
  have := gi_result gi lt; have := gi_result gi o1; rewrite /result_ok e o2 => -[_ <-] [_ ->] //.
have := ei_events (ei q); rewrite al => -[pre [j [post [e _ _]]]].
have jq : List.In (EvPrepare j) (events (st q)) by rewrite e; apply: List.in_or_app; right; left.
by have [-> _] := C51_prepare ip jq.
Qed.
(** No deadlock during the run: as long as some process is inside the loop, one of those can go on *)
Theorem C51_progress sched : let st := run sched in
  (exists p, in_loop (pc (st p))) -> exists p, in_loop (pc (st p)) /\ forall o, lstep st p o <> None.
Proof.
move=> st [p0 il0]; have [gi ei] := inv_run sched; rewrite -/st in gi ei.
case ex : [exists q, in_loop (pc (st q)) && (waiting (pc (st q)) == 0)].
  case/existsP: ex => q /andP[il /eqP w]; exists q; split=> // o; rewrite /MpiRun.lstep /lstep_with.
  by case: (pc (st q)) il w => //=; case: (_ || _) => //=; case: (update_thermalization _ _).
have wt q : in_loop (pc (st q)) -> waiting (pc (st q)) = 1.
  move/negbT: ex => /existsPn /(_ q); case: (pc (st q)) => //.
have [p il mn] := @arg_minnP _ p0 (fun q => in_loop (pc (st q))) (fun q => size (got (st q))) il0.
exists p; split=> // o.
have ne : phase_of (got (st p)) <> PEnd.
  by have := gi_place gi p; rewrite /place_ok; case: (pc (st p)) il => //= _; [|case=> ->|case=> ->| |] => //; case: (allt _) => ->.
have ev : everyone st (size (got (st p))).
  apply/forallP => q; rewrite (li_size (gi_local gi q)).
  case ilq : (in_loop (pc (st q))); first by rewrite wt // addn1 ltnS mn.
  by apply: ltn_addr; apply: (out_more gi (leqnn _)); rewrite ?take_size ?ilq.
rewrite /MpiRun.lstep /lstep_with; have w := wt p il; case: (pc (st p)) w il => //= _ _.
- by rewrite ev /=; case: ifP.
- by rewrite ev /=; case: ifP.
- have -> : (if sync then everyone st (size (got (st p))) else size (got (st p)) < size (posted (st ord0))).
    by case: sync => //; move/forallP: ev; exact.
  by case: ifP.
Qed.

(** ** C52 *)
(** If the processes agreed that all are thermalized before the run was stopped, and every process visited all its configuration
    spaces, then no process throws, the test in solve for a process without thermalization never succeeds, and unless all
    have collected the results some process can go on *)
Definition all_visited (sched : seq ('I_n.+1 * oracle)) : Prop := all (fun po => o_visited po.2) sched.
Lemma threw_inv sched : all_visited sched -> forall q, pc (run sched q) = Threw -> therm (run sched q) = false.
Proof.
rewrite /MpiRun.run; elim/last_ind: sched => [|s [p o] ih] //; rewrite /all_visited all_rcons => /andP[/= vo av] q.
have iv := inv_run s; rewrite /MpiRun.run in iv; rewrite foldl_rcons; move: (foldl _ _ _) iv (ih av) => st [gi ei] {}ih.
rewrite /gstep /=; case e : (MpiRun.lstep _ _ _ _ _) => [l'|]; last exact: ih.
rewrite /update; case: eqP => [_|_]; last exact: ih.
move: e; rewrite /MpiRun.lstep /lstep_with; have := gi_place gi p; rewrite /place_ok; case: (pc (st p)) => //=.
- by move=> _ [<-]; case: ifP.
- by move=> _; case: ifP => // _; case: ifP => [_ [<-]|_ [<-]] //; case: (product _ _); [case: flat|].
- by move=> _; case: ifP => // _; case: ifP => [_ [<-]|_ [<-]].
- by move=> _ [<-]; case: ifP.
- by move=> _; case: ifP => // _; case: ifP => [_ [<-]|_ [<-]] //; case: (brought _ _ _).2.
- by move=> _ [<-]; rewrite vo /=; case th: (therm (st p)).
- by move=> r [_ [-> ->]] [<-] /=; case: ifP.
- by move=> _; case: ifP => // _; case: ifP => [_ [<-]|_ [<-]].
Qed.
Theorem C52_partial sched : let st := run sched in all_visited sched -> (exists p, allt (st p)) ->
  (forall q, pc (st q) <> Threw) /\
  ((exists q, pc (st q) <> Done) -> exists q, forall o, o_visited o -> exists2 l, lstep st q o = Some l & pc l <> Threw).
Proof.
move=> st av [p0 al]; have iv := inv_run sched; have [gi ei] := iv; rewrite -/st in iv gi ei.
have th q : therm (st q) := allt_therm q iv al.
have nt q : pc (st q) <> Threw by move=> /(threw_inv av); rewrite -/st th.
split=> // -[q0 nd0].
case il : [exists q, in_loop (pc (st q))].
  have [|q [ilq pr]] := @C51_progress sched; first exact/existsP.
  exists q => o vo; move: (pr o); rewrite -/st; case e : (MpiRun.lstep _ _ _ _ _) => [l|] // _; exists l => //.
  move: e; rewrite /MpiRun.lstep /lstep_with; case: (pc (st q)) ilq => //= _.
  - by move=> [<-]; case: ifP.
  - by case: ifP => // _; case: ifP => [_ [<-]|_ [<-]] //; case: (product _ _); [case: flat|].
  - by case: ifP => // _; case: ifP => [_ [<-]|_ [<-]].
  - by move=> [<-]; case: ifP.
  - by case: ifP => // _; case: ifP => [_ [<-]|_ [<-]] //; case: (brought _ _ _).2.
have nl q : ~~ in_loop (pc (st q)) by move/negbT: il => /existsPn.
case ex : [exists q, if pc (st q) is Fin then true else if pc (st q) is Solve _ then true else false].
  case/existsP: ex => q; have := gi_place gi q; rewrite /place_ok; case e : (pc (st q)) => [||||||r||||] // pl _; exists q => o vo; rewrite /MpiRun.lstep /lstep_with e.
  - by rewrite th vo /=; eexists; first by reflexivity.
  - by case: pl => _ [-> _]; rewrite th /=; case: ifP => _; eexists; first by reflexivity.
have wc q : pc (st q) = WaitCollect \/ pc (st q) = Done.
  move/negbT: ex => /existsPn /(_ q); have := gi_place gi q; rewrite /place_ok; have := nl q; have := nt q.
  by case: (pc (st q)) => //; [left|right].
have w0 : pc (st q0) = WaitCollect by case: (wc q0).
have ph q : phase_of (got (st q)) = PEnd by exact: out_end.
have ev : everyone st (size (got (st q0))).
  apply/forallP => q; rewrite (li_size (gi_local gi q)).
  have [lt|ge] := ltnP (size (got (st q))) (size (got (st q0))).
    have [] // := ei_end (ei q0) lt.
    by rewrite -(agree gi (leqnn _) (ltnW lt)) take_size.
  case: (wc q) => e; rewrite e /= ?addn1 ?ltnS // addn0.
  case: (ltngtP (size (got (st q0))) (size (got (st q)))) ge => // eg _.
  have [g0 pe] := ei_done (ei q) e.
  have lt : (size (got (st q))).-1 < size (got (st q0)) by rewrite eg; lia.
  have [] // := ei_end (ei q0) lt.
  by rewrite -(agree gi (leq_pred _) (ltnW lt)).
exists q0 => o _; rewrite /MpiRun.lstep /lstep_with w0 ev /= (no_mismatch gi ev) ?ph //=.
by eexists; first by reflexivity.
Qed.
End T.

(** ** Two processes, computably *)
Section Two.
Variables flat sync : bool.
Definition P0 : 'I_2 := ord0.
Definition P1 : 'I_2 := lift ord0 ord0.
Lemma forall2 (P : pred 'I_2) : [forall q, P q] = P P0 && P P1.
Proof.
apply/forallP/andP => [h|[h0 h1] q]; first by [].
by case: (unliftP ord0 q) => [j ->|-> //]; rewrite (ord1 j).
Qed.
Definition bring (l : local) (k : nat) : kind * bool := nth (KTherm, false) (posted l) k.
Definition lstep2 (a b : local) (who : bool) (o : oracle) : option local :=
  lstep_with flat sync (fun k => (k < size (posted a)) && (k < size (posted b)))
    (fun k c => kind_eq (bring a k).1 c && kind_eq (bring b k).1 c) (fun k => (bring a k).2 && (bring b k).2)
    (bring a) (size (posted a)) (~~ who) (if who then b else a) o.
Definition gstep2 (ab : local * local) (x : bool * oracle) : local * local :=
  if lstep2 ab.1 ab.2 x.1 x.2 is Some l then (if x.1 then (ab.1, l) else (l, ab.2)) else ab.
Definition run2 (s : seq (bool * oracle)) : local * local := foldl gstep2 (local0, local0) s.
Definition proc (who : bool) : 'I_2 := if who then P1 else P0.
Definition sched2 (s : seq (bool * oracle)) : seq ('I_2 * oracle) := [seq (proc x.1, x.2) | x <- s].
Lemma lstep_ext ev ev' sk sk' pr pr' rt rt' m r l o : ev =1 ev' -> sk =2 sk' -> pr =1 pr' -> rt =1 rt' ->
  lstep_with flat sync ev sk pr rt m r l o = lstep_with flat sync ev' sk' pr' rt' m r l o.
Proof. by move=> e1 e2 e3 e4; rewrite /lstep_with; case: (pc l) => //; rewrite ?e1 ?e2 ?e3 ?e4. Qed.
Lemma lstep2E (st : state 1) a b who o : st P0 = a -> st P1 = b -> lstep flat sync st (proc who) o = lstep2 a b who o.
Proof.
move=> ea eb; rewrite /lstep /lstep2 -/P0 ea.
have -> : st (proc who) = if who then b else a by rewrite -ea -eb; case: who.
have -> : (proc who == P0) = ~~ who by case: who.
apply: lstep_ext => k; rewrite /everyone /same_kind /product /brought /bring -?/P0 ?ea //; try (by move=> c; rewrite forall2 ea eb); by rewrite forall2 ea eb.
Qed.
Lemma run2E s : run flat sync (sched2 s) P0 = (run2 s).1 /\ run flat sync (sched2 s) P1 = (run2 s).2.
Proof.
rewrite /run /run2; elim/last_ind: s => [|s [who o] [ih0 ih1]] //; rewrite /sched2 map_rcons !foldl_rcons -/(sched2 s).
move: (foldl _ _ _) (foldl _ _ _) ih0 ih1 => ab st ih0 ih1.
rewrite /gstep /gstep2 /= (lstep2E who o ih0 ih1); case: (lstep2 _ _ _ _) => [l|] //.
by rewrite /update; case: who.
Qed.
End Two.

(** What the clock says: thermalized; not yet; rank 0 wants to stop; not all spaces were visited *)
Definition yes := Oracle true false false true.
Definition no := Oracle false false false true.
Definition stop := Oracle false true true true.
Definition unvisited := Oracle true true true false.

(** Process 0 is thermalized one iteration before process 1: it accumulates with measure_every_step at a time when process 1 is not
    thermalized, and before its own prepare_for_measurement, which may change the weights of the configuration spaces *)
Theorem C51_every_step_refuted flat sync : exists sched sched',
  let st := @run 1 flat sync sched in let st' := @run 1 flat sync (sched ++ sched') in
  [/\ events (st P0) = [:: EvStep 0], therm (st P1) = false & exists ev, events (st' P0) = [:: EvStep 0, EvPrepare 1 & ev]].
Proof.
pose s := [:: (false, yes); (true, no); (false, no); (false, no)].
pose s' := [:: (true, no); (true, no); (false, no); (true, no); (false, no); (true, yes); (false, no)].
exists (sched2 s), (sched2 s'); rewrite -map_cat.
have [e0 e1] := run2E flat sync s; have [f0 _] := run2E flat sync (s ++ s'); rewrite -/(sched2 (s ++ s')).
split; [rewrite e0|rewrite e1|exists [::]; rewrite f0]; by case: flat {e0 e1 f0}; case: sync.
Qed.

(** The run is stopped when process 0 is thermalized and process 1 is not: process 0 waits for ever in collect_results *)
Theorem C52_thermalization_refuted flat sync : exists sched, let st := @run 1 flat sync sched in
  [/\ all_visited sched, pc (st P0) = WaitCollect, pc (st P1) = Threw & forall p o, lstep flat sync st p o = None].
Proof.
pose s := [:: (false, yes); (true, no); (false, no); (true, no); (false, stop); (true, no); (false, no); (true, no); (false, no); (true, no); (false, no)].
exists (sched2 s) => st; have [e0 e1] := run2E flat sync s; rewrite -/st in e0 e1.
split=> //; try (by rewrite ?e0 ?e1; case: flat {st e0 e1}; case: sync).
move=> p o; have -> : p = proc (p != P0).
  by case: (unliftP ord0 p) => [j ->|->]; rewrite /proc; case: eqP => //= _; rewrite ?(ord1 j).
by rewrite (lstep2E _ _ _ _ e0 e1); case: (p != P0); case: flat {st e0 e1}; case: sync; vm_compute.
Qed.
(** Everyone is thermalized, but process 1 did not visit all configuration spaces; it is enough that one process missed one *)
Theorem C52_visited_refuted flat sync : exists sched, let st := @run 1 flat sync sched in
  [/\ allt (st P0) && allt (st P1), pc (st P0) = WaitCollect, pc (st P1) = Threw & forall p o, lstep flat sync st p o = None].
Proof.
pose s := flatten (nseq 8 [:: (false, Oracle true true true true); (true, unvisited)]).
exists (sched2 s) => st; have [e0 e1] := run2E flat sync s; rewrite -/st in e0 e1.
split; [rewrite e0 e1|rewrite e0|rewrite e1|]; try (by case: flat {st e0 e1}; case: sync; vm_compute).
move=> p o; have -> : p = proc (p != P0).
  by case: (unliftP ord0 p) => [j ->|->]; rewrite /proc; case: eqP => //= _; rewrite ?(ord1 j).
by rewrite (lstep2E _ _ _ _ e0 e1); case: (p != P0); case: flat {st e0 e1}; case: sync; vm_compute.
Qed.

(** A run that meets the hypotheses of C51_measure, C51_prepare, C51_together and C52_partial and ends with all results collected *)
Example C52_instance flat sync : exists sched, let st := @run 1 flat sync sched in
  [/\ all_visited sched, allt (st P0), List.In (EvMeasure 0) (events (st P0)), List.In (EvPrepare 0) (events (st P1)) &
      pc (st P0) = Done /\ pc (st P1) = Done].
Proof.
pose s := flatten (nseq 9 [:: (false, Oracle true true true true); (true, Oracle true true true true)]).
exists (sched2 s) => st; have [e0 e1] := run2E flat sync s; rewrite -/st in e0 e1.
split; [by vm_compute|rewrite e0|rewrite e0|rewrite e1|rewrite e0 e1]; case: flat {st e0 e1}; case: sync; vm_compute; tauto.
Qed.
Print Assumptions C51_collectives.
Print Assumptions C51_measure.
Print Assumptions C51_prepare.
Print Assumptions C51_together.
Print Assumptions C51_progress.
Print Assumptions C51_every_step_refuted.
Print Assumptions C52_partial.
Print Assumptions C52_thermalization_refuted.
Print Assumptions C52_visited_refuted.
