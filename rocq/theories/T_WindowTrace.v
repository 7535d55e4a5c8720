(** * C22: the trace computed from the window equals the trace of the whole configuration *)
From Coq Require Import ZArith Lia List Bool Sorting.Permutation Sorting.Sorted.
From mathcomp Require Import all_ssreflect all_algebra zify.
From Verif Require Import OpContainer Updater Window T_Window.
Import ListNotations.
Set Implicit Arguments.
Unset Strict Implicit.
Unset Printing Implicit Defensive.
Local Close Scope Z_scope.
Local Open Scope nat_scope.
Delimit Scope Z_scope with coqZ.

Section WTrace.
Variable K : numFieldType.
Variables (Ket Bra : Type) (outer : list (Bra * Ket)).
Variables (ket_invalid : Ket -> bool) (bra_invalid : Bra -> bool) (ket_nil : Ket) (bra_nil : Bra).
Variables (apply_ket : optype -> nat -> Ket -> Ket) (apply_bra : optype -> nat -> Bra -> Bra).
Variables (prop_ket : Z -> Ket -> Ket) (prop_bra : Z -> Bra -> Bra).
Variables (normalize_ket : Ket -> Ket) (normalize_bra : Bra -> Bra).
Variables (norm_ket : Ket -> K) (norm_bra : Bra -> K).
Variables (sec_ket : Ket -> nat) (sec_bra : Bra -> nat).
Variable product : Bra -> Ket -> K.
Variable tau : nat -> nat -> Z.
Variable cut : K.
Variable beta : Z.

(** What the eigenbasis (src/model/eigenbasis.ipp:299-420, model.hpp:42-128) has to provide. *)
Record braket_ok : Prop := BraketOk {
  bo_apply : forall o f b k, product (apply_bra o f b) k = product b (apply_ket o f k);
  bo_prop : forall t b k, (0 <= t)%coqZ -> product (prop_bra t b) k = product b (prop_ket t k);
  bo_add : forall s t b k, (0 <= s)%coqZ -> (0 <= t)%coqZ -> product b (prop_ket t (prop_ket s k)) = product b (prop_ket (s + t) k);
  bo_zero : forall b k, product b (prop_ket 0 k) = product b k;
  bo_normk : forall b k, product b (normalize_ket k) = product b k;
  bo_normb : forall b k, product (normalize_bra b) k = product b k;
  bo_invk : forall b k, ket_invalid k -> product b k = 0%R;
  bo_invb : forall b k, bra_invalid b -> product b k = 0%R;
  bo_ninvk : forall k, ket_invalid k -> ket_invalid (normalize_ket k);
  bo_ninvb : forall b, bra_invalid b -> bra_invalid (normalize_bra b);
  bo_nilk : ket_invalid ket_nil;
  bo_nilb : bra_invalid bra_nil;
  bo_sec : forall b k, sec_bra b != sec_ket k -> product b k = 0%R }.

Notation kst := (ket_steps apply_ket prop_ket).
Notation bst := (bra_steps apply_bra prop_bra).
Notation ek := (evolve_ket ket_invalid apply_ket prop_ket normalize_ket).
Notation eb := (evolve_bra bra_invalid apply_bra prop_bra normalize_bra).
Notation pushk := (push_ket ket_invalid ket_nil apply_ket prop_ket normalize_ket norm_ket cut).
Notation pushb := (push_bra bra_invalid bra_nil apply_bra prop_bra normalize_bra norm_bra cut).
Notation canonR := (canonR outer ket_invalid ket_nil apply_ket prop_ket normalize_ket norm_ket tau cut).
Notation canonL := (canonL outer bra_invalid bra_nil apply_bra prop_bra normalize_bra norm_bra tau cut).
Notation ctrace := (compute_trace ket_invalid bra_invalid apply_ket prop_ket normalize_ket sec_ket sec_bra product tau).
Notation reach := (reach outer ket_invalid bra_invalid ket_nil bra_nil apply_ket apply_bra prop_ket prop_bra
  normalize_ket normalize_bra norm_ket norm_bra tau cut).

(** ** Specification: every operator applied once in time order between the outer bra and ket *)
Definition full_term (ops : container) (e : Bra * Ket) : K := product (fst e) (kst 0%coqZ ops beta (snd e)).
Definition full_trace (ops : container) : K := sumK (List.map (full_term ops) outer).

Hypothesis H : braket_ok.

Definition keq (k k' : Ket) : Prop := forall b, product b k = product b k'.
Definition beq (b b' : Bra) : Prop := forall k, product b k = product b' k.

(** Times in ascending order between two bounds. *)
Fixpoint chain (t : Z) (l : list psi) (t' : Z) : Prop :=
  match l with [] => (t <= t')%coqZ | x :: r => (t <= ptau x)%coqZ /\ chain (ptau x) r t' end.
Lemma chain_le t l t' : chain t l t' -> (t <= t')%coqZ.
Proof. by elim: l t => //= x l IH t [h /IH]; lia. Qed.
Lemma chain_app t l1 t1 l2 t2 : chain t l1 t1 -> chain t1 l2 t2 -> chain t (l1 ++ l2)%list t2.
Proof.
elim: l1 t => [|x l1 IH] t /=; last by move=> [h /IH h1] /h1.
by case: l2 => [|y l2] /=; [lia|move=> h [h1 h2]; split=> //; lia].
Qed.

Lemma keq_apply o f k k' : keq k k' -> keq (apply_ket o f k) (apply_ket o f k').
Proof. by move=> h b; rewrite -!(bo_apply H). Qed.
Lemma keq_prop t k k' : (0 <= t)%coqZ -> keq k k' -> keq (prop_ket t k) (prop_ket t k').
Proof. by move=> ht h b; rewrite -!(bo_prop H). Qed.
Lemma keq_steps t l t' k k' : chain t l t' -> keq k k' -> keq (kst t l t' k) (kst t l t' k').
Proof.
elim: l t k k' => [|x l IH] t k k' /=; first by move=> ht; apply: keq_prop; lia.
by move=> [h1 h2] e; apply: IH => //; apply/keq_apply/keq_prop => //; lia.
Qed.
Lemma steps_zero t l t' k : chain t l t' -> (forall b, product b k = 0%R) -> forall b, product b (kst t l t' k) = 0%R.
Proof.
elim: l t k => [|x l IH] t k /= h hz b; first by rewrite -(bo_prop H) //; lia.
by apply: IH; [case: h|move=> b'; rewrite -(bo_apply H) -(bo_prop H) //; lia].
Qed.
Lemma steps_app t l1 t1 l2 t2 k : chain t l1 t1 -> chain t1 l2 t2 ->
  keq (kst t1 l2 t2 (kst t l1 t1 k)) (kst t (l1 ++ l2)%list t2 k).
Proof.
elim: l1 t k => [|x l1 IH] t k /=; last by move=> [h1 h2] h3; exact: IH.
case: l2 => [|y l2] /= h1 h2 b.
  by rewrite (bo_add H); [congr (product b (prop_ket _ k)); lia|lia|lia].
case: h2 => h2 h3; apply: keq_steps => //; apply: keq_apply => b'.
by rewrite (bo_add H); [congr (product b' (prop_ket _ k)); lia|lia|lia].
Qed.
Lemma ek_steps t l t' k : chain t l t' -> keq (ek l t t' k) (kst t l t' k).
Proof.
move=> h b; rewrite /evolve_ket; case: ifP => hi.
  by rewrite (bo_invk H b hi) (@steps_zero t l t' k h) // => b'; exact: (bo_invk H).
by rewrite (bo_normk H); apply: keq_steps => // b'; rewrite (bo_normk H).
Qed.

(** The bra evolved downwards is adjoint to the ket evolved upwards. *)
Fixpoint rchain (t : Z) (l : list psi) (t' : Z) : Prop :=
  match l with [] => (t' <= t)%coqZ | x :: r => (ptau x <= t)%coqZ /\ rchain (ptau x) r t' end.
Lemma rchain_snoc t l x t' : rchain t l (ptau x) -> (t' <= ptau x)%coqZ -> rchain t (l ++ [x])%list t'.
Proof. by elim: l t => [|y l IH] t //= [h1 h2] h3; split=> //; exact: IH. Qed.
Lemma chain_snoc t l x t' : chain t (l ++ [x])%list t' -> chain t l (ptau x) /\ (ptau x <= t')%coqZ.
Proof. by elim: l t => [|y l IH] t //= [h1 /IH[h2 h3]]. Qed.
Lemma bst_adj t l t' b k : chain t' l t -> product (bst t (rev l) t' b) k = product b (kst t' l t k).
Proof.
move: l t b k; apply: rev_ind => [|x l IH] t b k; first by move=> /= h; rewrite (bo_prop H) //; lia.
move=> /chain_snoc[h1 h2]; rewrite (_ : rev (l ++ [x])%list = x :: rev l); last exact: (rev_cat l [x]).
rewrite /= IH // (bo_apply H) (bo_prop H); last lia.
rewrite (_ : prop_ket (t - ptau x)%coqZ (apply_ket (p_type x) (p_flavor x) (kst t' l (ptau x) k)) =
   kst (ptau x) [] t (apply_ket (p_type x) (p_flavor x) (kst t' l (ptau x) k))) //.
have e : keq (kst (ptau x) [x] t (kst t' l (ptau x) k)) (kst t' (l ++ [x])%list t k) by apply: steps_app => //=; split=> //; lia.
rewrite -e /=; apply: keq_prop; first lia. apply: keq_apply => b'. rewrite Z.sub_diag; by rewrite (bo_zero H).
Qed.
Lemma bst_zero t l t' b : chain t' l t -> (forall k, product b k = 0%R) -> forall k, product (bst t (rev l) t' b) k = 0%R.
Proof. by move=> h hz k; rewrite bst_adj. Qed.
Lemma eb_steps t l t' b k : chain t' l t -> product (eb l t t' b) k = product b (kst t' l t k).
Proof.
move=> h; rewrite /evolve_bra; case: ifP => hi; first by rewrite !(bo_invb H _ hi).
by rewrite (bo_normb H) bst_adj // (bo_normb H).
Qed.

(** ** Frames *)
Hypothesis tau_0 : forall n, 0 < n -> tau n 0 = 0%coqZ.
Hypothesis tau_beta : forall n, 0 < n -> tau n (2 * n) = beta.
Hypothesis tau_mono : forall n p q, p <= q -> q <= 2 * n -> (tau n p <= tau n q)%coqZ.

Definition kd : Ket * K := (ket_nil, 0%R).
Definition bd : Bra * K := (bra_nil, 0%R).
Definition ed : Bra * Ket := (bra_nil, ket_nil).

Lemma nth_lmap (A B : Type) (a : A) (b : B) (f : A -> B) l i : i < length l -> nth b (List.map f l) i = f (nth a l i).
Proof. by elim: l i => //= x l IH [|i] //= h; apply: IH. Qed.

(** The frame before truncation, and the brakets truncated on the way (ipp:127-133, 169-174). *)
Definition kframe' n ops R := List.map (fun e => let k := normalize_ket (ek (range (rng_co (tau n R) (tau n R.+1)) ops) (tau n R) (tau n R.+1) (fst e)) in (k, norm_ket k)) (hd [] (canonR n ops R)).
Definition bframe' n ops m := List.map (fun e => let b := normalize_bra (eb (range (rng_oc (tau n (2 * n - m.+1)) (tau n (2 * n - m))) ops) (tau n (2 * n - m)) (tau n (2 * n - m.+1)) (fst e)) in (b, norm_bra b)) (hd [] (canonL n ops m)).
Fixpoint lostR n ops R i : bool :=
  match R with 0 => false | S R' => lostR n ops R' i || (snd (nth kd (kframe' n ops R') i) < max_norm (List.map snd (kframe' n ops R')) * cut)%R end.
Fixpoint lostL n ops m i : bool :=
  match m with 0 => false | S m' => lostL n ops m' i || (snd (nth bd (bframe' n ops m') i) < max_norm (List.map snd (bframe' n ops m')) * cut)%R end.

Lemma canonR_size n ops R : length (hd [] (canonR n ops R)) = length outer.
Proof. by elim: R => [|R IH] /=; rewrite ?List.map_length // !List.map_length. Qed.
Lemma canonL_size n ops m : length (hd [] (canonL n ops m)) = length outer.
Proof. by elim: m => [|m IH] /=; rewrite ?List.map_length // !List.map_length. Qed.

Lemma sorted_chain l : csorted l -> forall a b, (a <= b)%coqZ -> (forall x, In x l -> (a <= ptau x <= b)%coqZ) -> chain a l b.
Proof.
elim=> [|x l' hs IH hf] a b hab hx /=; first by [].
have [h1 h2] := hx x (or_introl erefl); split=> //; apply: IH; first lia.
move=> y hy; have [_ h4] := hx y (or_intror hy); split=> //.
have := proj1 (Forall_forall _ _) hf y hy; rewrite /plt /psi_lt /ot_lt /ptau; case: (Z.eqb_spec _ _); lia.
Qed.
Lemma rng_co_in a b x : rng_co a b x -> (a <= ptau x <= b)%coqZ.
Proof. by rewrite /rng_co /ot_le /ot_lt /ptau /=; do 2!case: (Z.eqb_spec _ _); lia. Qed.
Lemma rng_oc_in a b x : rng_oc a b x -> (a <= ptau x <= b)%coqZ.
Proof. by rewrite /rng_oc /ot_le /ot_lt /ptau /=; do 2!case: (Z.eqb_spec _ _); lia. Qed.
Lemma rng_cc_in a b x : rng_cc a b x -> (a <= ptau x <= b)%coqZ.
Proof. by rewrite /rng_cc /ot_le /ptau /=; do 2!case: (Z.eqb_spec _ _); lia. Qed.
Lemma range_chain (f : psi -> bool) a b ops : csorted ops -> (a <= b)%coqZ -> (forall x, f x -> (a <= ptau x <= b)%coqZ) -> chain a (range f ops) b.
Proof.
move=> hs hab hf; apply: sorted_chain => //; first exact: filter_sorted.
by move=> x; rewrite /range filter_In => -[_ /hf].
Qed.

Lemma right_chain n ops R : 0 < n -> csorted ops -> R <= 2 * n -> chain 0%coqZ (right_segments tau n R ops) (tau n R).
Proof.
move=> n0 hs; elim: R => [|R IH] hR; first by rewrite tau_0 /=.
rewrite /right_segments -addn1 seq_app flat_map_app addn1; apply: chain_app (IH _) _; first lia.
rewrite /= app_nil_r; apply: range_chain => //; [apply: tau_mono; lia|exact: rng_co_in].
Qed.
Lemma left_chain n ops L : 0 < n -> csorted ops -> L <= 2 * n -> chain (tau n L) (left_segments tau n L ops) beta.
Proof.
move=> n0 hs; rewrite /left_segments; move e: (2 * n - L) => m; elim: m L e => [|m IH] L e hL /=.
  have -> : L = 2 * n by lia.
  by rewrite tau_beta //; lia.
apply: (@chain_app _ _ (tau n L.+1)); last by apply: IH; lia.
by apply: range_chain => //; [apply: tau_mono; lia|exact: rng_oc_in].
Qed.

Lemma canonR_spec n ops R i : 0 < n -> csorted ops -> R <= 2 * n -> i < length outer ->
  if lostR n ops R i then ket_invalid (fst (nth kd (hd [] (canonR n ops R)) i)) = true
  else keq (fst (nth kd (hd [] (canonR n ops R)) i)) (kst 0%coqZ (right_segments tau n R ops) (tau n R) (snd (nth ed outer i))).
Proof.
move=> n0 hs hR hi; elim: R hR => [|R IH] hR.
  by rewrite /= tau_0 // (nth_lmap ed) //= => b; rewrite (bo_normk H) (bo_zero H).
have {}IH := IH (ltnW hR).
have e : nth kd (hd [] (canonR n ops R.+1)) i =
  (if (snd (nth kd (kframe' n ops R) i) < max_norm (List.map snd (kframe' n ops R)) * cut)%R then (ket_nil, 0%R) else nth kd (kframe' n ops R) i).
  by rewrite /= /push_ket (nth_lmap kd) // /kframe' List.map_length canonR_size.
rewrite e [lostR _ _ _ _]/=; case: ifP => hl; last first.
  case: ifP; first by move=> h; move: hl; rewrite h orbT.
  move=> _; move: hl IH; case: (lostR _ _ _ _) => //= _ IH.
  rewrite /kframe' (nth_lmap kd) ?canonR_size //= => b; rewrite (bo_normk H).
  have hc : chain (tau n R) (range (rng_co (tau n R) (tau n R.+1)) ops) (tau n R.+1).
    by apply: range_chain => //; [apply: tau_mono; lia|exact: rng_co_in].
  rewrite ek_steps // (@keq_steps _ _ _ _ _ hc IH) steps_app //; last by apply: right_chain => //; lia.
  congr (product b (kst _ _ _ _)).
  by rewrite /right_segments -[R.+1 in RHS]addn1 seq_app flat_map_app /= app_nil_r.
case: ifP => h; first exact: (bo_nilk H).
move: hl; rewrite h orbF => hl; move: IH; rewrite hl /kframe' (nth_lmap kd) ?canonR_size //= => hiv.
by apply: (bo_ninvk H); rewrite /evolve_ket hiv.
Qed.
Lemma canonL_spec n ops m i : 0 < n -> csorted ops -> m <= 2 * n -> i < length outer ->
  if lostL n ops m i then bra_invalid (fst (nth bd (hd [] (canonL n ops m)) i)) = true
  else forall k, product (fst (nth bd (hd [] (canonL n ops m)) i)) k =
                 product (fst (nth ed outer i)) (kst (tau n (2 * n - m)) (left_segments tau n (2 * n - m) ops) beta k).
Proof.
move=> n0 hs hm hi; elim: m hm => [|m IH] hm.
  rewrite /= (nth_lmap ed) //= => k. rewrite subn0 tau_beta // /left_segments subnn /= Z.sub_diag.
  by rewrite (bo_normb H) (bo_zero H).
have {}IH := IH (ltnW hm).
have e : nth bd (hd [] (canonL n ops m.+1)) i =
  (if (snd (nth bd (bframe' n ops m) i) < max_norm (List.map snd (bframe' n ops m)) * cut)%R then (bra_nil, 0%R) else nth bd (bframe' n ops m) i).
  rewrite [hd _ _]/= /push_bra (nth_lmap bd) // List.map_length; by rewrite canonL_size.
rewrite e [lostL _ _ _ _]/=; case: ifP => hl; last first.
  case: ifP; first by move=> h; move: hl; rewrite h orbT.
  move=> _; move: hl IH; case: (lostL _ _ _ _) => //= _ IH k.
  rewrite /bframe' (nth_lmap bd) ?canonL_size // [fst _]/= (bo_normb H).
  have hc : chain (tau n (2 * n - m.+1)) (range (rng_oc (tau n (2 * n - m.+1)) (tau n (2 * n - m))) ops) (tau n (2 * n - m)).
    by apply: range_chain => //; [apply: tau_mono; lia|exact: rng_oc_in].
  rewrite eb_steps // IH steps_app //; last by apply: left_chain => //; lia.
  congr (product _ (kst _ _ _ _)); rewrite /left_segments.
  have -> : 2 * n - (2 * n - m.+1) = m.+1 by lia.
  have -> : 2 * n - (2 * n - m) = m by lia.
  by have -> : 2 * n - m = (2 * n - m.+1).+1 by lia.
case: ifP => h; first exact: (bo_nilb H).
move: hl; rewrite h orbF => hl; move: IH; rewrite hl /bframe' (nth_lmap bd) ?canonL_size // => hiv.
by apply: (bo_ninvb H); rewrite /evolve_bra hiv.
Qed.

Lemma sumK_ext (A : Type) (l : list A) (f : A -> K) (d : A) (m : list K) :
  length m = length l -> (forall i, i < length l -> nth 0%R m i = f (nth d l i)) -> sumK m = sumK (List.map f l).
Proof.
move=> e h; congr sumK; apply: (@eq_from_nth _ 0%R); first by rewrite -[size m]/(length m) -[size (List.map f l)]/(length (List.map f l)) List.map_length.
by move=> i hi; rewrite (nth_lmap d) ?h //; move: hi; rewrite -[size m]/(length m) e.
Qed.

Lemma nth_combine (A B : Type) (a : A) (b : B) (l : list A) (l' : list B) i : length l = length l' ->
  nth (a, b) (combine l l') i = (nth a l i, nth b l' i).
Proof. by elim: l l' i => [|x l IH] [|y l'] [|i] //= [h]; exact: IH. Qed.

(** The terms that survive the truncation. *)
Definition lost (n : nat) (ops : container) (R L i : nat) : bool := lostR n ops R i || lostL n ops (2 * n - L) i.
Definition kept_trace (n : nat) (ops : container) (R L : nat) : K :=
  sumK (List.map (fun i => if lost n ops R L i then 0%R else full_term ops (nth ed outer i)) (iota 0 (length outer))).

Theorem C22_kept ops (s : sw K Ket Bra) : reach ops s -> csorted ops -> times_in beta ops ->
  ctrace ops s = kept_trace (nwin s) ops (posR s) (posL s).
Proof.
move=> hr hs ht; have [[h1 h2 h3 h4 er el] hrest] := reach_wf tau_mono hr.
rewrite /compute_trace er el /kept_trace /top; set n := nwin s; set R := posR s; set L := posL s.
have hRL : R <= L by rewrite /R /L; case: hrest => [[? [? ?]]|[? [? ?]]]; lia.
have eL : 2 * n - (2 * n - L) = L by rewrite /n /L; lia.
have sL := canonL_size n ops (2 * n - L); have sR := canonR_size n ops R.
apply: (@sumK_ext _ (iota 0 (length outer)) _ 0).
  by rewrite List.map_length combine_length sL sR -[length (iota _ _)]/(size _) size_iota Nat.min_id.
move=> i; rewrite -[length (iota _ _)]/(size _) size_iota => hi.
rewrite (nth_lmap (bd, kd)); last by rewrite combine_length sL sR Nat.min_id.
rewrite nth_combine ?sL ?sR // nth_iota // add0n /lost.
have := @canonR_spec n ops R i; have := @canonL_spec n ops (2 * n - L) i.
case: (nth bd _ i) => b nb; case: (nth kd _ i) => k nk; rewrite /= => HL HR.
have {}HL := HL h1 hs (leq_subr _ _) hi. have {}HR := HR h1 hs (leq_trans hRL h4) hi.
case hlR: (lostR n ops R i) in HR *; first by rewrite HR.
case hlL: (lostL n ops (2 * n - L) i) in HL *; first by rewrite HL orbT.
rewrite eL in HL.
have hc : chain (tau n R) (range (rng_cc (tau n R) (tau n L)) ops) (tau n L).
  by apply: range_chain => //; [exact: tau_mono|exact: rng_cc_in].
have hcR : chain 0%coqZ (right_segments tau n R ops) (tau n R) by apply: right_chain => //; exact: leq_trans hRL h4.
have hcL := @left_chain n ops L h1 hs h4.
have E : product b (ek (range (rng_cc (tau n R) (tau n L)) ops) (tau n R) (tau n L) k) = full_term ops (nth ed outer i).
  rewrite ek_steps // (@keq_steps _ _ _ _ _ hc HR) steps_app // HL steps_app //; last by apply: chain_app hcR hc.
  rewrite /full_term; congr (product _ (kst _ _ _ _)).
  by rewrite -app_assoc -(C21_partition tau_0 tau_beta tau_mono h1 hs ht hRL h4).
rewrite -E; case: ifP => [/orP[hk|hb]|_].
- by rewrite ek_steps // steps_zero // => b'; exact: (bo_invk H).
- by rewrite (bo_invb H).
- by case: ifP => // /negbT /(bo_sec H) ->.
Qed.

(** An update that only touches operators between the edges, compared as (time, index), keeps the caches. *)
Lemma filter_same (f : psi -> bool) ops ops' : csorted ops -> csorted ops' ->
  (forall x, f x -> In x ops <-> In x ops') -> List.filter f ops = List.filter f ops'.
Proof.
move=> h1 h2 h; apply: csorted_ext; [exact: filter_sorted|exact: filter_sorted|].
have half l l' k y : csorted l -> csorted l' -> (forall x, f x -> In x l -> In x l') ->
    lookup (List.filter f l) k = Some y -> lookup (List.filter f l') k = Some y.
  move=> s1 s2 hi /lookup_time[<-]; rewrite filter_In => -[hy hf].
  by apply: lookup_in; [exact: filter_sorted|rewrite filter_In; split=> //; exact: hi].
move=> k; case e: (lookup (List.filter f ops) k) => [y|].
  by rewrite (@half ops ops' k y) // => x /h[].
case e': (lookup (List.filter f ops') k) => [y|] //.
by rewrite -e (@half ops' ops k y) // => x /h[].
Qed.
Theorem C22_update_inside ops ops' rem add rec s : reach ops s -> csorted ops -> NoDup rem -> (forall x, In x rem -> In x ops) ->
  update_operators ops rem add = UTrue ops' rec ->
  (forall x, In x rem \/ In x add -> rng_cc (tau (nwin s) (posR s)) (tau (nwin s) (posL s)) x) -> reach ops' s.
Proof.
move=> hr hs hnd hin e hx; apply: reach_update hr _.
have := @update_operators_ok ops rem add hs hnd hin; rewrite e => -[hs' _].
have mem y := @update_operators_in ops rem add ops' rec y hs hnd hin e.
have side (f : psi -> bool) : (forall x, f x -> ~~ rng_cc (tau (nwin s) (posR s)) (tau (nwin s) (posL s)) x) ->
    List.filter f ops = List.filter f ops'.
  move=> hf; apply: filter_same => //.
  move=> x /hf hn; rewrite mem; split; last by move=> [[]|h] //; move: (hx x (or_intror h)); rewrite (negbTE hn).
  by move=> h; left; split=> // h'; move: (hx x (or_introl h')); rewrite (negbTE hn).
split; apply: side => x; rewrite /before /after /rng_cc !ot_le_negb => ->; first by [].
by rewrite andbF.
Qed.

(** Nothing truncated: the trace of all operators, whatever the history of the window. *)
Lemma kept_full n ops R L : (forall i, i < length outer -> ~~ lost n ops R L i) -> kept_trace n ops R L = full_trace ops.
Proof.
move=> h; rewrite /kept_trace /full_trace; apply: (@sumK_ext _ outer _ ed).
  by rewrite List.map_length -[length (iota _ _)]/(size _) size_iota.
move=> i hi; rewrite (nth_lmap 0); last by rewrite -[length (iota _ _)]/(size _) size_iota.
by rewrite nth_iota // add0n (negbTE (h _ hi)).
Qed.
Theorem C22_nothing_lost ops s : reach ops s -> csorted ops -> times_in beta ops ->
  (forall i, i < length outer -> ~~ lost (nwin s) ops (posR s) (posL s) i) -> ctrace ops s = full_trace ops.
Proof. by move=> h1 h2 h3 h4; rewrite C22_kept // kept_full. Qed.

Theorem C22_no_truncation ops s : cut = 0%R -> (forall k, 0 <= norm_ket k)%R -> (forall b, 0 <= norm_bra b)%R ->
  reach ops s -> csorted ops -> times_in beta ops -> ctrace ops s = full_trace ops.
Proof.
move=> c0 nk nb h1 h2 h3; apply: C22_nothing_lost => // i hi; rewrite /lost negb_or.
have h4 n R : ~~ lostR n ops R i.
  elim: R => //= R IH; rewrite negb_or IH c0 GRing.mulr0 /kframe' (nth_lmap kd) ?canonR_size //=.
  by rewrite Order.POrderTheory.le_gtF //; exact: nk.
have h5 n m : ~~ lostL n ops m i.
  elim: m => //= m IH; rewrite negb_or IH c0 GRing.mulr0 /bframe' (nth_lmap bd) ?canonL_size //.
  by rewrite Order.POrderTheory.le_gtF //; exact: nb.
by rewrite h4 h5.
Qed.

(** The trace depends on the operators only, not on the window. *)
Theorem C22_history_independent ops s s' : cut = 0%R -> (forall k, 0 <= norm_ket k)%R -> (forall b, 0 <= norm_bra b)%R ->
  reach ops s -> reach ops s' -> csorted ops -> times_in beta ops -> ctrace ops s = ctrace ops s'.
Proof. by move=> *; rewrite !C22_no_truncation. Qed.
End WTrace.

(** ** Instance: one orbital with levels of Boltzmann weight 1 (empty) and w (occupied) per unit of time *)
Section Atom.
Variable K : numFieldType.
Variable w : K.
Variable cut : K.
Definition aket := option (bool * K).
Definition a_invalid (k : aket) : bool := if k is Some _ then false else true.
Definition a_c (o : optype) (k : aket) : aket :=
  match o, k with
  | ANNIHILATION_OP, Some (true, a) => Some (false, a)
  | CREATION_OP, Some (false, a) => Some (true, a)
  | _, _ => None
  end.
Definition a_flip (o : optype) : optype := match o with CREATION_OP => ANNIHILATION_OP | ANNIHILATION_OP => CREATION_OP end.
Definition a_prop (t : Z) (k : aket) : aket :=
  if k is Some (s, a) then Some (s, (a * (if s then w else 1%R) ^+ Z.to_nat t)%R) else None.
Definition a_norm (k : aket) : K := if k is Some (_, a) then `|a|%R else 0%R.
Definition a_sec (k : aket) : nat := if k is Some (s, _) then nat_of_bool s else 2.
Definition a_prod (b k : aket) : K :=
  match b, k with Some (s, a), Some (s', a') => if s == s' then (a * a')%R else 0%R | _, _ => 0%R end.
Definition a_outer : list (aket * aket) := [(Some (false, 1%R), Some (false, 1%R)); (Some (true, 1%R), Some (true, 1%R))].
Definition a_tau (n p : nat) : Z := (4 * Z.of_nat p / Z.of_nat n)%coqZ.

Lemma a_ok : braket_ok a_invalid a_invalid None None (fun o _ => a_c o) (fun o _ => a_c (a_flip o)) a_prop a_prop id id a_sec a_sec a_prod.
Proof.
split=> //.
- by move=> [] _ [[[] a]|] [[[] a']|].
- by move=> t [[[] a]|] [[[] a']|] //= _; rewrite GRing.mulrAC GRing.mulrA.
- by move=> s t [[[] a]|] [[[] a']|] //= hs ht; rewrite -!GRing.mulrA -GRing.exprD Z2Nat.inj_add.
- by move=> [[[] a]|] [[[] a']|] //=; rewrite GRing.expr0 GRing.mulr1.
- by move=> [[[] a]|] [[[] a']|].
- by move=> [[[] a]|] [[[] a']|].
- by move=> [[[] a]|] [[[] a']|].
Qed.
Lemma a_tau_0 n : 0 < n -> a_tau n 0 = 0%coqZ.
Proof. by []. Qed.
Lemma a_tau_beta n : 0 < n -> a_tau n (2 * n) = 8%coqZ.
Proof. by move=> h; rewrite /a_tau (_ : (4 * Z.of_nat (2 * n) = 8 * Z.of_nat n)%coqZ) ?Z.div_mul //; lia. Qed.
Lemma a_tau_mono n p q : p <= q -> q <= 2 * n -> (a_tau n p <= a_tau n q)%coqZ.
Proof. move=> h1 h2; rewrite /a_tau; case: n h2 => [|n] h2; first by rewrite /= !Zdiv_0_r; lia. apply: Z.div_le_mono; lia. Qed.

Notation areach := (reach a_outer a_invalid a_invalid None None (fun o _ => a_c o) (fun o _ => a_c (a_flip o)) a_prop a_prop id id a_norm a_norm a_tau cut).
Notation atrace := (compute_trace a_invalid a_invalid (fun o _ => a_c o) a_prop id a_sec a_sec a_prod a_tau).

Definition a_ops : container := [Psi (OT 3%coqZ 0%coqZ) ANNIHILATION_OP 0; Psi (OT 5%coqZ 0%coqZ) CREATION_OP 0].
Lemma a_sorted : csorted a_ops.
Proof. by repeat constructor. Qed.
Lemma a_times : times_in 8 a_ops.
Proof. by move=> x [<-|[<-|[]]]. Qed.
Lemma a_full : full_trace a_outer (fun o _ => a_c o) a_prop a_prod 8 a_ops = (w ^+ 6)%R.
Proof.
rewrite /full_trace /full_term /sumK /= !GRing.add0r !GRing.mul1r GRing.expr1n GRing.mulr1.
by rewrite -[Pos.to_nat 3]/(3) -GRing.exprD.
Qed.

Lemma a_reach n k : 2 <= n -> k <= 2 * n - 2 -> exists s, areach a_ops s /\ nwin s = n /\ posR s = k /\ posL s = k + 2.
Proof.
move=> hn hk.
have [s [e [w0 [h1 h2]]]] := @initw_ok K aket aket a_outer a_invalid a_invalid None None (fun o _ => a_c o) (fun o _ => a_c (a_flip o)) a_prop a_prop id id a_norm a_norm a_tau cut a_ops n (SW [] [] 0 0 0 None) (ltnW hn).
have hr : areach a_ops s by apply: reach_init e; exact: ltnW.
move: h2; rewrite hn => -[p0 _].
have [|||s' [_ [r' [n' [p' [l' _]]]]]] := @C20_sweep_up _ _ _ _ _ _ _ _ _ _ _ _ _ _ _ _ _ _ a_tau_mono _ _ k hr; [by rewrite h1|by []|by rewrite h1|].
by exists s'; rewrite n' h1 p' l'.
Qed.
End Atom.

(** With the truncation switched off, every window position gives the trace w^6. *)
Example C22_instance k : k <= 2 -> exists s,
  reach (a_outer _) (@a_invalid rat_numFieldType) (@a_invalid _) None None (fun o _ => @a_c _ o) (fun o _ => a_c (a_flip o))
    (a_prop (1 / 2%:R)%R) (a_prop (1 / 2%:R)%R) id id (@a_norm _) (@a_norm _) a_tau 0%R a_ops s /\ posR s = k /\
  compute_trace (@a_invalid _) (@a_invalid _) (fun o _ => @a_c _ o) (a_prop (1 / 2%:R)%R) id (@a_sec _) (@a_sec _) (@a_prod _) a_tau a_ops s = (1 / 64%:R)%R.
Proof.
move=> hk; have [s [hr [_ [hp _]]]] := @a_reach rat_numFieldType (1 / 2%:R)%R 0%R 2 k erefl hk.
exists s; split=> //; split=> //.
have norm_ge0 : forall k, (0 <= @a_norm rat_numFieldType k)%R by move=> [[[] a]|] //=.
rewrite (C22_no_truncation (a_ok _) a_tau_0 a_tau_beta a_tau_mono erefl norm_ge0 norm_ge0 hr a_sorted a_times).
by rewrite a_full; vm_compute.
Qed.

(** Instances of C19-C21 and C23: every position of every number of windows is reached in a history. *)
Example C19_instance n k : 2 <= n -> k <= 2 * n - 2 -> exists s,
  reach (a_outer _) (@a_invalid rat_numFieldType) (@a_invalid _) None None (fun o _ => @a_c _ o) (fun o _ => a_c (a_flip o))
    (a_prop (1 / 2%:R)%R) (a_prop (1 / 2%:R)%R) id id (@a_norm _) (@a_norm _) a_tau 0%R a_ops s /\
  nwin s = n /\ posR s = k /\ posL s = k + 2 /\ length (right_states s) = k + 1.
Proof.
move=> hn hk; have [s [hr [en [eR eL]]]] := @a_reach rat_numFieldType (1 / 2%:R)%R 0%R n k hn hk.
by exists s; have [_ [_ [_ [-> _]]]] := C19_positions_legal a_tau_mono hr; rewrite eR.
Qed.
Example C20_instance : (a_tau 2 1 <= 3 <= a_tau 2 3)%coqZ /\ (a_tau 2 3 < 7)%coqZ.
Proof. by vm_compute. Qed.
(** Window [2,6] of beta = 8 with one operator on the lower edge and one on the upper edge. *)
Example C21_instance : let ops := [Psi (OT 1%coqZ 0%coqZ) CREATION_OP 0; Psi (OT 2%coqZ 0%coqZ) ANNIHILATION_OP 0; Psi (OT 6%coqZ 0%coqZ) CREATION_OP 0; Psi (OT 7%coqZ 1%coqZ) ANNIHILATION_OP 0] in
  csorted ops /\ times_in 8 ops /\
  map (fun l => map (fun x => ot_time (p_time x)) l) [right_segments a_tau 2 1 ops; range (rng_cc (a_tau 2 1) (a_tau 2 3)) ops; left_segments a_tau 2 3 ops]
  = [[1]; [2; 6]; [7]]%coqZ.
Proof. by split; [repeat constructor|split; [move=> x [<-|[<-|[<-|[<-|[]]]]]|vm_compute]]. Qed.
Example C23_instance : exists s s1 s',
  reach (a_outer _) (@a_invalid rat_numFieldType) (@a_invalid _) None None (fun o _ => @a_c _ o) (fun o _ => a_c (a_flip o))
    (a_prop (1 / 2%:R)%R) (a_prop (1 / 2%:R)%R) id id (@a_norm _) (@a_norm _) a_tau 0%R a_ops s /\ nwin s = 3 /\ posR s = 2 /\ nwin s1 = 5 /\
  restore_state (@a_invalid rat_numFieldType) (@a_invalid _) None None (fun o _ => @a_c _ o) (fun o _ => a_c (a_flip o))
    (a_prop (1 / 2%:R)%R) (a_prop (1 / 2%:R)%R) id id (@a_norm _) (@a_norm _) a_tau 0%R a_ops (get_state s) s1 = WOk s' /\ s' = s.
Proof.
have [s [hr [en [eR eL]]]] := @a_reach rat_numFieldType (1 / 2%:R)%R 0%R 3 2 erefl erefl.
have [s1 [hr1 [en1 _]]] := @a_reach rat_numFieldType (1 / 2%:R)%R 0%R 5 4 erefl erefl.
have [s' [e [_ [_ [_ [_ [_ [_ h]]]]]]]] := C23_restore a_tau_mono hr hr1.
have e' : s' = s by apply: h; rewrite ?en ?eR.
by exists s, s1, s'.
Qed.

(** The truncation of ipp:127-133 can lose the whole trace, for every positive threshold: the weight of the
    truncated braket is small compared with a braket that vanishes later. *)
Theorem C22_truncation_refuted (K : numFieldType) (cut : K) : (0 < cut)%R -> exists w : K, (0 < w)%R /\ exists s,
  reach (a_outer K) (@a_invalid K) (@a_invalid _) None None (fun o _ => @a_c _ o) (fun o _ => a_c (a_flip o))
    (a_prop w) (a_prop w) id id (@a_norm _) (@a_norm _) a_tau cut a_ops s /\
  full_trace (a_outer K) (fun o _ => @a_c _ o) (a_prop w) (@a_prod _) 8 a_ops != 0%R /\
  compute_trace (@a_invalid _) (@a_invalid _) (fun o _ => @a_c _ o) (a_prop w) id (@a_sec _) (@a_sec _) (@a_prod _) a_tau a_ops s = 0%R.
Proof.
move=> c0; have [w [w0 [w1 w2]]] : exists w : K, (0 < w /\ w ^+ 2 < cut /\ w ^+ 2 < 1)%R.
  have c1 : (0 < 1 + cut)%R by apply: Num.Theory.addr_gt0 => //; exact: Num.Theory.ltr01.
  exists (cut / (1 + cut))%R; split; first exact: Num.Theory.divr_gt0.
  have h : (cut / (1 + cut) < 1)%R by rewrite Num.Theory.ltr_pdivr_mulr // GRing.mul1r Num.Theory.ltr_addr Num.Theory.ltr01.
  have h2 : ((cut / (1 + cut)) ^+ 2 < cut / (1 + cut))%R by rewrite GRing.expr2 Num.Theory.gtr_pmulr // Num.Theory.divr_gt0.
  split; last exact: Order.POrderTheory.lt_trans h2 h.
  apply: Order.POrderTheory.lt_trans h2 _.
  by rewrite Num.Theory.ltr_pdivr_mulr // GRing.mulrDr GRing.mulr1 Num.Theory.ltr_addl Num.Theory.mulr_gt0.
exists w; split=> //; have [s [hr [en [eR eL]]]] := @a_reach K w cut 2 1 erefl erefl.
exists s; split=> //; split; first by rewrite a_full GRing.expf_eq0 /= Num.Theory.lt0r_neq0.
rewrite (C22_kept (a_ok w) a_tau_0 a_tau_beta a_tau_mono hr a_sorted a_times) en eR eL.
rewrite /kept_trace /sumK /= GRing.add0r.
have -> : lost (a_outer K) (@a_invalid K) (@a_invalid K) None None (fun o _ => @a_c _ o) (fun o _ => a_c (a_flip o))
    (a_prop w) (a_prop w) id id (@a_norm _) (@a_norm _) a_tau cut 2 a_ops 1 3 1 = true.
  rewrite /lost /lostR /kframe' /=; apply/orP; left.
  have hw : (0 < w ^+ 2)%R by rewrite Num.Theory.exprn_gt0.
  rewrite -[Pos.to_nat 2]/2 GRing.expr1n !GRing.mul1r /max_norm /= Num.Theory.normr1 (Num.Theory.gtr0_norm hw).
  have -> : (-1 < 1 :> K)%R by apply: (@Order.POrderTheory.lt_trans _ _ 0%R); rewrite ?Num.Theory.oppr_lt0 Num.Theory.ltr01.
  by rewrite (Order.POrderTheory.lt_gtF w2) GRing.mul1r.
by rewrite /full_term /= GRing.addr0; case: ifP.
Qed.

(** range_check (moves.ipp:25-32) compares the times as doubles, so it lets pass an operator at the upper edge
    with a positive second index; the window ends at index 0, the new operator is outside and the cached bra
    does not contain it. *)
Theorem C22_edge_refuted : exists ops ops' : container, exists s : sw rat_numFieldType (aket _) (aket _),
  let a := a_tau (nwin s) (posR s) in let b := a_tau (nwin s) (posL s) in
  let tr o := compute_trace (@a_invalid _) (@a_invalid _) (fun o _ => @a_c _ o) (a_prop (1 / 2%:R)%R) id (@a_sec _) (@a_sec _) (@a_prod _) a_tau o s in
  let full := full_trace (a_outer _) (fun o _ => @a_c _ o) (a_prop (1 / 2%:R)%R) (@a_prod _) 8 in
  reach (a_outer _) (@a_invalid rat_numFieldType) (@a_invalid _) None None (fun o _ => @a_c _ o) (fun o _ => a_c (a_flip o))
    (a_prop (1 / 2%:R)%R) (a_prop (1 / 2%:R)%R) id id (@a_norm _) (@a_norm _) a_tau 0%R ops s /\
  csorted ops' /\ times_in 8 ops' /\ Permutation ops' (Psi (OT b 1%coqZ) CREATION_OP 0 :: Psi (OT b 2%coqZ) ANNIHILATION_OP 0 :: ops) /\
  range_check a b [Psi (OT b 1%coqZ) CREATION_OP 0; Psi (OT b 2%coqZ) ANNIHILATION_OP 0] /\
  tr ops' != full ops'.
Proof.
exists [], [Psi (OT 4%coqZ 1%coqZ) CREATION_OP 0; Psi (OT 4%coqZ 2%coqZ) ANNIHILATION_OP 0].
have [s [e [w0 [h1 [p0 [l0 _]]]]]] := @initw_ok rat_numFieldType (aket _) (aket _) (a_outer _) (@a_invalid _) (@a_invalid _) None None (fun o _ => @a_c _ o) (fun o _ => a_c (a_flip o)) (a_prop (1 / 2%:R)%R) (a_prop (1 / 2%:R)%R) id id (@a_norm _) (@a_norm _) a_tau 0%R [] 2 (SW [] [] 0 0 0 None) erefl.
exists s; split; first exact: reach_init e.
split; first by repeat constructor.
split; first by move=> x [<-|[<-|[]]].
split; first by rewrite h1 l0.
split; first by rewrite h1 l0 p0.
rewrite /compute_trace /top (wf_right w0) (wf_left w0) h1 p0 l0.
by vm_compute.
Qed.

Print Assumptions C22_update_inside.
Print Assumptions C22_kept.
Print Assumptions C22_nothing_lost.
Print Assumptions C22_no_truncation.
Print Assumptions C22_history_independent.
Print Assumptions C22_truncation_refuted.
Print Assumptions C22_edge_refuted.
