(** * C75: the list of equal-time two-particle functions is what the file says *)
From Coq Require Import ZArith Lia.
From mathcomp Require Import all_ssreflect all_algebra zify.
From Verif Require Import Input T_Input EqTimeList.
Import Order.Theory GRing.Theory Num.Theory.
Set Implicit Arguments.
Unset Strict Implicit.
Unset Printing Implicit Defensive.
Local Open Scope ring_scope.
Local Delimit Scope Z_scope with coqZ.
Local Arguments get_int : simpl never.
Local Arguments check_flavor : simpl never.

Section C75.
Variables (K : numClosedFieldType) (n : nat).
Notation token := (token K).
Implicit Types (l : seq token).
Notation field := (field K).
Notation quad := ('I_n * 'I_n * 'I_n * 'I_n)%type.
Notation FN i := (FI K (Z.of_nat i)).

(** ** Specification: the numbers of a file with the elements [es]: their number, and for each of them its position and four flavors *)
Definition line_fields (i : nat) (e : quad) : seq field := let: (a, b, c, d) := e in [:: FN i; FN a; FN b; FN c; FN d].
Fixpoint list_lines (i : nat) (es : seq quad) : seq field := if es is e :: es then line_fields i e ++ list_lines i.+1 es else [::].
Definition list_fields (es : seq quad) : seq field := FN (size es) :: list_lines 0 es.
Definition list_of (es : seq quad) : seq (seq 'I_n) := [seq (let: (a, b, c, d) := e in [:: a; b; c; d]) | e <- es].

Lemma lines_failed k i l acc x : read_list_lines (K := K) (n := n) k i (Stream l false) acc = Done x -> k = 0%N /\ x = acc.
Proof. by case: k => [[<-]|k]. Qed.
Lemma lines_ok es k i l l' acc : holds l (list_lines i es) l' ->
  read_list_lines (size es + k) (Z.of_nat i) (Stream l true) acc = read_list_lines k (Z.of_nat (i + size es)) (Stream l' true) (acc ++ list_of es).
Proof.
elim: es i l acc => [|[[[a b] c] d] es ih] i l acc; first by move=> /= ->; rewrite cats0 addn0.
rewrite [list_lines _ _]/= [read_list_lines (size (_ :: es) + k) _ _ _]/=.
case/(get_int_ok None)=> ? [-> h]; rewrite /= Z.eqb_refl /=.
do 4!(case/(get_int_ok None): h => ? [-> h]; rewrite /= flavor_in).
have -> : (Z.of_nat i + 1)%coqZ = Z.of_nat i.+1 by lia.
by rewrite (ih _ _ _ h) cat_rcons addSnnS.
Qed.
Ltac dead := rewrite /get_int ?get_failed /=;
  repeat first [done | by let h := fresh in move=> h; case: (flavor_out h) => ? [] | case: ifP => _ // | let h := fresh in move=> h; case: (flavor_out h) => ? [_ {}h]; move: h].
Lemma lines_only k i l acc vs : read_list_lines k (Z.of_nat i) (Stream l true) acc = Done vs ->
  exists es l', [/\ size es = k, vs = acc ++ list_of es &
    holds l (list_lines i es) l' \/
    exists fs (g : 'I_n) t l0, [/\ list_lines i es = rcons fs (FN g), holds l fs (t :: l0) & as_int t = Bad (Z.of_nat g)]].
Proof.
elim: k i l acc => [|k ih] i l acc /=.
  by case=> <-; exists [::], l; rewrite cats0; split=> //; left.
rewrite {1}/get_int; case: getP => [t1 l1 z1 r1 e1 h1|? ? ? ? ?|?]; [|dead|dead].
rewrite /=; case: ifP => // /negbFE/Z.eqb_spec q.
rewrite {1}/get_int; case: getP => [t2 l2 z2 r2 e2 h2|? ? ? ? ?|?]; [|dead|dead].
move=> h; case: (flavor_out h) => a [[qa]] {h}.
rewrite {1}/get_int; case: getP => [t3 l3 z3 r3 e3 h3|? ? ? ? ?|?]; [|dead|dead].
move=> h; case: (flavor_out h) => b [[qb]] {h}.
rewrite {1}/get_int; case: getP => [t4 l4 z4 r4 e4 h4|? ? ? ? ?|?]; [|dead|dead].
move=> h; case: (flavor_out h) => c [[qc]] {h}.
have H0 l'' fs : holds (r4 ++ l4) fs l'' -> holds l ([:: FN i; FN a; FN b; FN c] ++ fs) l''.
  move=> {}h; rewrite e1 /=; exists t1, l1, r1; rewrite -q; split=> //; exists t2, l2, r2; rewrite -qa; split=> //.
  by exists t3, l3, r3; rewrite -qb; split=> //; exists t4, l4, r4; rewrite -qc.
rewrite {1}/get_int; case: getP => [t5 l5 z5 r5 e5 h5|t5 l5 z5 e5 h5|?]; [| |dead]; move=> h; case: (flavor_out h) => d [[qd]] {h}.
- have -> : (Z.of_nat i + 1)%coqZ = Z.of_nat i.+1 by clear; lia.
  case/ih=> es [l' [hs -> h]]; exists ((a, b, c, d) :: es), l'; rewrite /= hs cat_rcons; split=> //.
  have H fs l'' : holds (r5 ++ l5) fs l'' -> holds l ([:: FN i; FN a; FN b; FN c; FN d] ++ fs) l''.
    by move=> {}h; apply: (H0 l'' (FN d :: fs)); rewrite e5; exists t5, l5, r5; rewrite -qd.
  case: h => [h|[fs [g [t [l0 [ef hf hb]]]]]]; [left; exact: (H)|right].
  exists ([:: FN i; FN a; FN b; FN c; FN d] ++ fs), g, t, l0; rewrite ef; split=> //; exact: (H).
- case/lines_failed => -> ->; exists [:: (a, b, c, d)], l5; rewrite cats1; split=> //; right.
  exists [:: FN i; FN a; FN b; FN c], d, t5, l5; split=> //; last by rewrite -qd.
  by apply: (H0 _ [::]); rewrite /= e5.
Qed.
Lemma list_lines_rcons es a b c d i : list_lines i (rcons es (a, b, c, d)) =
  rcons (list_lines i es ++ [:: FN (i + size es)%N; FN a; FN b; FN c]) (FN d).
Proof.
elim: es i => [|[[[a' b'] c'] d'] es ih] i; first by rewrite /= addn0.
by rewrite [rcons _ _]/= [list_lines _ _]/= ih [list_lines i (_ :: _)]/= addSnnS.
Qed.
Let nonneg k : (Z.of_nat k <? 0)%coqZ = false. Proof. by lia. Qed.

(** C75. A file is accepted exactly when it lists elements with four flavors in range (whatever follows in the file), and then these
    elements are stored in the order of the file; or when the number of elements is not a number (and 0 is stored); or when the very
    last flavor is not a number (and a flavor in range is stored). *)
Theorem C75_list l vs : read_list n (Stream l true) = Done vs <->
  [\/ exists es l', vs = list_of es /\ holds l (list_fields es) l',
      exists t l0, [/\ l = t :: l0, as_int t = Bad 0%coqZ & vs = [::]] |
      exists es fs (g : 'I_n) t l0, [/\ vs = list_of es, list_fields es = rcons fs (FN g), (0 < size es)%N,
        holds l fs (t :: l0) & as_int t = Bad (Z.of_nat g)]].
Proof.
rewrite /read_list; split.
  rewrite {1}/get_int; case: getP => [t1 l1 z1 r1 e1 h1|t1 l1 z1 e1 h1|] //=; case: ifP => // neg.
    have ez : z1 = Z.of_nat (Z.to_nat z1) by lia.
    move/(lines_only (i := 0)) => [es [l' [hs -> [h|[fs [g [t [l0 [ef hf hb]]]]]]]]].
      by apply: Or31; exists es, l'; rewrite /list_fields hs -ez; split=> //; exists t1, l1, r1.
    apply: Or33; exists es, (FN (size es) :: fs), g, t, l0; rewrite /list_fields ef hs -ez; split=> //.
      by case: es ef hs {hf} => [|? ? _ <-] //; case: fs.
    by exists t1, l1, r1.
  case/lines_failed => e0 ->; apply: Or32; exists t1, l1; split=> //.
  by rewrite h1; congr Bad; lia.
case=> [[es [l' [-> h]]]|[t [l0 [-> e ->]]]|[es [fs [g [t [l0 [-> ef hn h hb]]]]]]].
- move: h => /(get_int_ok None)[l1 [q h]]; rewrite q /= nonneg Nat2Z.id.
  by rewrite -[size es]addn0 (lines_ok 0 [::] h).
- by rewrite /get_int /get /= e.
case: fs ef h => [|f fs]; first by case: es hn => [|[[[? ?] ?] ?] es].
move: hn => _; case=> <-; case/lastP: es => [|es [[[a b] c] d]]; first by case: fs.
rewrite list_lines_rcons size_rcons => /rcons_inj[<- ei] /(get_int_ok None)[l1 [q /holds_cat[l2 [h1 h]]]].
rewrite q; cbv beta iota delta [use]; rewrite nonneg Nat2Z.id -addn1 (lines_ok 1 [::] h1) add0n [LHS]/= => {q}.
case/(get_int_ok None): h => ? [-> h]; rewrite /= Z.eqb_refl /=.
do 2!(case/(get_int_ok None): h => ? [-> h]; rewrite /= flavor_in).
case/(get_int_ok None): h => ? [-> /= ->]; rewrite flavor_in.
by rewrite /get_int /get /= hb -ei flavor_in /list_of map_rcons.
Qed.

(** C75. What is stored determines the file's elements: nothing is lost, exchanged or doubled. *)
Theorem C75_faithful es es' : list_of es = list_of es' -> es = es'.
Proof. by apply: inj_map => -[[[a b] c] d] [[[a' b'] c'] d'] [-> -> -> ->]. Qed.

(** C75. A negative number of elements is refused, a wrong number in the first column too, and a flavor out of range. *)
Theorem C75_refused l l' z : (z < 0)%coqZ -> holds l [:: FI K z] l' -> read_list n (Stream l true) = Throw.
Proof. by move=> hz /(get_int_ok None)[l1 [q _]]; rewrite /read_list q /=; have -> : (z <? 0)%coqZ by lia. Qed.
Theorem C75_line_refused es k z l l' : (size es < k)%N -> z <> Z.of_nat (size es) ->
  holds l (FN k :: list_lines 0 es ++ [:: FI K z]) l' -> read_list n (Stream l true) = Throw.
Proof.
move=> hk hz /(get_int_ok None)[l1 [q /holds_cat[l2 [h1 h]]]].
rewrite /read_list q; cbv beta iota delta [use]; rewrite nonneg Nat2Z.id -(subnKC hk) addSnnS (lines_ok _ [::] h1) add0n [LHS]/= => {q h1}.
by case/(get_int_ok None): h => ? [-> _] /=; case: Z.eqb_spec.
Qed.
Theorem C75_flavor_refused es k z (fl : seq 'I_n) l l' : (size es < k)%N -> (size fl < 4)%N -> (z < 0)%coqZ \/ (Z.of_nat n <= z)%coqZ ->
  holds l (FN k :: list_lines 0 es ++ FN (size es) :: [seq FN (nat_of_ord f) | f <- fl] ++ [:: FI K z]) l' -> read_list n (Stream l true) = Throw.
Proof.
move=> hk hf hz /(get_int_ok None)[l1 [q /holds_cat[l2 [h1 h]]]].
rewrite /read_list q; cbv beta iota delta [use]; rewrite nonneg Nat2Z.id -(subnKC hk) addSnnS (lines_ok _ [::] h1) add0n [LHS]/= => {q h1}.
have out (A : Type) (k' : 'I_n -> outcome A) : check_flavor (Some z) k' = Throw.
  by rewrite /check_flavor /use; have -> : (z <? 0)%coqZ || (Z.of_nat n <=? z)%coqZ by lia.
case/(get_int_ok None): h => ? [-> h]; rewrite /= Z.eqb_refl /=.
move: hf h; case: fl => [|a [|b [|c [|d fl]]]] // _; rewrite [map _ _]/= [_ ++ _]/= => h;
  repeat (case/(get_int_ok None): h => ? [-> h]; rewrite /= ?flavor_in ?out); by [].
Qed.

(** C75. A file that ends too early is not refused with an error: a number is used that was never read. *)
Theorem C75_truncated_refuted es1 e es2 j l : (j < 5)%N ->
  holds l (FN (size (es1 ++ e :: es2)) :: list_lines 0 es1 ++ take j (line_fields (size es1) e)) [::] ->
  read_list n (Stream l true) = UB.
Proof.
move=> hj /(get_int_ok None)[l1 [q /holds_cat[l2 [h1 h2]]]].
rewrite /read_list q; cbv beta iota delta [use]; rewrite nonneg Nat2Z.id size_cat /= (lines_ok _ [::] h1) add0n [LHS]/= => {q h1}.
move: h2; case: e => [[[a b] c] d]; move: hj; case: j => [|[|[|[|[|j]]]]] // _; rewrite [take _ _]/= => h;
  repeat (case/(get_int_ok None): h => ? [-> h]; rewrite /= ?Z.eqb_refl /= ?flavor_in); rewrite h /=;
  by rewrite /get_int /get /= ?Z.eqb_refl /= ?flavor_in.
Qed.
End C75.

Section Ex.
Variable K : numClosedFieldType.
Notation i_ := (int_token K).
Notation o0 := (@Ordinal 2 0 isT).
Notation o1 := (@Ordinal 2 1 isT).
(** Two elements, and a line that is not read *)
Definition list_ex : seq (token K) := [:: i_ 2; i_ 0; i_ 0; i_ 1; i_ 1; i_ 0; i_ 1; i_ 1; i_ 0; i_ 0; i_ 1; i_ 7].
Example C75_instance : read_list 2 (Stream list_ex true) = Done [:: [:: o0; o1; o1; o0]; [:: o1; o0; o0; o1]].
Proof.
apply/C75_list; apply: Or31; exists [:: (o0, o1, o1, o0); (o1, o0, o0, o1)], [:: i_ 7]; split=> //.
by rewrite /=; do 11!(do 3!eexists; split; [reflexivity|reflexivity|]).
Qed.
(** The file ends after two flavors of the second line *)
Example C75_truncated_instance : read_list 2 (Stream (take 9 list_ex) true) = UB.
Proof.
apply: (@C75_truncated_refuted K 2 [:: (o0, o1, o1, o0)] (o1, o0, o0, o1) [::] 3) => //.
by rewrite /=; do 9!(do 3!eexists; split; [reflexivity|reflexivity|]).
Qed.
(** A flavor 2 in the second line, a wrong first column, a negative number of elements *)
Example C75_refused_instance : [/\ read_list 2 (Stream [:: i_ 2; i_ 0; i_ 0; i_ 1; i_ 1; i_ 0; i_ 1; i_ 1; i_ 2] true) = Throw,
  read_list 2 (Stream [:: i_ 1; i_ 3] true) = Throw & read_list 2 (Stream [:: i_ (-1)] true) = Throw].
Proof.
split.
- apply: (@C75_flavor_refused K 2 [:: (o0, o1, o1, o0)] 2 2 [:: o1] _ [::]) => //; first by right.
  by rewrite /=; do 9!(do 3!eexists; split; [reflexivity|reflexivity|]).
- apply: (@C75_line_refused K 2 [::] 1 3 _ [::]) => //.
  by rewrite /=; do 2!(do 3!eexists; split; [reflexivity|reflexivity|]).
- apply: (@C75_refused K 2 _ [::] (-1)%coqZ) => //.
  by rewrite /=; do 1!(do 3!eexists; split; [reflexivity|reflexivity|]).
Qed.
End Ex.
Print Assumptions C75_list.
Print Assumptions C75_faithful.
Print Assumptions C75_refused.
Print Assumptions C75_line_refused.
Print Assumptions C75_flavor_refused.
Print Assumptions C75_truncated_refuted.
