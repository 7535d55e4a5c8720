(** * C68: what is read from the input files is what they say *)
From Coq Require Import ZArith Lia.
From mathcomp Require Import all_ssreflect all_algebra zify.
From Verif Require Import Hyb T_Hyb Postprocess T_Postprocess Input.
Import Order.Theory GRing.Theory Num.Theory.
Set Implicit Arguments.
Unset Strict Implicit.
Unset Printing Implicit Defensive.
Local Open Scope ring_scope.
Local Delimit Scope Z_scope with coqZ.

(** ** Specification: a file and the numbers that it contains *)
Section Spec.
Variable K : numClosedFieldType.
Notation token := (token K).
Implicit Types (l : seq token).
Inductive field := FI (z : Z) | FD (x : K).
(** [holds l fs l']: the text [l] starts with the numbers [fs], followed by the text [l'] *)
Fixpoint holds l (fs : seq field) l' : Prop :=
  match fs with
  | [::] => l = l'
  | FI z :: fs => exists t l0 r, [/\ l = t :: l0, as_int t = Good z r & holds (r ++ l0) fs l']
  | FD x :: fs => exists t l0 r, [/\ l = t :: l0, as_double t = Good x r & holds (r ++ l0) fs l']
  end.
Lemma holds_cat fs1 fs2 l l' : holds l (fs1 ++ fs2) l' <-> exists l1, holds l fs1 l1 /\ holds l1 fs2 l'.
Proof.
elim: fs1 l => [|f fs1 ih] l /=; first by split=> [h|[l1 [-> //]]]; exists l.
by case: f => x; split=> [[t [l0 [r [e1 e2 /ih[l1 [h1 h2]]]]]]|[l1 [[t [l0 [r [e1 e2 h1]]]] h2]]];
  [exists l1; split=> //; exists t, l0, r|exists t, l0, r; split=> //; apply/ih; exists l1|
   exists l1; split=> //; exists t, l0, r|exists t, l0, r; split=> //; apply/ih; exists l1].
Qed.
(** One number of the file, at the end of the file, or not a number *)
Variant get_spec (A : Type) (as_ : token -> conv token A) l : option A * stream K -> Prop :=
| GetGood t l0 a r of l = t :: l0 & as_ t = Good a r : get_spec as_ l (Some a, Stream (r ++ l0) true)
| GetBad t l0 a of l = t :: l0 & as_ t = Bad a : get_spec as_ l (Some a, Stream l0 false)
| GetEnd of l = [::] : get_spec as_ l (None, Stream [::] false).
Lemma getP (A : Type) (as_ : token -> conv token A) l : get_spec as_ l (get as_ (Stream l true) None).
Proof.
rewrite /get /=; case: l => [|t l]; first exact: GetEnd.
by case e: (as_ t) => [a r|a]; [apply: (GetGood erefl e)|apply: (GetBad erefl e)].
Qed.
Lemma get_failed (A : Type) (as_ : token -> conv token A) l old : get as_ (Stream l false) old = (old, Stream l false).
Proof. by []. Qed.
Lemma get_int_ok l z fs l' old : holds l (FI z :: fs) l' -> exists l1, get_int (Stream l true) old = (Some z, Stream l1 true) /\ holds l1 fs l'.
Proof. by case=> -[it dt] [l0 [r [-> /= e h]]]; exists (r ++ l0); rewrite /get_int /get /= e. Qed.
Lemma get_double_ok l z fs l' old : holds l (FD z :: fs) l' -> exists l1, get_double (Stream l true) old = (Some z, Stream l1 true) /\ holds l1 fs l'.
Proof. by case=> -[it dt] [l0 [r [-> /= e h]]]; exists (r ++ l0); rewrite /get_double /get /= e. Qed.
End Spec.
Arguments get_int : simpl never.
Arguments get_double : simpl never.
Arguments check_flavor : simpl never.

Section C68.
Variables (K : numClosedFieldType) (n : nat) (rs : bool).
Notation token := (token K).
Implicit Types (l : seq token).
Notation field := (field K).
Notation quad := ('I_n * 'I_n * 'I_n * 'I_n)%type.
Notation FN i := (FI K (Z.of_nat i)).

(** The numbers of a file with the elements [es] of the Coulomb tensor: their number, and for each of them its position in the
    file, four flavors, real and imaginary part *)
Fixpoint U_lines (i : nat) (es : seq (quad * (K * K))) : seq field :=
  if es is ((a, b, c, d), (re, im)) :: es then
    [:: FN i; FN a; FN b; FN c; FN d; FD re; FD im] ++ U_lines i.+1 es
  else [::].
Definition U_fields (es : seq (quad * (K * K))) : seq field := FN (size es) :: U_lines 0 es.
Definition U_of (es : seq (quad * (K * K))) : seq (quad * K) := [seq (e.1, 2%:R^-1 * mycast rs (e.2.1 + 'i * e.2.2)) | e <- es].

Lemma flavor_in (A : Type) (k : 'I_n -> outcome A) (a : 'I_n) : check_flavor (Some (Z.of_nat a)) k = k a.
Proof.
rewrite /check_flavor /use; have /negbTE -> : ~~ ((Z.of_nat a <? 0)%coqZ || (Z.of_nat n <=? Z.of_nat a)%coqZ) by have := ltn_ord a; lia.
rewrite Nat2Z.id; case: insubP => [u _ e|]; last by rewrite ltn_ord.
by congr k; apply: val_inj.
Qed.
Lemma flavor_out (A : Type) (k : 'I_n -> outcome A) f x : check_flavor f k = Done x ->
  exists a : 'I_n, f = Some (Z.of_nat a) /\ k a = Done x.
Proof.
rewrite /check_flavor /use; case: f => [f|] //; case: ifP => // r; case: insubP => // u _ e h.
by exists u; split=> //; congr Some; rewrite e; lia.
Qed.
Lemma flavor_none (A : Type) (k : 'I_n -> outcome A) : check_flavor None k = UB.
Proof. by []. Qed.

Lemma read_U_lines_ok es k i l l' acc : holds l (U_lines i es) l' ->
  read_U_lines rs (size es + k) (Z.of_nat i) (Stream l true) acc = read_U_lines rs k (Z.of_nat (i + size es)) (Stream l' true) (acc ++ U_of es).
Proof.
elim: es i l acc => [|[[[[a b] c] d] [re im]] es ih] i l acc; first by move=> /= ->; rewrite cats0 addn0.
rewrite [U_lines _ _]/= [read_U_lines rs (size (_ :: es) + k) _ _ _]/=.
do 5!(case/(get_int_ok None)=> ? [-> ]); do 2!(case/(get_double_ok None)=> ? [-> ]); move=> h.
rewrite /= Z.eqb_refl /=.
rewrite !flavor_in; have -> : (Z.of_nat i + 1)%coqZ = Z.of_nat i.+1 by lia.
by rewrite (ih _ _ _ h) cat_rcons addSnnS.
Qed.
Lemma U_lines_rcons es a b c d re im i : U_lines i (rcons es (a, b, c, d, (re, im))) =
  rcons (U_lines i es ++ [:: FN (i + size es)%N; FN a; FN b; FN c; FN d; FD re]) (FD im).
Proof.
elim: es i => [|[[[[a' b'] c'] d'] [re' im']] es ih] i; first by rewrite /= addn0.
by rewrite [rcons _ _]/= [U_lines _ _]/= ih [U_lines i (_ :: _)]/= addSnnS.
Qed.
Lemma read_U_lines_failed k i l acc x : read_U_lines (n := n) rs k i (Stream l false) acc = Done x -> k = 0%N /\ x = (acc, Stream l false).
Proof. by case: k => [[<-]|k]. Qed.
Ltac dead := rewrite /get_int /get_double ?get_failed /=;
  repeat first [done | by let h := fresh in move=> h; case: (flavor_out h) => ? [] | case: ifP => _ // | let h := fresh in move=> h; case: (flavor_out h) => ? [_ {}h]; move: h].
Lemma read_U_lines_only k i l acc vs s' : read_U_lines rs k (Z.of_nat i) (Stream l true) acc = Done (vs, s') ->
  exists es, [/\ size es = k, vs = acc ++ U_of es &
    s' = Stream (text s') true /\ holds l (U_lines i es) (text s') \/
    exists fs im t l0, [/\ U_lines i es = rcons fs (FD im), holds l fs (t :: l0), as_double t = Bad im & s' = Stream l0 false]].
Proof.
elim: k i l acc => [|k ih] i l acc /=.
  by case=> <- <-; exists [::]; rewrite cats0; split=> //; left.
rewrite {1}/get_int; case: getP => [t1 l1 z1 r1 e1 h1|? ? ? ? ?|?]; [|dead|dead].
rewrite {1}/get_int; case: getP => [t2 l2 z2 r2 e2 h2|? ? ? ? ?|?]; [|dead|dead].
rewrite {1}/get_int; case: getP => [t3 l3 z3 r3 e3 h3|? ? ? ? ?|?]; [|dead|dead].
rewrite {1}/get_int; case: getP => [t4 l4 z4 r4 e4 h4|? ? ? ? ?|?]; [|dead|dead].
rewrite {1}/get_int; case: getP => [t5 l5 z5 r5 e5 h5|? ? ? ? ?|?]; [|dead|dead].
rewrite {1}/get_double; case: getP => [t6 l6 re r6 e6 h6|? ? ? ? ?|?]; [|dead|dead].
have H (a b c d : 'I_n) fs l' : z1 = Z.of_nat i -> z2 = Z.of_nat a -> z3 = Z.of_nat b -> z4 = Z.of_nat c -> z5 = Z.of_nat d ->
  holds (r6 ++ l6) fs l' -> holds l ([:: FN i; FN a; FN b; FN c; FN d; FD re] ++ fs) l'.
  move=> d1 d2 d3 d4 d5 h; rewrite e1 /=; exists t1, l1, r1; rewrite -d1; split=> //; exists t2, l2, r2; rewrite -d2; split=> //.
  exists t3, l3, r3; rewrite -d3; split=> //; exists t4, l4, r4; rewrite -d4; split=> //; exists t5, l5, r5; rewrite -d5; split=> //.
  by exists t6, l6, r6.
rewrite {1}/get_double; case: getP => [t7 l7 im r7 e7 h7|t7 l7 im e7 h7|_]; [| |dead]; rewrite /=.
- case: ifP => // /negbFE/Z.eqb_spec q.
  move=> h; case: (flavor_out h) => a [[qa] {}h]; case: (flavor_out h) => b [[qb] {}h]; case: (flavor_out h) => c [[qc] {}h]; case: (flavor_out h) => d [[qd] {}h]; move: h.
  have -> : (Z.of_nat i + 1)%coqZ = Z.of_nat i.+1 by clear; lia.
  case/ih=> es [hs -> h]; exists ((a, b, c, d, (re, im)) :: es); rewrite /= hs cat_rcons; split=> //.
  case: h => [[e h]|[fs [im' [t [l0 [ef hf hb ->]]]]]]; [left|right].
    by split=> //; refine (H a b c d (FD im :: U_lines i.+1 es) _ q qa qb qc qd _); exists t7, l7, r7.
  exists ([:: FN i; FN a; FN b; FN c; FN d; FD re; FD im] ++ fs), im', t, l0; rewrite ef rcons_cat; split=> //.
  by refine (H a b c d (FD im :: fs) _ q qa qb qc qd _); exists t7, l7, r7.
- case: ifP => // /negbFE/Z.eqb_spec q.
  move=> h; case: (flavor_out h) => a [[qa] {}h]; case: (flavor_out h) => b [[qb] {}h]; case: (flavor_out h) => c [[qc] {}h]; case: (flavor_out h) => d [[qd] {}h]; move: h.
  case/read_U_lines_failed => -> [-> ->]; exists [:: (a, b, c, d, (re, im))]; rewrite cats1; split=> //; right.
  exists [:: FN i; FN a; FN b; FN c; FN d; FD re], im, t7, l7; split=> //.
  exact: (H a b c d [::] _ q qa qb qc qd).
Qed.
(** C68. A file is accepted exactly when it lists elements of the tensor with flavors in range (whatever follows in the file),
    and then these elements are read, with the factor 1/2; or when the number of elements is not a number (and 0 is stored);
    or when the very last number, an imaginary part, is not a number. *)
Theorem C68_U_file l vs s' : read_U_file n rs (Stream l true) = Done (vs, s') <->
  [\/ exists es, [/\ vs = U_of es, s' = Stream (text s') true & holds l (U_fields es) (text s')],
      exists t l0, [/\ l = t :: l0, as_int t = Bad 0%coqZ, vs = [::] & s' = Stream l0 false] |
      exists es fs im t l0, [/\ vs = U_of es, U_fields es = rcons fs (FD im), holds l fs (t :: l0), as_double t = Bad im & s' = Stream l0 false]].
Proof.
split.
  rewrite /read_U_file {1}/get_int; case: getP => [t1 l1 z1 r1 e1 h1|t1 l1 z1 e1 h1|] //=; case: ifP => // neg.
    have ez : z1 = Z.of_nat (Z.to_nat z1) by lia.
    move/(read_U_lines_only (i := 0)) => [es [hs -> [[e h]|[fs [im [t [l0 [ef hf hb ->]]]]]]]].
      by apply: Or31; exists es; split=> //; exists t1, l1, r1; rewrite hs -ez.
    apply: Or33; exists es, (FN (size es) :: fs), im, t, l0; rewrite /U_fields ef; split=> //.
    by exists t1, l1, r1; rewrite hs -ez.
  case/read_U_lines_failed => e0 [-> ->]; apply: Or32; exists t1, l1; split=> //.
  by rewrite h1; congr Bad; lia.
have nonneg k : (Z.of_nat k <? 0)%coqZ = false by lia.
case=> [[es [-> -> h]]|[t [l0 [-> e -> ->]]]|[es [fs [im [t [l0 [-> ef h hb ->]]]]]]].
- move: h => /(get_int_ok None)[l1 [q h]]; rewrite /read_U_file q /= nonneg Nat2Z.id.
  by rewrite -[size es]addn0 (read_U_lines_ok 0 [::] h).
- by rewrite /read_U_file /get_int /get /= e.
case: fs ef h => [|f fs]; first by case: es.
case=> <-; case/lastP: es => [|es [[[[a b] c] d] [re im']]]; first by case: fs.
rewrite U_lines_rcons size_rcons => /rcons_inj[<- ei] /(get_int_ok None)[l1 [q /holds_cat[l2 [h1 h2]]]].
rewrite /read_U_file q; cbv beta iota delta [use]; rewrite nonneg Nat2Z.id -addn1 (read_U_lines_ok 1 [::] h1) add0n [LHS]/= => {q}.
move: h2; do 5!(case/(get_int_ok None)=> ? [-> ]); case/(get_double_ok None)=> ? [-> /= ->].
by rewrite /get_double /get /= hb -ei !flavor_in Z.eqb_refl /= /U_of map_rcons.
Qed.
(** C68. A file that ends too early is not refused with an error: a number is used that was never read. *)
Theorem C68_U_truncated_refuted es1 a b c d re im es2 j l : (j < 7)%N ->
  holds l (FN (size (es1 ++ (a, b, c, d, (re, im)) :: es2)) :: U_lines 0 es1 ++
           take j [:: FN (size es1); FN a; FN b; FN c; FN d; FD re; FD im]) [::] ->
  read_U_file n rs (Stream l true) = UB.
Proof.
have nonneg k : (Z.of_nat k <? 0)%coqZ = false by lia.
move=> hj /(get_int_ok None)[l1 [q /holds_cat[l2 [h1 h2]]]].
rewrite /read_U_file q; cbv beta iota delta [use]; rewrite nonneg Nat2Z.id size_cat /= (read_U_lines_ok _ [::] h1) add0n [LHS]/= => {q}.
have fin : holds l2 (take j [:: FN (size es1); FN a; FN b; FN c; FN d; FD re; FD im]) [::] by [].
move: fin {h2}; move: hj; case: j => [|[|[|[|[|[|[|j]]]]]]] // _; rewrite [take _ _]/=;
  repeat (case/(get_int_ok None)=> ? [-> ]); repeat (case/(get_double_ok None)=> ? [-> ]); move=> -> /=;
  by rewrite /get_int /get_double /get /= ?Z.eqb_refl /= ?flavor_in.
Qed.

(** *** Tables with one line per pair of flavors *)
Notation pair := ('I_n * 'I_n)%type.
Definition table_lines (ks : seq pair) (T : pair -> K * K) : seq field :=
  flatten [seq [:: FN k.1; FN k.2; FD (T k).1; FD (T k).2] | k : pair <- ks].
(** Every pair of flavors once, the second flavor changing fastest *)
Definition table_fields (T : pair -> K * K) : seq field := table_lines [seq (a, b) | a <- enum 'I_n, b <- enum 'I_n] T.
Lemma read_table_ok A (put : A -> pair -> K -> K -> A) ks ks' T l l' acc : holds l (table_lines ks T) l' ->
  read_table put (ks ++ ks') (Stream l true) acc =
  read_table put ks' (Stream l' true) (foldl (fun x k => put x k (T k).1 (T k).2) acc ks).
Proof.
elim: ks l acc => [|[a b] ks ih] l acc; first by move=> /= ->.
have -> : table_lines ((a, b) :: ks) T = [:: FN a, FN b, FD (T (a, b)).1, FD (T (a, b)).2 & table_lines ks T] by [].
rewrite [read_table _ (_ ++ _) _ _]/=.
do 2!(case/(get_int_ok None)=> ? [-> ]); do 2!(case/(get_double_ok None)=> ? [-> ]); move=> h.
by rewrite /= !Z.eqb_refl /= (ih _ _ h).
Qed.
Lemma read_table_failed A (put : A -> pair -> K -> K -> A) ks l acc x : read_table put ks (Stream l false) acc = Done x ->
  ks = [::] /\ x = (acc, Stream l false).
Proof. by case: ks => [[<-]|[a b] ks]. Qed.
Lemma table_lines_ext ks T T' : {in ks, T =1 T'} -> table_lines ks T = table_lines ks T'.
Proof. by move=> h; rewrite /table_lines; congr flatten; apply/eq_in_map => k /h ->. Qed.
Lemma fold_ext A (put : A -> pair -> K -> K -> A) ks (T T' : pair -> K * K) acc : {in ks, T =1 T'} ->
  foldl (fun x k => put x k (T k).1 (T k).2) acc ks = foldl (fun x k => put x k (T' k).1 (T' k).2) acc ks.
Proof.
elim: ks acc => //= k ks ih acc h; rewrite h ?inE ?eqxx // ih // => k' hk; by rewrite h // inE hk orbT.
Qed.
Lemma read_table_only A (put : A -> pair -> K -> K -> A) ks l acc a' s' : uniq ks -> read_table put ks (Stream l true) acc = Done (a', s') ->
  exists T, a' = foldl (fun x k => put x k (T k).1 (T k).2) acc ks /\
   (s' = Stream (text s') true /\ holds l (table_lines ks T) (text s') \/
    exists fs im t l0, [/\ table_lines ks T = rcons fs (FD im), holds l fs (t :: l0), as_double t = Bad im & s' = Stream l0 false]).
Proof.
elim: ks l acc => [|[a b] ks ih] l acc /=.
  by move=> _ [<- <-]; exists (fun=> (0, 0)); split=> //; left.
case/andP=> nin un.
rewrite {1}/get_int; case: getP => [t1 l1 z1 r1 e1 h1|? ? ? ? ?|?]; [|dead|dead].
rewrite {1}/get_int; case: getP => [t2 l2 z2 r2 e2 h2|? ? ? ? ?|?]; [|dead|dead].
rewrite {1}/get_double; case: getP => [t6 l6 re r6 e6 h6|? ? ? ? ?|?]; [|dead|dead].
have H fs l' : Z.of_nat a = z1 -> Z.of_nat b = z2 -> holds (r6 ++ l6) fs l' -> holds l ([:: FN a; FN b; FD re] ++ fs) l'.
  move=> d1 d2 h; rewrite e1 /=; exists t1, l1, r1; rewrite d1; split=> //; exists t2, l2, r2; rewrite d2; split=> //.
  by exists t6, l6, r6.
rewrite {1}/get_double; case: getP => [t7 l7 im r7 e7 h7|t7 l7 im e7 h7|_]; [| |dead]; rewrite /=.
- case: ifP => // /negbFE/Z.eqb_spec qa; case: ifP => // /negbFE/Z.eqb_spec qb.
  case/(ih _ _ un)=> T [-> h].
  pose T' k := if k == (a, b) then (re, im) else T k.
  have eT : {in ks, T =1 T'} by move=> k hk; rewrite /T'; case: eqP => // e; rewrite -e hk in nin.
  have T'ab : T' (a, b) = (re, im) by rewrite /T' eqxx.
  exists T'; rewrite T'ab (fold_ext _ _ eT); split=> //.
  rewrite /table_lines /= T'ab -/(table_lines ks T') -(table_lines_ext eT).
  case: h => [[e h]|[fs [im' [t [l0 [ef hf hb ->]]]]]]; [left|right].
    by split=> //; refine (H (FD im :: table_lines ks T) _ qa qb _); exists t7, l7, r7.
  exists ([:: FN a; FN b; FD re; FD im] ++ fs), im', t, l0; rewrite ef; split=> //.
  by refine (H (FD im :: fs) _ qa qb _); exists t7, l7, r7.
- case: ifP => // /negbFE/Z.eqb_spec qa; case: ifP => // /negbFE/Z.eqb_spec qb.
  move=> h; case: (read_table_failed h) => -> [-> ->]; exists (fun=> (re, im)); split=> //; right.
  exists [:: FN a; FN b; FD re], im, t7, l7; split=> //.
  exact: (H [::] _ qa qb).
Qed.
Lemma table_lines_rcons ks a b T : table_lines (rcons ks (a, b)) T = rcons (table_lines ks T ++ [:: FN a; FN b; FD (T (a, b)).1]) (FD (T (a, b)).2).
Proof. by rewrite /table_lines map_rcons flatten_rcons -cats1 -catA. Qed.
Lemma keys2_uniq : uniq (keys2 n).
Proof. by rewrite allpairs_uniq ?enum_uniq // => -[a b] [c d] _ _ [-> ->]. Qed.
Lemma mem_keys2 k : k \in keys2 n.
Proof. by case: k => a b; apply/allpairsP; exists (a, b); rewrite !mem_enum. Qed.
Lemma read_table_iff A (put : A -> pair -> K -> K -> A) acc l a' s' : read_table put (keys2 n) (Stream l true) acc = Done (a', s') <->
  exists T, a' = foldl (fun x k => put x k (T k).1 (T k).2) acc (keys2 n) /\
   (s' = Stream (text s') true /\ holds l (table_fields T) (text s') \/
    exists fs im t l0, [/\ table_fields T = rcons fs (FD im), holds l fs (t :: l0), as_double t = Bad im & s' = Stream l0 false]).
Proof.
split; first by apply: read_table_only; apply: keys2_uniq.
case=> T [-> [[-> h]|[fs [im [t [l0 [ef h hb ->]]]]]]].
  by have := read_table_ok put [::] acc h; rewrite cats0 => ->.
move: ef; rewrite /table_fields -/(keys2 n); case/lastP: (keys2 n) => [|ks [a b]]; first by case: fs {h}.
rewrite table_lines_rcons => /rcons_inj[efs ei]; move: h; rewrite -efs => /holds_cat[l2 [h1 h2]].
rewrite -[rcons ks _]cats1 (read_table_ok put [:: (a, b)] acc h1) foldl_cat [LHS]/=.
move: h2; do 2!(case/(get_int_ok None)=> ? [-> ]); case/(get_double_ok None)=> ? [-> /= ->].
by rewrite /get_double /get /= hb -ei !Z.eqb_refl.
Qed.

(** What the table of the hopping matrix says: the matrix [t_of T], and the list of its nonzero elements *)
Definition value (x : K * K) : K := mycast rs (x.1 + 'i * x.2).
Definition t_of (T : pair -> K * K) : seq (pair * K) := [seq (k, value (T k)) | k <- keys2 n & value (T k) != 0].
Lemma fold_hopping ks (T : pair -> K * K) acc : foldl (fun x k => put_hopping (n := n) rs x k (T k).1 (T k).2) acc ks =
  acc ++ [seq (k, value (T k)) | k <- ks & value (T k) != 0].
Proof.
elim: ks acc => [|k ks ih] acc /=; first by rewrite cats0.
rewrite ih /put_hopping -/(value (T k)) normr_eq0; case: (value (T k) != 0) => //=.
by rewrite cat_rcons.
Qed.
(** C68. The file of the hopping matrix is accepted exactly when it lists the whole matrix in the order of the loops (or its very
    last number is not a number), and then the nonzero elements are stored. *)
Theorem C68_hopping_file l vs s' : read_t_file n rs (Stream l true) = Done (vs, s') <->
  exists T, vs = t_of T /\
   (s' = Stream (text s') true /\ holds l (table_fields T) (text s') \/
    exists fs im t l0, [/\ table_fields T = rcons fs (FD im), holds l fs (t :: l0), as_double t = Bad im & s' = Stream l0 false]).
Proof. by rewrite /read_t_file read_table_iff; split=> -[T [e h]]; exists T; move: e; rewrite fold_hopping. Qed.
Theorem C68_hopping_matrix T : uniq [seq e.1 | e <- t_of T] /\ hopping_org (t_of T) = \matrix_(a, b) value (T (a, b)).
Proof.
have un : uniq [seq e.1 | e <- t_of T].
  by rewrite /t_of -map_comp map_id filter_uniq // keys2_uniq.
split=> //; apply/matrixP => a b; rewrite mxE hopping_E // big_map big_filter_cond /=.
have [z|nz] := eqVneq (value (T (a, b))) 0.
  rewrite z big1 // => k /andP[_ /eqP e]; by rewrite e.
rewrite big_mkcond (bigD1_seq (a, b)) ?mem_keys2 ?keys2_uniq //= nz eqxx /= big1 ?addr0 // => k nk.
by rewrite (negbTE nk) andbF.
Qed.
(** C68. The same for the file of the basis: the matrix of the conjugated numbers. *)
Theorem C68_basis_file l M s' : read_basis_file n rs (Stream l true) = Done (M, s') <->
  exists T, M = \matrix_(a, b) mycast rs ((T (a, b)).1 - 'i * (T (a, b)).2) /\
   (s' = Stream (text s') true /\ holds l (table_fields T) (text s') \/
    exists fs im t l0, [/\ table_fields T = rcons fs (FD im), holds l fs (t :: l0), as_double t = Bad im & s' = Stream l0 false]).
Proof.
rewrite /read_basis_file read_table_iff.
have fb T : foldl (fun x k => put_basis (n := n) rs x k (T k).1 (T k).2) 0 (keys2 n) = \matrix_(a, b) mycast rs ((T (a, b)).1 - 'i * (T (a, b)).2).
  have H ks M0 a b : foldl (fun x k => put_basis (n := n) rs x k (T k).1 (T k).2) M0 ks a b =
    if (a, b) \in ks then mycast rs ((T (a, b)).1 - 'i * (T (a, b)).2) else M0 a b.
    elim: ks M0 => [|k ks ih] M0 //=; rewrite ih /put_basis mxE inE.
    case: ifP => [_|_]; first by rewrite orbT.
    by rewrite orbF; case: eqP => // <-; rewrite /cplx mulrN.
  by apply/matrixP => a b; rewrite H mem_keys2 mxE.
by split=> -[T [e h]]; exists T; move: e; rewrite fb.
Qed.

(** *** The command line: all elements, in the order of the loops *)
Notation quads := (keys4 n).
Lemma collect_U_E (T : quad -> K * K) (ks : seq quad) acc : collect_U rs ks [seq (T k).1 | k <- ks] [seq (T k).2 | k <- ks] acc =
  acc ++ [seq (k, mycast rs (half K * cplx (T k).1 (T k).2)) | k <- ks & cplx (T k).1 (T k).2 != 0].
Proof.
elim: ks acc => [|k ks ih] acc /=; first by rewrite cats0.
by rewrite ih normr_eq0; case: (_ != 0) => //=; rewrite cat_rcons.
Qed.
Lemma collect_t_E (T : pair -> K * K) ks acc : collect_t rs ks [seq (T k).1 | k <- ks] [seq (T k).2 | k <- ks] acc =
  acc ++ [seq (k, value (T k)) | k <- ks & value (T k) != 0].
Proof.
elim: ks acc => [|k ks ih] acc /=; first by rewrite cats0.
by rewrite ih normr_eq0 -/(value (T k)); case: (_ != 0) => //=; rewrite cat_rcons.
Qed.
Lemma keys4_uniq : uniq quads.
Proof.
rewrite /keys4 allpairs_uniq ?enum_uniq //; last by move=> [a b] [c d] _ _ [-> ->].
by rewrite allpairs_uniq ?enum_uniq ?keys2_uniq // => -[a b] [c d] _ _ [-> ->].
Qed.
Lemma mem_keys4 k : k \in quads.
Proof.
case: k => -[[a b] c] d; apply/allpairsP; exists ((a, b, c), d); rewrite mem_enum; split=> //.
by apply/allpairsP; exists ((a, b), c); rewrite mem_enum mem_keys2.
Qed.
Lemma size_keys2 : size (keys2 n) = (n * n)%N.
Proof. by rewrite size_allpairs size_enum_ord. Qed.
Lemma size_keys4 : size quads = (n * n * n * n)%N.
Proof. by rewrite /keys4 /keys2 !size_allpairs size_enum_ord. Qed.
Lemma mycast_half z : mycast rs (half K * z) = half K * mycast rs z.
Proof.
rewrite /mycast; case: (rs) => //; rewrite -[half K * z]/(2%:R^-1 * z).
by rewrite ReMl // ?rpredV ?realn.
Qed.
Lemma mycast0 : mycast rs (0 : K) = 0.
Proof. by rewrite /mycast raddf0; case: (rs). Qed.
(** C68. Other sizes are refused; the elements given on the command line make the same Hamiltonian (see C58: a sum over the
    elements) as a file with all of them. *)
Theorem C68_command_line_size (res ims : seq K) :
  (read_U_command_line n rs res ims = Throw <-> ~ (size res = n * n * n * n /\ size ims = n * n * n * n)%N) /\
  (read_t_command_line n rs res ims = Throw <-> ~ (size res = n * n /\ size ims = n * n)%N).
Proof.
rewrite /read_U_command_line /read_t_command_line; split.
  by case: (size res =P _) => [->|h]; case: (size ims =P _) => [->|h'] //=; split=> //; [case|move=> _ []..].
by case: (size res =P _) => [->|h]; case: (size ims =P _) => [->|h'] //=; split=> //; [case|move=> _ []..].
Qed.
Theorem C68_command_line_U (T : quad -> K * K) (V : lmodType K) (op : quad -> V) :
  exists vs, read_U_command_line n rs [seq (T k).1 | k <- quads] [seq (T k).2 | k <- quads] = Done vs /\
    \sum_(e <- vs) e.2 *: op e.1 = \sum_(e <- U_of [seq (k, T k) | k <- quads]) e.2 *: op e.1.
Proof.
rewrite /read_U_command_line !size_map size_keys4 eqxx /= collect_U_E /=.
eexists; split; first reflexivity.
rewrite /U_of -map_comp !big_map big_filter /= [RHS](bigID (fun k => cplx (T k).1 (T k).2 != 0)) /= [X in _ + X]big1 ?addr0.
  by apply: eq_bigr => k _; rewrite mycast_half.
by move=> k /negbNE/eqP; rewrite /cplx => ->; rewrite mycast0 mulr0 scale0r.
Qed.
Theorem C68_command_line_t (T : pair -> K * K) :
  read_t_command_line n rs [seq (T k).1 | k <- keys2 n] [seq (T k).2 | k <- keys2 n] = Done (t_of T).
Proof. by rewrite /read_t_command_line !size_map size_keys2 eqxx /= collect_t_E. Qed.

(** *** The list of correlation functions *)
Fixpoint corr_lines (i : nat) (es : seq pair) : seq field :=
  if es is (f, g) :: es then [:: FN i; FN f; FN g] ++ corr_lines i.+1 es else [::].
Definition corr_fields (es : seq pair) : seq field := FN (size es) :: corr_lines 0 es.
(** Pairs of density operators *)
Definition corr_of (es : seq pair) : seq (pair * pair) := [seq ((e.1, e.1), (e.2, e.2)) | e <- es].
Lemma read_corr_lines_failed k i l acc x : read_corr_lines (K := K) (n := n) k i (Stream l false) acc = Done x -> k = 0%N /\ x = acc.
Proof. by case: k => [[<-]|k]. Qed.
Lemma read_corr_lines_ok es k i l l' acc : holds l (corr_lines i es) l' ->
  read_corr_lines (size es + k) (Z.of_nat i) (Stream l true) acc = read_corr_lines k (Z.of_nat (i + size es)) (Stream l' true) (acc ++ corr_of es).
Proof.
elim: es i l acc => [|[a b] es ih] i l acc; first by move=> /= ->; rewrite cats0 addn0.
rewrite [corr_lines _ _]/= [read_corr_lines (size (_ :: es) + k) _ _ _]/=.
case/(get_int_ok None)=> ? [-> h]; rewrite /= Z.eqb_refl /=.
case/(get_int_ok None): h => ? [-> h]; rewrite /= flavor_in.
case/(get_int_ok None): h => ? [-> h]; rewrite /= flavor_in.
have -> : (Z.of_nat i + 1)%coqZ = Z.of_nat i.+1 by lia.
by rewrite (ih _ _ _ h) cat_rcons addSnnS.
Qed.
Lemma read_corr_lines_only k i l acc vs : read_corr_lines k (Z.of_nat i) (Stream l true) acc = Done vs ->
  exists es l', [/\ size es = k, vs = acc ++ corr_of es &
    holds l (corr_lines i es) l' \/
    exists fs (g : 'I_n) t l0, [/\ corr_lines i es = rcons fs (FN g), holds l fs (t :: l0) & as_int t = Bad (Z.of_nat g)]].
Proof.
elim: k i l acc => [|k ih] i l acc /=.
  by case=> <-; exists [::], l; rewrite cats0; split=> //; left.
rewrite {1}/get_int; case: getP => [t1 l1 z1 r1 e1 h1|? ? ? ? ?|?]; [|dead|dead].
rewrite /=; case: ifP => // /negbFE/Z.eqb_spec q.
rewrite {1}/get_int; case: getP => [t2 l2 z2 r2 e2 h2|? ? ? ? ?|?]; [|dead|dead].
move=> h; case: (flavor_out h) => a [[qa]] {h}.
rewrite {1}/get_int; case: getP => [t3 l3 z3 r3 e3 h3|t3 l3 z3 e3 h3|?]; [| |dead]; move=> h; case: (flavor_out h) => b [[qb]] {h}.
- have -> : (Z.of_nat i + 1)%coqZ = Z.of_nat i.+1 by clear; lia.
  case/ih=> es [l' [hs -> h]]; exists ((a, b) :: es), l'; rewrite /= hs cat_rcons; split=> //.
  have H fs l'' : holds (r3 ++ l3) fs l'' -> holds l ([:: FN i; FN a; FN b] ++ fs) l''.
    move=> {}h; rewrite e1 /=; exists t1, l1, r1; rewrite -q; split=> //; exists t2, l2, r2; rewrite -qa; split=> //.
    by exists t3, l3, r3; rewrite -qb.
  case: h => [h|[fs [g [t [l0 [ef hf hb]]]]]]; [left; exact: (H)|right].
  exists ([:: FN i; FN a; FN b] ++ fs), g, t, l0; rewrite ef; split=> //; exact: (H).
- case/read_corr_lines_failed => -> ->; exists [:: (a, b)], l3; rewrite cats1; split=> //; right.
  exists [:: FN i; FN a], b, t3, l3; split=> //; last by rewrite -qb.
  by rewrite e1 /=; exists t1, l1, r1; rewrite -q; split=> //; exists t2, l2, r2; rewrite -qa.
Qed.
Lemma corr_lines_rcons es a b i : corr_lines i (rcons es (a, b)) = rcons (corr_lines i es ++ [:: FN (i + size es)%N; FN a]) (FN b).
Proof.
elim: es i => [|[a' b'] es ih] i; first by rewrite /= addn0.
by rewrite [rcons _ _]/= [corr_lines _ _]/= ih [corr_lines i (_ :: _)]/= addSnnS.
Qed.
(** C68. The list of correlation functions is accepted exactly when the parameters agree with it and every line has its number and
    two flavors in range (apart from a number of elements or a last number that is not a number). *)
Theorem C68_corr_file num_tau num_def l vs : read_corr n num_tau num_def (Stream l true) = Done vs <->
  num_tau <> 1%coqZ /\
  [\/ exists es l', [/\ vs = corr_of es, num_def = Z.of_nat (size es) & holds l (corr_fields es) l'],
      exists t l0, [/\ l = t :: l0, as_int t = Bad 0%coqZ, vs = [::] & num_def = 0%coqZ] |
      exists es fs (g : 'I_n) t l0, [/\ vs = corr_of es, num_def = Z.of_nat (size es), corr_fields es = rcons fs (FN g), (0 < size es)%N &
        holds l fs (t :: l0) /\ as_int t = Bad (Z.of_nat g)]].
Proof.
have nonneg k : (Z.of_nat k <? 0)%coqZ = false by lia.
rewrite /read_corr; case: (Z.eqb_spec num_tau 1) => [->|n1]; first by split=> [|[]].
split.
  move=> h; split=> //; move: h.
  rewrite {1}/get_int; case: getP => [t1 l1 z1 r1 e1 h1|t1 l1 z1 e1 h1|] //=; case: ifP => // neg; case: ifP => // /negbFE/Z.eqb_spec ed.
    have ez : z1 = Z.of_nat (Z.to_nat z1) by lia.
    move/(read_corr_lines_only (i := 0)) => [es [l' [hs -> [h|[fs [g [t [l0 [ef hf hb]]]]]]]]].
      by apply: Or31; exists es, l'; rewrite /corr_fields hs -ez; split=> //; exists t1, l1, r1.
    apply: Or33; exists es, (FN (size es) :: fs), g, t, l0; rewrite /corr_fields ef hs -ez; split=> //.
      by case: es ef hs {hf} => [|? ? _ <-] //; case: fs.
    by split=> //; exists t1, l1, r1.
  case/read_corr_lines_failed => e0 ->; apply: Or32; exists t1, l1; split=> //; last by lia.
  by rewrite h1; congr Bad; lia.
case=> _ [[es [l' [-> -> h]]]|[t [l0 [-> e -> ->]]]|[es [fs [g [t [l0 [-> -> ef hn [h hb]]]]]]]].
- move: h => /(get_int_ok None)[l1 [q h]]; rewrite q /= nonneg Z.eqb_refl Nat2Z.id.
  by rewrite -[size es]addn0 (read_corr_lines_ok 0 [::] h).
- by rewrite /get_int /get /= e.
case: fs ef h => [|f fs]; first by case: es hn => [|[a b] es].
move: hn => _; case=> <-; case/lastP: es => [|es [a b]]; first by case: fs.
rewrite corr_lines_rcons size_rcons => /rcons_inj[<- ei] /(get_int_ok None)[l1 [q /holds_cat[l2 [h1 h2]]]].
rewrite q; cbv beta iota delta [use]; rewrite nonneg Z.eqb_refl Nat2Z.id -addn1 (read_corr_lines_ok 1 [::] h1) add0n [LHS]/= => {q}.
case/(get_int_ok None): h2 => ? [-> h]; rewrite /= Z.eqb_refl; case/(get_int_ok None): h => ? [-> /= ->]; rewrite flavor_in.
by rewrite /get_int /get /= hb -ei flavor_in /corr_of map_rcons.
Qed.

(** *** The hybridization function *)
Notation triple := (nat * nat * nat)%type.
Definition delta_line (k : triple) (x : K * K) : seq field := [:: FN k.1.1; FN k.1.2; FN k.2; FD x.1; FD x.2].
Definition delta_lines (ks : seq triple) (T : triple -> K * K) : seq field := flatten [seq delta_line k (T k) | k : triple <- ks].
Definition delta_fields (np1 : nat) (T : triple -> K * K) : seq field := delta_lines (loop3 np1 n) T.
(** The function that the file describes, see C26 *)
Definition delta_of (T : triple -> K * K) : Hyb.table K := fun i j t => value (T (t, i, j)).
Definition dput (np1 : nat) (T : triple -> K * K) (F : Hyb.table K) (k : triple) : Hyb.table K :=
  Hyb.tset K F k.2 k.1.2 (np1 - k.1.1 - 1)%N (- value (T k)).
Definition vars_of (k : triple) (x : K * K) : delta_vars K :=
  DeltaVars (Some (Z.of_nat k.1.1)) (Some (Z.of_nat k.1.2)) (Some (Z.of_nat k.2)) (Some x.1) (Some x.2).
Lemma dput_mapped np1 T : mapped K (@GRing.opp K) 0 np1 n (delta_of T) (foldl (dput np1 T) (fun _ _ _ => 0) (loop3 np1 n)).
Proof.
have [F [e m]] := C26_file K (@GRing.opp K) 0 np1 n (delta_of T) [::].
suff -> : foldl (dput np1 T) (fun _ _ _ => 0) (loop3 np1 n) = F by [].
have H ks F0 : Hyb.read_file K (@GRing.opp K) np1 ks (List.map (fun '(t, i, j) => (t, i, j, delta_of T i j t)) ks ++ [::]) F0 = Some (foldl (dput np1 T) F0 ks).
  elim: ks F0 => [|[[t i] j] ks ih] F0 //=.
  by rewrite !Nat.eqb_refl /= ih.
by move: e; rewrite /read_hybridization /file_of H => -[].
Qed.
Lemma read_delta_ok np1 ks ks' T l l' v F : holds l (delta_lines ks T) l' ->
  read_delta_lines rs np1 (ks ++ ks') (Stream l true) v F =
  read_delta_lines rs np1 ks' (Stream l' true) (last v [seq vars_of k (T k) | k <- ks]) (foldl (dput np1 T) F ks).
Proof.
elim: ks l v F => [|[[a b] c] ks ih] l v F; first by move=> /= ->.
have -> : delta_lines ((a, b, c) :: ks) T = [:: FN a, FN b, FN c, FD (T (a, b, c)).1, FD (T (a, b, c)).2 & delta_lines ks T] by [].
rewrite [read_delta_lines _ _ (_ ++ _) _ _ _]/=.
case/(get_int_ok (v_it v))=> ? [-> ]; case/(get_int_ok (v_i v))=> ? [-> ]; case/(get_int_ok (v_j v))=> ? [-> ].
case/(get_double_ok (v_re v))=> ? [-> ]; case/(get_double_ok (v_im v))=> ? [-> h].
by rewrite /= !Z.eqb_refl /= (ih _ _ _ h).
Qed.
(** C68. A complete file is read: the table of C26. *)
Theorem C68_delta_file np1 T l l' : holds l (delta_fields np1 T) l' ->
  exists F, read_delta_file n rs np1 (Stream l true) = Done (F, Stream l' true) /\ mapped K (@GRing.opp K) 0 np1 n (delta_of T) F.
Proof.
move=> h; exists (foldl (dput np1 T) (fun _ _ _ => 0) (loop3 np1 n)); split; last exact: dput_mapped.
by have := read_delta_ok np1 [::] (DeltaVars None None None None None) (fun _ _ _ => 0) h; rewrite cats0 /read_delta_file => ->.
Qed.
Lemma delta_stale np1 k ks l v F x : k \notin ks -> read_delta_lines rs np1 ks (Stream l false) v F = Done x ->
  v_it v = Some (Z.of_nat k.1.1) -> v_i v = Some (Z.of_nat k.1.2) -> v_j v = Some (Z.of_nat k.2) -> ks = [::] /\ x = (F, Stream l false).
Proof.
case: ks => [|[[a b] c] ks] h1 h2 e1 e2 e3; first by case: h2 => <-.
move: h1 h2.
rewrite inE negb_or => /andP[nk _]; rewrite /= e1 e2 e3 /=.
case: ifP => // /negbFE/Z.eqb_spec /Nat2Z.inj q1; case: ifP => // /negbFE/Z.eqb_spec /Nat2Z.inj q2; case: ifP => // /negbFE/Z.eqb_spec /Nat2Z.inj q3.
by move: nk; rewrite [k]surjective_pairing [k.1]surjective_pairing q1 q2 q3 eqxx.
Qed.
Lemma delta_lines_ext ks T T' : {in ks, T =1 T'} -> delta_lines ks T = delta_lines ks T'.
Proof. by move=> h; rewrite /delta_lines; congr flatten; apply/eq_in_map => k /h ->. Qed.
Lemma dput_ext np1 ks (T T' : triple -> K * K) F : {in ks, T =1 T'} -> foldl (dput np1 T) F ks = foldl (dput np1 T') F ks.
Proof.
elim: ks F => //= k ks ih F h; rewrite /dput h ?inE ?eqxx // ih // => k' hk; by rewrite h // inE hk orbT.
Qed.
Lemma getP' (A : Type) (as_ : token -> conv token A) l old : (exists t l0 a r, [/\ l = t :: l0, as_ t = Good a r & get as_ (Stream l true) old = (Some a, Stream (r ++ l0) true)]) \/
  exists o l', get as_ (Stream l true) old = (o, Stream l' false).
Proof.
rewrite /get /=; case: l => [|t l]; first by right; exists old, [::].
by case e: (as_ t) => [a r|a]; [left; exists t, l, a, r|right; exists (Some a), l].
Qed.
Lemma read_delta_only np1 ks l v F x : uniq ks -> read_delta_lines rs np1 ks (Stream l true) v F = Done x ->
  exists T, x.1 = foldl (dput np1 T) F ks /\
   (x.2 = Stream (text x.2) true /\ holds l (delta_lines ks T) (text x.2) \/
    good x.2 = false /\ exists ks0 k l1, ks = rcons ks0 k /\ holds l (delta_lines ks0 T) l1).
Proof.
elim: ks l v F => [|[[a b] c] ks ih] l v F /=.
  by move=> _ [<-]; exists (fun=> (0, 0)); split=> //; left.
case/andP=> nin un.
have fail it di dj re im l0 : (let v := DeltaVars it di dj re im in
   use it (fun it_ => if ~~ (it_ =? Z.of_nat a)%coqZ then Throw else
   use di (fun di_ => if ~~ (di_ =? Z.of_nat b)%coqZ then Throw else
   use dj (fun dj_ => if ~~ (dj_ =? Z.of_nat c)%coqZ then Throw else
   use re (fun re_ => use im (fun im_ =>
     read_delta_lines rs np1 ks (Stream l0 false) v (Hyb.tset K F c b (np1 - a - 1)%N (- mycast rs (cplx re_ im_)))))))))= Done x ->
   exists T, x.1 = foldl (dput np1 T) F ((a, b, c) :: ks) /\
    good x.2 = false /\ exists ks0 k l1, (a, b, c) :: ks = rcons ks0 k /\ holds l (delta_lines ks0 T) l1.
  case: it => [it|] //=; case: ifP => // /negbFE/Z.eqb_spec ->; case: di => [di|] //=; case: ifP => // /negbFE/Z.eqb_spec ->.
  case: dj => [dj|] //=; case: ifP => // /negbFE/Z.eqb_spec ->; case: re => [re|] //=; case: im => [im|] //= h.
  have [ks0 xe] := delta_stale nin h erefl erefl erefl.
  exists (fun=> (re, im)); rewrite ks0 xe /=; split=> //; split=> //.
  by exists [::], (a, b, c), l.
have fail' it di dj re im l0 : _ -> exists T, x.1 = foldl (dput np1 T) F ((a, b, c) :: ks) /\
   (x.2 = Stream (text x.2) true /\ holds l (delta_lines ((a, b, c) :: ks) T) (text x.2) \/
    good x.2 = false /\ exists ks0 k l1, (a, b, c) :: ks = rcons ks0 k /\ holds l (delta_lines ks0 T) l1) :=
  fun h => let: ex_intro T (conj e h) := fail it di dj re im l0 h in ex_intro _ T (conj e (or_intror h)).
rewrite /get_int /get_double.
have [[t1 [l1 [z1 [r1 [e1 h1 ->]]]]]|[o [l' ->]]] := getP' (@as_int K) l (v_it v); last by move/fail'.
have [[t2 [l2 [z2 [r2 [e2 h2 ->]]]]]|[o [l' ->]]] := getP' (@as_int K) (r1 ++ l1) (v_i v); last by move/fail'.
have [[t3 [l3 [z3 [r3 [e3 h3 ->]]]]]|[o [l' ->]]] := getP' (@as_int K) (r2 ++ l2) (v_j v); last by move/fail'.
have [[t4 [l4 [z4 [r4 [e4 h4 ->]]]]]|[o [l' ->]]] := getP' (@as_double K) (r3 ++ l3) (v_re v); last by move/fail'.
have [[t5 [l5 [z5 [r5 [e5 h5 ->]]]]]|[o [l' ->]]] := getP' (@as_double K) (r4 ++ l4) (v_im v); last by move/fail'.
rewrite /=; case: ifP => // /negbFE/Z.eqb_spec q1; case: ifP => // /negbFE/Z.eqb_spec q2; case: ifP => // /negbFE/Z.eqb_spec q3.
case/(ih _ _ _ un) => T [ex h].
pose T' k := if k == (a, b, c) then (z4, z5) else T k.
have eT : {in ks, T =1 T'} by move=> k hk; rewrite /T'; case: eqP => // e; rewrite -e hk in nin.
have T'k : T' (a, b, c) = (z4, z5) by rewrite /T' eqxx.
have H fs l'' : holds (r5 ++ l5) fs l'' -> holds l (delta_line (a, b, c) (T' (a, b, c)) ++ fs) l''.
  move=> {}h; rewrite T'k e1 /= -q1 -q2 -q3; exists t1, l1, r1; split=> //; exists t2, l2, r2; split=> //; exists t3, l3, r3; split=> //.
  by exists t4, l4, r4; split=> //; exists t5, l5, r5.
exists T'; rewrite ex (dput_ext _ _ eT); split; first by rewrite /dput T'k.
case: h => [[e h]|[g [ks0 [k [l' [ek h]]]]]]; [left|right].
  by split=> //; rewrite (delta_lines_ext eT) in h; exact: (H _ _ h).
split=> //; exists ((a, b, c) :: ks0), k, l'; rewrite ek; split=> //.
have e0 : {in ks0, T =1 T'} by move=> k' hk; apply: eT; rewrite ek mem_rcons inE hk orbT.
by rewrite (delta_lines_ext e0) in h; exact: (H _ _ h).
Qed.
(** C68. Only the last line of an accepted file can be incomplete. *)
Lemma loop3_uniq np1 m : uniq (loop3 np1 m).
Proof.
have : forall s : seq triple, List.NoDup s -> uniq s.
  by elim=> [|k s ih] //= h; inversion_clear h as [|? ? n1 n2]; rewrite ih // andbT; apply/negP => hk; apply: n1; elim: s {ih n2} hk => [|k' s ih] //=; rewrite inE => /orP[/eqP->|/ih]; [left|right].
by apply; apply: loop3_NoDup.
Qed.
Theorem C68_delta_only np1 l F s' : read_delta_file n rs np1 (Stream l true) = Done (F, s') ->
  exists T, mapped K (@GRing.opp K) 0 np1 n (delta_of T) F /\ (s' = Stream (text s') true /\ holds l (delta_fields np1 T) (text s') \/
    good s' = false /\ exists ks k l1, loop3 np1 n = rcons ks k /\ holds l (delta_lines ks T) l1).
Proof.
rewrite /read_delta_file; case/(read_delta_only (loop3_uniq np1 n)) => T /= [-> h].
by exists T; split=> //; exact: dput_mapped.
Qed.
(** C68. But it can be: a file that ends after the three indices of its last line is accepted, and the value is that of the line before. *)
Theorem C68_delta_truncated_refuted np1 T ks k1 k2 l : loop3 np1 n = rcons (rcons ks k1) k2 ->
  holds l (delta_lines (rcons ks k1) T ++ take 3 (delta_line k2 (T k2))) [::] ->
  exists F, read_delta_file n rs np1 (Stream l true) = Done (F, Stream [::] false) /\ mapped K (@GRing.opp K) 0 np1 n (delta_of (fun k => if k == k2 then T k1 else T k)) F.
Proof.
move=> e /holds_cat[l1 [h1 h2]]; set T' := fun k : triple => if k == k2 then T k1 else T k.
have := loop3_uniq np1 n; rewrite e rcons_uniq => /andP[nin _].
have eT : {in rcons ks k1, T =1 T'} by move=> k hk; rewrite /T'; case: eqP => // e'; rewrite -e' hk in nin.
exists (foldl (dput np1 T') (fun _ _ _ => 0) (loop3 np1 n)); split; last exact: dput_mapped.
have T'2 : T' k2 = T k1 by rewrite /T' eqxx.
rewrite /read_delta_file e -[rcons (rcons _ _) _]cats1 (read_delta_ok _ _ _ _ h1) map_rcons last_rcons foldl_cat -(dput_ext _ _ eT).
move: (foldl _ _ (rcons ks k1)) => F.
have -> : foldl (dput np1 T') F [:: k2] = Hyb.tset K F k2.2 k2.1.2 (np1 - k2.1.1 - 1)%N (- value (T k1)) by rewrite /= /dput T'2.
move: h2; case: k2 {e nin eT T' T'2} => [[a b] c] h2 /=.
case/(get_int_ok (Some (Z.of_nat k1.1.1))): h2 => ? [-> h2]; case/(get_int_ok (Some (Z.of_nat k1.1.2))): h2 => ? [-> h2].
case/(get_int_ok (Some (Z.of_nat k1.2))): h2 => ? [-> /= ->].
by rewrite /get_double /get /= !Z.eqb_refl.
Qed.

(** *** The Hamiltonian *)
Section Hamiltonian.
Variables (V : algType K) (R : 'M[K]_n) (d dd : 'I_n -> V) (eps : K).
Notation cre := (cre_op R dd).
Notation ann := (ann_op R d).
(** C68. From the files to the local Hamiltonian: 1/2 sum U_abcd c+_a c+_b c_c c_d + sum t_ab c+_a c_b with the numbers of the files.
    Elements that are listed twice are added up. *)
Theorem C68_hamiltonian (lU lt : seq token) es rU T rt : holds lU (U_fields es) rU -> holds lt (table_fields T) rt ->
  exists vU vt, [/\ read_U_file n rs (Stream lU true) = Done (vU, Stream rU true), read_t_file n rs (Stream lt true) = Done (vt, Stream rt true) &
    above eps (rotate_U R vU) (rotate_hopping R (hopping_org vt)) ->
    hamiltonian dd d eps (rotate_U R vU) (rotate_hopping R (hopping_org vt)) =
    \sum_(e <- es) (2%:R^-1 * value e.2) *: (cre e.1.1.1.1 * cre e.1.1.1.2 * ann e.1.1.2 * ann e.1.2) +
    \sum_a \sum_b value (T (a, b)) *: (cre a * ann b)].
Proof.
move=> hU ht; exists (U_of es), (t_of T).
split; first by apply/C68_U_file; apply: Or31; exists es.
  by apply/C68_hopping_file; exists T; split=> //; left.
move=> ab; have [un _] := C68_hopping_matrix T; rewrite C58_hamiltonian //; congr (_ + _).
  by rewrite /U_of big_map.
rewrite /t_of big_map big_filter /=.
transitivity (\sum_(k <- keys2 n) value (T k) *: (cre k.1 * ann k.2)).
  rewrite big_mkcond; apply: eq_bigr => k _; by case: eqP => [->|//]; rewrite scale0r.
by rewrite /keys2 big_allpairs_dep big_enum; apply: eq_bigr => a _; rewrite big_enum.
Qed.
(** C68. model.onsite_U: one of the two orders of each pair of flavors, with the factor 1/2.  For fermions this is U/2 n_up n_down. *)
Theorem C68_onsite_half (u : K) sites (flavor : nat -> 'I_n) :
  (forall a b, ann a * ann b = - (ann b * ann a)) -> (forall a b, a != b -> cre a * ann b = - (ann b * cre a)) ->
  (forall s, (s < sites)%N -> flavor (2 * s)%N != flavor (2 * s + 1)%N) ->
  \sum_(e <- read_onsite_U 2 sites u flavor) e.2 *: (cre e.1.1.1.1 * cre e.1.1.1.2 * ann e.1.1.2 * ann e.1.2) =
  \sum_(0 <= s < sites) (u / 2%:R) *: ((cre (flavor (2 * s)%N) * ann (flavor (2 * s)%N)) * (cre (flavor (2 * s + 1)%N) * ann (flavor (2 * s + 1)%N))).
Proof.
move=> aa ca nf; rewrite /read_onsite_U /= big_map /index_iota subn0 [LHS]big_seq [RHS]big_seq; apply: eq_bigr => s; rewrite mem_iota add0n => /= hs.
rewrite /half mulrC; congr (_ *: _).
rewrite -!mulrA; congr (_ * _); rewrite (aa (flavor (2 * s + 1)%N)) mulrN !mulrA.
by rewrite ca 1?eq_sym ?nf // mulNr opprK.
Qed.
End Hamiltonian.
End C68.

(** ** Concrete files *)
Definition int_token (K : numClosedFieldType) (z : int) : token K :=
  Token (Good (match z with Posz m => Z.of_nat m | Negz m => Z.opp (Z.of_nat m.+1) end) [::]) (Good z%:~R [::]).
Definition word_token (K : numClosedFieldType) : token K := Token (Bad 0%coqZ) (Bad 0).
Definition half_token (K : numClosedFieldType) : token K := Token (Good 0%coqZ [:: word_token K]) (Good 2%:R^-1 [::]).
Section Ex.
Variable K : numClosedFieldType.
Notation i_ := (int_token K).
Notation w := (word_token K).
Notation h := (half_token K).
Notation o0 := (@Ordinal 2 0 isT).
Notation o1 := (@Ordinal 2 1 isT).
(** Two elements, the second with the value 1/2 + 3i, and a line that is not read *)
Definition U_ex : seq (token K) := [:: i_ 2; i_ 0; i_ 0; i_ 1; i_ 1; i_ 0; i_ 4; i_ 0; i_ 1; i_ 1; i_ 0; i_ 0; i_ 1; h; i_ 3; i_ 7].
Example C68_U_instance : exists es : seq ('I_2 * 'I_2 * 'I_2 * 'I_2 * (K * K)),
  [/\ holds U_ex (U_fields es) [:: i_ 7], es = [:: (o0, o1, o1, o0, (4%:R, 0)); (o1, o0, o0, o1, (2%:R^-1, 3%:R))] &
      read_U_file 2 false (Stream U_ex true) =
      Done ([:: (o0, o1, o1, o0, 2%:R^-1 * (4%:R + 'i * 0)); (o1, o0, o0, o1, 2%:R^-1 * (2%:R^-1 + 'i * 3%:R))], Stream [:: i_ 7] true)].
Proof.
exists [:: (o0, o1, o1, o0, (4%:R, 0)); (o1, o0, o0, o1, (2%:R^-1, 3%:R))].
have hh : holds U_ex (U_fields [:: (o0, o1, o1, o0, (4%:R, 0)); (o1, o0, o0, o1, (2%:R^-1, 3%:R))]) [:: i_ 7].
  by rewrite /=; do 15!(do 3!eexists; split; [reflexivity|reflexivity|]).
split=> //; apply/C68_U_file; apply: Or31; eexists; split; [|reflexivity|exact: hh]; reflexivity.
Qed.
(** The file ends after the flavors of the second line *)
Example C68_U_truncated_instance : read_U_file 2 false (Stream (take 13 U_ex) true) = UB.
Proof.
apply: (@C68_U_truncated_refuted K 2 false [:: (o0, o1, o1, o0, (4%:R, 0))] o1 o0 o0 o1 0 0 [::] 5) => //.
by rewrite /=; do 13!(do 3!eexists; split; [reflexivity|reflexivity|]).
Qed.
(** A flavor that is out of range, and a word in place of a flavor *)
Example C68_U_refused_instance :
  read_U_file 2 false (Stream [:: i_ 1; i_ 0; i_ 0; i_ 2; i_ 1; i_ 0; i_ 4; i_ 0] true) = Throw /\
  read_U_file 2 false (Stream [:: i_ 1; i_ 0; i_ 0; w; i_ 1; i_ 0; i_ 4; i_ 0] true) = UB.
Proof.
have e0 (A : Type) (k : 'I_2 -> outcome A) : check_flavor (Some 0%coqZ) k = k o0 by exact: (@flavor_in 2 A k o0).
by split; rewrite /read_U_file /get_int /get_double /get /= !e0.
Qed.
Definition t_ex : seq (token K) := [:: i_ 0; i_ 0; i_ 5; i_ 0; i_ 0; i_ 1; i_ 0; i_ 1; i_ 1; i_ 0; i_ 0; i_ (-1); i_ 1; i_ 1; i_ 0; i_ 0].
Definition T_ex (k : 'I_2 * 'I_2) : K * K :=
  if k == (o0, o0) then (5%:R, 0) else if k == (o0, o1) then (0, 1) else if k == (o1, o0) then (0, -1) else (0, 0).
Lemma keys2_2 : [seq (a, b) | a <- enum 'I_2, b <- enum 'I_2] = [:: (o0, o0); (o0, o1); (o1, o0); (o1, o1)].
Proof.
have -> : enum 'I_2 = [:: o0; o1] by apply: (inj_map val_inj); rewrite val_enum_ord.
by [].
Qed.
Example C68_hopping_instance : holds t_ex (table_fields T_ex) [::] /\
  exists vs, read_t_file 2 false (Stream t_ex true) = Done (vs, Stream [::] true) /\ hopping_org vs o1 o0 = - 'i.
Proof.
have hh : holds t_ex (table_fields T_ex) [::].
  rewrite /table_fields keys2_2 /=; do 16!(do 3!eexists; split; [reflexivity|reflexivity|]); reflexivity.
split=> //; exists (t_of false T_ex); split; first by apply/C68_hopping_file; exists T_ex; split=> //; left.
by have [_ ->] := C68_hopping_matrix false T_ex; rewrite mxE /value /mycast /= add0r mulrN1.
Qed.
(** One flavor, two times: the value at the second time is missing *)
Example C68_delta_instance : exists F, read_delta_file 1 false 2 (Stream [:: i_ 0; i_ 0; i_ 0; i_ 3; i_ 0; i_ 1; i_ 0; i_ 0] true) = Done (F, Stream [::] false) /\
  F 0%N 0%N 1%N = - (3%:R + 'i * 0) /\ F 0%N 0%N 0%N = - (3%:R + 'i * 0).
Proof.
have [F [e m]] := @C68_delta_truncated_refuted K 1 false 2 (fun k => if k.1.1 == 0%N then (3%:R, 0) else (1, 0)) [::] (0, 0, 0)%N (1, 0, 0)%N
  [:: i_ 0; i_ 0; i_ 0; i_ 3; i_ 0; i_ 1; i_ 0; i_ 0] erefl ltac:(by rewrite /=; do 8!(do 3!eexists; split; [reflexivity|reflexivity|])).
exists F; split=> //; case: m => m _; split; first by apply: (m 0%N 0%N 0%N); split; lia.
by apply: (m 0%N 0%N 1%N); split; lia.
Qed.
Example C68_corr_instance : read_corr 2 10 1 (Stream [:: i_ 1; i_ 0; i_ 1; i_ 0] true) = Done [:: ((o1, o1), (o0, o0))] /\
  read_corr 2 10 2 (Stream [:: i_ 1; i_ 0; i_ 1; i_ 0] true) = Throw /\ read_corr 2 10 1 (Stream [:: i_ 1; i_ 0; i_ 1; i_ (-1)] true) = Throw.
Proof.
have e0 (A : Type) (k : 'I_2 -> outcome A) : check_flavor (Some 0%coqZ) k = k o0 by exact: (@flavor_in 2 A k o0).
have e1 (A : Type) (k : 'I_2 -> outcome A) : check_flavor (Some 1%coqZ) k = k o1 by exact: (@flavor_in 2 A k o1).
split; last by split; rewrite /read_corr /get_int /get /= ?e1.
apply/C68_corr_file; split=> //; apply: Or31; exists [:: (o1, o0)], [::]; split=> //.
by rewrite /=; do 4!(do 3!eexists; split; [reflexivity|reflexivity|]).
Qed.
(** Two flavors: the matrices of the operators in the basis of occupation numbers *)
Definition d_rows (f : 'I_2) : seq (seq K) := if f == o0 then [:: [:: 0; 1; 0; 0]; [::]; [:: 0; 0; 0; 1]; [::]] else [:: [:: 0; 0; 1; 0]; [:: 0; 0; 0; -1]].
Definition d_ex (f : 'I_2) : 'M[K]_4 := \matrix_(r, c) nth 0 (nth [::] (d_rows f) r) c.
Definition dd_ex (f : 'I_2) : 'M[K]_4 := (d_ex f)^T.
Example C68_onsite_instance (u : K) : let cre := cre_op 1%:M dd_ex in let ann := ann_op 1%:M d_ex in let flavor s : 'I_2 := inord s in
  \sum_(e <- read_onsite_U 2 1 u flavor) e.2 *: (cre e.1.1.1.1 * cre e.1.1.1.2 * ann e.1.1.2 * ann e.1.2) =
  (u / 2%:R) *: ((cre o0 * ann o0) * (cre o1 * ann o1)).
Proof.
move=> cre ann flavor.
have ea a : ann a = d_ex a by rewrite /ann /ann_op (bigD1 a) //= mxE eqxx scale1r big1 ?addr0 // => b nb; rewrite mxE eq_sym (negbTE nb) scale0r.
have ec a : cre a = dd_ex a.
  rewrite /cre /cre_op (bigD1 a) //= mxE eqxx conjC1 scale1r big1 ?addr0 // => b nb; by rewrite mxE eq_sym (negbTE nb) conjC0 scale0r.
have two (P : 'I_2 -> Prop) : P o0 -> P o1 -> forall a, P a.
  by move=> p0 p1 [[|[|m]] hm] //; [have -> : Ordinal hm = o0 by apply: val_inj|have -> : Ordinal hm = o1 by apply: val_inj].
rewrite C68_onsite_half; last first.
- by case=> // _; rewrite -val_eqE /= !inordK.
- by apply: (two); apply: (two) => // _; rewrite -/cre -/ann ea ec; apply/matrixP => -[[|[|[|[|i]]]] hi] [[|[|[|[|j]]]] hj] //;
    rewrite !mxE !big_ord_recl !big_ord0 !mxE /= ?(mulr0, mul0r, mulr1, mul1r, addr0, add0r, mulrN1, mulNr, opprK, oppr0).
- by apply: (two); apply: (two); rewrite -/ann !ea; apply/matrixP => -[[|[|[|[|i]]]] hi] [[|[|[|[|j]]]] hj] //;
    rewrite !mxE !big_ord_recl !big_ord0 !mxE /= ?(mulr0, mul0r, mulr1, mul1r, addr0, add0r, mulrN1, mulNr, opprK, oppr0).
rewrite big_nat1 -/cre -/ann; have -> : flavor (2 * 0)%N = o0 by apply: val_inj; rewrite /= inordK.
by have -> : flavor (2 * 0 + 1)%N = o1 by apply: val_inj; rewrite /= inordK.
Qed.
End Ex.
Print Assumptions C68_U_file.
Print Assumptions C68_U_truncated_refuted.
Print Assumptions C68_hopping_file.
Print Assumptions C68_hopping_matrix.
Print Assumptions C68_basis_file.
Print Assumptions C68_command_line_size.
Print Assumptions C68_command_line_U.
Print Assumptions C68_command_line_t.
Print Assumptions C68_corr_file.
Print Assumptions C68_delta_file.
Print Assumptions C68_delta_only.
Print Assumptions C68_delta_truncated_refuted.
Print Assumptions C68_hamiltonian.
Print Assumptions C68_onsite_half.
