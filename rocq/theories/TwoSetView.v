(** * TwoSetView: iterating two sorted sets as one

    Model of src/util.hpp:325-467 (TwoSetView, TwoSetViewConstIterator).  A std::set is the list of its elements in
    increasing order; an element is an integer (only its order matters).  An iterator is a container and a position in it;
    the position equal to the number of elements is end().

    The declaration [const Set &set1_, set2_;] (hpp:375) makes set1_ a reference to the argument but set2_ a copy of the
    argument.  Comparing iterators of two different containers is undefined in the C++ standard, but the code does it
    (hpp:355-360); with every common implementation such iterators hold addresses of different nodes, so the model
    compares them as different.  The diagnostic output of proceed (hpp:459) is left out. *)
From Coq Require Import ZArith List Bool Lia.
Import ListNotations.
Open Scope Z_scope.

Inductive owner := O1 | O2 | O2copy.
Record iter := It { i_own : owner; i_pos : nat }.

Inductive vres (A : Type) := VOk (a : A) | VThrow | VUB.
Arguments VOk {A} _. Arguments VThrow {A}. Arguments VUB {A}.
Definition vbind {A B} (x : vres A) (f : A -> vres B) : vres B :=
  match x with VOk a => f a | VThrow => VThrow | VUB => VUB end.

Section View.
Variables (set1 set2 : list Z).

Definition content (o : owner) : list Z := match o with O1 => set1 | O2 | O2copy => set2 end.
Definition owner_eqb (a b : owner) : bool :=
  match a, b with O1, O1 | O2, O2 | O2copy, O2copy => true | _, _ => false end.
Definition iter_eqb (x y : iter) : bool := owner_eqb (i_own x) (i_own y) && Nat.eqb (i_pos x) (i_pos y).
Definition i_begin (o : owner) : iter := It o 0.
Definition i_end (o : owner) : iter := It o (length (content o)).
(** Dereferencing end() and incrementing end() are undefined *)
Definition deref (x : iter) : vres Z := match nth_error (content (i_own x)) (i_pos x) with Some a => VOk a | None => VUB end.
Definition i_next (x : iter) : vres iter :=
  if Nat.ltb (i_pos x) (length (content (i_own x))) then VOk (It (i_own x) (S (i_pos x))) else VUB.

(** hpp:421-467: the iterator of the view *)
Record viter := VI { v_index : nat; v_it : iter; v_next1 : iter; v_next2 : iter; v_end1 : iter; v_end2 : iter }.

Definition is_empty (o : owner) : bool := match content o with [] => true | _ => false end.
(** *set.rbegin() *)
Definition last_of (o : owner) : vres Z := match rev (content o) with a :: _ => VOk a | [] => VUB end.

(** hpp:332-363: the constructor; the result is (begin, end) *)
Definition construct : vres (viter * viter) :=
  vbind
    (if is_empty O1 && is_empty O2copy then VThrow
     else if is_empty O1 then VOk (i_begin O2copy, i_end O2copy)
     else if is_empty O2copy then VOk (i_begin O1, i_end O1)
     else
       vbind (deref (i_begin O1)) (fun f1 => vbind (deref (i_begin O2)) (fun f2 =>
       vbind (if f1 <? f2 then VOk (i_begin O1) else if f2 <? f1 then VOk (i_begin O2) else VThrow) (fun b =>
       vbind (last_of O1) (fun l1 => vbind (last_of O2) (fun l2 =>
       vbind (if l1 <? l2 then VOk (i_end O2) else if l2 <? l1 then VOk (i_end O1) else VThrow) (fun e =>
       VOk (b, e))))))))
    (fun '(it_begin, it_end) =>
       vbind (if iter_eqb it_begin (i_begin O1) then i_next (i_begin O1) else VOk (i_begin O1)) (fun n1 =>
       vbind (if iter_eqb it_begin (i_begin O2) then i_next (i_begin O2) else VOk (i_begin O2)) (fun n2 =>
       VOk (VI 0 it_begin n1 n2 (i_end O1) (i_end O2),
            VI (length set1 + length set2) it_end (i_end O1) (i_end O2) (i_end O1) (i_end O2))))).

(** hpp:438-460 *)
Definition proceed (v : viter) : vres viter :=
  let done1 := iter_eqb (v_next1 v) (v_end1 v) in
  let done2 := iter_eqb (v_next2 v) (v_end2 v) in
  let adv1 := vbind (i_next (v_next1 v)) (fun n => VOk (VI (S (v_index v)) (v_next1 v) n (v_next2 v) (v_end1 v) (v_end2 v))) in
  let adv2 := vbind (i_next (v_next2 v)) (fun n => VOk (VI (S (v_index v)) (v_next2 v) (v_next1 v) n (v_end1 v) (v_end2 v))) in
  if done1 && done2 then VOk (VI (S (v_index v)) (v_it v) (v_next1 v) (v_next2 v) (v_end1 v) (v_end2 v))
  else if done1 then adv2
  else if done2 then adv1
  else vbind (deref (v_next1 v)) (fun a => vbind (deref (v_next2 v)) (fun b =>
    if a <? b then adv1 else if b <? a then adv2 else VThrow)).

(** hpp:384-387: ++it gives the new iterator, which is also the value of the expression *)
Definition pre_incr (v : viter) : vres (viter * viter) := vbind (proceed v) (fun w => VOk (w, w)).
(** hpp:389-393: it++; the copy is advanced and returned, *this stays (state, value) *)
Definition post_incr (v : viter) : vres (viter * viter) := vbind (proceed v) (fun copy => VOk (v, copy)).
(** hpp:395-401 *)
Definition v_eqb (x y : viter) : bool := Nat.eqb (v_index x) (v_index y).
(** hpp:403-409 *)
Definition v_deref (v : viter) : vres Z := deref (v_it v).

(** The loop [for (it = view.begin(); it != view.end(); INCR) out.push_back( *it )], as in test/unittest_solver.cpp:192-207;
    None: still running after [fuel] rounds *)
Fixpoint loop (incr : viter -> vres (viter * viter)) (fuel : nat) (v e : viter) : option (vres (list Z)) :=
  if v_eqb v e then Some (VOk [])
  else match fuel with
  | O => None
  | S fuel => match v_deref v with
    | VOk a => match incr v with
      | VOk (w, _) => match loop incr fuel w e with
        | Some (VOk l) => Some (VOk (a :: l))
        | r => r
        end
      | VThrow => Some VThrow | VUB => Some VUB
      end
    | VThrow => Some VThrow | VUB => Some VUB
    end
  end.

Definition iterate (incr : viter -> vres (viter * viter)) (fuel : nat) : option (vres (list Z)) :=
  match construct with
  | VOk (b, e) => loop incr fuel b e
  | VThrow => Some VThrow | VUB => Some VUB
  end.

(** n prefix increments of begin(), then a dereference *)
Fixpoint advance (n : nat) (v : viter) : vres viter :=
  match n with O => VOk v | S n => vbind (pre_incr v) (fun '(w, _) => advance n w) end.
Definition deref_after (n : nat) : vres Z := vbind construct (fun '(b, _) => vbind (advance n b) v_deref).

End View.
