(** Use of Coq's [ring] tactic on a mathcomp commutative ring, as [KField] does for fields. No code is modelled here.
    In a section with a commutative ring [L] declare [Add Ring Lr : (cring_theory L).] and use [cring L]. *)
From Coq Require Import Ring_theory Ring.
From mathcomp Require Import all_ssreflect all_algebra.
Import GRing.Theory.
Local Open Scope ring_scope.

Section CRing.
Variable L : comRingType.
Definition cadd (x y : L) : L := x + y.
Definition cmul (x y : L) : L := x * y.
Definition copp (x : L) : L := - x.
Definition cone : L := 1.
Definition czero : L := 0.
Definition cnat (n : nat) : L := n%:R.
Definition cexp (x : L) (n : nat) : L := x ^+ n.
Definition csub (x y : L) : L := cadd x (copp y).
Lemma cring_theory : ring_theory czero cone cadd cmul csub copp eq.
Proof.
split=> *; rewrite /cadd /cmul /csub /copp /cone /czero /cadd /copp.
- by rewrite add0r.
- by rewrite addrC.
- by rewrite addrA.
- by rewrite mul1r.
- by rewrite mulrC.
- by rewrite mulrA.
- by rewrite mulrDl.
- by [].
- by rewrite subrr.
Qed.
End CRing.

Ltac cfold L :=
  match goal with |- @eq _ ?a ?b => change (@eq (GRing.ComRing.sort L) a b) end;
  repeat match goal with
  | |- context [@GRing.natmul ?Z (GRing.one ?Y) ?n] => change (@GRing.natmul Z (GRing.one Y) n) with (@cnat L n)
  | |- context [@GRing.exp ?Z ?x ?n] => change (@GRing.exp Z x n) with (@cexp L x n)
  | |- context [@GRing.add ?Z ?x ?y] => change (@GRing.add Z x y) with (@cadd L x y)
  | |- context [@GRing.mul ?Z ?x ?y] => change (@GRing.mul Z x y) with (@cmul L x y)
  | |- context [@GRing.opp ?Z ?x] => change (@GRing.opp Z x) with (@copp L x)
  | |- context [GRing.one ?Z] => change (GRing.one Z) with (@cone L)
  | |- context [GRing.zero ?Z] => change (GRing.zero Z) with (@czero L)
  end.
Ltac catoms :=
  repeat match goal with
  | |- context [cnat ?L ?n] => let a := fresh "a" in set a := (cnat L n)
  | |- context [cexp ?L ?x ?n] => let a := fresh "a" in set a := (cexp L x n)
  end.
Ltac cring L := cfold L; catoms; ring.

Section Test.
Variable K : fieldType.
Let L : comRingType := [comRingType of {poly K}].
Add Ring Lr : (cring_theory L).
Example cring_test (p q : {poly K}) : (p + 'X * q) * (p - 'X * q) = p * p - 'X * 'X * q * q.
Proof. cring L. Qed.
End Test.
