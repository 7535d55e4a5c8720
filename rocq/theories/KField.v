(** Use of Coq's [field] tactic on a mathcomp field. No code is modelled here.

    The field operations are wrapped in constants with a single instance path so that the reifier
    of [field] recognises them. In a section with [K : fieldType] (or a subtype) declare
    [Add Field Kf : (kfield_theory K).] and use [kfield]. *)

From Coq Require Import Field_theory Field.
From mathcomp Require Import all_ssreflect all_algebra.
Import GRing.Theory.
Local Open Scope ring_scope.

Section KField.
Variable K : fieldType.
Definition kadd (x y : K) : K := x + y.
Definition kmul (x y : K) : K := x * y.
Definition kopp (x : K) : K := - x.
Definition kinv (x : K) : K := x^-1.
Definition kone : K := 1.
Definition kzero : K := 0.
Definition knat (n : nat) : K := n%:R.
Definition kexp (x : K) (n : nat) : K := x ^+ n.
Definition ksub (x y : K) : K := kadd x (kopp y).
Definition kdiv (x y : K) : K := kmul x (kinv y).
Lemma kfield_theory : field_theory kzero kone kadd kmul ksub kopp kdiv kinv eq.
Proof.
split; last by move=> x /eqP h; rewrite /kmul /kinv /kone mulVf.
split=> *; rewrite /kadd /kmul /ksub /kopp /kone /kzero /kadd /kopp.
- by rewrite add0r.
- by rewrite addrC.
- by rewrite addrA.
- by rewrite mul1r.
- by rewrite mulrC.
- by rewrite mulrA.
- by rewrite mulrDl.
- by [].
- by rewrite subrr.
- by apply/eqP; rewrite oner_eq0.
- by [].
Qed.
End KField.

Ltac kfold K :=
  match goal with |- @eq _ ?a ?b => change (@eq (GRing.Field.sort K) a b) end;
  repeat match goal with
  | |- context [@GRing.natmul ?Z (GRing.one ?Y) ?n] => change (@GRing.natmul Z (GRing.one Y) n) with (@knat K n)
  | |- context [@GRing.exp ?Z ?x ?n] => change (@GRing.exp Z x n) with (@kexp K x n)
  | |- context [@GRing.add ?Z ?x ?y] => change (@GRing.add Z x y) with (@kadd K x y)
  | |- context [@GRing.mul ?Z ?x ?y] => change (@GRing.mul Z x y) with (@kmul K x y)
  | |- context [@GRing.opp ?Z ?x] => change (@GRing.opp Z x) with (@kopp K x)
  | |- context [@GRing.inv ?Z ?x] => change (@GRing.inv Z x) with (@kinv K x)
  | |- context [GRing.one ?Z] => change (GRing.one Z) with (@kone K)
  | |- context [GRing.zero ?Z] => change (GRing.zero Z) with (@kzero K)
  end.
(** Atoms that differ only by the instance path of their arguments are identified. *)
Ltac katoms K :=
  repeat match goal with
  | |- context [knat ?L ?n] => let a := fresh "a" in set a := (knat L n)
  | |- context [kexp ?L ?x ?n] => let a := fresh "a" in set a := (kexp L x n)
  end.
(** Side conditions come back as [x <> 0]; they are closed from [_ != 0] hypotheses. *)
(* hypotheses are compared up to conversion *)
Ltac kside := repeat split; let H := fresh in intros H; move/eqP: H; apply/negP; assumption.
Ltac kring K := kfold K; katoms K; ring.
Ltac kfield K := kfold K; katoms K; field; try kside.

Section Test.
Variable K : numFieldType.
Add Field Kf : (kfield_theory K).
Example kfield_test (x y z : K) : y != 0 -> z != 0 -> x / y / z * (y + y) - x / z = x * z^-1.
Proof. move=> hy hz. kfield K. Qed.
Example kring_test (x y : K) : (x + y) * (x - y) = x * x - y * y.
Proof. kring K. Qed.
End Test.
