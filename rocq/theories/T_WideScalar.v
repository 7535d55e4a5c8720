(** * C42: the extended-range complex type *)
From Coq Require Import Reals Lra.
From Verif Require Import WideScalar.
Open Scope R_scope.

(** ** Specification: the complex numbers as a field over the reals with a root of -1 *)
Definition cI : wcomplex := W 0 1.
Definition cconj (z : wcomplex) : wcomplex := W (a_ z) (- b_ z).

Lemma W_eq z w : a_ z = a_ w -> b_ z = b_ w -> z = w.
Proof. destruct z, w; simpl; intros -> ->; reflexivity. Qed.
Lemma norm_pos z : z <> w_default -> 0 < a_ z * a_ z + b_ z * b_ z.
Proof.
intros H. destruct (Req_dec (a_ z) 0) as [Ha|Ha], (Req_dec (b_ z) 0) as [Hb|Hb]; [elim H; apply W_eq; auto| | |];
 assert (P := Rle_0_sqr (a_ z)); assert (Q := Rle_0_sqr (b_ z)); unfold Rsqr in *.
- assert (0 < b_ z * b_ z) by (apply Rlt_0_sqr in Hb; auto). lra.
- assert (0 < a_ z * a_ z) by (apply Rlt_0_sqr in Ha; auto). lra.
- assert (0 < a_ z * a_ z) by (apply Rlt_0_sqr in Ha; auto). lra.
Qed.

(** Addition and multiplication make a commutative ring with 0 and 1; subtraction undoes addition; division undoes
    multiplication for every non-zero divisor *)
Theorem C42_field (x y z : wcomplex) :
  w_add x y = w_add y x /\ w_add x (w_add y z) = w_add (w_add x y) z /\ w_add x w_default = x /\
  w_mul x y = w_mul y x /\ w_mul x (w_mul y z) = w_mul (w_mul x y) z /\ w_mul x (w_of_real 1) = x /\
  w_mul x (w_add y z) = w_add (w_mul x y) (w_mul x z) /\
  w_add (w_sub x y) y = x /\ w_sub x x = w_default /\
  (y <> w_default -> w_mul (w_div x y) y = x /\ forall q, w_mul q y = x -> q = w_div x y).
Proof.
assert (D : y <> w_default -> w_mul (w_div x y) y = x).
{ intros H. apply norm_pos in H. apply W_eq; simpl; field; lra. }
do 9 (split; [apply W_eq; simpl; ring|]).
intros H; split; auto. intros q <-. apply norm_pos in H. apply W_eq; simpl; field; lra.
Qed.

(** The reals are a subfield (with the same operations), and the unit [cI] squares to -1 and generates the rest *)
Theorem C42_complex (r s : R) (z : wcomplex) :
  w_add (w_of_real r) (w_of_real s) = w_of_real (r + s) /\ w_sub (w_of_real r) (w_of_real s) = w_of_real (r - s) /\
  w_mul (w_of_real r) (w_of_real s) = w_of_real (r * s) /\ (s <> 0 -> w_div (w_of_real r) (w_of_real s) = w_of_real (r / s)) /\
  w_mul cI cI = w_of_real (-1) /\ z = w_add (w_of_real (a_ z)) (w_mul cI (w_of_real (b_ z))).
Proof.
do 3 (split; [apply W_eq; simpl; ring|]). split; [intros H; apply W_eq; simpl; field; auto|].
split; apply W_eq; simpl; ring.
Qed.

(** The operators taking a real or a std::complex agree with converting the operand first *)
Theorem C42_mixed (z : wcomplex) (s : std_complex) (r : R) :
  w_add_std z s = w_add z (w_of_std s) /\ w_mul_std z s = w_mul z (w_of_std s) /\ std_mul_w s z = w_mul (w_of_std s) z /\
  w_mul_real z r = w_mul z (w_of_real r) /\ real_mul_w r z = w_mul (w_of_real r) z /\
  w_mul_assign_real z r = w_mul z (w_of_real r) /\ w_mul_assign_std z s = w_mul z (w_of_std s) /\
  w_add_assign_std z s = w_add z (w_of_std s) /\ (forall w, w_add_assign z w = w_add z w) /\
  w_div_std z s = w_div z (w_of_std s) /\ (r <> 0 -> w_div_real z r = w_div z (w_of_real r)) /\
  w_of_std (to_std z) = z /\ to_std (w_of_std s) = s /\ convert_to_double (w_of_real r) = r.
Proof.
do 8 (split; [apply W_eq; simpl; ring|]). split; [reflexivity|]. split; [apply W_eq; simpl; reflexivity|].
split; [intros H; apply W_eq; simpl; field; auto|]. destruct z, s; repeat split.
Qed.

(** The absolute value is multiplicative, its square is z times its conjugate, and it vanishes only at 0 *)
Theorem C42_abs (z w : wcomplex) : myabs (w_mul z w) = myabs z * myabs w /\
  w_mul z (cconj z) = w_of_real (myabs z * myabs z) /\ 0 <= myabs z /\ (myabs z = 0 -> z = w_default).
Proof.
assert (P : forall u, 0 <= a_ u * a_ u + b_ u * b_ u).
{ intros u. assert (H := Rle_0_sqr (a_ u)); assert (H' := Rle_0_sqr (b_ u)); unfold Rsqr in *; lra. }
unfold myabs; split; [|split; [|split]].
- rewrite <- sqrt_mult by apply P. f_equal. simpl; ring.
- rewrite sqrt_sqrt by apply P. apply W_eq; simpl; ring.
- apply sqrt_pos.
- intros H. apply sqrt_eq_0 in H; [|apply P].
  destruct (Req_dec (a_ z) 0) as [Ha|Ha], (Req_dec (b_ z) 0) as [Hb|Hb]; [apply W_eq; auto| | |];
  assert (0 < a_ z * a_ z + b_ z * b_ z) by (apply norm_pos; intros ->; simpl in *; auto); lra.
Qed.

Lemma Reqb_true x y : Reqb x y = true <-> x = y.
Proof. unfold Reqb; destruct (Req_EM_T x y); split; intros; auto; discriminate || contradiction. Qed.

(** Comparison by == looks at the real parts only: it says yes for different numbers *)
Theorem C42_equality_partial (z w : wcomplex) : w_eq z w = true <-> a_ z = a_ w.
Proof.
unfold w_eq. rewrite (proj2 (Reqb_true (b_ z) (b_ z)) eq_refl), Bool.andb_true_r. apply Reqb_true.
Qed.
Theorem C42_equality_refuted : exists z w, w_eq z w = true /\ z <> w /\ w_sub z w <> w_default.
Proof.
exists (W 1 2), (W 1 3). split; [now apply C42_equality_partial|]. split; intros [=]; lra.
Qed.

Example C42_instance : w_div (W 1 2) (W 3 4) = W (11 / 25) (2 / 25) /\ w_mul (W (11 / 25) (2 / 25)) (W 3 4) = W 1 2 /\ myabs (W 3 4) = 5.
Proof.
split; [apply W_eq; simpl; field|]. split; [apply W_eq; simpl; field|]. unfold myabs; simpl.
replace (3 * 3 + 4 * 4) with (5 * 5) by ring. apply sqrt_square; lra.
Qed.

Print Assumptions C42_field.
Print Assumptions C42_complex.
Print Assumptions C42_mixed.
Print Assumptions C42_abs.
Print Assumptions C42_equality_partial.
Print Assumptions C42_equality_refuted.
Print Assumptions C42_instance.
