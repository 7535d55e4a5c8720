(** Fast-update formulas for determinants and inverses.

    Modelled code: include/alps/fastupdate/detail/fastupdate_formula.ipp (all functions), the parts of
    resizable_matrix.hpp they use (116-142 resizing, 166-179 swaps, 219-232 safe_determinant, 293-334 blocks), and
    detail/util.hpp:55-92 (safe_determinant), 110-150 (safe_inverse).

    Simplifications.
    - Matrix elements are an arbitrary numFieldType, without rounding, overflow and underflow. Eigen's determinant() and
      inverse() are the exact determinant and inverse ([invmx] of a singular matrix is the matrix itself, where Eigen
      divides by zero).
    - A matrix is its dimensions and a function of its indices. The values of the function outside the dimensions are
      arbitrary: they stand for the memory that resizing leaves uninitialized.
    - Memory size and reallocation (116-142) are not modelled. num_rows and num_cols of a ResizableMatrix
      (resizable_matrix.hpp:353-363) are interchanged in the code; all uses are square matrices.
    - Asserted conditions are hypotheses of the theorems. *)
From mathcomp Require Import all_ssreflect all_algebra.
From Verif Require Import EigenBasis.
Import Order.Theory GRing.Theory Num.Theory.
Set Implicit Arguments.
Unset Strict Implicit.
Unset Printing Implicit Defensive.
Local Open Scope ring_scope.

Section FastUpdate.
Variable K : numFieldType.
Notation mat := (mat K).

(** Reading an n x m matrix out of the array and back *)
Definition toM (n m : nat) (a : mat) : 'M[K]_(n, m) := \matrix_(i < n, j < m) me a i j.
Definition ofM (n m : nat) (A : 'M[K]_(n, m)) : mat :=
  Mat n m (fun i j => if insub i is Some i' then if insub j is Some j' then A i' j' else 0 else 0).
Definition msub (a b : mat) : mat := Mat (mr a) (mc a) (fun i j => me a i j - me b i j).
Definition mopp (a : mat) : mat := Mat (mr a) (mc a) (fun i j => - me a i j).
Definition mscale (x : K) (a : mat) : mat := Mat (mr a) (mc a) (fun i j => x * me a i j).
(** resizable_matrix.hpp:293-334 *)
Definition mblock (r c nr nc : nat) (a : mat) : mat := Mat nr nc (fun i j => me a (r + i)%N (c + j)%N).
Definition set_block (r c nr nc : nat) (b : mat) (a : mat) : mat :=
  Mat (mr a) (mc a) (fun i j => if (r <= i < r + nr)%N && (c <= j < c + nc)%N then me b (i - r)%N (j - c)%N else me a i j).
(** resizable_matrix.hpp:116-127 *)
Definition conservative_resize (n m : nat) (a : mat) : mat := Mat n m (me a).
(** resizable_matrix.hpp:130-142; [junk] is what the memory contains *)
Definition destructive_resize (junk : nat -> nat -> K) (n m : nat) : mat := Mat n m junk.
(** resizable_matrix.hpp:166-179 *)
Definition swapn (a b i : nat) : nat := if i == a then b else if i == b then a else i.
Definition swap_row (r1 r2 : nat) (a : mat) : mat := Mat (mr a) (mc a) (fun i j => me a (swapn r1 r2 i) j).
Definition swap_col (c1 c2 : nat) (a : mat) : mat := Mat (mr a) (mc a) (fun i j => me a i (swapn c1 c2 j)).

(** util.hpp:55-71: the matrix divided by its largest modulus *)
Definition safe_determinant (a : mat) : K :=
  let n := mr a in
  if n == 0%N then 1 else
  let mx := maxabs a in
  if mx == 0 then 0 else \det (toM n n (mscale mx^-1 a)) * mx ^+ n.
(** util.hpp:110-150 *)
Definition safe_inverse (a : mat) : mat :=
  let mx := maxabs a in
  let n := mr a in mscale mx^-1 (ofM (invmx (toM n n (mscale mx^-1 a)))).
(** resizable_matrix.hpp:219-232 *)
Definition rm_safe_determinant (a : mat) : K :=
  match mr a with
  | 0 => 1
  | 1 => me a 0 0
  | 2 => me a 0 0 * me a 1 1 - me a 0 1 * me a 1 0
  | _ => safe_determinant a
  end.

(** ** Adding rows and columns, fastupdate_formula.ipp:32-105 *)
Definition compute_det_ratio_up (b c d invA : mat) : K :=
  if mr invA == 0%N then safe_determinant d
  else safe_determinant (msub d (mmul (mmul c invA) b)).
(** 57-105; returns the ratio and the new matrix *)
Definition compute_inverse_matrix_up (b c d invA : mat) : K * mat :=
  let n := mr invA in
  let m := mr d in
  if n == 0%N then (safe_determinant d, safe_inverse d) else
  let c_invA := mmul c invA in
  let h := safe_inverse (msub d (mmul c_invA b)) in
  let invA_b := mmul invA b in
  let f := mmul (mopp invA_b) h in
  let a1 := conservative_resize (n + m) (n + m) invA in
  let a2 := set_block n 0 m n (mmul (mopp h) c_invA) a1 in
  let tmp := mmul invA_b (mblock n 0 m n a2) in
  let a3 := set_block 0 0 n n (msub (mblock 0 0 n n a2) tmp) a2 in
  let a4 := set_block 0 n n m f a3 in
  let a5 := set_block n n m m h a4 in
  (1 / safe_determinant h, a5).

(** ** Removing rows and columns *)
(** 114-143: [abs (r - c)] is computed with integers *)
Definition absdiff (a b : nat) : nat := (a - b) + (b - a).
Definition compute_det_ratio_down (m : nat) (rows cols : seq nat) (invG : mat) : K :=
  let h := Mat m m (fun i j => me invG (nth 0%N cols i) (nth 0%N rows j)) in
  let perm := foldl (fun p j => p + absdiff (nth 0%N rows j) (nth 0%N cols j))%N 0%N (iota 0 m) in
  if ~~ odd perm then safe_determinant h else - safe_determinant h.
(** 145-166 *)
Definition compute_det_ratio_down_last (m : nat) (invG : mat) : K :=
  let n := (mr invG - m)%N in
  safe_determinant (Mat m m (fun i j => me invG (n + i)%N (n + j)%N)).
(** 210-219 and 244-253: E -= F H^-1 G, then the size is reduced *)
Definition shrink (n m : nat) (invG : mat) : mat :=
  let g1 := if (0 < n)%N then
      set_block 0 0 n n (msub (mblock 0 0 n n invG)
        (mmul (mmul (mblock 0 n n m invG) (safe_inverse (mblock n n m m invG))) (mblock n 0 m n invG))) invG
    else invG in
  conservative_resize n n g1.
(** 168-220; [None]: one of the exceptions 186-192 *)
Definition compute_inverse_matrix_down (m : nat) (rows cols : seq nat) (invG : mat) : option mat :=
  let npm := mr invG in
  if (npm < m)%N then None else
  if m == 0%N then None else
  let n := (npm - m)%N in
  let step g idel := swap_row (nth 0%N cols (m - 1 - idel)%N) (npm - 1 - idel)%N
                       (swap_col (nth 0%N rows (m - 1 - idel)%N) (npm - 1 - idel)%N g) in
  Some (shrink n m (foldl step invG (iota 0 m))).
(** 222-254 *)
Definition compute_inverse_matrix_down_last (m : nat) (invG : mat) : option mat :=
  let npm := mr invG in
  if (npm < m)%N then None else
  if m == 0%N then None else Some (shrink (npm - m) m invG).

(** ** Replacing rows and columns, 263-351. [n] rows and columns stay, [m] are the new ones. The state of ReplaceHelper are
    Mmat_ and inv_tSp_; [None]: not computed *)
Definition replace_det_ratio (invG q r s : mat) : K * option (mat * mat) :=
  let n := mc r in
  let m_old := (mc invG - n)%N in
  if n == 0%N then (safe_determinant s * rm_safe_determinant invG, None) else
  let tP := mblock 0 0 n n invG in
  let tQ := mblock 0 n n m_old invG in
  let tR := mblock n 0 m_old n invG in
  let tS := mblock n n m_old m_old invG in
  if safe_determinant tS == 0 then (0, None) else
  let mm := if (0 < m_old)%N then msub tP (mmul (mmul tQ (safe_inverse tS)) tR) else tP in
  let inv_tSp := msub s (mmul r (mmul mm q)) in
  (safe_determinant tS * safe_determinant inv_tSp, Some (mm, inv_tSp)).
(** 316-351 *)
Definition replace_inverse (junk : nat -> nat -> K) (helper : mat * mat) (q r s : mat) : mat :=
  let n := mc r in
  let m := mr r in
  if n == 0%N then
    (if (0 < m)%N then set_block 0 0 m m (safe_inverse s) (destructive_resize junk m m) else destructive_resize junk m m)
  else
  let: (mm, inv_tSp) := helper in
  let g0 := destructive_resize junk (n + m) (n + m) in
  let g1 := if (0 < m)%N then
      let g := set_block n n m m (safe_inverse inv_tSp) g0 in
      let tSp := mblock n n m m g in
      let g := set_block 0 n n m (mmul (mopp mm) (mmul q tSp)) g in
      set_block n 0 m n (mmul (mopp (mmul tSp r)) mm) g
    else g0 in
  let g2 := set_block 0 0 n n mm g1 in
  if (0 < m)%N then
    set_block 0 0 n n (msub (mblock 0 0 n n g2) (mmul (mmul mm q) (mblock n 0 m n g2))) g2
  else g2.

(** ** Replacing the last row or column *)
(** 356-365 *)
Definition ratio_replace_last_row (invG row : mat) : K :=
  \sum_(k < mc row) me row 0 k * me invG k (mc invG - 1)%N.
(** 370-389 *)
Definition inverse_replace_last_row (invG row : mat) (det_rat : K) : mat :=
  let n := mr invG in
  let last_col i := me invG i (n - 1)%N in
  let r m := if m == (n - 1)%N then 0 else \sum_(k < mc row) me row 0 k * me invG k m in
  let inv_det_rat := 1 / det_rat in
  let g1 := Mat (mr invG) (mc invG) (fun i j => if j == (n - 1)%N then last_col i * inv_det_rat else me invG i j) in
  Mat (mr invG) (mc invG) (fun i j => if (j < n - 1)%N && (i < n)%N then me g1 i j - last_col i * r j * inv_det_rat else me g1 i j).
(** 394-401 *)
Definition ratio_replace_last_col (invG col : mat) : K :=
  \sum_(k < mr col) me invG (mc invG - 1)%N k * me col k 0.
(** 406-427 *)
Definition inverse_replace_last_col (invG col : mat) (det_rat : K) : mat :=
  let n := mr invG in
  let last_row j := me invG (n - 1)%N j in
  let r m := if m == (n - 1)%N then 0 else \sum_(k < mr col) me invG m k * me col k 0 in
  let inv_det_rat := 1 / det_rat in
  let g1 := Mat (mr invG) (mc invG) (fun i j => if i == (n - 1)%N then last_row j * inv_det_rat else me invG i j) in
  Mat (mr invG) (mc invG) (fun i j => if (i < n - 1)%N && (j < n)%N then me g1 i j - last_row j * r i * inv_det_rat else me g1 i j).
End FastUpdate.
