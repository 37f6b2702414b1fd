(** * SpecPost.v - vocabulary for C92 and C93. *)
From Coq Require Import List Arith ZArith Reals.
From Flocq Require Import Core IEEE754.BinarySingleNaN.
From Verif Require Import FloatM SpecReal.
Local Open Scope R_scope.

(** 2^-149 for f32, 2^-1074 for f64 (the least positive value of the type: C92_smallest). *)
Definition smallest (t : float_type) : R := bpow radix2 (3 - femax t - fprec t).
(** Neither an infinity nor NaN. *)
Definition finite {t} (x : float t) : Prop := is_finite x = true.
(** What rounding and underflow can do to a determinant of size at most 3, and to an entry of its
    adjugate. *)
Definition det_err (t : float_type) (n : nat) (M : nat -> nat -> R) : R :=
  7 * epsilon t * rperm n (fun i j => Rabs (M i j)) + 2 * smallest t * (3 + rsum n (fun j => Rabs (M (n - 1)%nat j))).
Definition adj_err (t : float_type) (n : nat) (M : nat -> nat -> R) (i j : nat) : R :=
  2 * epsilon t * rperm (n - 1) (rminor j i (fun i j => Rabs (M i j))) + 2 * smallest t.
(** Entry (i, j) of the adjugate: the cofactor of (j, i). *)
Definition radj (n : nat) (M : nat -> nat -> R) (i j : nat) : R :=
  (if Nat.even (i + j) then 1 else -1) * rdet (n - 1) (rminor j i M).
(** The diagonal matrix with the given entries. *)
Definition diagonal {t} (n : nat) (d : nat -> float t) : list (list (float t)) :=
  map (fun i => map (fun j => if (i =? j)%nat then d i else B754_zero false) (seq 0 n)) (seq 0 n).
