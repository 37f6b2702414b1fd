(** * SpecCF.v - vocabulary for C97: complex numbers with f32 or f64 parts. *)
From Coq Require Import List Arith Reals.
From Flocq Require Import Core IEEE754.BinarySingleNaN.
From Verif Require Import Rust MatrixM FloatM SpecReal SpecSign.
Local Open Scope R_scope.

Definition czero {t} : complex (float t) := Complex (B754_zero false) (B754_zero false).
(** Entry (i, j) of a matrix, component i of a vector. *)
Definition cat2 {t} (m : list (list (complex (float t)))) (i j : nat) : complex (float t) := nth j (nth i m nil) czero.
Definition cat1 {t} (v : list (complex (float t))) (i : nat) : complex (float t) := nth i v czero.
(** The same number, bit for bit, except that 0 and -0 are the same. *)
Definition csame {t} (x y : complex (float t)) : Prop := same (re x) (re y) /\ same (im x) (im y).
(** The conjugate, bit for bit. *)
Definition conjugate_of {t} (x : complex (float t)) : complex (float t) := Complex (re x) (Bopp (im x)).
(** [w] is the conjugate of [v], [p] of [m], up to the signs of zeros. *)
Definition conjugates1 {t} (n : nat) (v w : list (complex (float t))) : Prop :=
  length w = n /\ forall i, (i < n)%nat -> csame (cat1 w i) (conjugate_of (cat1 v i)).
Definition conjugates2 {t} (row col : nat) (m p : list (list (complex (float t)))) : Prop :=
  length p = row /\ (forall i, (i < row)%nat -> length (nth i p nil) = col) /\
  forall i j, (i < row)%nat -> (j < col)%nat -> csame (cat2 p i j) (conjugate_of (cat2 m i j)).
(** The real and the imaginary part of the exact value of x y, and the sums of the absolute values
    of the terms they consist of. *)
Definition re_prod {t} (x y : complex (float t)) : R := B2R (re x) * B2R (re y) - B2R (im x) * B2R (im y).
Definition im_prod {t} (x y : complex (float t)) : R := B2R (re x) * B2R (im y) + B2R (im x) * B2R (re y).
Definition re_size {t} (x y : complex (float t)) : R := Rabs (B2R (re x) * B2R (re y)) + Rabs (B2R (im x) * B2R (im y)).
Definition im_size {t} (x y : complex (float t)) : R := Rabs (B2R (re x) * B2R (im y)) + Rabs (B2R (im x) * B2R (re y)).
