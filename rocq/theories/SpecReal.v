(** * SpecReal.v - specification vocabulary for floating-point results: the real values of
    entries, sums of reals, exact inverses.  Uses only Flocq's [B2R] and [is_finite]. *)
From Coq Require Import List Arith Reals.
From Flocq Require Import Core IEEE754.BinarySingleNaN.
From Verif Require Import Rust SpecAlg FloatM.
Local Open Scope R_scope.

(** f 0 + ... + f (n-1). *)
Definition rsum (n : nat) (f : nat -> R) : R := fold_left (fun acc k => acc + f k) (seq 0 n) 0.
(** The real value of a component of a float vector, of an entry of a float matrix. *)
Definition rat1 {prec emax} (v : list (fl prec emax)) (i : nat) : R := B2R (nth i v (B754_zero false)).
Definition rat2 {prec emax} (m : list (list (fl prec emax))) (i j : nat) : R := B2R (nth j (nth i m nil) (B754_zero false)).
(** f32::EPSILON = 2^-23 and f64::EPSILON = 2^-52. *)
Definition epsilon (t : float_type) : R := bpow radix2 (1 - fprec t).
(** [X] is the inverse of [M] in exact real arithmetic. *)
Definition real_inverse (n : nat) (M X : nat -> nat -> R) : Prop :=
  forall i j, (i < n)%nat -> (j < n)%nat ->
  rsum n (fun k => M i k * X k j) = (if (i =? j)%nat then 1 else 0) /\
  rsum n (fun k => X i k * M k j) = (if (i =? j)%nat then 1 else 0).
(** A finite number that is zero or neither tiny nor huge: 2^-h <= |x| <= 2^h. *)
Definition moderate {prec emax} (h : Z) (x : fl prec emax) : Prop :=
  is_finite x = true /\ (B2R x = 0 \/ bpow radix2 (- h) <= Rabs (B2R x) <= bpow radix2 h).
(** A finite number of absolute value at most 2^h. *)
Definition bounded {prec emax} (h : Z) (x : fl prec emax) : Prop := is_finite x = true /\ Rabs (B2R x) <= bpow radix2 h.
(** A finite integer. *)
Definition whole {prec emax} (x : fl prec emax) : Prop := is_finite x = true /\ exists z : Z, B2R x = IZR z.
(** The matrix without row [i] and column [j]. *)
Definition over (i a : nat) : nat := if (a <? i)%nat then a else S a.
Definition rminor (i j : nat) (M : nat -> nat -> R) : nat -> nat -> R := fun a b => M (over i a) (over j b).
(** Determinant and permanent by expansion along the first row. *)
Fixpoint rdet (n : nat) (M : nat -> nat -> R) : R :=
  match n with
  | 0%nat => 1
  | S n' => rsum n (fun j => (if Nat.even j then 1 else -1) * M 0%nat j * rdet n' (rminor 0 j M))
  end.
Fixpoint rperm (n : nat) (M : nat -> nat -> R) : R :=
  match n with
  | 0%nat => 1
  | S n' => rsum n (fun j => M 0%nat j * rperm n' (rminor 0 j M))
  end.
(** The permanental condition number of an n x n matrix is at most K: the determinant, and
    the products of rows of |M| with the columns of the adjugate's absolute expansion, do not
    cancel by more than a factor K. *)
Definition conditioned (n : nat) (K : R) (M : nat -> nat -> R) : Prop :=
  let B := fun i j => Rabs (M i j) in
  rdet n M <> 0 /\
  forall i k, (i < n)%nat -> (k < n)%nat ->
  rsum n (fun j => Rabs (M i j) * rperm (n - 1) (rminor k j B)) <= K * Rabs (rdet n M).
(** Diagonally dominant by rows, with margin [del]: in every row the diagonal entry exceeds the
    sum of the other absolute values by at least [del]. *)
Definition dominant (n : nat) (del : R) (M : nat -> nat -> R) : Prop :=
  forall i, (i < n)%nat -> rsum n (fun j => if (j =? i)%nat then 0 else Rabs (M i j)) + del <= Rabs (M i i).
(** Every leading principal block (rows and columns 0 .. k-1) is invertible over the reals, and its
    inverse has row sums of absolute values at most [H]. *)
Definition leading_inverses (n : nat) (H : R) (M : nat -> nat -> R) : Prop :=
  forall k, (1 <= k <= n)%nat ->
  exists V, real_inverse k M V /\ forall i, (i < k)%nat -> rsum k (fun j => Rabs (V i j)) <= H.
