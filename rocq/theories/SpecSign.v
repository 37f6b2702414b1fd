(** * SpecSign.v - vocabulary for C94: signs of floating-point numbers. *)
From Coq Require Import List Arith Bool.
From Flocq Require Import Core IEEE754.BinarySingleNaN.
From Verif Require Import FloatM.

(** The same number, bit for bit, except that 0 and -0 are the same. *)
Definition same {t} (x y : float t) : Prop := x = y \/ exists s1 s2, x = B754_zero s1 /\ y = B754_zero s2.
(** -x or x. *)
Definition flip {t} (b : bool) (x : float t) : float t := if b then Bopp x else x.
(** Is the number of k < n with f k odd? *)
Fixpoint odd_many (n : nat) (f : nat -> bool) : bool := match n with 0 => false | S n' => xorb (odd_many n' f) (f n') end.
(** [w] is [v], and [p] is [m], with the signs flipped of the components [f], of the rows [f] and
    columns [g] (an entry in both keeps its sign), up to the signs of zeros. *)
Definition zero_at {t} : float t := B754_zero false.
Definition flipped {t} (n : nat) (f : nat -> bool) (v w : list (float t)) : Prop :=
  length w = n /\ forall i, i < n -> same (nth i w zero_at) (flip (f i) (nth i v zero_at)).
Definition flipped2 {t} (row col : nat) (f g : nat -> bool) (m p : list (list (float t))) : Prop :=
  length p = row /\ (forall i, i < row -> length (nth i p nil) = col) /\
  forall i j, i < row -> j < col -> same (nth j (nth i p nil) zero_at) (flip (xorb (f i) (g j)) (nth j (nth i m nil) zero_at)).
