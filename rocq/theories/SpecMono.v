(** * SpecMono.v - vocabulary for C95: the order of floating-point numbers. *)
From Coq Require Import List Arith Bool.
From Flocq Require Import Core IEEE754.BinarySingleNaN.
From Verif Require Import FloatM SpecSign.

(** [x <= y] in Rust: false if one of them is NaN. *)
Definition le {t} (x y : float t) : Prop := Bleb x y = true.
(** Component by component, entry by entry. *)
Definition le_vec {t} (n : nat) (v w : list (float t)) : Prop := forall i, i < n -> le (nth i v zero_at) (nth i w zero_at).
Definition le_mat {t} (row col : nat) (m p : list (list (float t))) : Prop :=
  forall i j, i < row -> j < col -> le (nth j (nth i m nil) zero_at) (nth j (nth i p nil) zero_at).
(** No component is negative or NaN; none is infinite or NaN. *)
Definition nonneg_vec {t} (n : nat) (v : list (float t)) : Prop := forall i, i < n -> le zero_at (nth i v zero_at).
Definition nonneg_mat {t} (row col : nat) (m : list (list (float t))) : Prop := forall i j, i < row -> j < col -> le zero_at (nth j (nth i m nil) zero_at).
Definition finite_vec {t} (n : nat) (v : list (float t)) : Prop := forall i, i < n -> is_finite (nth i v zero_at) = true.
Definition finite_mat {t} (row col : nat) (m : list (list (float t))) : Prop := forall i j, i < row -> j < col -> is_finite (nth j (nth i m nil) zero_at) = true.
