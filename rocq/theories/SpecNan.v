(** * SpecNan.v - vocabulary for C91: values that an operation cannot get rid of, such as NaN. *)
From Coq Require Import List Arith Bool.
From Verif Require Import Rust Elem SpecCommon SpecAlg.
Import ListNotations.

(** [bad] values survive +, -, * and unary -, whatever the other operand. *)
Record sticky {T} (A : arith T) (bad : T -> Prop) : Prop := Sticky {
  st_add : forall x y, bad x \/ bad y -> bad (a_add A x y);
  st_sub : forall x y, bad x \/ bad y -> bad (a_sub A x y);
  st_mul : forall x y, bad x \/ bad y -> bad (a_mul A x y);
  st_neg : forall x, bad x -> bad (a_neg A x) }.
(** They also survive division, on either side, and do not count as zero. *)
Definition sticky_div {T} (dv : T -> T -> T) (iz : T -> bool) (bad : T -> Prop) : Prop :=
  (forall x y, bad x \/ bad y -> bad (dv x y)) /\ (forall x, bad x -> iz x = false).
(** A vector, a matrix with a bad entry. *)
Definition some_bad {T} (bad : T -> Prop) (v : list T) : Prop := Exists bad v.
Definition some_bad2 {T} (bad : T -> Prop) (m : list (list T)) : Prop := Exists (Exists bad) m.
Definition all_bad2 {T} (bad : T -> Prop) (m : list (list T)) : Prop := Forall (Forall bad) m.
