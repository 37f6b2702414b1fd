(** * SpecMx.v - specification vocabulary for determinants and inverses: a square matrix
    of the crate read as a matrix of the Mathematical Components library, whose [\det] is
    the Leibniz determinant and whose [*m] is the matrix product. *)
From Verif Require Import Rust Elem SpecCommon SpecAlg.
Set Warnings "-notation-overridden,-ambiguous-paths".
From mathcomp Require Import all_ssreflect all_algebra.
Set Implicit Arguments.
Unset Strict Implicit.
Unset Printing Implicit Defensive.
Import GRing.Theory.
Local Open Scope ring_scope.

(** The exact arithmetic of a ring. *)
Definition ring_arith (R : ringType) : arith R :=
  Arith 0 1 (fun x y : R => x + y) (fun x y : R => x - y) (fun x y : R => x * y) (fun x : R => - x).

(** The [n] x [n] matrix with the entries of [m] (its leading [n] x [n] block, when [m] is larger). *)
Definition mx_of (R : ringType) (n : nat) (m : list (list R)) : 'M[R]_n :=
  \matrix_(i < n, j < n) at2 (ring_arith R) m i j.

(** An element type with exact field arithmetic.  Division is only promised for a non-zero
    divisor (with a zero divisor [o_div] may do anything, also panic); [is_zero] decides
    equality with zero. *)
Record exact_field (S : Type) (F : fieldType) (o : ops S F) : Prop := ExactField {
  xf_ring : exact o (ring_arith F);
  xf_div : forall (x y : F) s, y != 0 -> o_div o x y s = (Ok (x / y), s);
  xf_is_zero : forall x : F, o_is_zero o x = (x == 0) }.

(** [x] is the two-sided inverse of [m]. *)
Definition is_inverse (F : fieldType) (n : nat) (m x : list (list F)) : Prop :=
  rect n n x /\ m_mul (ring_arith F) n n n m x = m_id (ring_arith F) n
             /\ m_mul (ring_arith F) n n n x m = m_id (ring_arith F) n.
