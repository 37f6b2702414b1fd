(** * SpecAlg.v - specification vocabulary for arithmetic: exact arithmetic, sums,
    the textbook definitions of the vector and matrix operations.  Nothing here
    refers to the model of the crate except [ops] (the element interface). *)
From Coq Require Import List Arith Bool.
From Verif Require Import Rust Elem SpecCommon.
Import ListNotations.

(** Exact (pure, total) arithmetic on [T]. *)
Record arith (T : Type) := Arith {
  a_zero : T; a_one : T;
  a_add : T -> T -> T; a_sub : T -> T -> T; a_mul : T -> T -> T; a_neg : T -> T }.
Arguments Arith {T}.
Arguments a_zero {T} _.
Arguments a_one {T} _.
Arguments a_add {T} _ _ _.
Arguments a_sub {T} _ _ _.
Arguments a_mul {T} _ _ _.
Arguments a_neg {T} _ _.

(** ** Laws *)
(** A semiring; multiplication need not commute. *)
Record semiring {T} (A : arith T) : Prop := Semiring {
  sr_add_comm : forall x y, a_add A x y = a_add A y x;
  sr_add_assoc : forall x y z, a_add A x (a_add A y z) = a_add A (a_add A x y) z;
  sr_add_0 : forall x, a_add A (a_zero A) x = x;
  sr_mul_assoc : forall x y z, a_mul A x (a_mul A y z) = a_mul A (a_mul A x y) z;
  sr_mul_1_l : forall x, a_mul A (a_one A) x = x;
  sr_mul_1_r : forall x, a_mul A x (a_one A) = x;
  sr_mul_0_l : forall x, a_mul A (a_zero A) x = a_zero A;
  sr_mul_0_r : forall x, a_mul A x (a_zero A) = a_zero A;
  sr_distr_l : forall x y z, a_mul A x (a_add A y z) = a_add A (a_mul A x y) (a_mul A x z);
  sr_distr_r : forall x y z, a_mul A (a_add A x y) z = a_add A (a_mul A x z) (a_mul A y z) }.
Record ring_laws {T} (A : arith T) : Prop := RingLaws {
  rg_semi : semiring A;
  rg_neg : forall x, a_add A x (a_neg A x) = a_zero A;
  rg_sub : forall x y, a_sub A x y = a_add A x (a_neg A y) }.
Definition mul_comm {T} (A : arith T) : Prop := forall x y, a_mul A x y = a_mul A y x.

(** ** An element type with exact arithmetic: every operator returns the value of the
    pure operation and has no other effect; [clone] is faithful. *)
Record exact_semi {S T} (o : ops S T) (A : arith T) : Prop := ExactSemi {
  ex_zero : o_zero o = a_zero A;
  ex_one : o_one o = a_one A;
  ex_add : pure2 (o_add o) (a_add A);
  ex_mul : pure2 (o_mul o) (a_mul A);
  ex_clone : faithful (o_clone o) }.
Record exact {S T} (o : ops S T) (A : arith T) : Prop := Exact {
  ex_semi : exact_semi o A;
  ex_sub : pure2 (o_sub o) (a_sub A);
  ex_neg : pure1 (o_neg o) (a_neg A) }.

(** ** Sums, components *)
Section Spec.
Context {T : Type}.
Variable A : arith T.
(** 0 + f 0 + f 1 + ... + f (n-1), added from the left. *)
Definition sum (n : nat) (f : nat -> T) : T := fold_left (fun acc k => a_add A acc (f k)) (seq 0 n) (a_zero A).
(** Component [i] of a vector, entry [(i,j)] of a matrix (zero outside). *)
Definition at1 (v : list T) (i : nat) : T := nth i v (a_zero A).
Definition at2 (m : list (list T)) (i j : nat) : T := nth j (nth i m []) (a_zero A).
(** The vector / matrix with given components. *)
Definition vec (n : nat) (f : nat -> T) : list T := map f (seq 0 n).
Definition mat (row col : nat) (f : nat -> nat -> T) : list (list T) :=
  map (fun i => map (fun j => f i j) (seq 0 col)) (seq 0 row).

(** ** Textbook operations *)
Definition v_add n a b := vec n (fun i => a_add A (at1 a i) (at1 b i)).
Definition v_sub n a b := vec n (fun i => a_sub A (at1 a i) (at1 b i)).
Definition v_neg n a := vec n (fun i => a_neg A (at1 a i)).
(** [v * s]: the scalar is the right operand. *)
Definition v_scale n a x := vec n (fun i => a_mul A (at1 a i) x).
Definition v_zero n : list T := vec n (fun _ => a_zero A).
Definition v_dot n a b := sum n (fun i => a_mul A (at1 a i) (at1 b i)).
Definition v_sum n a := sum n (fun i => at1 a i).
Definition v_cross a b :=
  let m i j := a_mul A (at1 a i) (at1 b j) in
  vec 3 (fun i => match i with
                  | 0 => a_sub A (m 1 2) (m 2 1)
                  | 1 => a_sub A (m 2 0) (m 0 2)
                  | _ => a_sub A (m 0 1) (m 1 0)
                  end).

Definition m_add row col a b := mat row col (fun i j => a_add A (at2 a i j) (at2 b i j)).
Definition m_sub row col a b := mat row col (fun i j => a_sub A (at2 a i j) (at2 b i j)).
Definition m_neg row col a := mat row col (fun i j => a_neg A (at2 a i j)).
Definition m_scale row col a x := mat row col (fun i j => a_mul A (at2 a i j) x).
Definition m_zero row col : list (list T) := mat row col (fun _ _ => a_zero A).
Definition m_id n : list (list T) := mat n n (fun i j => if i =? j then a_one A else a_zero A).
Definition m_tr row col a := mat col row (fun i j => at2 a j i).
(** The product of an [l] x [n] and an [n] x [r] matrix. *)
Definition m_mul l n r a b := mat l r (fun i j => sum n (fun k => a_mul A (at2 a i k) (at2 b k j))).
Definition m_mulv row col a v := vec row (fun i => sum col (fun k => a_mul A (at2 a i k) (at1 v k))).
Definition m_sum row col a := sum row (fun i => sum col (fun j => at2 a i j)).
(** m * m * ... * m ([e] factors). *)
Fixpoint m_pow n a e := match e with 0 => m_id n | Datatypes.S e' => m_mul n n n a (m_pow n a e') end.
(** The matrix without row [i] and column [j]. *)
Definition del {X} (i : nat) (l : list X) : list X := firstn i l ++ skipn (i + 1) l.
Definition minor (i j : nat) (m : list (list T)) : list (list T) := map (del j) (del i m).
(** (-1)^k. *)
Definition sign (k : nat) : T := if Nat.even k then a_one A else a_neg A (a_one A).
(** The determinant, by expansion along the first row. *)
Fixpoint m_det (n : nat) (m : list (list T)) : T :=
  match n with
  | 0 => a_one A
  | Datatypes.S n' => sum n (fun j => a_mul A (at2 m 0 j) (a_mul A (sign j) (m_det n' (minor 0 j m))))
  end.
(** The determinant formulas of sizes 1, 2, 3 (Leibniz). *)
Definition det_1 a := at2 a 0 0.
Definition det_2 a := a_sub A (a_mul A (at2 a 0 0) (at2 a 1 1)) (a_mul A (at2 a 1 0) (at2 a 0 1)).
Definition det_3 a :=
  let t i j k l p q := a_mul A (a_mul A (at2 a i j) (at2 a k l)) (at2 a p q) in
  a_sub A (a_sub A (a_sub A (a_add A (a_add A (t 0 0 1 1 2 2) (t 0 1 1 2 2 0)) (t 0 2 1 0 2 1))
    (t 0 2 1 1 2 0)) (t 0 1 1 0 2 2)) (t 0 0 1 2 2 1).
End Spec.
