(** * BlockM.v - matrices whose elements are matrices: [Matrix<Matrix<T, P, P>, Row, Col>].

    The crate's own implementations of the element traits for [Matrix<T, P, P>], packaged as the
    element operations of an outer matrix.  Nothing is re-modelled: every operation is the model
    of the crate's operator on the inner matrices. *)
From Coq Require Import List.
From Verif Require Import Rust Iter Elem VectorM MatIterM MatrixM ArithM.
Import ListNotations.

Section Block.
Context {S T : Type}.
Variables (c : cfg) (d : ety S T) (o : ops S T) (p : nat).
(** The destructor of a block (src/vector.rs:140-146, a newtype around arrays). *)
Definition block_ety : ety S (list (list T)) := vec_ety (vec_ety d).
(** [Zero], [One] (src/matrix/mod.rs:612-626, 661-670), [Add], [Sub] (src/matrix/arith.rs:9-77),
    [Mul] (src/matrix/arith.rs:173-191; [mul] is the form of the product that the outer operator
    calls on its elements: [Matrix * Matrix] or [Matrix * &Matrix]), [Neg] (115-128),
    [Clone] (src/matrix/mod.rs:263-272) of [Matrix<T, P, P>].
    Simplification: the interface [ops] has [zero()] and [one()] as values; here they are the
    values that [Matrix::zero()] and [Matrix::identity()] return (C88_constants proves that these
    calls return exactly them and have no effect).  There is no [Div] between matrices: the slot
    is never called by the operations used here (panics). *)
Definition block_ops (mul : list (list T) -> list (list T) -> M S (list (list T))) : ops S (list (list T)) :=
  Ops (repeat (repeat (o_zero o) p) p)
      (map (fun i => map (fun j => if Nat.eqb i j then o_one o else o_zero o) (seq 0 p)) (seq 0 p))
      (mzip_vv c d d d p p (o_add o)) (mzip_vv c d d d p p (o_sub o)) mul
      (fun _ _ => panic) (mneg c d d p p (o_neg o))
      (fun m => forallb (forallb (o_is_zero o)) m)
      (mclone c d (o_clone o) p p).
End Block.
