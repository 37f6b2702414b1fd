(** * ScopeMutM.v - scaling in place and conjugation, with the drops of by-value parameters.

    VectorM.v, MatrixM.v and ArithM.v model the loops; here the scalar [rhs] (the number to be conjugated) is
    dropped at the end, also when unwinding ([owning_mut], [owning] of CmpM.v).  No proofs here. *)
From Coq Require Import List Arith Bool.
From Verif Require Import Rust Iter Elem VectorM MatIterM MatrixM ArithM CmpM.
Import ListNotations.

Section ScopeMut.
Context {S T : Type}.
(** [MulAssign<U>], [DivAssign<U>] for vectors, src/vector.rs:421-432, 448-460, at [U] = [T]. *)
Definition vscale_assign_s (d : ety S T) (op_assign : T -> M (T * S) unit) (clone : T -> M S T) (rhs : T)
  : M (list T * S) unit :=
  owning_mut d rhs (vscale_assign op_assign clone rhs).
(** [MulAssign<T>], [DivAssign<T>] for matrices, src/matrix/arith.rs:156-169, 347-360. *)
Definition mscale_assign_s (d : ety S T) (op_assign : T -> M (T * S) unit) (clone : T -> M S T) (rhs : T)
  : M (list (list T) * S) unit :=
  owning_mut d rhs (mscale_assign op_assign clone rhs).
(** [conjugate], src/matrix/mod.rs:690: the closure [|_, a| a.conj()] owns [a], which is dropped when it ends. *)
Definition mconjugate_s (c : cfg) (dz : ety S (complex T)) (o : ops S T) (row col : nat)
    (m : list (list (complex T))) : M S (list (list (complex T))) :=
  cl <- mclone c dz (complex_clone o) row col m ;;
  mmap c dz dz row col (fun _ a => owning dz a (conj o a)) cl.
End ScopeMut.
