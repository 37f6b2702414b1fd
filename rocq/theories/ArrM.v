(** * ArrM.v - user-written implementations of the public trait [ArrayLen].

    [pub trait ArrayLen<T>: typenum::Unsigned { type Array: AsRef<[T]> + AsMut<[T]>; }]
    (src/vector.rs:888-892) is public ([pub mod vector], src/lib.rs:42) and not [unsafe]: a user may
    implement it for a type of her own.  Nothing ties the length of [Array]'s slices to
    [to_usize()].  The other files model vectors whose two numbers agree, as in the crate's own 33
    impls (src/vector.rs:894-937); here they may differ.  Simplification: [as_ref]/[as_mut] always
    give the whole array.  No proofs here. *)
From Coq Require Import List Arith Bool.
From Verif Require Import Rust Iter VectorM Harness.
Import ListNotations.

(** A length type: [L::to_usize()] and the number of elements of [L::Array]. *)
Record len_ty := LenTy { l_usize : nat; l_cells : nat }.

(** [from_iter], src/vector.rs:692-727, for [Vector<T, L>]: the buffer is an uninitialised
    [L::Array], the loop counts to [L::to_usize()]. *)
Definition from_iter_l {S T} (c : cfg) (d : ety S T) (L : len_ty) (it : iter S T) : M S (list T) :=
  from_iter_loop c d (l_usize L) 0 (repeat Uninit (l_cells L)) it.
(** [Vector::new(array)] then [into_iter], src/vector.rs:39-41, 735-741: the array, [next = 0],
    [back = L::to_usize()]. *)
Definition into_it_l {S T} (c : cfg) (d : ety S T) (L : len_ty) (array : list T) : iter S T :=
  into_it c d (l_usize L) (vnew array).
(** [v[I::new()]], src/vector.rs:256-312. *)
Definition vindex_static_l {S T} (c : cfg) (L : len_ty) (v : list T) (i : nat) : M S T :=
  vindex_static c (l_usize L) v i.
