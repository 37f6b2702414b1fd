(** * ColM.v - [==] on the iterators over one column.  ([ColsIterRefInner::new] itself is [cin_new]
    of MatIterM.v.)  No proofs here. *)
From Coq Require Import List Arith Bool.
From Verif Require Import Rust Iter VectorM MatIterM.
Import ListNotations.

(** [#[derive(PartialEq)]] on [ColsIterRefInner], src/matrix/iter.rs:379-389: the fields in order;
    [mat] is a reference, compared by the [PartialEq] of [Vector<Vector<T, Col>, Row>]
    (src/vector.rs:198-207, twice).  Simplification: [peq], the element's [==], is pure here. *)
Definition cin_eq {T U} (peq : T -> U -> bool) (m1 : list (list T)) (it1 : nat * cursor) (m2 : list (list U)) (it2 : nat * cursor) : bool :=
  veq (veq peq) m1 m2 && (fst it1 =? fst it2) && (cfront (snd it1) =? cfront (snd it2)) && (cback (snd it1) =? cback (snd it2)).
