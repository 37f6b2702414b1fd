(** * SpecSource.v - accounting for iterators: the vocabulary of C105. *)
From Coq Require Import List Permutation.
From Verif Require Import Rust Iter Elem SpecAccount SpecAccountMut.
Import ListNotations.

Section Source.
Context {S T : Type}.
Variable live : S -> list T.
Variable D leaky : Prop.
Variable refs : list T.

(** Dropping the iterator [it] is the end of the values [own]. *)
Definition frees {U} (it : iter S U) (own : list T) : Prop :=
  forall s rest, Permutation (live s) (own ++ rest) ->
  exists s', drop_iter it s = (Ok tt, s') /\ Permutation (live s') rest.
(** [source item I]: the iterators described by [I it own] - "[it] now owns the values [own]" - keep the
    books: each call of [next] turns the values that the iterator owns into those of the item it yields
    ([item x]) and those that it still owns; it may be dropped at any time.  After [None] or a panic it is
    only ever dropped.  Nothing is said about how many items there are. *)
Definition source {U} (item : U -> list T) (I : iter S U -> list T -> Prop) : Prop :=
  forall it own, I it own ->
  frees it own /\
  forall s rest, incl refs rest -> Permutation (live s) (own ++ rest) ->
  match next (it, s) with
  | (Ok (Some x), (it', s')) => exists own', I it' own' /\ Permutation (live s') (item x ++ own' ++ rest)
  | (Ok None, (it', s')) => exists own', frees it' own' /\ Permutation (live s') (own' ++ rest)
  | (Panic, (it', s')) => exists own' left, frees it' own' /\ Permutation (live s') (own' ++ left ++ rest) /\ (left = [] \/ leaky)
  | (UB, _) => False
  | (Diverge, _) => D
  end.
End Source.
