(** * MatIterM.v - model of src/matrix/iter.rs.

    The five iterators borrow the matrix (an immutable parameter [m] here,
    [row] x [col]) and hold two cursors.  No proofs here. *)
From Coq Require Import List Arith Bool.
From Verif Require Import Rust Iter Elem VectorM.
Import ListNotations.

(** The two [usize] fields of every iterator: [.1]/[front], [.2]/[back]
    (src/matrix/iter.rs:3-7, 93-97, 186-194, 284-292, 379-389). *)
Record cursor := Cursor { cfront : nat; cback : nat }.

Section MatIter.
Context {S T : Type}.
Variable c : cfg.
Variable row col : nat.
Variable m : list (list T).

(** ** RowsIter *)
(** [RowsIter::new], src/matrix/iter.rs:14-16. *)
Definition ri_new : cursor := Cursor 0 row.
(** [RowsIter::next], src/matrix/iter.rs:28-37. *)
Definition ri_next (d : ety S T) (clone : T -> M S T) : M (cursor * S) (option (list T)) :=
  it <- self ;;
  if cfront it <? cback it then
    let s := cfront it in
    r <- slice_index m s ;;
    v <- lift (vclone c d col clone r) ;;
    f <- usz_add c (cfront it) 1 ;;
    set_self (Cursor f (cback it)) ;;;
    ret (Some v)
  else ret None.
(** [RowsIter::next_back], src/matrix/iter.rs:81-90. *)
Definition ri_next_back (d : ety S T) (clone : T -> M S T) : M (cursor * S) (option (list T)) :=
  it <- self ;;
  if cfront it <? cback it then
    let s := cback it in
    i <- usz_sub c s 1 ;;
    r <- slice_index m i ;;
    v <- lift (vclone c d col clone r) ;;
    b <- usz_sub c (cback it) 1 ;;
    set_self (Cursor (cfront it) b) ;;;
    ret (Some v)
  else ret None.
(** [size_hint], [count], [len], src/matrix/iter.rs:40-48, 70-72: all computed
    as [Row::to_usize() - self.1]. *)
Definition ri_len (it : cursor) : M S nat := usz_sub c row (cfront it).
Definition ri_size_hint (it : cursor) : M S (nat * option nat) :=
  s <- usz_sub c row (cfront it) ;; ret (s, Some s).
Definition ri_count (it : cursor) : M S nat := usz_sub c row (cfront it).
(** [last], src/matrix/iter.rs:51-53. *)
Definition ri_last (d : ety S T) (clone : T -> M S T) : M (cursor * S) (option (list T)) :=
  ri_next_back d clone.
(** [nth], src/matrix/iter.rs:56-59. *)
Definition ri_nth (d : ety S T) (clone : T -> M S T) (n : nat) : M (cursor * S) (option (list T)) :=
  it <- self ;;
  f <- usz_add c (cfront it) n ;;
  set_self (Cursor f (cback it)) ;;;
  ri_next d clone.

(** ** ColsIter *)
(** [ColsIter::new], src/matrix/iter.rs:104-106. *)
Definition ci_new : cursor := Cursor 0 col.
(** The collected column, src/matrix/iter.rs:124 and 179:
    [self.0.iter().map(|row| row.as_slice().get_unchecked(s).clone()).collect()]
    (the slice's own [get_unchecked], without a debug assertion). *)
Definition collect_col (d : ety S T) (clone : T -> M S T) (s : nat) : M S (list T) :=
  from_iter c d row
    (imap (fun r => x <- slice_get_unchecked (as_slice r) s ;; clone x) (viter m)).
(** [ColsIter::next], src/matrix/iter.rs:118-129. *)
Definition ci_next (d : ety S T) (clone : T -> M S T) : M (cursor * S) (option (list T)) :=
  it <- self ;;
  debug_assert c (cback it <=? col) ;;;
  if cfront it <? cback it then
    let s := cfront it in
    f <- usz_add c (cfront it) 1 ;;
    set_self (Cursor f (cback it)) ;;;
    v <- lift (collect_col d clone s) ;;
    ret (Some v)
  else ret None.
(** [ColsIter::next_back], src/matrix/iter.rs:174-183. *)
Definition ci_next_back (d : ety S T) (clone : T -> M S T) : M (cursor * S) (option (list T)) :=
  it <- self ;;
  if cfront it <? cback it then
    let s := cback it in
    b <- usz_sub c (cback it) 1 ;;
    set_self (Cursor (cfront it) b) ;;;
    i <- usz_sub c s 1 ;;
    v <- lift (collect_col d clone i) ;;
    ret (Some v)
  else ret None.
(** [size_hint], [count], [len], src/matrix/iter.rs:132-140, 162-164. *)
Definition ci_len (it : cursor) : M S nat := usz_sub c col (cfront it).
Definition ci_size_hint (it : cursor) : M S (nat * option nat) :=
  s <- usz_sub c col (cfront it) ;; ret (s, Some s).
Definition ci_count (it : cursor) : M S nat := usz_sub c col (cfront it).
(** [last], [nth], src/matrix/iter.rs:143-151. *)
Definition ci_last (d : ety S T) (clone : T -> M S T) : M (cursor * S) (option (list T)) :=
  ci_next_back d clone.
Definition ci_nth (d : ety S T) (clone : T -> M S T) (n : nat) : M (cursor * S) (option (list T)) :=
  it <- self ;;
  f <- usz_add c (cfront it) n ;;
  set_self (Cursor f (cback it)) ;;;
  ci_next d clone.

(** ** RowsIterRef: items are the rows as slices. *)
(** [RowsIterRef::new], src/matrix/iter.rs:201-207. *)
Definition rr_new : cursor := Cursor 0 row.
(** [next], src/matrix/iter.rs:217-230. *)
Definition rr_next : M (cursor * S) (option (list T)) :=
  it <- self ;;
  debug_assert c (cback it <=? row) ;;;
  if cfront it <? cback it then
    let i := cfront it in
    f <- usz_add c (cfront it) 1 ;;
    set_self (Cursor f (cback it)) ;;;
    r <- vget_unchecked c row m i ;;
    ret (Some (as_slice r))
  else ret None.
(** [next_back], src/matrix/iter.rs:271-281. *)
Definition rr_next_back : M (cursor * S) (option (list T)) :=
  it <- self ;;
  debug_assert c (cback it <=? row) ;;;
  if cfront it <? cback it then
    b <- usz_sub c (cback it) 1 ;;
    set_self (Cursor (cfront it) b) ;;;
    r <- vget_unchecked c row m b ;;
    ret (Some (as_slice r))
  else ret None.
(** [len], [size_hint], [count], src/matrix/iter.rs:233-241, 261-263 (the same
    text for ColsIterRef, 329-337, 357-359, and ColsIterRefInner, 428-436,
    456-458). *)
Definition cur_len (it : cursor) : M S nat := usz_sub c (cback it) (cfront it).
Definition cur_size_hint (it : cursor) : M S (nat * option nat) :=
  len <- cur_len it ;; ret (len, Some len).
Definition cur_count (it : cursor) : M S nat := cur_len it.
(** [last], [nth], src/matrix/iter.rs:244-252. *)
Definition rr_last : M (cursor * S) (option (list T)) := rr_next_back.
Definition rr_nth (n : nat) : M (cursor * S) (option (list T)) :=
  it <- self ;;
  f <- usz_add c (cfront it) n ;;
  set_self (Cursor f (cback it)) ;;;
  rr_next.

(** ** ColsIterRefInner: the entries of one column. *)
(** [ColsIterRefInner::new], src/matrix/iter.rs:396-404; the value is the
    column index and the cursors. *)
Definition cin_new (j : nat) : M S (nat * cursor) :=
  debug_assert c (j <? col) ;;; ret (j, Cursor 0 row).
(** [next], src/matrix/iter.rs:415-425.  The world holds the column index and
    the cursors. *)
Definition cin_next : M ((nat * cursor) * S) (option T) :=
  '(j, it) <- self ;;
  if cfront it <? cback it then
    let i := cfront it in
    f <- usz_add c (cfront it) 1 ;;
    set_self (j, Cursor f (cback it)) ;;;
    r <- vget_unchecked c row m i ;;
    x <- vget_unchecked c col r j ;;
    ret (Some x)
  else ret None.
(** [next_back], src/matrix/iter.rs:467-476. *)
Definition cin_next_back : M ((nat * cursor) * S) (option T) :=
  '(j, it) <- self ;;
  if cfront it <? cback it then
    b <- usz_sub c (cback it) 1 ;;
    set_self (j, Cursor (cfront it) b) ;;;
    r <- vget_unchecked c row m b ;;
    x <- vget_unchecked c col r j ;;
    ret (Some x)
  else ret None.
(** [len], [size_hint], [count], src/matrix/iter.rs:428-436, 456-458. *)
Definition cin_len (it : nat * cursor) : M S nat := cur_len (snd it).
Definition cin_size_hint (it : nat * cursor) : M S (nat * option nat) := cur_size_hint (snd it).
Definition cin_count (it : nat * cursor) : M S nat := cur_count (snd it).
(** [last], [nth], src/matrix/iter.rs:439-447. *)
Definition cin_last : M ((nat * cursor) * S) (option T) := cin_next_back.
Definition cin_nth (n : nat) : M ((nat * cursor) * S) (option T) :=
  '(j, it) <- self ;;
  f <- usz_add c (cfront it) n ;;
  set_self (j, Cursor f (cback it)) ;;;
  cin_next.

(** ** ColsIterRef: items are [ColsIterRefInner] iterators. *)
(** [ColsIterRef::new], src/matrix/iter.rs:299-305. *)
Definition cr_new : cursor := Cursor 0 col.
(** [next], src/matrix/iter.rs:315-326. *)
Definition cr_next : M (cursor * S) (option (nat * cursor)) :=
  it <- self ;;
  debug_assert c (cback it <=? col) ;;;
  if cfront it <? cback it then
    let i := cfront it in
    f <- usz_add c (cfront it) 1 ;;
    set_self (Cursor f (cback it)) ;;;
    r <- lift (cin_new i) ;;
    ret (Some r)
  else ret None.
(** [next_back], src/matrix/iter.rs:367-376. *)
Definition cr_next_back : M (cursor * S) (option (nat * cursor)) :=
  it <- self ;;
  debug_assert c (cback it <=? col) ;;;
  if cfront it <? cback it then
    b <- usz_sub c (cback it) 1 ;;
    set_self (Cursor (cfront it) b) ;;;
    r <- lift (cin_new b) ;;
    ret (Some r)
  else ret None.
(** [last], [nth], src/matrix/iter.rs:340-348. *)
Definition cr_last : M (cursor * S) (option (nat * cursor)) := cr_next_back.
Definition cr_nth (n : nat) : M (cursor * S) (option (nat * cursor)) :=
  it <- self ;;
  f <- usz_add c (cfront it) n ;;
  set_self (Cursor f (cback it)) ;;;
  cr_next.

(** The iterators as iterator values (dropping a borrow does nothing). *)
Definition no_drop {X} : X -> M S unit := fun _ => ret tt.
Definition ri_iter (d : ety S T) (clone : T -> M S T) : iter S (list T) :=
  MkIter cursor ri_new (ri_next d clone) no_drop.
Definition ci_iter (d : ety S T) (clone : T -> M S T) : iter S (list T) :=
  MkIter cursor ci_new (ci_next d clone) no_drop.
Definition rr_iter : iter S (list T) := MkIter cursor rr_new rr_next no_drop.
Definition cr_iter : iter S (nat * cursor) := MkIter cursor cr_new cr_next no_drop.
Definition cin_iter (st : nat * cursor) : iter S T := MkIter (nat * cursor) st cin_next no_drop.
End MatIter.
