(** * VectorM.v - model of src/vector.rs.

    [Vector<T, N>] is a list; where the code uses [N::to_usize()] the
    definition takes [n].  [self: &Self] arguments are the list itself.
    [c] is the build configuration, [d] the element descriptor (drop glue).
    The drop of by-value scalar arguments is not modelled.
    Debug formatting is in FmtM.v.  No proofs here. *)
From Coq Require Import List Arith Bool.
From Verif Require Import Rust Iter Elem.
Import ListNotations.

(** [struct IntoIter], src/vector.rs:744-748. *)
Record into_iter_t (T : Type) := IntoIter { ii_arr : list (cell T); ii_next : nat; ii_back : nat }.
Arguments IntoIter {T}.
Arguments ii_arr {T}.
Arguments ii_next {T}.
Arguments ii_back {T}.

Section Vec.
Context {S : Type}.

(** ** FromIterator: src/vector.rs:691-728 *)

(** End of [from_iter], src/vector.rs:718-726: in debug builds
    [debug_assert_eq!(it.count(), 0)] consumes the iterator, otherwise [it] is
    dropped at the end of the function.  The buffer is in a [NoDrop], so it
    leaks if the assertion panics.  (When [it] is one of the crate's own
    iterators its overriding [count] runs instead of the provided one; both
    are 0 for an exhausted iterator, the only case in which the crate itself
    collects.) *)
Definition from_iter_finish {T} (c : cfg) (d : ety S T) (arr : list (cell T)) (it : iter S T)
  : M S (list T) :=
  if debug c then
    cnt <- icount d (fuel_count c) it 0 ;;
    assert (cnt =? 0) ;;;
    assume_init arr
  else v <- assume_init arr ;; out_of_scope it (Ok v).

(** The loop of [from_iter], src/vector.rs:701-716; [k] iterations remain,
    the next slot is [i]. *)
Fixpoint from_iter_loop {T} (c : cfg) (d : ety S T) (k i : nat) (arr : list (cell T)) (it : iter S T)
  : M S (list T) :=
  match k with
  | 0 => from_iter_finish c d arr it
  | Datatypes.S k' => fun s =>
      match next (it, s) with
      | (Ok (Some item), (it', s')) =>
          (arr' <- ptr_write arr i item ;; from_iter_loop c d k' (i + 1) arr' it') s'
      | (Ok None, (it', s')) =>
          (* src/vector.rs:704-713: drop slots 0..i, forget the array, panic;
             unwinding drops [it] *)
          (drop_cells d 0 i arr ;;; out_of_scope it' Panic) s'
      | (Panic, (it', s')) => out_of_scope it' Panic s'   (* buffer leaks: NoDrop *)
      | (UB, (_, s')) => (UB, s')
      | (Diverge, (_, s')) => (Diverge, s')
      end
  end.

(** [FromIterator::from_iter], src/vector.rs:692-727 (also [collect()]). *)
Definition from_iter {T} (c : cfg) (d : ety S T) (n : nat) (it : iter S T) : M S (list T) :=
  from_iter_loop c d n 0 (repeat Uninit n) it.

(** ** IntoIter: src/vector.rs:730-825 *)

(** [into_iter(self)], src/vector.rs:735-741. *)
Definition into_iter {T} (n : nat) (v : list T) : into_iter_t T := IntoIter (map Live v) 0 n.

(** [IntoIter::next], src/vector.rs:761-774. *)
Definition ii_next_fn {T} (c : cfg) (d : ety S T) (n : nat) : M (into_iter_t T * S) (option T) :=
  ii <- self ;;
  debug_assert c (ii_back ii <=? n) ;;;
  if ii_next ii <? ii_back ii then
    let i := ii_next ii in
    nx <- usz_add c (ii_next ii) 1 ;;
    set_self (IntoIter (ii_arr ii) nx (ii_back ii)) ;;;
    r <- lift (ptr_read d (ii_arr ii) i) ;;
    set_self (IntoIter (snd r) nx (ii_back ii)) ;;;
    ret (Some (fst r))
  else ret None.

(** [IntoIter::next_back], src/vector.rs:798-810.  Note the test
    [self.back > 0] (not [self.next < self.back]). *)
Definition ii_next_back_fn {T} (c : cfg) (d : ety S T) (n : nat) : M (into_iter_t T * S) (option T) :=
  ii <- self ;;
  debug_assert c (ii_back ii <=? n) ;;;
  if 0 <? ii_back ii then
    bk <- usz_sub c (ii_back ii) 1 ;;
    set_self (IntoIter (ii_arr ii) (ii_next ii) bk) ;;;
    r <- lift (ptr_read d (ii_arr ii) bk) ;;
    set_self (IntoIter (snd r) (ii_next ii) bk) ;;;
    ret (Some (fst r))
  else ret None.

(** [IntoIter::nth], src/vector.rs:787-794. *)
Definition ii_nth_fn {T} (c : cfg) (d : ety S T) (n : nat) (k : nat) : M (into_iter_t T * S) (option T) :=
  ii <- self ;;
  hi <- usz_add c (ii_next ii) k ;;
  arr <- lift (drop_cells d (ii_next ii) hi (ii_arr ii)) ;;
  nx <- usz_add c (ii_next ii) k ;;
  set_self (IntoIter arr nx (ii_back ii)) ;;;
  ii_next_fn c d n.

(** [ExactSizeIterator::len], src/vector.rs:822-824. *)
Definition ii_len {T} (c : cfg) (ii : into_iter_t T) : M S nat :=
  usz_sub c (ii_back ii) (ii_next ii).

(** [size_hint], src/vector.rs:777-780. *)
Definition ii_size_hint {T} (c : cfg) (ii : into_iter_t T) : M S (nat * option nat) :=
  len <- ii_len c ii ;; ret (len, Some len).

(** [Drop for IntoIter], src/vector.rs:750-756. *)
Definition ii_drop {T} (d : ety S T) (ii : into_iter_t T) : M S unit :=
  drop_cells d (ii_next ii) (ii_back ii) (ii_arr ii) ;;; ret tt.

(** [count(self)], src/vector.rs:783-785: [len], then [self] is dropped. *)
Definition ii_count {T} (c : cfg) (d : ety S T) (ii : into_iter_t T) : M S nat :=
  len <- ii_len c ii ;; ii_drop d ii ;;; ret len.

(** An [IntoIter] as a (double-ended) iterator value. *)
Definition ii_iter {T} (c : cfg) (d : ety S T) (n : nat) (ii : into_iter_t T) : iter S T :=
  MkIter (into_iter_t T) ii (ii_next_fn c d n) (ii_drop d).
Definition ii_diter {T} (c : cfg) (d : ety S T) (n : nat) (ii : into_iter_t T) : diter S T :=
  MkDiter (ii_iter c d n ii) (ii_next_back_fn c d n).

(** [v.into_iter()] as an iterator value. *)
Definition into_it {T} (c : cfg) (d : ety S T) (n : nat) (v : list T) : iter S T :=
  ii_iter c d n (into_iter n v).

(** ** Basic methods: src/vector.rs:35-118 *)

(** [Vector::new], src/vector.rs:39-41. *)
Definition vnew {T} (array : list T) : list T := array.

(** [Vector::generate], src/vector.rs:44-46. *)
Definition vgenerate {T} (c : cfg) (d : ety S T) (n : nat) (f : nat -> M S T) : M S (list T) :=
  from_iter c d n (imap f (range 0 n)).

(** [into_inner], [as_slice], [Deref], [AsRef], src/vector.rs:50-64, 159-196:
    the array itself. *)
Definition as_slice {T} (v : list T) : list T := v.

(** [iter], src/vector.rs:68-70. *)
Definition viter {T} (v : list T) : iter S T := slice_iter (as_slice v).

(** [len], [is_empty], src/vector.rs:110-117. *)
Definition vlen (n : nat) : nat := n.
Definition vis_empty (n : nat) : bool := n =? 0.

(** [get_unchecked], [get_unchecked_mut] followed by a write,
    src/vector.rs:98-107. *)
Definition vget_unchecked {T} (c : cfg) (n : nat) (v : list T) (i : nat) : M S T :=
  debug_assert c (i <? vlen n) ;;; slice_get_unchecked (as_slice v) i.
Definition vset_unchecked {T} (c : cfg) (n : nat) (v : list T) (i : nat) (x : T) : M S (list T) :=
  debug_assert c (i <? vlen n) ;;; slice_assign_unchecked v i x.

(** [Index<usize>], [IndexMut<usize>] (assignment), src/vector.rs:240-254. *)
Definition vindex {T} (v : list T) (i : nat) : M S T := slice_index (as_slice v) i.
Definition vindex_set {T} (v : list T) (i : nat) (x : T) : M S (list T) := slice_assign v i x.

(** [Index<UInt<..>>], [IndexMut<UInt<..>>], src/vector.rs:256-272, 287-301.
    [i] is the value of the type-level index; the [where] clause
    [Compare<UInt, N>: Same<Less>] is [i < n], stated as a hypothesis of the
    theorems. *)
Definition vindex_uint {T} (c : cfg) (n : nat) (v : list T) (i : nat) : M S T := vget_unchecked c n v i.
Definition vindex_uint_set {T} (c : cfg) (n : nat) (v : list T) (i : nat) (x : T) : M S (list T) :=
  vset_unchecked c n v i x.

(** [Index<U0>], [IndexMut<U0>], src/vector.rs:274-285, 303-312: no [where]
    clause on the length. *)
Definition vindex_u0 {T} (c : cfg) (n : nat) (v : list T) : M S T := vget_unchecked c n v 0.
Definition vindex_u0_set {T} (c : cfg) (n : nat) (v : list T) (x : T) : M S (list T) :=
  vset_unchecked c n v 0 x.

(** [Clone], src/vector.rs:129-138. *)
Definition vclone {T} (c : cfg) (d : ety S T) (n : nat) (clone : T -> M S T) (v : list T) : M S (list T) :=
  from_iter c d n (cloned clone (viter v)).

(** [Default], src/vector.rs:148-157. *)
Definition vdefault {T} (c : cfg) (d : ety S T) (n : nat) (dflt : M S T) : M S (list T) :=
  vgenerate c d n (fun _ => dflt).

(** [num::Zero], src/vector.rs:216-226. *)
Definition vzero {T} (c : cfg) (d : ety S T) (o : ops S T) (n : nat) : M S (list T) :=
  vgenerate c d n (fun _ => ret (o_zero o)).
Definition vis_zero {T} (o : ops S T) (n : nat) (v : list T) : M S bool :=
  iall (Datatypes.S n) (viter v) (fun x => ret (o_is_zero o x)).

(** [num::Bounded], src/vector.rs:228-238; [bound] is [T::min_value()] or
    [T::max_value()]. *)
Definition vbounded {T} (c : cfg) (d : ety S T) (n : nat) (bound : T) : M S (list T) :=
  vgenerate c d n (fun _ => ret bound).

(** [PartialEq], src/vector.rs:198-207: slice equality (equal lengths, then
    elementwise, stopping at the first difference). [peq] is
    [T: PartialEq<U>]. *)
Fixpoint slice_eq {T U} (peq : T -> U -> bool) (a : list T) (b : list U) : bool :=
  match a, b with
  | [], [] => true
  | x :: a', y :: b' => peq x y && slice_eq peq a' b'
  | _, _ => false
  end.
Definition veq {T U} (peq : T -> U -> bool) (a : list T) (b : list U) : bool :=
  slice_eq peq (as_slice a) (as_slice b).

(** ** Arithmetic: src/vector.rs:314-472 *)

(** [impl_vector_arith!], the four forms, src/vector.rs:314-379.  [op] is the
    element operator. *)
Definition vzip_vv {A B C} (c : cfg) (da : ety S A) (db : ety S B) (dc : ety S C) (n : nat)
    (op : A -> B -> M S C) (a : list A) (b : list B) : M S (list C) :=   (* 323-325 *)
  from_iter c dc n
    (imap (fun p => op (fst p) (snd p)) (zip da (into_it c da n a) (into_it c db n b))).
Definition vzip_vr {A B C} (c : cfg) (da : ety S A) (dc : ety S C) (n : nat)
    (op : A -> B -> M S C) (a : list A) (b : list B) : M S (list C) :=   (* 337-339 *)
  from_iter c dc n
    (imap (fun p => op (fst p) (snd p)) (zip da (into_it c da n a) (viter b))).
Definition vzip_rv {A B C} (c : cfg) (db : ety S B) (dc : ety S C) (n : nat)
    (op : A -> B -> M S C) (a : list A) (b : list B) : M S (list C) :=   (* 351-353 *)
  from_iter c dc n
    (imap (fun p => op (fst p) (snd p)) (zip ref_ety (viter a) (into_it c db n b))).
Definition vzip_rr {A B C} (c : cfg) (dc : ety S C) (n : nat)
    (op : A -> B -> M S C) (a : list A) (b : list B) : M S (list C) :=   (* 365-367 *)
  from_iter c dc n
    (imap (fun p => op (fst p) (snd p)) (zip ref_ety (viter a) (viter b))).

(** [AddAssign], [SubAssign], src/vector.rs:381-405.  [op_assign b] is the
    element method [*a += b] on [a: &mut T]. *)
Definition vop_assign {T U} (c : cfg) (du : ety S U) (n : nat) (op_assign : U -> M (T * S) unit)
    (rhs : list U) : M (list T * S) unit :=
  fun ls => iter_mut_zip_for (into_it c du n rhs) op_assign (fst ls) (snd ls).

(** [Mul<U>], [Div<U>], src/vector.rs:407-419, 434-446. *)
Definition vscale {T U C} (c : cfg) (d : ety S T) (dc : ety S C) (n : nat)
    (op : T -> U -> M S C) (cloneU : U -> M S U) (v : list T) (rhs : U) : M S (list C) :=
  from_iter c dc n (imap (fun e => r <- cloneU rhs ;; op e r) (into_it c d n v)).

(** [MulAssign<U>], [DivAssign<U>], src/vector.rs:421-432, 448-460. *)
Definition vscale_assign {T U} (op_assign : U -> M (T * S) unit) (cloneU : U -> M S U) (rhs : U)
  : M (list T * S) unit :=
  fun ls => iter_mut_for (r <- lift (cloneU rhs) ;; op_assign r) (fst ls) (snd ls).

(** [Neg], src/vector.rs:463-472. *)
Definition vneg {T C} (c : cfg) (d : ety S T) (dc : ety S C) (n : nat) (neg : T -> M S C) (v : list T)
  : M S (list C) :=
  from_iter c dc n (imap neg (into_it c d n v)).

(** [dot], src/vector.rs:503-513. *)
Definition vdot {T} (o : ops S T) (n : nat) (a b : list T) : M S T :=
  fold (Datatypes.S n)
    (imap (fun p => o_mul o (fst p) (snd p))
       (zip ref_ety (cloned (o_clone o) (viter a)) (cloned (o_clone o) (viter b))))
    (o_zero o) (o_add o).

(** [cross], src/vector.rs:522-539 (only for [N = U3]; [idx!] is the
    type-level index followed by [clone]). *)
Definition vidx {T} (c : cfg) (o : ops S T) (v : list T) (i : nat) : M S T :=
  x <- (match i with 0 => vindex_u0 c 3 v | _ => vindex_uint c 3 v i end) ;; o_clone o x.
Definition cross_term {T} (c : cfg) (o : ops S T) (a b : list T) (i j k l : nat) : M S T :=
  (* idx!(a,i)*idx!(b,j) - idx!(a,k)*idx!(b,l) *)
  x1 <- vidx c o a i ;; y1 <- vidx c o b j ;; p1 <- o_mul o x1 y1 ;;
  x2 <- vidx c o a k ;; y2 <- vidx c o b l ;; p2 <- o_mul o x2 y2 ;;
  o_sub o p1 p2.
Definition vcross {T} (c : cfg) (o : ops S T) (a b : list T) : M S (list T) :=
  e0 <- cross_term c o a b 1 2 2 1 ;;
  e1 <- cross_term c o a b 2 0 0 2 ;;
  e2 <- cross_term c o a b 0 1 1 0 ;;
  ret (vnew [e0; e1; e2]).

(** [norm], [normalized], src/vector.rs:548-562. *)
Definition vnorm {T} (o : fops S T) (n : nat) (v : list T) : M S T :=
  prod <- fold (Datatypes.S n)
            (imap (f_powi2 o) (cloned (o_clone (f_ops o)) (viter v)))
            (o_zero (f_ops o)) (o_add (f_ops o)) ;;
  f_sqrt o prod.
Definition vnormalized {T} (c : cfg) (d : ety S T) (o : fops S T) (n : nat) (v : list T) : M S (list T) :=
  cl <- vclone c d n (o_clone (f_ops o)) v ;;
  nm <- vnorm o n v ;;
  vscale c d d n (o_div (f_ops o)) (o_clone (f_ops o)) cl nm.

(** [sum], src/vector.rs:573-582. *)
Definition vsum {T} (o : ops S T) (n : nat) (v : list T) : M S T :=
  fold (Datatypes.S n) (cloned (o_clone o) (viter v)) (o_zero o) (o_add o).

(** ** Ordering: src/vector.rs:590-681.  [cmp] is [Ord::cmp]. *)

(** [max], [min], src/vector.rs:601-613; defined only for [N = UInt<..>],
    i.e. [n > 0]. *)
Definition vmax {T} (clone : T -> M S T) (cmp : T -> T -> comparison) (n : nat) (v : list T) : M S T :=
  o <- imax (Datatypes.S n) cmp (viter v) ;;
  match o with
  | None => unwrap None
  | Some x => y <- clone x ;; unwrap (Some y)
  end.
Definition vmin {T} (clone : T -> M S T) (cmp : T -> T -> comparison) (n : nat) (v : list T) : M S T :=
  o <- imin (Datatypes.S n) cmp (viter v) ;;
  match o with
  | None => unwrap None
  | Some x => y <- clone x ;; unwrap (Some y)
  end.

(** [max_by], src/vector.rs:635-646; [comp] is [FnMut]. *)
Definition vmax_by {T} (clone : T -> M S T) (comp : T -> T -> M S comparison) (n : nat) (v : list T)
  : M S T :=
  fun s =>
    match next (viter v, s) with
    | (Ok (Some st), (it, s')) =>
        (r <- for_each n it st (fun st v =>
                o <- comp v st ;;
                match o with Gt => ret v | _ => ret st end) ;;
         clone r) s'
    | (Ok None, (_, s')) => (Panic, s')
    | (Panic, (_, s')) => (Panic, s')
    | (UB, (_, s')) => (UB, s')
    | (Diverge, (_, s')) => (Diverge, s')
    end.

(** [min_by], src/vector.rs:651-653. *)
Definition vmin_by {T} (clone : T -> M S T) (comp : T -> T -> M S comparison) (n : nat) (v : list T)
  : M S T :=
  vmax_by clone (fun a b => comp b a) n v.

(** [std::cmp::max(a, b)] ([b] when equal) and [std::cmp::min(a, b)] ([a] when
    equal). *)
Definition cmp_max {T} (cmp : T -> T -> comparison) (a b : T) : T :=
  match cmp b a with Lt => a | _ => b end.
Definition cmp_min {T} (cmp : T -> T -> comparison) (a b : T) : T :=
  match cmp a b with Gt => b | _ => a end.

(** [clamped], src/vector.rs:671-673. *)
Definition vclamped {T} (c : cfg) (d : ety S T) (clone : T -> M S T) (cmp : T -> T -> comparison) (n : nat)
    (v : list T) (mn mx : T) : M S (list T) :=
  from_iter c d n (imap (fun x => clone (cmp_min cmp mx (cmp_max cmp mn x))) (viter v)).

(** [clamp], src/vector.rs:676-680.  ([*v = ...] also drops the old value;
    that drop is not logged.) *)
Definition clamp_elem {T} (clone : T -> M S T) (cmp : T -> T -> comparison) (mn mx : T)
  : M (T * S) unit :=
  x <- self ;; y <- lift (clone (cmp_min cmp mx (cmp_max cmp mn x))) ;; set_self y.
Definition vclamp {T} (clone : T -> M S T) (cmp : T -> T -> comparison) (mn mx : T)
  : M (list T * S) unit :=
  fun ls => iter_mut_for (clamp_elem clone cmp mn mx) (fst ls) (snd ls).

End Vec.

(** ** Chunks: src/vector.rs:89-95, 827-886.  [k] is [I::to_usize()]; the
    [where] clauses [N: Rem<I>, Mod<N, I>: Same<U0>] are [0 < k] and
    [n mod k = 0]. *)
Section Chunks.
Context {S : Type}.

(** [struct Chunks] holds an [IntoIter]; [into_chunks], [Chunks::new],
    src/vector.rs:89-95, 827-839. *)
Definition into_chunks {T} (n : nat) (v : list T) : into_iter_t T := into_iter n v.

(** [Chunks::next], src/vector.rs:849-855. *)
Definition ch_next {T} (c : cfg) (d : ety S T) (n k : nat) : M (into_iter_t T * S) (option (list T)) :=
  it <- self ;;
  len <- ii_len c it ;;
  if len =? 0 then ret None
  else
    v <- from_iter c (lift_ety d) k (take k (by_ref (ii_next_fn c d n))) ;;
    ret (Some v).

(** [Chunks::next_back], src/vector.rs:870-877. *)
Definition ch_next_back {T} (c : cfg) (d : ety S T) (n k : nat) : M (into_iter_t T * S) (option (list T)) :=
  it <- self ;;
  len <- ii_len c it ;;
  if len =? 0 then ret None
  else
    v <- from_iter c (lift_ety d) k (take k (by_ref (ii_next_back_fn c d n))) ;;
    w <- lift (from_iter c d k (rev_iter (ii_diter c d k (into_iter k v)))) ;;
    ret (Some w).

(** [Chunks::size_hint], src/vector.rs:858-861 (division by zero panics), and
    [ExactSizeIterator::len] (the provided method: asserts the two bounds are
    equal and returns the lower one), src/vector.rs:880-886. *)
Definition ch_size_hint {T} (c : cfg) (k : nat) (it : into_iter_t T) : M S (nat * option nat) :=
  len <- ii_len c it ;;
  if k =? 0 then panic else ret (len / k, Some (len / k)).
Definition ch_len {T} (c : cfg) (k : nat) (it : into_iter_t T) : M S nat :=
  '(lo, hi) <- ch_size_hint c k it ;;
  match hi with
  | Some h => assert (lo =? h) ;;; ret lo
  | None => panic
  end.

(** Dropping a [Chunks] drops its [IntoIter] field. *)
Definition ch_drop {T} (d : ety S T) (it : into_iter_t T) : M S unit := ii_drop d it.

(** A [Chunks] as an iterator value. *)
Definition ch_iter {T} (c : cfg) (d : ety S T) (n k : nat) (it : into_iter_t T) : iter S (list T) :=
  MkIter (into_iter_t T) it (ch_next c d n k) (ch_drop d).
End Chunks.
