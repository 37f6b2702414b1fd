(** * Rust.v - the fragment of Rust semantics the model is written in.

    Nothing in this file models code of rowcol itself; it fixes how Rust
    constructs are rendered.  No proofs here. *)
From Coq Require Import List Arith Bool Lia.
Import ListNotations.

(** Outcome of running a piece of Rust code.
    [Panic]   - an unwinding panic;
    [UB]      - the code performed an access that is undefined behaviour
                (out-of-bounds unchecked access, use of a moved-out or
                uninitialised slot);
    [Diverge] - an explicit fuel bound of the model ran out (excluded by the
                theorems). *)
Inductive res (A : Type) : Type :=
| Ok (a : A)
| Panic
| UB
| Diverge.
Arguments Ok {A} a.
Arguments Panic {A}.
Arguments UB {A}.
Arguments Diverge {A}.

(** Effectful code over a world [S].  The world is whatever the code can
    mutate: the state captured by [FnMut] closures, a log of destructor
    calls, an output buffer, the receiver of a [&mut self] method, ...
    The world survives a panic (unwinding can observe it). *)
Definition M (S A : Type) : Type := S -> res A * S.

Definition ret {S A} (a : A) : M S A := fun s => (Ok a, s).
Definition panic {S A} : M S A := fun s => (Panic, s).
Definition ub {S A} : M S A := fun s => (UB, s).
Definition diverge {S A} : M S A := fun s => (Diverge, s).

Definition bind {S A B} (m : M S A) (k : A -> M S B) : M S B :=
  fun s => match m s with
           | (Ok a, s') => k a s'
           | (Panic, s') => (Panic, s')
           | (UB, s') => (UB, s')
           | (Diverge, s') => (Diverge, s')
           end.

Declare Scope m_scope.
Delimit Scope m_scope with m.
Notation "x <- e ;; k" := (bind e (fun x => k))
  (at level 61, e at next level, right associativity) : m_scope.
Notation "' p <- e ;; k" := (bind e (fun x => match x with p => k end))
  (at level 61, p pattern, e at next level, right associativity) : m_scope.
Notation "e ;;; k" := (bind e (fun _ => k))
  (at level 61, right associativity) : m_scope.
Open Scope m_scope.

(** Run a computation of a smaller world inside a world extended with a
    mutable local / receiver / captured variable [X]. *)
Definition lift {X S A} (m : M S A) : M (X * S) A :=
  fun xs => let (r, s') := m (snd xs) in (r, (fst xs, s')).

(** Read / overwrite the extra component. *)
Definition self {X S} : M (X * S) X := fun xs => (Ok (fst xs), xs).
Definition set_self {X S} (x : X) : M (X * S) unit :=
  fun xs => (Ok tt, (x, snd xs)).

(** Pure update of the world, e.g. a destructor call. *)
Definition tick {S} (f : S -> S) : M S unit := fun s => (Ok tt, f s).

(** Build configuration.  [debug]: debug assertions and arithmetic overflow
    checks (both on in Cargo's dev profile, both off in release).
    [wbits]: the width of [usize] (16, 32 or 64 on Rust targets).
    [fuel_count]: not part of Rust; the number of surplus items the model lets
    [it.count()] pull before giving up with [Diverge] (see [from_iter_finish] in
    VectorM.v). *)
Record cfg := Cfg { debug : bool; wbits : nat; wbits_ok : 16 <= wbits; fuel_count : nat }.
(** Number of [usize] values. *)
Definition W (c : cfg) : nat := 2 ^ wbits c.

(** [debug_assert!(b)]. *)
Definition debug_assert {S} (c : cfg) (b : bool) : M S unit :=
  if debug c && negb b then panic else ret tt.

(** [assert!(b)]. *)
Definition assert {S} (b : bool) : M S unit := if b then ret tt else panic.

(** [a + b] and [a - b] on [usize] (operands are < W). *)
Definition usz_add {S} (c : cfg) (a b : nat) : M S nat :=
  if a + b <? W c then ret (a + b)
  else if debug c then panic else ret (a + b - W c).
Definition usz_sub {S} (c : cfg) (a b : nat) : M S nat :=
  if b <=? a then ret (a - b)
  else if debug c then panic else ret (a + W c - b).

(** [slice[i]] (bounds-checked) and [slice.get_unchecked(i)]. *)
Definition slice_index {S A} (l : list A) (i : nat) : M S A :=
  match nth_error l i with Some x => ret x | None => panic end.
Definition slice_get_unchecked {S A} (l : list A) (i : nat) : M S A :=
  match nth_error l i with Some x => ret x | None => ub end.

(** Overwrite slot [i] of a list (identity when out of range). *)
Fixpoint list_set {A} (l : list A) (i : nat) (x : A) : list A :=
  match l, i with
  | [], _ => []
  | _ :: l', 0 => x :: l'
  | y :: l', S i' => y :: list_set l' i' x
  end.

(** [slice[i] = x] and [*slice.get_unchecked_mut(i) = x]; a place assigned
    through [&mut] becomes the new slice. *)
Definition slice_assign {S A} (l : list A) (i : nat) (x : A) : M S (list A) :=
  if i <? length l then ret (list_set l i x) else panic.
Definition slice_assign_unchecked {S A} (l : list A) (i : nat) (x : A) : M S (list A) :=
  if i <? length l then ret (list_set l i x) else ub.

(** [opt.unwrap()]. *)
Definition unwrap {S A} (o : option A) : M S A :=
  match o with Some x => ret x | None => panic end.

(** [for i in lo..hi { st = body(i, st) }]; [k] is the number of remaining
    iterations. *)
Fixpoint for_n {S St} (k i : nat) (body : nat -> St -> M S St) (st : St) : M S St :=
  match k with
  | 0 => ret st
  | S k' => st' <- body i st ;; for_n k' (i + 1) body st'
  end.
Definition for_range {S St} (lo hi : nat) (body : nat -> St -> M S St) (st : St) : M S St :=
  for_n (hi - lo) lo body st.

(** The same with an early [return r] ([inr r]). *)
Fixpoint for_n_ret {S St R} (k i : nat) (body : nat -> St -> M S (St + R)) (st : St)
  : M S (St + R) :=
  match k with
  | 0 => ret (inl st)
  | S k' => r <- body i st ;;
            match r with
            | inl st' => for_n_ret k' (i + 1) body st'
            | inr v => ret (inr v)
            end
  end.
Definition for_range_ret {S St R} (lo hi : nat) (body : nat -> St -> M S (St + R)) (st : St)
  : M S (St + R) :=
  for_n_ret (hi - lo) lo body st.

(** Element-type descriptor: the drop glue of [T] (assumed not to panic) and
    whether [T: Copy]. *)
Record ety (S T : Type) := Ety { e_drop : T -> S -> S; e_copy : bool }.
Arguments Ety {S T} e_drop e_copy.
Arguments e_drop {S T} _ _ _.
Arguments e_copy {S T} _.

(** Drop glue of a [T; N] / slice: elements in order. *)
Definition drop_all {S T} (d : ety S T) (l : list T) (s : S) : S :=
  fold_left (fun s x => e_drop d x s) l s.
(** The descriptor of [Vector<T, N>] (a newtype around [T; N]); it is [Copy]
    when [T] is (src/vector.rs:140-146). *)
Definition vec_ety {S T} (d : ety S T) : ety S (list T) :=
  Ety (drop_all d) (e_copy d).
(** The descriptor in a world extended by a local variable. *)
Definition lift_ety {X S T} (d : ety S T) : ety (X * S) T :=
  Ety (fun x xs => (fst xs, e_drop d x (snd xs))) (e_copy d).
(** Shared references: dropping is a no-op and they are [Copy]. *)
Definition ref_ety {S T} : ety S T := Ety (fun _ s => s) true.

(** Storage cells of an array that may be partially initialised / moved
    out of.  [Moved x] remembers the stale bits, which a [Copy] type may
    legitimately re-read. *)
Inductive cell (T : Type) : Type := Live (x : T) | Moved (x : T) | Uninit.
Arguments Live {T} x.
Arguments Moved {T} x.
Arguments Uninit {T}.

(** [ptr::read(arr.get_unchecked(i))]: moves the value out. *)
Definition ptr_read {S T} (d : ety S T) (arr : list (cell T)) (i : nat)
  : M S (T * list (cell T)) :=
  match nth_error arr i with
  | Some (Live x) => ret (x, list_set arr i (Moved x))
  | Some (Moved x) => if e_copy d then ret (x, arr) else ub
  | Some Uninit | None => ub
  end.
(** [ptr::drop_in_place(arr.get_unchecked_mut(i))]. *)
Definition drop_in_place {S T} (d : ety S T) (arr : list (cell T)) (i : nat)
  : M S (list (cell T)) :=
  match nth_error arr i with
  | Some (Live x) => tick (e_drop d x) ;;; ret (list_set arr i (Moved x))
  | Some (Moved x) => if e_copy d then ret arr else ub
  | Some Uninit | None => ub
  end.
(** [ptr::write(arr.get_unchecked_mut(i), x)]: overwrites without dropping. *)
Definition ptr_write {S T} (arr : list (cell T)) (i : nat) (x : T) : M S (list (cell T)) :=
  if i <? length arr then ret (list_set arr i (Live x)) else ub.
(** [for i in lo..hi { ptr::drop_in_place(arr.get_unchecked_mut(i)) }]. *)
Definition drop_cells {S T} (d : ety S T) (lo hi : nat) (arr : list (cell T))
  : M S (list (cell T)) :=
  for_range lo hi (fun i arr => drop_in_place d arr i) arr.
(** Treat a cell array as a fully initialised [T; N]. *)
Fixpoint assume_init {S T} (arr : list (cell T)) : M S (list T) :=
  match arr with
  | [] => ret []
  | Live x :: arr' => xs <- assume_init arr' ;; ret (x :: xs)
  | _ :: _ => ub
  end.
