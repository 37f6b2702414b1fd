(** * Harness.v - plugs the methods of the modelled iterators into the generic
    notion of history of SpecCommon.v.  No proofs here. *)
From Coq Require Import List Arith Bool.
From Verif Require Import Rust Iter Elem VectorM MatIterM MatrixM SpecCommon.
Import ListNotations.

Definition item {W T} (m : M W (option T)) : M W (qout T) := x <- m ;; ret (Item x).
Definition num {W T} (m : M W nat) : M W (qout T) := x <- m ;; ret (Num x).
Definition hint {W T} (m : M W (nat * option nat)) : M W (qout T) :=
  x <- m ;; ret (Hint (fst x) (snd x)).

(** Owning iterator of a vector (src/vector.rs:744-825).  [Last] is the
    provided method of Iterator; not used for this iterator. *)
Definition ii_step {S T} (c : cfg) (d : ety S T) (n : nat) (op : qop) : M (into_iter_t T * S) (qout T) :=
  match op with
  | Next => item (ii_next_fn c d n)
  | NextBack | Last => item (ii_next_back_fn c d n)
  | Nth k => item (ii_nth_fn c d n k)
  | Len => ii <- self ;; num (lift (ii_len c ii))
  | SizeHint => ii <- self ;; hint (lift (ii_size_hint c ii))
  end.

(** The provided method [Iterator::nth] (std): call [next], dropping the first
    [k] items, stopping at [None]. *)
Fixpoint provided_nth {X S T} (nx : M (X * S) (option T)) (drop : T -> S -> S) (k : nat)
  : M (X * S) (option T) :=
  o <- nx ;;
  match o with
  | None => ret None
  | Some x => match k with
              | 0 => ret (Some x)
              | Datatypes.S k' => tick (fun w => (fst w, drop x (snd w))) ;;; provided_nth nx drop k'
              end
  end.

(** Chunks (src/vector.rs:827-886); [nth] is the provided method. *)
Definition ch_step {S T} (c : cfg) (d : ety S T) (n k : nat) (op : qop)
  : M (into_iter_t T * S) (qout (list T)) :=
  match op with
  | Next => item (ch_next c d n k)
  | Nth j => item (provided_nth (ch_next c d n k) (drop_all d) j)
  | NextBack | Last => item (ch_next_back c d n k)
  | Len => it <- self ;; num (lift (ch_len c k it))
  | SizeHint => it <- self ;; hint (lift (ch_size_hint c k it))
  end.

(** Matrix iterators (src/matrix/iter.rs). *)
Definition ri_step {S T} (c : cfg) (row col : nat) (m : list (list T)) (d : ety S T) (clone : T -> M S T)
    (op : qop) : M (cursor * S) (qout (list T)) :=
  match op with
  | Next => item (ri_next c col m d clone)
  | NextBack => item (ri_next_back c col m d clone)
  | Last => item (ri_last c col m d clone)
  | Nth k => item (ri_nth c col m d clone k)
  | Len => it <- self ;; num (lift (ri_len c row it))
  | SizeHint => it <- self ;; hint (lift (ri_size_hint c row it))
  end.
Definition ci_step {S T} (c : cfg) (row col : nat) (m : list (list T)) (d : ety S T) (clone : T -> M S T)
    (op : qop) : M (cursor * S) (qout (list T)) :=
  match op with
  | Next => item (ci_next c row col m d clone)
  | NextBack => item (ci_next_back c row m d clone)
  | Last => item (ci_last c row m d clone)
  | Nth k => item (ci_nth c row col m d clone k)
  | Len => it <- self ;; num (lift (ci_len c col it))
  | SizeHint => it <- self ;; hint (lift (ci_size_hint c col it))
  end.
Definition rr_step {S T} (c : cfg) (row : nat) (m : list (list T)) (op : qop)
  : M (cursor * S) (qout (list T)) :=
  match op with
  | Next => item (rr_next c row m)
  | NextBack => item (rr_next_back c row m)
  | Last => item (rr_last c row m)
  | Nth k => item (rr_nth c row m k)
  | Len => it <- self ;; num (lift (cur_len c it))
  | SizeHint => it <- self ;; hint (lift (cur_size_hint c it))
  end.
Definition cr_step {S} (c : cfg) (row col : nat) (op : qop) : M (cursor * S) (qout (nat * cursor)) :=
  match op with
  | Next => item (cr_next c row col)
  | NextBack => item (cr_next_back c row col)
  | Last => item (cr_last c row col)
  | Nth k => item (cr_nth c row col k)
  | Len => it <- self ;; num (lift (cur_len c it))
  | SizeHint => it <- self ;; hint (lift (cur_size_hint c it))
  end.
Definition cin_step {S T} (c : cfg) (row col : nat) (m : list (list T)) (op : qop)
  : M ((nat * cursor) * S) (qout T) :=
  match op with
  | Next => item (cin_next c row col m)
  | NextBack => item (cin_next_back c row col m)
  | Last => item (cin_last c row col m)
  | Nth k => item (cin_nth c row col m k)
  | Len => it <- self ;; num (lift (cin_len c it))
  | SizeHint => it <- self ;; hint (lift (cin_size_hint c it))
  end.

(** Small configurations for examples: 16-bit [usize]. *)
Definition dbg : cfg := Cfg true 16 (le_n 16) 10.
Definition rel : cfg := Cfg false 16 (le_n 16) 10.
(** A destructor log: dropping [x] appends it. *)
Definition log_ety {T} : ety (list T) T := Ety (fun x s => s ++ [x]) false.
Definition copy_ety {T} : ety (list T) T := Ety (fun x s => s) true.

(** Which impl [v[I::new()]] resolves to (src/vector.rs:256-312), for the value [i] of
    a type-level index: [U0] or a non-zero [UInt]. *)
Definition vindex_static {S T} (c : cfg) (n : nat) (v : list T) (i : nat) : M S T :=
  match i with 0 => vindex_u0 c n v | _ => vindex_uint c n v i end.
Definition vindex_static_set {S T} (c : cfg) (n : nat) (v : list T) (i : nat) (x : T) : M S (list T) :=
  match i with 0 => vindex_u0_set c n v x | _ => vindex_uint_set c n v i x end.
(** The indices the compiler accepts: [U0] always (no [where] clause, lines 274-285,
    303-312), a [UInt] when it is [Less] than the length (lines 256-272, 287-301). *)
Definition vindex_accepted (n i : nat) : Prop := i = 0 \/ i < n.
