(** * SpecCommon.v - specification vocabulary used in the statements of the
    properties; it mentions only the outcome type of Rust.v and the iterator
    interface of Iter.v, nothing of the model of the crate. *)
From Coq Require Import List Arith Bool.
From Verif Require Import Rust Iter.
Import ListNotations.

(** ** Calling a function once per item, in order *)
(** [in_order f l s]: call [f] on the items of [l] one after the other, threading
    the world; stop at the first call that does not return normally. *)
Fixpoint in_order {S A B} (f : A -> M S B) (l : list A) (s : S) : res (list B) * S :=
  match l with
  | [] => (Ok [], s)
  | x :: l' =>
      match f x s with
      | (Ok y, s') =>
          match in_order f l' s' with
          | (Ok ys, s'') => (Ok (y :: ys), s'')
          | (r, s'') => (r, s'')
          end
      | (Panic, s') => (Panic, s')
      | (UB, s') => (UB, s')
      | (Diverge, s') => (Diverge, s')
      end
  end.

(** The same when a panic unwinds: [unwind rest] is run on the items not
    yet passed to [f]. *)
Fixpoint in_order_unwind {S A B} (unwind : list A -> S -> S) (f : A -> M S B) (l : list A) (s : S)
  : res (list B) * S :=
  match l with
  | [] => (Ok [], s)
  | x :: l' =>
      match f x s with
      | (Ok y, s') =>
          match in_order_unwind unwind f l' s' with
          | (Ok ys, s'') => (Ok (y :: ys), s'')
          | (r, s'') => (r, s'')
          end
      | (Panic, s') => (Panic, unwind l' s')
      | (UB, s') => (UB, s')
      | (Diverge, s') => (Diverge, s')
      end
  end.

(** Left fold with an effectful body, stopping at the first non-return. *)
Fixpoint fold_in_order {S A B} (body : B -> A -> M S B) (l : list A) (b : B) (s : S) : res B * S :=
  match l with
  | [] => (Ok b, s)
  | x :: l' =>
      match body b x s with
      | (Ok b', s') => fold_in_order body l' b' s'
      | (r, s') => (r, s')
      end
  end.

(** Conjunction / disjunction with short-circuit evaluation in order. *)
Fixpoint all_in_order {S A} (p : A -> M S bool) (l : list A) (s : S) : res bool * S :=
  match l with
  | [] => (Ok true, s)
  | x :: l' =>
      match p x s with
      | (Ok true, s') => all_in_order p l' s'
      | (r, s') => (r, s')
      end
  end.
Fixpoint any_in_order {S A} (p : A -> M S bool) (l : list A) (s : S) : res bool * S :=
  match l with
  | [] => (Ok false, s)
  | x :: l' =>
      match p x s with
      | (Ok false, s') => any_in_order p l' s'
      | (r, s') => (r, s')
      end
  end.

(** ** Histories of an arbitrary iterator *)
(** [yields it s xs it' s']: calling [next] [length xs] times on [it] in world
    [s] returns the items [xs] and leads to [it'] in world [s']. *)
Inductive yields {S T} : iter S T -> S -> list T -> iter S T -> S -> Prop :=
| yields_nil it s : yields it s [] it s
| yields_cons it s x it1 s1 xs it2 s2 :
    next (it, s) = (Ok (Some x), (it1, s1)) ->
    yields it1 s1 xs it2 s2 ->
    yields it s (x :: xs) it2 s2.

(** The same when each item is dropped as soon as it was obtained. *)
Inductive drains {S T} (d : ety S T) : iter S T -> S -> list T -> iter S T -> S -> Prop :=
| drains_nil it s : drains d it s [] it s
| drains_cons it s x it1 s1 xs it2 s2 :
    next (it, s) = (Ok (Some x), (it1, s1)) ->
    drains d it1 (e_drop d x s1) xs it2 s2 ->
    drains d it s (x :: xs) it2 s2.

(** ** Double-ended queues *)
Inductive qop := Next | NextBack | Nth (k : nat) | Last | Len | SizeHint.
Inductive qout (T : Type) := Item (o : option T) | Num (n : nat) | Hint (lo : nat) (hi : option nat).
Arguments Item {T} o.
Arguments Num {T} n.
Arguments Hint {T} lo hi.

(** One operation on a queue [q] of the items still to come.  [drop x] is the
    effect on the world of dropping an item that [nth] skips.  ([Last] is not
    an operation of the owning iterator of a vector; on the others it takes
    the last item and consumes the iterator, so it may only end a history.) *)
Definition deque_step {S T} (drop : T -> S -> S) (op : qop) (q : list T) (s : S)
  : qout T * (list T * S) :=
  match op with
  | Next => match q with
            | [] => (Item None, ([], s))
            | x :: q' => (Item (Some x), (q', s))
            end
  | NextBack | Last =>
      match rev q with
      | [] => (Item None, ([], s))
      | x :: r => (Item (Some x), (rev r, s))
      end
  | Nth k => (Item (nth_error q k),
              (skipn (k + 1) q, fold_left (fun s x => drop x s) (firstn k q) s))
  | Len => (Num (length q), (q, s))
  | SizeHint => (Hint (length q) (Some (length q)), (q, s))
  end.
Fixpoint deque_run {S T} (drop : T -> S -> S) (ops : list qop) (q : list T) (s : S)
  : list (qout T) * (list T * S) :=
  match ops with
  | [] => ([], (q, s))
  | op :: ops' =>
      let '(o, (q1, s1)) := deque_step drop op q s in
      let '(os, r) := deque_run drop ops' q1 s1 in (o :: os, r)
  end.

(** Running a history on an implementation with state [X]; it stops at the
    first operation that does not return. *)
Fixpoint run_history {X S T} (step : qop -> M (X * S) (qout T)) (ops : list qop)
  : M (X * S) (list (qout T)) :=
  match ops with
  | [] => ret []
  | op :: ops' => o <- step op ;; os <- run_history step ops' ;; ret (o :: os)
  end.

(** A queue of places, each turned into an item by [get] only when it is taken ([get] may
    panic: the place is then gone from the queue and the history stops).  Places that
    [nth] skips are not looked at. *)
Definition lazy_deque {S A B} (get : A -> M S B) (op : qop) : M (list A * S) (qout B) :=
  fun '(q, s) =>
    let yield (o : option A) (q' : list A) :=
      match o with
      | None => (Ok (Item None), (q', s))
      | Some x => match get x s with
                  | (Ok y, s') => (Ok (Item (Some y)), (q', s'))
                  | (Panic, s') => (Panic, (q', s'))
                  | (UB, s') => (UB, (q', s'))
                  | (Diverge, s') => (Diverge, (q', s'))
                  end
      end in
    match op with
    | Next => yield (hd_error q) (tl q)
    | NextBack | Last => yield (hd_error (rev q)) (removelast q)
    | Nth k => yield (nth_error q k) (skipn (k + 1) q)
    | Len => (Ok (Num (length q)), (q, s))
    | SizeHint => (Ok (Hint (length q) (Some (length q))), (q, s))
    end.
(** The items skipped by the [nth] calls of a history. *)
Fixpoint skips (ops : list qop) : nat :=
  match ops with [] => 0 | Nth k :: ops' => k + skips ops' | _ :: ops' => skips ops' end.
(** Histories without [len] and [size_hint]. *)
Fixpoint no_len (ops : list qop) : Prop :=
  match ops with [] => True | Len :: _ | SizeHint :: _ => False | _ :: ops' => no_len ops' end.
(** Histories that take nothing from the back, in which [nth] skips no further than the end. *)
Fixpoint front_only (ops : list qop) (n : nat) : Prop :=
  match ops with
  | [] => True
  | Next :: ops' => front_only ops' (n - 1)
  | Nth k :: ops' => k <= n /\ front_only ops' (n - (k + 1))
  | NextBack :: _ | Last :: _ => False
  | Len :: ops' | SizeHint :: ops' => front_only ops' n
  end.
(** Histories in which [nth] skips no further than the end of the [n] items to come. *)
Fixpoint nth_in_range (ops : list qop) (n : nat) : Prop :=
  match ops with
  | [] => True
  | Next :: ops' | NextBack :: ops' | Last :: ops' => nth_in_range ops' (n - 1)
  | Nth k :: ops' => k <= n /\ nth_in_range ops' (n - (k + 1))
  | Len :: ops' | SizeHint :: ops' => nth_in_range ops' n
  end.

(** How many of the [n] items to come a history without [len] removes at the front. *)
Fixpoint taken_front (ops : list qop) (n : nat) : nat :=
  match ops with
  | [] => 0
  | Next :: ops' => Nat.min 1 n + taken_front ops' (n - 1)
  | Nth k :: ops' => Nat.min (k + 1) n + taken_front ops' (n - (k + 1))
  | NextBack :: ops' | Last :: ops' => taken_front ops' (n - 1)
  | Len :: ops' | SizeHint :: ops' => taken_front ops' n
  end.
(** All arguments of [nth] are [usize] values. *)
Fixpoint usize_args (c : cfg) (ops : list qop) : Prop :=
  match ops with [] => True | Nth k :: ops' => k < W c /\ usize_args c ops' | _ :: ops' => usize_args c ops' end.

(** The guard under which the owning iterator is a deque: [next_back] is not
    called on an iterator that is exhausted and from whose front something was
    taken; [nth] skips no further than the end. *)
Fixpoint guarded {T} (front : bool) (ops : list qop) (q : list T) : Prop :=
  match ops with
  | [] => True
  | op :: ops' =>
      match op with
      | Next => guarded (front || negb (length q =? 0)) ops' (tl q)
      | NextBack => (q <> [] \/ front = false) /\ guarded front ops' (removelast q)
      | Nth k => k <= length q /\ guarded (front || negb (length q =? 0)) ops' (skipn (k + 1) q)
      | Last => False
      | Len | SizeHint => guarded front ops' q
      end
  end.

(** Histories without the consuming method [last]. *)
Fixpoint no_last (ops : list qop) : Prop :=
  match ops with [] => True | Last :: _ => False | _ :: ops' => no_last ops' end.

(** ** Matrices as lists of rows *)
Definition rect {T} (row col : nat) (m : list (list T)) : Prop :=
  length m = row /\ Forall (fun r => length r = col) m.
Definition entry {T} (m : list (list T)) (i j : nat) : option T :=
  match nth_error m i with Some r => nth_error r j | None => None end.
(** Column [j] (defined without a default element). *)
Definition col_of {T} (m : list (list T)) (j : nat) : list T :=
  flat_map (fun r => match nth_error r j with Some x => [x] | None => [] end) m.
(** The items of a list with their positions; the entries of a matrix in row-major
    order with their positions. *)
Definition indexed {T} (l : list T) : list (nat * T) := combine (seq 0 (length l)) l.
Definition entries {T} (m : list (list T)) : list ((nat * nat) * T) :=
  concat (map (fun ir => map (fun ja => ((fst ir, fst ja), snd ja)) (indexed (snd ir))) (indexed m)).

(** ** Orders *)
(** A total preorder presented by a three-way comparison. *)
Definition total_preorder {T} (cmp : T -> T -> comparison) : Prop :=
  (forall x y, cmp y x = CompOpp (cmp x y)) /\
  (forall x y z, cmp x y <> Gt -> cmp y z <> Gt -> cmp x z <> Gt).
(** How a position [pre ++ x :: post] of a sequence is selected: the last maximum,
    the first maximum, the first minimum. *)
Definition last_max {T} (cmp : T -> T -> comparison) (pre : list T) (x : T) (post : list T) : Prop :=
  Forall (fun y => cmp y x <> Gt) pre /\ Forall (fun y => cmp y x = Lt) post.
Definition first_max {T} (cmp : T -> T -> comparison) (pre : list T) (x : T) (post : list T) : Prop :=
  Forall (fun y => cmp y x = Lt) pre /\ Forall (fun y => cmp y x <> Gt) post.
Definition first_min {T} (cmp : T -> T -> comparison) (pre : list T) (x : T) (post : list T) : Prop :=
  Forall (fun y => cmp y x = Gt) pre /\ Forall (fun y => cmp y x <> Lt) post.

(** ** Element operations *)
(** A clone that returns an equal value and does nothing else. *)
Definition faithful {S T} (clone : T -> M S T) : Prop := forall x s, clone x s = (Ok x, s).
(** An operation that always returns and does nothing else. *)
Definition pure1 {S A B} (f : A -> M S B) (g : A -> B) : Prop := forall x s, f x s = (Ok (g x), s).
Definition pure2 {S A B C} (f : A -> B -> M S C) (g : A -> B -> C) : Prop :=
  forall x y s, f x y s = (Ok (g x y), s).
(** The element's compound assignment [x op= y] agrees with [x op y]; when the
    operator panics the assigned variable keeps its value. *)
Definition assign_agrees {S T U} (op : T -> U -> M S T) (op_assign : U -> M (T * S) unit) : Prop :=
  forall x y s, op_assign y (x, s) =
    match op x y s with
    | (Ok z, s') => (Ok tt, (z, s'))
    | (Panic, s') => (Panic, (x, s'))
    | (UB, s') => (UB, (x, s'))
    | (Diverge, s') => (Diverge, (x, s'))
    end.
