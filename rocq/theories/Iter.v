(** * Iter.v - Rust iterators as state machines, and the std adapters used.

    Behaviour of the Rust standard library (trusted reading of the
    documentation of std::iter, Rust 1.13 era); no proofs here. *)
From Coq Require Import List Arith Bool.
From Verif Require Import Rust.
Import ListNotations.

(** An iterator value: a state, the [next] method and the destructor of the
    state (run when the iterator goes out of scope, also on unwinding). *)
Record iter (S T : Type) := MkIter {
  i_st : Type;
  i_cur : i_st;
  i_next : M (i_st * S) (option T);
  i_drop : i_st -> M S unit }.
Arguments MkIter {S T} i_st i_cur i_next i_drop.
Arguments i_st {S T} _.
Arguments i_cur {S T} _.
Arguments i_next {S T} _ _.
Arguments i_drop {S T} _ _ _.

(** [it.next()] on a local variable [it]. *)
Definition next {S T} : M (iter S T * S) (option T) :=
  fun its =>
    let (it, s) := its in
    let '(r, (st', s')) := i_next it (i_cur it, s) in
    (r, (MkIter (i_st it) st' (i_next it) (i_drop it), s')).

(** Dropping an iterator. *)
Definition drop_iter {S T} (it : iter S T) : M S unit := i_drop it (i_cur it).

(** The iterator goes out of scope with [r] pending ([r] is a value being
    returned or a panic being propagated). *)
Definition out_of_scope {S T A} (it : iter S T) (r : res A) : M S A :=
  drop_iter it ;;; (fun s => (r, s)).

(** A double-ended iterator also has [next_back]. *)
Record diter (S T : Type) := MkDiter {
  d_iter :> iter S T;
  d_back : M (i_st d_iter * S) (option T) }.
Arguments MkDiter {S T} d_iter d_back.
Arguments d_iter {S T} _.
Arguments d_back {S T} _ _.

(** [slice.iter()]: shared references to the elements, front to back. *)
Definition slice_iter {S T} (l : list T) : iter S T :=
  MkIter (list T) l
    (l <- self ;;
     match l with
     | [] => ret None
     | x :: l' => set_self l' ;;; ret (Some x)
     end)
    (fun _ => ret tt).

(** [lo..hi] on [usize]. *)
Definition range {S} (lo hi : nat) : iter S nat :=
  MkIter (nat * nat) (lo, hi)
    ('(a, b) <- self ;;
     if a <? b then set_self (a + 1, b) ;;; ret (Some a) else ret None)
    (fun _ => ret tt).

(** [it.map(f)]; [f] is [FnMut], its captured state lives in the world. *)
Definition imap {S A B} (f : A -> M S B) (it : iter S A) : iter S B :=
  MkIter (i_st it) (i_cur it)
    (o <- i_next it ;;
     match o with
     | None => ret None
     | Some a => b <- lift (f a) ;; ret (Some b)
     end)
    (i_drop it).

(** [it.cloned()]. *)
Definition cloned {S T} (clone : T -> M S T) (it : iter S T) : iter S T := imap clone it.

(** [it.enumerate()]. *)
Definition enumerate {S T} (it : iter S T) : iter S (nat * T) :=
  MkIter (nat * i_st it) (0, i_cur it)
    (fun '((k, st), s) =>
       match i_next it (st, s) with
       | (Ok (Some x), (st', s')) => (Ok (Some (k, x)), ((k + 1, st'), s'))
       | (Ok None, (st', s')) => (Ok None, ((k, st'), s'))
       | (Panic, (st', s')) => (Panic, ((k, st'), s'))
       | (UB, (st', s')) => (UB, ((k, st'), s'))
       | (Diverge, (st', s')) => (Diverge, ((k, st'), s'))
       end)
    (fun kst => i_drop it (snd kst)).

(** [a.zip(b)]: asks [a] first; if [a] is exhausted [b] is not asked; if [b]
    is exhausted the element taken from [a] is dropped ([da]: its drop
    glue). *)
Definition zip {S A B} (da : ety S A) (ia : iter S A) (ib : iter S B) : iter S (A * B) :=
  MkIter (i_st ia * i_st ib) (i_cur ia, i_cur ib)
    (fun '((sa, sb), s) =>
       match i_next ia (sa, s) with
       | (Ok (Some a), (sa', s1)) =>
           match i_next ib (sb, s1) with
           | (Ok (Some b), (sb', s2)) => (Ok (Some (a, b)), ((sa', sb'), s2))
           | (Ok None, (sb', s2)) => (Ok None, ((sa', sb'), e_drop da a s2))
           | (Panic, (sb', s2)) => (Panic, ((sa', sb'), e_drop da a s2))
           | (UB, (sb', s2)) => (UB, ((sa', sb'), s2))
           | (Diverge, (sb', s2)) => (Diverge, ((sa', sb'), s2))
           end
       | (Ok None, (sa', s1)) => (Ok None, ((sa', sb), s1))
       | (Panic, (sa', s1)) => (Panic, ((sa', sb), s1))
       | (UB, (sa', s1)) => (UB, ((sa', sb), s1))
       | (Diverge, (sa', s1)) => (Diverge, ((sa', sb), s1))
       end)
    (fun st => i_drop ia (fst st) ;;; i_drop ib (snd st)).

(** [it.take(n)]. *)
Definition take {S T} (n : nat) (it : iter S T) : iter S T :=
  MkIter (nat * i_st it) (n, i_cur it)
    (fun '((k, st), s) =>
       match k with
       | 0 => (Ok None, ((0, st), s))
       | S k' =>
           let '(r, (st', s')) := i_next it (st, s) in (r, ((k', st'), s'))
       end)
    (fun kst => i_drop it (snd kst)).

(** [it.filter(p)] ([p] pure).  Rejected items are dropped ([d]: their drop
    glue).  Each call of [next] loops over the underlying iterator; [fuel]
    bounds that loop. *)
Fixpoint filter_next {S St T} (d : ety S T) (p : T -> bool) (nx : M (St * S) (option T))
    (fuel : nat) : M (St * S) (option T) :=
  match fuel with
  | 0 => diverge
  | S fuel' =>
      o <- nx ;;
      match o with
      | None => ret None
      | Some x => if p x then ret (Some x)
                  else tick (fun sts => (fst sts, e_drop d x (snd sts))) ;;;
                       filter_next d p nx fuel'
      end
  end.
Definition filter {S T} (fuel : nat) (d : ety S T) (p : T -> bool) (it : iter S T) : iter S T :=
  MkIter (i_st it) (i_cur it) (filter_next d p (i_next it) fuel) (i_drop it).

(** [it.rev()]. *)
Definition rev_iter {S T} (it : diter S T) : iter S T :=
  MkIter (i_st it) (i_cur it) (d_back it) (i_drop it).

(** [(&mut x)] used as an iterator: the state is a variable of the world, and
    dropping the borrow does nothing. *)
Definition by_ref {X S T} (nx : M (X * S) (option T)) : iter (X * S) T :=
  MkIter unit tt (lift nx) (fun _ => ret tt).

(** [for x in it { st = body(x, st) }], also [it.fold(st, body)].  The
    iterator is owned by the loop: it is dropped when the loop ends and when
    the body or [next] panics.  [fuel] bounds the number of calls of [next]. *)
Fixpoint for_each {S A B} (fuel : nat) (it : iter S A) (st : B) (body : B -> A -> M S B) : M S B :=
  match fuel with
  | 0 => diverge
  | S fuel' => fun s =>
      match next (it, s) with
      | (Ok None, (it', s')) => out_of_scope it' (Ok st) s'
      | (Ok (Some x), (it', s')) =>
          match body st x s' with
          | (Ok st', s'') => for_each fuel' it' st' body s''
          | (Panic, s'') => out_of_scope it' Panic s''
          | (UB, s'') => (UB, s'')
          | (Diverge, s'') => (Diverge, s'')
          end
      | (Panic, (it', s')) => out_of_scope it' Panic s'
      | (UB, (_, s')) => (UB, s')
      | (Diverge, (_, s')) => (Diverge, s')
      end
  end.
Definition fold {S A B} := @for_each S A B.

(** [it.count()] (the provided method: pull and drop every item; the overriding
    [count] methods of the crate's own iterators are modelled separately).  At
    most [fuel] items are pulled. *)
Fixpoint icount {S T} (d : ety S T) (fuel : nat) (it : iter S T) (acc : nat) : M S nat :=
  fun s =>
    match next (it, s) with
    | (Ok None, (it', s')) => out_of_scope it' (Ok acc) s'
    | (Ok (Some x), (it', s')) =>
        match fuel with
        | 0 => (Diverge, s')
        | S fuel' => icount d fuel' it' (acc + 1) (e_drop d x s')
        end
    | (Panic, (it', s')) => out_of_scope it' Panic s'
    | (UB, (_, s')) => (UB, s')
    | (Diverge, (_, s')) => (Diverge, s')
    end.

(** [it.all(p)] / [it.any(p)] on a temporary iterator: stop at the first
    false / true. *)
Fixpoint iall {S A} (fuel : nat) (it : iter S A) (p : A -> M S bool) : M S bool :=
  match fuel with
  | 0 => diverge
  | S fuel' => fun s =>
      match next (it, s) with
      | (Ok None, (it', s')) => out_of_scope it' (Ok true) s'
      | (Ok (Some x), (it', s')) =>
          match p x s' with
          | (Ok true, s'') => iall fuel' it' p s''
          | (Ok false, s'') => out_of_scope it' (Ok false) s''
          | (Panic, s'') => out_of_scope it' Panic s''
          | (UB, s'') => (UB, s'')
          | (Diverge, s'') => (Diverge, s'')
          end
      | (Panic, (it', s')) => out_of_scope it' Panic s'
      | (UB, (_, s')) => (UB, s')
      | (Diverge, (_, s')) => (Diverge, s')
      end
  end.
Fixpoint iany {S A} (fuel : nat) (it : iter S A) (p : A -> M S bool) : M S bool :=
  match fuel with
  | 0 => diverge
  | S fuel' => fun s =>
      match next (it, s) with
      | (Ok None, (it', s')) => out_of_scope it' (Ok false) s'
      | (Ok (Some x), (it', s')) =>
          match p x s' with
          | (Ok false, s'') => iany fuel' it' p s''
          | (Ok true, s'') => out_of_scope it' (Ok true) s''
          | (Panic, s'') => out_of_scope it' Panic s''
          | (UB, s'') => (UB, s'')
          | (Diverge, s'') => (Diverge, s'')
          end
      | (Panic, (it', s')) => out_of_scope it' Panic s'
      | (UB, (_, s')) => (UB, s')
      | (Diverge, (_, s')) => (Diverge, s')
      end
  end.

(** [it.max()] / [it.min()] for [Ord] items: [max] keeps the later of equal
    items, [min] the earlier ([a.max(b)]: documentation of
    [Iterator::max]/[min]).  [le_cmp] is [Ord::cmp]. *)
Definition imax {S T} (fuel : nat) (cmp : T -> T -> comparison) (it : iter S T) : M S (option T) :=
  for_each fuel it None (fun acc x =>
    match acc with
    | None => ret (Some x)
    | Some a => ret (Some (match cmp a x with Gt => a | _ => x end))
    end).
Definition imin {S T} (fuel : nat) (cmp : T -> T -> comparison) (it : iter S T) : M S (option T) :=
  for_each fuel it None (fun acc x =>
    match acc with
    | None => ret (Some x)
    | Some a => ret (Some (match cmp a x with Gt => x | _ => a end))
    end).

(** [for p in slice.iter_mut() { body(p) }]: [body] is a method on a [&mut T];
    slots after the one where [body] panics are untouched. *)
Fixpoint iter_mut_for {S T} (body : M (T * S) unit) (l : list T) (s : S) : res unit * (list T * S) :=
  match l with
  | [] => (Ok tt, ([], s))
  | x :: l' =>
      match body (x, s) with
      | (Ok _, (x', s')) =>
          let '(r, (l'', s'')) := iter_mut_for body l' s' in (r, (x' :: l'', s''))
      | (Panic, (x', s')) => (Panic, (x' :: l', s'))
      | (UB, (x', s')) => (UB, (x' :: l', s'))
      | (Diverge, (x', s')) => (Diverge, (x' :: l', s'))
      end
  end.

(** [for (p, b) in slice.iter_mut().zip(it) { body(p, b) }]; [zip] asks the
    slice first, so a longer [it] is not advanced past the slice. *)
Fixpoint iter_mut_zip_for {S T U} (it : iter S U) (body : U -> M (T * S) unit) (l : list T) (s : S)
  : res unit * (list T * S) :=
  match l with
  | [] => let (r, s') := out_of_scope it (Ok tt) s in (r, ([], s'))
  | x :: l' =>
      match next (it, s) with
      | (Ok None, (it', s')) => let (r, s'') := out_of_scope it' (Ok tt) s' in (r, (l, s''))
      | (Ok (Some b), (it', s')) =>
          match body b (x, s') with
          | (Ok _, (x', s'')) =>
              let '(r, (l'', s3)) := iter_mut_zip_for it' body l' s'' in (r, (x' :: l'', s3))
          | (Panic, (x', s'')) =>
              let (r, s3) := out_of_scope it' Panic s'' in (r, (x' :: l', s3))
          | (UB, (x', s'')) => (UB, (x' :: l', s''))
          | (Diverge, (x', s'')) => (Diverge, (x' :: l', s''))
          end
      | (Panic, (it', s')) => let (r, s'') := out_of_scope it' Panic s' in (r, (l, s''))
      | (UB, (_, s')) => (UB, (l, s'))
      | (Diverge, (_, s')) => (Diverge, (l, s'))
      end
  end.
