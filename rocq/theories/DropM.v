(** * DropM.v - the unsafe code of src/vector.rs again, with destructors that may panic.

    Everywhere else in the model drop glue does not panic ([e_drop] of Rust.v).  Here the drop
    glue of [T] is an effectful function [dr : T -> M S unit]; [T] is not [Copy].  Only the code
    that runs destructors itself is repeated: [from_iter], [IntoIter::nth], [IntoIter::count],
    [Drop for IntoIter].  [next], [next_back], [len] run no destructor (VectorM.v).
    No proofs here. *)
From Coq Require Import List Arith Bool.
From Verif Require Import Rust Iter Elem VectorM.
Import ListNotations.

(** A panic that escapes a destructor while another panic is unwinding aborts the process. *)
Inductive outcome (A : Type) : Type := Done (r : res A) | Abort.
Arguments Done {A} r.
Arguments Abort {A}.

Section Drop.
Context {S T : Type}.
Variable dr : T -> M S unit.

(** [ptr::drop_in_place(arr.get_unchecked_mut(i))] on the array in the world; the slot counts as
    dropped also when the destructor panics. *)
Definition drop_in_place_p (i : nat) : M (list (cell T) * S) unit :=
  fun '(arr, s) =>
    match nth_error arr i with
    | Some (Live x) => let (r, s') := dr x s in (r, (list_set arr i (Moved x), s'))
    | _ => (UB, (arr, s))
    end.
(** [for i in lo..hi { ptr::drop_in_place(arr.get_unchecked_mut(i)) }]: a panic ends the loop. *)
Definition drop_cells_p (lo hi : nat) : M (list (cell T) * S) unit :=
  for_range lo hi (fun i _ => drop_in_place_p i) tt.

(** Drop glue of a [T; N] that the compiler runs while a panic unwinds. *)
Fixpoint array_glue_unwinding (arr : list (cell T)) : S -> outcome unit * S :=
  fun s =>
    match arr with
    | [] => (Done (Ok tt), s)
    | Live x :: arr' =>
        match dr x s with
        | (Ok _, s') => array_glue_unwinding arr' s'
        | (Panic, s') => (Abort, s')
        | (UB, s') => (Done UB, s')
        | (Diverge, s') => (Done Diverge, s')
        end
    | _ :: _ => (Done UB, s)
    end.

(** ** from_iter, src/vector.rs:691-728 *)
Definition done {A} (m : M S A) : S -> outcome A * S := fun s => let (r, s') := m s in (Done r, s').

(** [it.count()] of the provided implementation: each item is dropped; when that panics the
    iterator is dropped by the unwinding. *)
Fixpoint icount_p (fuel : nat) (it : iter S T) (acc : nat) : M S nat :=
  fun s =>
    match next (it, s) with
    | (Ok None, (it', s')) => out_of_scope it' (Ok acc) s'
    | (Ok (Some x), (it', s')) =>
        match fuel with
        | 0 => (Diverge, s')
        | Datatypes.S fuel' =>
            match dr x s' with
            | (Ok _, s'') => icount_p fuel' it' (acc + 1) s''
            | (Panic, s'') => out_of_scope it' Panic s''
            | (UB, s'') => (UB, s'')
            | (Diverge, s'') => (Diverge, s'')
            end
        end
    | (Panic, (it', s')) => out_of_scope it' Panic s'
    | (UB, (_, s')) => (UB, s')
    | (Diverge, (_, s')) => (Diverge, s')
    end.

(** Lines 718-726. *)
Definition from_iter_finish_p (c : cfg) (arr : list (cell T)) (it : iter S T) : M S (list T) :=
  if debug c then
    cnt <- icount_p (fuel_count c) it 0 ;;
    assert (cnt =? 0) ;;;
    assume_init arr
  else v <- assume_init arr ;; out_of_scope it (Ok v).

(** Lines 704-713: [let mut arr = arr.into_inner();] takes the array out of the [NoDrop], so while
    the loop over [0..i] runs the array is an ordinary local; [mem::forget(arr)] comes after the
    loop.  A panic in the loop therefore runs the drop glue of the whole array, then drops [it]. *)
Definition short_p (i : nat) (arr : list (cell T)) (it : iter S T) : S -> outcome (list T) * S :=
  fun s =>
    match drop_cells_p 0 i (arr, s) with
    | (Ok _, (_, s')) => done (out_of_scope it Panic) s'
    | (Panic, (arr', s')) =>
        match array_glue_unwinding arr' s' with
        | (Done (Ok _), s'') => done (out_of_scope it Panic) s''
        | (Done Panic, s'') => (Abort, s'')
        | (Done UB, s'') => (Done UB, s'')
        | (Done Diverge, s'') => (Done Diverge, s'')
        | (Abort, s'') => (Abort, s'')
        end
    | (UB, (_, s')) => (Done UB, s')
    | (Diverge, (_, s')) => (Done Diverge, s')
    end.

(** Lines 701-716. *)
Fixpoint from_iter_loop_p (c : cfg) (k i : nat) (arr : list (cell T)) (it : iter S T) : S -> outcome (list T) * S :=
  match k with
  | 0 => done (from_iter_finish_p c arr it)
  | Datatypes.S k' => fun s =>
      match next (it, s) with
      | (Ok (Some item), (it', s')) =>
          match ptr_write arr i item s' with
          | (Ok arr', s'') => from_iter_loop_p c k' (i + 1) arr' it' s''
          | (Panic, s'') => (Done Panic, s'')
          | (UB, s'') => (Done UB, s'')
          | (Diverge, s'') => (Done Diverge, s'')
          end
      | (Ok None, (it', s')) => short_p i arr it' s'
      | (Panic, (it', s')) => done (out_of_scope it' Panic) s'
      | (UB, (_, s')) => (Done UB, s')
      | (Diverge, (_, s')) => (Done Diverge, s')
      end
  end.
Definition from_iter_p (c : cfg) (n : nat) (it : iter S T) : S -> outcome (list T) * S :=
  from_iter_loop_p c n 0 (repeat Uninit n) it.

(** ** IntoIter *)
(** [nth], src/vector.rs:787-794: a panic in the loop leaves [self.next] as it was. *)
Definition ii_nth_p (c : cfg) (n k : nat) : M (into_iter_t T * S) (option T) :=
  ii <- self ;;
  hi <- usz_add c (ii_next ii) k ;;
  (fun '(ii, s) =>
     let '(r, (arr, s')) := drop_cells_p (ii_next ii) hi (ii_arr ii, s) in
     (r, (IntoIter arr (ii_next ii) (ii_back ii), s'))) ;;;
  ii' <- self ;;
  nx <- usz_add c (ii_next ii') k ;;
  set_self (IntoIter (ii_arr ii') nx (ii_back ii')) ;;;
  ii_next_fn c (Ety (fun _ s => s) false) n.

(** [Drop for IntoIter], src/vector.rs:750-756; the array is in a [NoDrop], so nothing more is
    dropped when a destructor panics. *)
Definition ii_drop_p (ii : into_iter_t T) : M S unit :=
  fun s => let '(r, (_, s')) := drop_cells_p (ii_next ii) (ii_back ii) (ii_arr ii, s) in (r, s').
(** The same while a panic unwinds. *)
Definition ii_drop_unwinding (ii : into_iter_t T) : S -> outcome unit * S :=
  fun s => match ii_drop_p ii s with (Panic, s') => (Abort, s') | (r, s') => (Done r, s') end.

(** [count(self)], src/vector.rs:783-785. *)
Definition ii_count_p (c : cfg) (ii : into_iter_t T) : M S nat :=
  len <- ii_len c ii ;; ii_drop_p ii ;;; ret len.

(** [let mut it = v.into_iter(); it.nth(k)] as a statement: [it] goes out of scope afterwards, by
    the unwinding if [nth] panics. *)
Definition nth_then_drop (c : cfg) (n k : nat) (v : list T) : S -> outcome (option T) * S :=
  fun s =>
    match ii_nth_p c n k (into_iter n v, s) with
    | (Ok r, (ii, s')) => match ii_drop_p ii s' with
                          | (Ok _, s'') => (Done (Ok r), s'')
                          | (Panic, s'') => (Done Panic, s'')
                          | (UB, s'') => (Done UB, s'')
                          | (Diverge, s'') => (Done Diverge, s'')
                          end
    | (Panic, (ii, s')) => match ii_drop_unwinding ii s' with
                           | (Done (Ok _), s'') => (Done Panic, s'')
                           | (Done Panic, s'') => (Abort, s'')
                           | (Done UB, s'') => (Done UB, s'')
                           | (Done Diverge, s'') => (Done Diverge, s'')
                           | (Abort, s'') => (Abort, s'')
                           end
    | (UB, (_, s')) => (Done UB, s')
    | (Diverge, (_, s')) => (Done Diverge, s')
    end.
End Drop.
