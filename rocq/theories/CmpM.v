(** * CmpM.v - equality, ordering and clamping with element comparisons that may
    have side effects and may panic, and with the drops of owned temporaries.

    VectorM.v and MatrixM.v model the same functions for element types whose
    [PartialEq] and [Ord] are pure; PropsCmp.v proves that the two agree there.
    No proofs here. *)
From Coq Require Import List Arith Bool.
From Verif Require Import Rust Iter Elem VectorM MatIterM MatrixM.
Import ListNotations.

Section Cmp.
Context {S : Type}.

(** Run [m], then drop a local variable [x] of its caller, also when unwinding. *)
Definition owning {T A} (d : ety S T) (x : T) (m : M S A) : M S A :=
  fun s => match m s with
           | (Ok a, s') => (Ok a, e_drop d x s')
           | (Panic, s') => (Panic, e_drop d x s')
           | (r, s') => (r, s')
           end.

(** Slice equality (std, [SlicePartialEq::equal]): lengths first, then
    [self[i].eq(&other[i])] for each [i], returning at the first [false]. *)
Fixpoint slice_eq_loop {T U} (peq : T -> U -> M S bool) (a : list T) (b : list U) : M S bool :=
  match a, b with
  | x :: a', y :: b' => r <- peq x y ;; if r : bool then slice_eq_loop peq a' b' else ret false
  | _, _ => ret true
  end.
Definition slice_eq_m {T U} (peq : T -> U -> M S bool) (a : list T) (b : list U) : M S bool :=
  if length a =? length b then slice_eq_loop peq a b else ret false.
(** [PartialEq for Vector], src/vector.rs:198-207. *)
Definition veq_m {T U} (peq : T -> U -> M S bool) (a : list T) (b : list U) : M S bool :=
  slice_eq_m peq (as_slice a) (as_slice b).
(** [PartialEq for Matrix], src/matrix/mod.rs:284-293. *)
Definition meq_m {T} (peq : T -> T -> M S bool) (a b : list (list T)) : M S bool :=
  veq_m (veq_m peq) a b.

(** [Iterator::max] / [min] (std, [select_fold1]): keep a selected item, compare it
    with each further item, drop the loser.  [replace o] says whether the outcome
    [o] of [sel.cmp(&x)] makes [x] the selected item: [o <> Gt] for [max]
    (the later of equal items wins), [o = Gt] for [min].  On unwinding the locals
    are dropped: the item under comparison, the iterator, the selected item. *)
Fixpoint select_loop {T} (d : ety S T) (cmp : T -> T -> M S comparison) (replace : comparison -> bool)
    (fuel : nat) (it : iter S T) (sel : T) : M S T :=
  match fuel with
  | 0 => diverge
  | Datatypes.S fuel' => fun s =>
      match next (it, s) with
      | (Ok None, (it', s')) => out_of_scope it' (Ok sel) s'
      | (Ok (Some x), (it', s')) =>
          match cmp sel x s' with
          | (Ok o, s'') => if replace o then select_loop d cmp replace fuel' it' x (e_drop d sel s'')
                           else select_loop d cmp replace fuel' it' sel (e_drop d x s'')
          | (Panic, s'') => owning d sel (out_of_scope it' Panic) (e_drop d x s'')
          | (UB, s'') => (UB, s'')
          | (Diverge, s'') => (Diverge, s'')
          end
      | (Panic, (it', s')) => owning d sel (out_of_scope it' Panic) s'
      | (UB, (_, s')) => (UB, s')
      | (Diverge, (_, s')) => (Diverge, s')
      end
  end.
Definition select {T} (d : ety S T) (cmp : T -> T -> M S comparison) (replace : comparison -> bool)
    (fuel : nat) (it : iter S T) : M S (option T) :=
  fun s =>
    match next (it, s) with
    | (Ok None, (it', s')) => out_of_scope it' (Ok None) s'
    | (Ok (Some x), (it', s')) => (r <- select_loop d cmp replace fuel it' x ;; ret (Some r)) s'
    | (Panic, (it', s')) => out_of_scope it' Panic s'
    | (UB, (_, s')) => (UB, s')
    | (Diverge, (_, s')) => (Diverge, s')
    end.
Definition for_max (o : comparison) : bool := match o with Gt => false | _ => true end.
Definition for_min (o : comparison) : bool := match o with Gt => true | _ => false end.

(** [Vector::max], [min], src/vector.rs:601-613: [self.iter().max().cloned().unwrap()];
    the items are references, dropping them does nothing. *)
Definition vselect_m {T} (replace : comparison -> bool) (clone : T -> M S T) (cmp : T -> T -> M S comparison)
    (n : nat) (v : list T) : M S T :=
  o <- select ref_ety cmp replace n (viter v) ;;
  match o with
  | None => unwrap None
  | Some x => y <- clone x ;; unwrap (Some y)
  end.
Definition vmax_m {T} := @vselect_m T for_max.
Definition vmin_m {T} := @vselect_m T for_min.
(** [Matrix::max], [min], src/matrix/mod.rs:730-741:
    [self.0.iter().map(Vector::max).max().unwrap()]; the row maxima are owned. *)
Definition mmax_m {T} (d : ety S T) (clone : T -> M S T) (cmp : T -> T -> M S comparison) (n : nat)
    (m : list (list T)) : M S T :=
  o <- select d cmp for_max n (imap (vmax_m clone cmp n) (viter m)) ;; unwrap o.
Definition mmin_m {T} (d : ety S T) (clone : T -> M S T) (cmp : T -> T -> M S comparison) (n : nat)
    (m : list (list T)) : M S T :=
  o <- select d cmp for_min n (imap (vmin_m clone cmp n) (viter m)) ;; unwrap o.

(** [std::cmp::max(a, b)]: [if b >= a { b } else { a }];
    [std::cmp::min(a, b)]: [if a <= b { a } else { b }]; on references. *)
Definition cmp_max_m {T} (cmp : T -> T -> M S comparison) (a b : T) : M S T :=
  o <- cmp b a ;; ret (match o with Lt => a | _ => b end).
Definition cmp_min_m {T} (cmp : T -> T -> M S comparison) (a b : T) : M S T :=
  o <- cmp a b ;; ret (match o with Gt => b | _ => a end).
(** [cmp::min(&max, cmp::max(&min, v)).clone()], src/vector.rs:672, 678. *)
Definition clamp_one {T} (clone : T -> M S T) (cmp : T -> T -> M S comparison) (mn mx x : T) : M S T :=
  a <- cmp_max_m cmp mn x ;; b <- cmp_min_m cmp mx a ;; clone b.
(** The by-value parameters [min], [max] are dropped at the end, last first. *)
Definition owning_bounds {T A} (d : ety S T) (mn mx : T) (m : M S A) : M S A :=
  owning d mn (owning d mx m).
(** [Vector::clamped], src/vector.rs:671-673. *)
Definition vclamped_m {T} (c : cfg) (d : ety S T) (clone : T -> M S T) (cmp : T -> T -> M S comparison)
    (n : nat) (v : list T) (mn mx : T) : M S (list T) :=
  owning_bounds d mn mx (from_iter c d n (imap (clamp_one clone cmp mn mx) (viter v))).
(** [Matrix::clamped], src/matrix/mod.rs:805-809. *)
Definition mclamped_m {T} (c : cfg) (d : ety S T) (clone : T -> M S T) (cmp : T -> T -> M S comparison)
    (row col : nat) (m : list (list T)) (mn mx : T) : M S (list (list T)) :=
  owning_bounds d mn mx
    (from_iter c (vec_ety d) row
       (imap (fun r => from_iter c d col (imap (clamp_one clone cmp mn mx) (viter r))) (viter m))).
End Cmp.

Section CmpMut.
Context {S : Type}.
(** [*v = cmp::min(&max, cmp::max(&min, v)).clone()], src/vector.rs:678: the new
    value is computed, then the old one is dropped and overwritten. *)
Definition clamp_slot {T} (d : ety S T) (clone : T -> M S T) (cmp : T -> T -> M S comparison) (mn mx : T)
  : M (T * S) unit :=
  x <- self ;; y <- lift (clamp_one clone cmp mn mx x) ;; lift (tick (e_drop d x)) ;;; set_self y.
(** The parameters of a [&mut self] method, dropped when it ends. *)
Definition owning_mut {X T A} (d : ety S T) (x : T) (m : M (X * S) A) : M (X * S) A :=
  owning (lift_ety d) x m.
(** [Vector::clamp], src/vector.rs:676-680. *)
Definition vclamp_m {T} (d : ety S T) (clone : T -> M S T) (cmp : T -> T -> M S comparison) (mn mx : T)
  : M (list T * S) unit :=
  owning_mut d mn (owning_mut d mx
    (fun ls => iter_mut_for (clamp_slot d clone cmp mn mx) (fst ls) (snd ls))).
(** [Matrix::clamp], src/matrix/mod.rs:812-818. *)
Definition mclamp_m {T} (d : ety S T) (clone : T -> M S T) (cmp : T -> T -> M S comparison) (mn mx : T)
  : M (list (list T) * S) unit :=
  owning_mut d mn (owning_mut d mx
    (fun ms => iter_mut_for
                 (fun rs => iter_mut_for (clamp_slot d clone cmp mn mx) (fst rs) (snd rs))
                 (fst ms) (snd ms))).
End CmpMut.
