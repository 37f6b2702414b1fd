(** * ArithM.v - model of src/matrix/arith.rs, and of [Matrix::pow]
    (src/matrix/mod.rs:672-680).  No proofs here. *)
From Coq Require Import List Arith Bool.
From Verif Require Import Rust Iter Elem VectorM MatIterM MatrixM.
Import ListNotations.

Section Arith.
Context {S : Type}.

(** [impl_matrix_arith!], the four forms, src/matrix/arith.rs:9-83: the vector
    operator applied to the vectors of rows, whose element operator is the
    vector operator of the same form on rows. *)
Definition mzip_vv {A B C} (c : cfg) (da : ety S A) (db : ety S B) (dc : ety S C) (row col : nat)
    (op : A -> B -> M S C) (a : list (list A)) (b : list (list B)) : M S (list (list C)) :=  (* 10-24 *)
  vzip_vv c (vec_ety da) (vec_ety db) (vec_ety dc) row (vzip_vv c da db dc col op) a b.
Definition mzip_rv {A B C} (c : cfg) (db : ety S B) (dc : ety S C) (row col : nat)
    (op : A -> B -> M S C) (a : list (list A)) (b : list (list B)) : M S (list (list C)) :=  (* 26-40 *)
  vzip_rv c (vec_ety db) (vec_ety dc) row (vzip_rv c db dc col op) a b.
Definition mzip_vr {A B C} (c : cfg) (da : ety S A) (dc : ety S C) (row col : nat)
    (op : A -> B -> M S C) (a : list (list A)) (b : list (list B)) : M S (list (list C)) :=  (* 42-56 *)
  vzip_vr c (vec_ety da) (vec_ety dc) row (vzip_vr c da dc col op) a b.
Definition mzip_rr {A B C} (c : cfg) (dc : ety S C) (row col : nat)
    (op : A -> B -> M S C) (a : list (list A)) (b : list (list B)) : M S (list (list C)) :=  (* 58-73 *)
  vzip_rr c (vec_ety dc) row (vzip_rr c dc col op) a b.

(** [AddAssign], [SubAssign], src/matrix/arith.rs:85-113. *)
Definition mop_assign {T U} (c : cfg) (du : ety S U) (row col : nat) (op_assign : U -> M (T * S) unit)
    (rhs : list (list U)) : M (list (list T) * S) unit :=
  fun ms =>
    iter_mut_zip_for (into_it c (vec_ety du) row rhs)
      (fun rrow => fun rs => iter_mut_zip_for (into_it c du col rrow) op_assign (fst rs) (snd rs))
      (fst ms) (snd ms).

(** [Neg], src/matrix/arith.rs:115-126. *)
Definition mneg {T C} (c : cfg) (d : ety S T) (dc : ety S C) (row col : nat) (neg : T -> M S C)
    (m : list (list T)) : M S (list (list C)) :=
  from_iter c (vec_ety dc) row
    (imap (vneg c d dc col neg) (into_it c (vec_ety d) row m)).

(** [Mul<T>], [Div<T>], src/matrix/arith.rs:130-141, 317-330. *)
Definition mscale {T} (c : cfg) (d : ety S T) (row col : nat) (op : T -> T -> M S T) (clone : T -> M S T)
    (m : list (list T)) (rhs : T) : M S (list (list T)) :=
  from_iter c (vec_ety d) row
    (imap (fun r => s <- clone rhs ;; vscale c d d col op clone r s) (into_it c (vec_ety d) row m)).

(** [Mul<&T>], [Div<&T>], src/matrix/arith.rs:143-154, 332-345: the vector
    operator with [U = &T], whose clone copies the reference. *)
Definition mscale_ref {T} (c : cfg) (d : ety S T) (row col : nat) (op : T -> T -> M S T)
    (m : list (list T)) (rhs : T) : M S (list (list T)) :=
  from_iter c (vec_ety d) row
    (imap (fun r => vscale c d d col op (fun x => ret x) r rhs) (into_it c (vec_ety d) row m)).

(** [MulAssign<T>], [DivAssign<T>], src/matrix/arith.rs:156-169, 347-360. *)
Definition mscale_assign {T} (op_assign : T -> M (T * S) unit) (clone : T -> M S T) (rhs : T)
  : M (list (list T) * S) unit :=
  fun ms =>
    iter_mut_for
      (fun rs => iter_mut_for (r <- lift (clone rhs) ;; op_assign r) (fst rs) (snd rs))
      (fst ms) (snd ms).

(** One entry of a product, src/matrix/arith.rs:186-187 (also 246-247, 261-262):
    [lrow.iter().cloned().zip(rcol.cloned()).map(|(a,b)| a*b).fold(T::zero(), Add::add)]
    where [rcol] iterates over a column of [rhs] ([n] x [rc]). *)
Definition entry_cloned {T} (c : cfg) (d : ety S T) (o : ops S T) (n rc : nat) (rhs : list (list T))
    (lrow : list T) (rcol : nat * cursor) : M S T :=
  fold (Datatypes.S n)
    (imap (fun p => o_mul o (fst p) (snd p))
       (zip d (cloned (o_clone o) (slice_iter lrow))
          (cloned (o_clone o) (cin_iter c n rc rhs rcol))))
    (o_zero o) (o_add o).
(** The same without cloning the right operand, src/matrix/arith.rs:206-207, 226-227. *)
Definition entry_ref {T} (c : cfg) (d : ety S T) (o : ops S T) (n rc : nat) (rhs : list (list T))
    (lrow : list T) (rcol : nat * cursor) : M S T :=
  fold (Datatypes.S n)
    (imap (fun p => o_mul o (fst p) (snd p))
       (zip d (cloned (o_clone o) (slice_iter lrow)) (cin_iter c n rc rhs rcol)))
    (o_zero o) (o_add o).

(** [Mul<Matrix>], the four forms, src/matrix/arith.rs:173-251; [self] is
    [lr] x [n], [rhs] is [n] x [rc]. *)
Definition mmul_vv {T} (c : cfg) (d : ety S T) (o : ops S T) (lr n rc : nat) (a b : list (list T))
  : M S (list (list T)) :=   (* 183-190 *)
  from_iter c (vec_ety d) lr
    (imap (fun lrow =>
             from_iter c d rc (imap (entry_cloned c d o n rc b lrow) (cols_iter_ref c n rc)))
       (rows_iter_ref c lr a)).
Definition mmul_vr {T} (c : cfg) (d : ety S T) (o : ops S T) (lr n rc : nat) (a b : list (list T))
  : M S (list (list T)) :=   (* 203-210 *)
  from_iter c (vec_ety d) lr
    (imap (fun lrow =>
             from_iter c d rc (imap (entry_ref c d o n rc b lrow) (cols_iter_ref c n rc)))
       (rows_iter_ref c lr a)).
Definition mmul_rr {T} (c : cfg) (d : ety S T) (o : ops S T) (lr n rc : nat) (a b : list (list T))
  : M S (list (list T)) :=   (* 223-230 *)
  from_iter c (vec_ety d) lr
    (imap (fun lrow =>
             from_iter c d rc (imap (entry_ref c d o n rc b lrow) (cols_iter_ref c n rc)))
       (rows_iter_ref c lr a)).
Definition mmul_rv {T} (c : cfg) (d : ety S T) (o : ops S T) (lr n rc : nat) (a b : list (list T))
  : M S (list (list T)) :=   (* 243-250 *)
  from_iter c (vec_ety d) lr
    (imap (fun lrow =>
             from_iter c d rc (imap (entry_cloned c d o n rc b lrow) (cols_iter_ref c n rc)))
       (rows_iter_ref c lr a)).

(** [MulAssign<Matrix>] (square), src/matrix/arith.rs:253-266. *)
Definition mmul_assign {T} (c : cfg) (d : ety S T) (o : ops S T) (n : nat) (rhs : list (list T))
  : M (list (list T) * S) unit :=
  m <- self ;;
  m' <- lift (from_iter c (vec_ety d) n
    (imap (fun lrow =>
             from_iter c d n (imap (entry_cloned c d o n n rhs lrow) (cols_iter_ref c n n)))
       (rows_iter_ref c n m))) ;;
  set_self m'.

(** [Mul<Vector>], src/matrix/arith.rs:277-294.  [row.into_iter()] on a
    [&[T]] is the slice iterator; the left factor is cloned inside the closure. *)
Definition mmulv {T} (c : cfg) (d : ety S T) (o : ops S T) (row col : nat) (m : list (list T)) (v : list T)
  : M S (list T) :=
  from_iter c d row
    (imap (fun r =>
             fold (Datatypes.S col)
               (imap (fun p => a <- o_clone o (fst p) ;; o_mul o a (snd p))
                  (zip ref_ety (slice_iter r) (cloned (o_clone o) (viter v))))
               (o_zero o) (o_add o))
       (rows_iter_ref c row m)).

(** [Mul<&Vector>], src/matrix/arith.rs:296-313: consumes the rows. *)
Definition mmulv_ref {T} (c : cfg) (d : ety S T) (o : ops S T) (row col : nat) (m : list (list T)) (v : list T)
  : M S (list T) :=
  from_iter c d row
    (imap (fun r =>
             fold (Datatypes.S col)
               (imap (fun p => o_mul o (fst p) (snd p)) (zip d (into_it c d col r) (viter v)))
               (o_zero o) (o_add o))
       (into_it c (vec_ety d) row m)).

(** [num::pow::pow] (num 0.1.36, external): exponentiation by squaring.
    [mul] is [T: Mul], [clone] [T: Clone], [one] [T::one()].
    First loop: [while exp & 1 == 0 { base = base.clone() * base; exp >>= 1 }];
    second loop: [while exp > 1 { exp >>= 1; base = base.clone() * base;
                   if exp & 1 == 1 { acc = acc * base.clone() } }].
    [fuel] bounds the iterations ([exp] itself is enough). *)
Fixpoint pow_loop1 {T} (mul : T -> T -> M S T) (clone : T -> M S T) (fuel : nat) (base : T) (e : nat)
  : M S (T * nat) :=
  match fuel with
  | 0 => diverge
  | Datatypes.S fuel' =>
      if Nat.even e
      then b <- clone base ;; base' <- mul b base ;; pow_loop1 mul clone fuel' base' (Nat.div2 e)
      else ret (base, e)
  end.
Fixpoint pow_loop2 {T} (mul : T -> T -> M S T) (clone : T -> M S T) (fuel : nat) (base acc : T) (e : nat)
  : M S T :=
  if 1 <? e then
    match fuel with
    | 0 => diverge
    | Datatypes.S fuel' =>
        let e' := Nat.div2 e in
        b <- clone base ;; base' <- mul b base ;;
        acc' <- (if Nat.odd e' then b' <- clone base' ;; mul acc b' else ret acc) ;;
        pow_loop2 mul clone fuel' base' acc' e'
    end
  else ret acc.
Definition num_pow {T} (mul : T -> T -> M S T) (clone : T -> M S T) (one : M S T) (base : T) (e : nat)
  : M S T :=
  if e =? 0 then one
  else
    '(base, e) <- pow_loop1 mul clone e base e ;;
    if e =? 1 then ret base
    else acc <- clone base ;; pow_loop2 mul clone e base acc e.

(** [Matrix::pow], src/matrix/mod.rs:677-679. *)
Definition mpow {T} (c : cfg) (d : ety S T) (o : ops S T) (n : nat) (m : list (list T)) (e : nat)
  : M S (list (list T)) :=
  m' <- mclone c d (o_clone o) n n m ;;
  num_pow (mmul_vv c d o n n n) (mclone c d (o_clone o) n n) (mone c d o n) m' e.
End Arith.
