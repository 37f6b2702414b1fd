(** * UnwindM.v - the functions that build one number (or three) without collecting into an array, with
    what unwinding does to their temporaries when an element operation panics.

    VectorM.v, OpsM.v and NumM.v model the same functions and leave out the drops of temporaries on the
    panic path.  Here a value that is held while [m] runs is dropped when [m] panics ([hold]); by-value
    arguments of an operator belong to the operator.  PropsUnwind.v proves that the two agree when
    drops are not observable.  No proofs here. *)
From Coq Require Import List Arith Bool.
From Verif Require Import Rust Iter Elem VectorM MatIterM MatrixM ArithM OpsM NumM.
Import ListNotations.

Section Unwind.
Context {S T : Type}.
Variable d : ety S T.
(** Run [m] while the temporary (or local) [x] is alive; [x] is not used up by [m]. *)
Definition hold {A} (x : T) (m : M S A) : M S A :=
  fun s => match m s with
           | (Panic, s') => (Panic, e_drop d x s')
           | (r, s') => (r, s')
           end.
(** [it.fold(st, f)]: as [for_each] of Iter.v; when [next] panics the accumulator is dropped, when [f]
    panics it has been moved into [f]. *)
Fixpoint fold_u {A} (fuel : nat) (it : iter S A) (st : T) (f : T -> A -> M S T) : M S T :=
  match fuel with
  | 0 => diverge
  | Datatypes.S fuel' => fun s =>
      match next (it, s) with
      | (Ok None, (it', s')) => out_of_scope it' (Ok st) s'
      | (Ok (Some x), (it', s')) =>
          match f st x s' with
          | (Ok st', s'') => fold_u fuel' it' st' f s''
          | (Panic, s'') => out_of_scope it' Panic s''
          | (UB, s'') => (UB, s'')
          | (Diverge, s'') => (Diverge, s'')
          end
      | (Panic, (it', s')) => out_of_scope it' Panic (e_drop d st s')
      | (UB, (_, s')) => (UB, s')
      | (Diverge, (_, s')) => (Diverge, s')
      end
  end.
(** [it.fold(init(), f)], as [fold_from] of NumM.v. *)
Definition fold_from_u {A} (fuel : nat) (it : iter S A) (init : M S T) (f : T -> A -> M S T) : M S T :=
  fun s => match init s with
           | (Ok z, s') => fold_u fuel it z f s'
           | (Panic, s') => out_of_scope it Panic s'
           | (UB, s') => (UB, s')
           | (Diverge, s') => (Diverge, s')
           end.

Variable c : cfg.
Variable z : zops S T.
Let o := z_ops z.

(** ** src/vector.rs *)
(** [dot], src/vector.rs:509-512.  [zip] drops the first factor when the clone of the second panics. *)
Definition vdot_u (n : nat) (a b : list T) : M S T :=
  fold_from_u (Datatypes.S n)
    (imap (fun p => o_mul o (fst p) (snd p))
       (zip d (cloned (o_clone o) (viter a)) (cloned (o_clone o) (viter b))))
    (z_zero z) (o_add o).
(** [norm], src/vector.rs:553-556. *)
Definition vnorm_u (powi2 sqrt : T -> M S T) (n : nat) (v : list T) : M S T :=
  prod <- fold_from_u (Datatypes.S n) (imap powi2 (cloned (o_clone o) (viter v))) (z_zero z) (o_add o) ;;
  sqrt prod.
(** [sum], src/vector.rs:579-581. *)
Definition vsum_u (n : nat) (v : list T) : M S T :=
  fold_from_u (Datatypes.S n) (cloned (o_clone o) (viter v)) (z_zero z) (o_add o).
(** [sum], src/matrix/mod.rs:709-711. *)
Definition msum_u (row col : nat) (m : list (list T)) : M S T :=
  fold_from_u (Datatypes.S row) (imap (vsum_u col) (viter m)) (z_zero z) (o_add o).
(** [cross], src/vector.rs:522-539: the entries already computed are temporaries of the array literal. *)
Definition cross_term_u (a b : list T) (i j k l : nat) : M S T :=
  x1 <- vidx c o a i ;; y1 <- hold x1 (vidx c o b j) ;; p1 <- o_mul o x1 y1 ;;
  x2 <- hold p1 (vidx c o a k) ;; y2 <- hold p1 (hold x2 (vidx c o b l)) ;; p2 <- hold p1 (o_mul o x2 y2) ;;
  o_sub o p1 p2.
Definition vcross_u (a b : list T) : M S (list T) :=
  e0 <- cross_term_u a b 1 2 2 1 ;;
  e1 <- hold e0 (cross_term_u a b 2 0 0 2) ;;
  e2 <- hold e0 (hold e1 (cross_term_u a b 0 1 1 0)) ;;
  ret (vnew [e0; e1; e2]).

(** ** src/matrix/ops.rs *)
(** Determinant U1 (lines 31-38) is [det1]: one clone.  U2, src/matrix/ops.rs:40-51. *)
Definition det2_u (m : list (list T)) : M S T :=
  a <- idx c o 2 m 0 0 ;; b <- hold a (idx c o 2 m 1 1) ;; p <- o_mul o a b ;;
  a' <- hold p (idx c o 2 m 1 0) ;; b' <- hold p (hold a' (idx c o 2 m 0 1)) ;; q <- hold p (o_mul o a' b') ;;
  o_sub o p q.
(** U3, src/matrix/ops.rs:53-68. *)
Definition term3_u (m : list (list T)) (i1 j1 i2 j2 i3 j3 : nat) : M S T :=
  a <- idx c o 3 m i1 j1 ;; b <- hold a (idx c o 3 m i2 j2) ;; p <- o_mul o a b ;;
  e <- hold p (idx c o 3 m i3 j3) ;; o_mul o p e.
Definition det3_u (m : list (list T)) : M S T :=
  t1 <- term3_u m 0 0 1 1 2 2 ;;
  t2 <- hold t1 (term3_u m 0 1 1 2 2 0) ;; s1 <- o_add o t1 t2 ;;
  t3 <- hold s1 (term3_u m 0 2 1 0 2 1) ;; s2 <- o_add o s1 t3 ;;
  t4 <- hold s2 (term3_u m 0 2 1 1 2 0) ;; s3 <- o_sub o s2 t4 ;;
  t5 <- hold s3 (term3_u m 0 1 1 0 2 2) ;; s4 <- o_sub o s3 t5 ;;
  t6 <- hold s4 (term3_u m 0 0 1 2 2 1) ;; o_sub o s4 t6.
(** Cofactor U2, src/matrix/ops.rs:137-141; the sign is alive while the entry is looked up. *)
Definition cof2_u (m : list (list T)) (ij : nat * nat) : M S T :=
  let (i, j) := ij in
  sgn <- cof_sign_z c z i j ;;
  x <- hold sgn (a <- usz_sub c 1 i ;; b <- usz_sub c 1 j ;; ix o m a b) ;;
  o_mul o sgn x.
(** Inverse U1, src/matrix/ops.rs:257-264: [d] is alive during [is_zero] and [one()]; it is dropped when
    the function returns [None] and moved into the division otherwise. *)
Definition inv1_u (m : list (list T)) : M S (option (list (list T))) :=
  dd <- idx c o 1 m 0 0 ;;
  flat <- hold dd (z_is_zero z dd) ;;
  if flat : bool then (fun s => (Ok None, e_drop d dd s))
  else u <- hold dd (z_one z) ;; q <- o_div o u dd ;;
       r <- mnew c d 1 [[q]] ;; ret (Some r).
End Unwind.
