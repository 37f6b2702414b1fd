(** * ScopeM.v - the functions with the drops that the compiler inserts: by-value parameters and local
    variables at the end of their scope, temporaries at the end of their expression, and the old value
    of a place that is assigned to.

    ArithM.v, OpsM.v and NumM.v leave these out; they are the same functions otherwise (C103_agrees,
    PropsAccount.v).  The functions that are not here have no such drops (their operands are references, or
    are moved into iterators and operators).  What unwinding drops after a panic is left out here too,
    except for what iterators and arrays own.
    No proofs here. *)
From Coq Require Import List Arith Bool.
From Verif Require Import Rust Iter Elem VectorM MatIterM MatrixM ArithM OpsM NumM.
Import ListNotations.

Section Scope.
Context {S T : Type}.
Variable c : cfg.
Variable d : ety S T.
Variable z : zops S T.
Let o := z_ops z.

Definition drop_val (x : T) : M S unit := fun s => (Ok tt, e_drop d x s).
Definition drop_vec (v : list T) : M S unit := fun s => (Ok tt, drop_all d v s).
Definition drop_mat (m : list (list T)) : M S unit := fun s => (Ok tt, drop_all (vec_ety d) m s).

(** [Mul<U>], [Div<U>] of a vector, src/vector.rs:407-419, 434-446: [rhs] is a parameter by value. *)
Definition vscale_s (n : nat) (op : T -> T -> M S T) (v : list T) (rhs : T) : M S (list T) :=
  r <- vscale c d d n op (o_clone o) v rhs ;; drop_val rhs ;;; ret r.
(** [Mul<T>], [Div<T>] of a matrix, src/matrix/arith.rs:130-141, 317-330. *)
Definition mscale_s (row col : nat) (op : T -> T -> M S T) (m : list (list T)) (rhs : T) : M S (list (list T)) :=
  r <- from_iter c (vec_ety d) row
         (imap (fun r => k <- o_clone o rhs ;; vscale_s col op r k) (into_it c (vec_ety d) row m)) ;;
  drop_val rhs ;;; ret r.
(** [normalized], src/vector.rs:558-561. *)
Definition vnormalized_s (powi2 sqrt : T -> M S T) (n : nat) (v : list T) : M S (list T) :=
  cl <- vclone c d n (o_clone o) v ;;
  nm <- vnorm_z z powi2 sqrt n v ;;
  vscale_s n (o_div o) cl nm.
(** [transpose], src/matrix/mod.rs:224-226: the old matrix is dropped when [*self] is assigned to. *)
Definition mtranspose_s (n : nat) (m : list (list T)) : M S (list (list T)) :=
  m' <- mtransposed c d (o_clone o) n n m ;; drop_mat m ;;; ret m'.

(** [Mul<Matrix>], src/matrix/arith.rs:173-251: the parameters are dropped in reverse order. *)
Definition mmul_vv_s (lr n rc : nat) (a b : list (list T)) : M S (list (list T)) :=
  r <- mmul_vv_z c d z lr n rc a b ;; drop_mat b ;;; drop_mat a ;;; ret r.
Definition mmul_vr_s (lr n rc : nat) (a b : list (list T)) : M S (list (list T)) :=
  r <- mmul_vr_z c d z lr n rc a b ;; drop_mat a ;;; ret r.
Definition mmul_rv_s (lr n rc : nat) (a b : list (list T)) : M S (list (list T)) :=
  r <- mmul_rv_z c d z lr n rc a b ;; drop_mat b ;;; ret r.
(** [MulAssign<Matrix>], src/matrix/arith.rs:253-266: the new value of [*self]. *)
Definition mmul_assign_s (n : nat) (rhs m : list (list T)) : M S (list (list T)) :=
  r <- mmul_vv_z c d z n n n m rhs ;; drop_mat m ;;; drop_mat rhs ;;; ret r.
(** [Mul<Vector>], src/matrix/arith.rs:277-294. *)
Definition mmulv_s (row col : nat) (m : list (list T)) (v : list T) : M S (list T) :=
  r <- mmulv_z c d z row col m v ;; drop_vec v ;;; drop_mat m ;;; ret r.

(** [num::pow::pow] (num 0.1.36, external), as in ArithM.v: the last [base] is dropped, except when it
    is the result. *)
Fixpoint pow_loop2_s (n fuel : nat) (base acc : list (list T)) (e : nat) : M S (list (list T)) :=
  let mul := mmul_vv_s n n n in let clone := mclone c d (o_clone o) n n in
  if 1 <? e then
    match fuel with
    | 0 => diverge
    | Datatypes.S fuel' =>
        let e' := Nat.div2 e in
        b <- clone base ;; base' <- mul b base ;;
        acc' <- (if Nat.odd e' then b' <- clone base' ;; mul acc b' else ret acc) ;;
        pow_loop2_s n fuel' base' acc' e'
    end
  else drop_mat base ;;; ret acc.
Definition mpow_s (n : nat) (m : list (list T)) (e : nat) : M S (list (list T)) :=
  let mul := mmul_vv_s n n n in let clone := mclone c d (o_clone o) n n in
  base <- clone m ;;
  if e =? 0 then r <- midentity_z c d z n ;; drop_mat base ;;; ret r
  else
    '(base, e) <- pow_loop1 mul clone e base e ;;
    if e =? 1 then ret base
    else acc <- clone base ;; pow_loop2_s n e base acc e.

(** [mat[(i, j)] = x] drops the old element. *)
Definition store (m : list (list T)) (ij : nat * nat) (x : T) : M S (list (list T)) :=
  old <- mindex m ij ;; drop_val old ;;; mindex_set m ij x.

(** [determinant], N > U3, src/matrix/ops.rs:88-116. *)
Definition elim_row_s (n i j : nat) (dd : T) (mat : list (list T)) : M S (list (list T)) :=
  for_range 0 n (fun k mat =>
    x <- ix o mat j k ;; y <- ix o mat i k ;; dc <- o_clone o dd ;;
    p <- o_mul o y dc ;; sub <- o_sub o x p ;;
    store mat (j, k) sub) mat.
Definition det_big_s (n : nat) (m : list (list T)) (cof : nat * nat -> M S T) : M S T :=
  mat0 <- mclone c d (o_clone o) n n m ;;
  r <- for_range_ret 0 n (fun i mat =>
         for_range_ret (i + 1) n (fun j mat =>
           piv <- mindex mat (i, i) ;;
           flat <- z_is_zero z piv ;;
           if flat : bool then v <- expand_col0_z z n m cof ;; drop_mat mat ;;; ret (inr v)
           else
             a <- ix o mat j i ;; b <- ix o mat i i ;;
             dd <- o_div o a b ;;
             mat' <- elim_row_s n i j dd mat ;;
             drop_val dd ;;;
             ret (inl mat')) mat) mat0 ;;
  match r with
  | inr v => ret v
  | inl mat =>
      p <- fold_from (Datatypes.S n) (imap (fun i => ix o mat i i) (range 0 n)) (z_one z) (o_mul o) ;;
      drop_mat mat ;;; ret p
  end.

(** [cofactor], src/matrix/ops.rs:151-162 and 187-206: the minor is a temporary. *)
Definition cof3_s (m : list (list T)) (ij : nat * nat) : M S T :=
  let (i, j) := ij in
  assert ((i <? 3) && (j <? 3)) ;;;
  sgn <- cof_sign_z c z i j ;;
  arr <- submatrix c d o 3 m i j ;;
  dt <- det2 c o arr ;;
  r <- o_mul o sgn dt ;; drop_mat arr ;;; ret r.
Definition cof_big_s (n : nat) (det' : list (list T) -> M S T) (m : list (list T)) (ij : nat * nat) : M S T :=
  let (i, j) := ij in
  assert ((i <? n) && (j <? n)) ;;;
  arr <- submatrix c d o n m i j ;;
  sgn <- cof_sign_z c z i j ;;
  dt <- det' arr ;;
  r <- o_mul o sgn dt ;; drop_mat arr ;;; ret r.
Fixpoint det_s (n : nat) (m : list (list T)) {struct n} : M S T :=
  match n with
  | 0 => ub
  | 1 => det1 c o m
  | 2 => det2 c o m
  | 3 => det3 c o m
  | Datatypes.S n' => det_big_s n m (cof_big_s n (det_s n') m)
  end.
Definition cofactor_s (n : nat) (m : list (list T)) (ij : nat * nat) : M S T :=
  match n with
  | 0 | 1 => ub
  | 2 => cof2_z c z m ij
  | 3 => cof3_s m ij
  | Datatypes.S n' => cof_big_s n (det_s n') m ij
  end.

(** [inverse], src/matrix/ops.rs:257-264, 275-283, 294-321, 355-391. *)
Definition inv1_s (m : list (list T)) : M S (option (list (list T))) :=
  dd <- idx c o 1 m 0 0 ;;
  flat <- z_is_zero z dd ;;
  if flat : bool then drop_val dd ;;; ret None
  else u <- z_one z ;; q <- o_div o u dd ;;
       r <- mnew c d 1 [[q]] ;; ret (Some r).
Definition inv2_s (m : list (list T)) : M S (option (list (list T))) :=
  dt <- det2 c o m ;;
  flat <- z_is_zero z dt ;;
  if flat : bool then drop_val dt ;;; ret None
  else
    a <- idx c o 2 m 1 1 ;;
    b <- idx c o 2 m 0 1 ;; nb <- o_neg o b ;;
    e <- idx c o 2 m 1 0 ;; ne <- o_neg o e ;;
    f <- idx c o 2 m 0 0 ;;
    mm <- mnew c d 2 [[a; nb]; [ne; f]] ;;
    r <- mscale_s 2 2 (o_div o) mm dt ;;
    ret (Some r).
Definition inv3_s (m : list (list T)) : M S (option (list (list T))) :=
  dt <- det3 c o m ;;
  flat <- z_is_zero z dt ;;
  if flat : bool then drop_val dt ;;; ret None
  else
    let ms := ms c o m in
    a00 <- ms 1 1 2 2 1 2 2 1 ;; a01 <- ms 0 2 2 1 0 1 2 2 ;; a02 <- ms 0 1 1 2 0 2 1 1 ;;
    a10 <- ms 1 2 2 0 1 0 2 2 ;; a11 <- ms 0 0 2 2 0 2 2 0 ;; a12 <- ms 0 2 1 0 0 0 1 2 ;;
    a20 <- ms 1 0 2 1 1 1 2 0 ;; a21 <- ms 0 1 2 0 0 0 2 1 ;; a22 <- ms 0 0 1 1 0 1 1 0 ;;
    mm <- mnew c d 3 [[a00; a01; a02]; [a10; a11; a12]; [a20; a21; a22]] ;;
    r <- mscale_s 3 3 (o_div o) mm dt ;;
    ret (Some r).
Definition scale_rows_s (n i : nat) (rcp : T) (mi : list (list T) * list (list T))
  : M S (list (list T) * list (list T)) :=
  for_range 0 n (fun j mi =>
    x <- ix o (fst mi) i j ;; r <- o_clone o rcp ;; p <- o_mul o x r ;;
    mat' <- store (fst mi) (i, j) p ;;
    y <- ix o (snd mi) i j ;; r' <- o_clone o rcp ;; q <- o_mul o y r' ;;
    inv' <- store (snd mi) (i, j) q ;;
    ret (mat', inv')) mi.
Definition elim_rows_s (n i j : nat) (a : T) (mi : list (list T) * list (list T))
  : M S (list (list T) * list (list T)) :=
  for_range 0 n (fun k mi =>
    x <- ix o (fst mi) j k ;; y <- ix o (fst mi) i k ;; a1 <- o_clone o a ;;
    p <- o_mul o y a1 ;; u <- o_sub o x p ;;
    mat' <- store (fst mi) (j, k) u ;;
    x' <- ix o (snd mi) j k ;; y' <- ix o (snd mi) i k ;; a2 <- o_clone o a ;;
    p' <- o_mul o y' a2 ;; u' <- o_sub o x' p' ;;
    inv' <- store (snd mi) (j, k) u' ;;
    ret (mat', inv')) mi.
Definition inv_big_s (n : nat) (m : list (list T)) : M S (option (list (list T))) :=
  mat0 <- mclone c d (o_clone o) n n m ;;
  inv0 <- midentity_z c d z n ;;
  r <- for_range_ret 0 n (fun i mi =>
         dd <- ix o (fst mi) i i ;;
         flat <- z_is_zero z dd ;;
         if flat : bool then drop_val dd ;;; drop_mat (snd mi) ;;; drop_mat (fst mi) ;;; ret (inr tt)
         else
           u <- z_one z ;;
           rcp <- o_div o u dd ;;
           mi1 <- scale_rows_s n i rcp mi ;;
           mi2 <- for_range 0 n (fun j mi =>
                    if i =? j then ret mi
                    else a <- ix o (fst mi) j i ;; mi' <- elim_rows_s n i j a mi ;; drop_val a ;;; ret mi') mi1 ;;
           drop_val rcp ;;;
           ret (inl mi2)) (mat0, inv0) ;;
  match r with
  | inr _ => ret None
  | inl mi => drop_mat (fst mi) ;;; ret (Some (snd mi))
  end.
Definition inverse_s (n : nat) (m : list (list T)) : M S (option (list (list T))) :=
  match n with
  | 0 => ub
  | 1 => inv1_s m
  | 2 => inv2_s m
  | 3 => inv3_s m
  | _ => inv_big_s n m
  end.
End Scope.
