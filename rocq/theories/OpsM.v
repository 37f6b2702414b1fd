(** * OpsM.v - model of src/matrix/ops.rs: determinant, cofactor, inverse.
    No proofs here. *)
From Coq Require Import List Arith Bool.
From Verif Require Import Rust Iter Elem VectorM MatIterM MatrixM ArithM.
Import ListNotations.

Section MOps.
Context {S T : Type}.
Variable c : cfg.
Variable d : ety S T.
Variable o : ops S T.

(** [idx!], src/matrix/ops.rs:12-16: type-level index, then clone. *)
Definition idx (n : nat) (m : list (list T)) (i j : nat) : M S T :=
  x <- mindex_static c n n m (i, j) ;; o_clone o x.

(** [mat[(i, j)].clone()]. *)
Definition ix (m : list (list T)) (i j : nat) : M S T := x <- mindex m (i, j) ;; o_clone o x.

(** ** Determinant *)
(** U1, src/matrix/ops.rs:31-38. *)
Definition det1 (m : list (list T)) : M S T := idx 1 m 0 0.

(** U2, src/matrix/ops.rs:40-51. *)
Definition det2 (m : list (list T)) : M S T :=
  a <- idx 2 m 0 0 ;; b <- idx 2 m 1 1 ;; p <- o_mul o a b ;;
  a' <- idx 2 m 1 0 ;; b' <- idx 2 m 0 1 ;; q <- o_mul o a' b' ;;
  o_sub o p q.

(** U3, src/matrix/ops.rs:53-68. *)
Definition term3 (m : list (list T)) (i1 j1 i2 j2 i3 j3 : nat) : M S T :=
  a <- idx 3 m i1 j1 ;; b <- idx 3 m i2 j2 ;; p <- o_mul o a b ;;
  e <- idx 3 m i3 j3 ;; o_mul o p e.
Definition det3 (m : list (list T)) : M S T :=
  t1 <- term3 m 0 0 1 1 2 2 ;;
  t2 <- term3 m 0 1 1 2 2 0 ;; s1 <- o_add o t1 t2 ;;
  t3 <- term3 m 0 2 1 0 2 1 ;; s2 <- o_add o s1 t3 ;;
  t4 <- term3 m 0 2 1 1 2 0 ;; s3 <- o_sub o s2 t4 ;;
  t5 <- term3 m 0 1 1 0 2 2 ;; s4 <- o_sub o s3 t5 ;;
  t6 <- term3 m 0 0 1 2 2 1 ;; o_sub o s4 t6.

(** N > U3, src/matrix/ops.rs:88-116.  [cof] is [self.cofactor]. *)
(** Lines 105-111: row [j] minus [d] times row [i]. *)
Definition elim_row (n i j : nat) (dd : T) (mat : list (list T)) : M S (list (list T)) :=
  for_range 0 n (fun k mat =>
    x <- ix mat j k ;; y <- ix mat i k ;; dc <- o_clone o dd ;;
    p <- o_mul o y dc ;; sub <- o_sub o x p ;;
    mindex_set mat (j, k) sub) mat.
(** Lines 98-102: expansion along column 0. *)
Definition expand_col0 (n : nat) (m : list (list T)) (cof : nat * nat -> M S T) : M S T :=
  fold (Datatypes.S n)
    (imap (fun i => a <- ix m i 0 ;; cf <- cof (i, 0) ;; o_mul o a cf) (range 0 n))
    (o_zero o) (o_add o).
Definition det_big (n : nat) (m : list (list T)) (cof : nat * nat -> M S T) : M S T :=
  mat0 <- mclone c d (o_clone o) n n m ;;
  r <- for_range_ret 0 n (fun i mat =>
         for_range_ret (i + 1) n (fun j mat =>
           piv <- mindex mat (i, i) ;;
           if o_is_zero o piv then v <- expand_col0 n m cof ;; ret (inr v)
           else
             a <- ix mat j i ;; b <- ix mat i i ;;
             dd <- o_div o a b ;;
             mat' <- elim_row n i j dd mat ;;
             ret (inl mat')) mat) mat0 ;;
  match r with
  | inr v => ret v
  | inl mat =>
      fold (Datatypes.S n) (imap (fun i => ix mat i i) (range 0 n)) (o_one o) (o_mul o)
  end.

(** ** Cofactor *)
(** [(i + j) % 2 == 0] on [usize], then [T::one()] or [-T::one()]
    (src/matrix/ops.rs:138, 154, 199). *)
Definition cof_sign (i j : nat) : M S T :=
  s <- usz_add c i j ;;
  if s mod 2 =? 0 then ret (o_one o) else o_neg o (o_one o).

(** U2, src/matrix/ops.rs:137-141. *)
Definition cof2 (m : list (list T)) (ij : nat * nat) : M S T :=
  let (i, j) := ij in
  sgn <- cof_sign i j ;;
  a <- usz_sub c 1 i ;; b <- usz_sub c 1 j ;;
  x <- ix m a b ;;
  o_mul o sgn x.

(** The submatrix without row [i] and column [j], src/matrix/ops.rs:156-159,
    191-197: [rows_iter_ref().enumerate().filter(ii != i).map(|row|
    row.into_iter().enumerate().filter(jj != j).map(clone).collect()).collect()]
    into [(n-1)] x [(n-1)]. *)
Definition submatrix (n : nat) (m : list (list T)) (i j : nat) : M S (list (list T)) :=
  from_iter c (vec_ety d) (n - 1)
    (imap (fun '(_, r) =>
             from_iter c d (n - 1)
               (imap (fun '(_, a) => o_clone o a)
                  (filter (Datatypes.S n) ref_ety (fun '(jj, _) => negb (jj =? j))
                     (enumerate (slice_iter r)))))
       (filter (Datatypes.S n) ref_ety (fun '(ii, _) => negb (ii =? i))
          (enumerate (rows_iter_ref c n m)))).

(** U3, src/matrix/ops.rs:151-162. *)
Definition cof3 (m : list (list T)) (ij : nat * nat) : M S T :=
  let (i, j) := ij in
  assert ((i <? 3) && (j <? 3)) ;;;
  sgn <- cof_sign i j ;;
  arr <- submatrix 3 m i j ;;
  dt <- det2 arr ;;
  o_mul o sgn dt.

(** N > U3, src/matrix/ops.rs:187-206; [det'] is the determinant of size N-1. *)
Definition cof_big (n : nat) (det' : list (list T) -> M S T) (m : list (list T)) (ij : nat * nat) : M S T :=
  let (i, j) := ij in
  assert ((i <? n) && (j <? n)) ;;;
  arr <- submatrix n m i j ;;
  sgn <- cof_sign i j ;;
  dt <- det' arr ;;
  o_mul o sgn dt.

(** [Determinant::determinant] for size [n]: which impl the trait resolution
    picks (U1, U2, U3, N > U3, the latter using the Cofactor impl of the same
    size, which uses the Determinant impl of size N-1).  There is no impl for
    U0; the model returns [UB] there (never used by a theorem). *)
Fixpoint det (n : nat) (m : list (list T)) {struct n} : M S T :=
  match n with
  | 0 => ub
  | 1 => det1 m
  | 2 => det2 m
  | 3 => det3 m
  | Datatypes.S n' => det_big n m (cof_big n (det n') m)
  end.

(** [Cofactor::cofactor] for size [n]; impls exist for [n >= 2]. *)
Definition cofactor (n : nat) (m : list (list T)) (ij : nat * nat) : M S T :=
  match n with
  | 0 | 1 => ub
  | 2 => cof2 m ij
  | 3 => cof3 m ij
  | Datatypes.S n' => cof_big n (det n') m ij
  end.

(** ** Inverse *)
(** U1, src/matrix/ops.rs:257-264. *)
Definition inv1 (m : list (list T)) : M S (option (list (list T))) :=
  dd <- idx 1 m 0 0 ;;
  if o_is_zero o dd then ret None
  else q <- o_div o (o_one o) dd ;;
       r <- mnew c d 1 [[q]] ;; ret (Some r).

(** U2, src/matrix/ops.rs:275-283. *)
Definition inv2 (m : list (list T)) : M S (option (list (list T))) :=
  dt <- det2 m ;;
  if o_is_zero o dt then ret None
  else
    a <- idx 2 m 1 1 ;;
    b <- idx 2 m 0 1 ;; nb <- o_neg o b ;;
    e <- idx 2 m 1 0 ;; ne <- o_neg o e ;;
    f <- idx 2 m 0 0 ;;
    mm <- mnew c d 2 [[a; nb]; [ne; f]] ;;
    r <- mscale c d 2 2 (o_div o) (o_clone o) mm dt ;;
    ret (Some r).

(** U3, src/matrix/ops.rs:294-321; [ms] is the [ms!] macro. *)
Definition ms (m : list (list T)) (i1 j1 i2 j2 i3 j3 i4 j4 : nat) : M S T :=
  a <- idx 3 m i1 j1 ;; b <- idx 3 m i2 j2 ;; p <- o_mul o a b ;;
  e <- idx 3 m i3 j3 ;; f <- idx 3 m i4 j4 ;; q <- o_mul o e f ;;
  o_sub o p q.
Definition inv3 (m : list (list T)) : M S (option (list (list T))) :=
  dt <- det3 m ;;
  if o_is_zero o dt then ret None
  else
    a00 <- ms m 1 1 2 2 1 2 2 1 ;; a01 <- ms m 0 2 2 1 0 1 2 2 ;; a02 <- ms m 0 1 1 2 0 2 1 1 ;;
    a10 <- ms m 1 2 2 0 1 0 2 2 ;; a11 <- ms m 0 0 2 2 0 2 2 0 ;; a12 <- ms m 0 2 1 0 0 0 1 2 ;;
    a20 <- ms m 1 0 2 1 1 1 2 0 ;; a21 <- ms m 0 1 2 0 0 0 2 1 ;; a22 <- ms m 0 0 1 1 0 1 1 0 ;;
    mm <- mnew c d 3 [[a00; a01; a02]; [a10; a11; a12]; [a20; a21; a22]] ;;
    r <- mscale c d 3 3 (o_div o) (o_clone o) mm dt ;;
    ret (Some r).

(** N > U3, src/matrix/ops.rs:355-391.  The loop state is [(mat, inv)]. *)
(** Lines 370-373: scale row [i] of both by [rcp]. *)
Definition scale_rows (n i : nat) (rcp : T) (mi : list (list T) * list (list T))
  : M S (list (list T) * list (list T)) :=
  for_range 0 n (fun j mi =>
    x <- ix (fst mi) i j ;; r <- o_clone o rcp ;; p <- o_mul o x r ;;
    mat' <- mindex_set (fst mi) (i, j) p ;;
    y <- ix (snd mi) i j ;; r' <- o_clone o rcp ;; q <- o_mul o y r' ;;
    inv' <- mindex_set (snd mi) (i, j) q ;;
    ret (mat', inv')) mi.
(** Lines 379-386: subtract [a] times row [i] from row [j] in both. *)
Definition elim_rows (n i j : nat) (a : T) (mi : list (list T) * list (list T))
  : M S (list (list T) * list (list T)) :=
  for_range 0 n (fun k mi =>
    x <- ix (fst mi) j k ;; y <- ix (fst mi) i k ;; a1 <- o_clone o a ;;
    p <- o_mul o y a1 ;; u <- o_sub o x p ;;
    mat' <- mindex_set (fst mi) (j, k) u ;;
    x' <- ix (snd mi) j k ;; y' <- ix (snd mi) i k ;; a2 <- o_clone o a ;;
    p' <- o_mul o y' a2 ;; u' <- o_sub o x' p' ;;
    inv' <- mindex_set (snd mi) (j, k) u' ;;
    ret (mat', inv')) mi.
Definition inv_big (n : nat) (m : list (list T)) : M S (option (list (list T))) :=
  mat0 <- mclone c d (o_clone o) n n m ;;
  inv0 <- midentity c d o n ;;
  r <- for_range_ret 0 n (fun i mi =>
         dd <- ix (fst mi) i i ;;
         if o_is_zero o dd then ret (inr tt)
         else
           rcp <- o_div o (o_one o) dd ;;
           mi1 <- scale_rows n i rcp mi ;;
           mi2 <- for_range 0 n (fun j mi =>
                    if i =? j then ret mi
                    else a <- ix (fst mi) j i ;; elim_rows n i j a mi) mi1 ;;
           ret (inl mi2)) (mat0, inv0) ;;
  match r with
  | inr _ => ret None
  | inl mi => ret (Some (snd mi))
  end.

(** [Inverse::inverse] for size [n] (no impl for U0). *)
Definition inverse (n : nat) (m : list (list T)) : M S (option (list (list T))) :=
  match n with
  | 0 => ub
  | 1 => inv1 m
  | 2 => inv2 m
  | 3 => inv3 m
  | _ => inv_big n m
  end.
End MOps.
