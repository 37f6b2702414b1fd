(** * NumM.v - the functions that call [T::zero()], [T::one()], [T::min_value()], [T::max_value()] or
    [is_zero], for element types where these calls may have side effects and may panic.

    VectorM.v, MatrixM.v, ArithM.v and OpsM.v model the same functions for element types where zero, one
    and the bounds are constants and [is_zero] is pure; PropsNum.v proves that the two agree there.
    No proofs here. *)
From Coq Require Import List Arith Bool.
From Verif Require Import Rust Iter Elem VectorM MatIterM MatrixM ArithM OpsM.
Import ListNotations.

(** The element operations.  Of [z_ops] only addition, subtraction, multiplication, division, negation and
    clone are used; its constants are never looked at. *)
Record zops (S T : Type) := Zops {
  z_ops : ops S T;
  z_zero : M S T;                 (* num::Zero::zero *)
  z_one : M S T;                  (* num::One::one *)
  z_is_zero : T -> M S bool }.    (* num::Zero::is_zero *)
Arguments Zops {S T}.
Arguments z_ops {S T} _.
Arguments z_zero {S T} _.
Arguments z_one {S T} _.
Arguments z_is_zero {S T} _ _.

Section Num.
Context {S : Type}.

(** [it.fold(init(), f)]: the receiver [it] is evaluated first, then the call [init()]; if that panics,
    [it] is dropped. *)
Definition fold_from {A B} (fuel : nat) (it : iter S A) (init : M S B) (f : B -> A -> M S B) : M S B :=
  fun s => match init s with
           | (Ok z, s') => fold fuel it z f s'
           | (Panic, s') => out_of_scope it Panic s'
           | (UB, s') => (UB, s')
           | (Diverge, s') => (Diverge, s')
           end.

(** ** src/vector.rs *)
(** [num::Zero::zero], src/vector.rs:217-220. *)
Definition vzero_z {T} (c : cfg) (d : ety S T) (z : zops S T) (n : nat) : M S (list T) :=
  vgenerate c d n (fun _ => z_zero z).
(** [is_zero], src/vector.rs:222-225. *)
Definition vis_zero_z {T} (z : zops S T) (n : nat) (v : list T) : M S bool :=
  iall (Datatypes.S n) (viter v) (z_is_zero z).
(** [min_value], [max_value], src/vector.rs:228-238; [bound] is the element's. *)
Definition vbounded_z {T} (c : cfg) (d : ety S T) (n : nat) (bound : M S T) : M S (list T) :=
  vgenerate c d n (fun _ => bound).
(** [dot], src/vector.rs:509-512. *)
Definition vdot_z {T} (z : zops S T) (n : nat) (a b : list T) : M S T :=
  fold_from (Datatypes.S n)
    (imap (fun p => o_mul (z_ops z) (fst p) (snd p))
       (zip ref_ety (cloned (o_clone (z_ops z)) (viter a)) (cloned (o_clone (z_ops z)) (viter b))))
    (z_zero z) (o_add (z_ops z)).
(** [norm], src/vector.rs:553-556; [powi2] is [x.powi(2)]. *)
Definition vnorm_z {T} (z : zops S T) (powi2 sqrt : T -> M S T) (n : nat) (v : list T) : M S T :=
  prod <- fold_from (Datatypes.S n) (imap powi2 (cloned (o_clone (z_ops z)) (viter v)))
            (z_zero z) (o_add (z_ops z)) ;;
  sqrt prod.
(** [sum], src/vector.rs:579-581. *)
Definition vsum_z {T} (z : zops S T) (n : nat) (v : list T) : M S T :=
  fold_from (Datatypes.S n) (cloned (o_clone (z_ops z)) (viter v)) (z_zero z) (o_add (z_ops z)).

(** ** src/matrix/mod.rs *)
(** [num::Zero], src/matrix/mod.rs:618-625. *)
Definition mzero_z {T} (c : cfg) (d : ety S T) (z : zops S T) (row col : nat) : M S (list (list T)) :=
  mgenerate c d row col (fun _ => z_zero z).
Definition mis_zero_z {T} (z : zops S T) (row col : nat) (m : list (list T)) : M S bool :=
  iall (Datatypes.S row) (viter m) (fun r => iall (Datatypes.S col) (viter r) (z_is_zero z)).
(** [num::Bounded], src/matrix/mod.rs:637-652. *)
Definition mbounded_z {T} (c : cfg) (d : ety S T) (bound : M S T) (row col : nat) : M S (list (list T)) :=
  mgenerate c d row col (fun _ => bound).
(** [identity], src/matrix/mod.rs:217-221; [one], 661-670. *)
Definition midentity_z {T} (c : cfg) (d : ety S T) (z : zops S T) (n : nat) : M S (list (list T)) :=
  mgenerate c d n n (fun '(i, j) => if i =? j then z_one z else z_zero z).
(** [sum], src/matrix/mod.rs:709-711. *)
Definition msum_z {T} (z : zops S T) (row col : nat) (m : list (list T)) : M S T :=
  fold_from (Datatypes.S row) (imap (vsum_z z col) (viter m)) (z_zero z) (o_add (z_ops z)).

(** ** src/matrix/arith.rs *)
(** One entry of a product, src/matrix/arith.rs:186-187, 246-247, 261-262 ... *)
Definition entry_cloned_z {T} (c : cfg) (d : ety S T) (z : zops S T) (n rc : nat) (rhs : list (list T))
    (lrow : list T) (rcol : nat * cursor) : M S T :=
  fold_from (Datatypes.S n)
    (imap (fun p => o_mul (z_ops z) (fst p) (snd p))
       (zip d (cloned (o_clone (z_ops z)) (slice_iter lrow))
          (cloned (o_clone (z_ops z)) (cin_iter c n rc rhs rcol))))
    (z_zero z) (o_add (z_ops z)).
(** ... and 206-207, 226-227. *)
Definition entry_ref_z {T} (c : cfg) (d : ety S T) (z : zops S T) (n rc : nat) (rhs : list (list T))
    (lrow : list T) (rcol : nat * cursor) : M S T :=
  fold_from (Datatypes.S n)
    (imap (fun p => o_mul (z_ops z) (fst p) (snd p))
       (zip d (cloned (o_clone (z_ops z)) (slice_iter lrow)) (cin_iter c n rc rhs rcol)))
    (z_zero z) (o_add (z_ops z)).
(** [Mul<Matrix>], the four forms, src/matrix/arith.rs:173-251: [entry] is [entry_cloned_z] for
    [a * b] (183-190) and [&a * b] (243-250), [entry_ref_z] for [a * &b] (203-210) and [&a * &b] (223-230). *)
Definition mmul_z {T} (c : cfg) (d : ety S T) (lr n rc : nat)
    (entry : list (list T) -> list T -> nat * cursor -> M S T) (a b : list (list T)) : M S (list (list T)) :=
  from_iter c (vec_ety d) lr
    (imap (fun lrow => from_iter c d rc (imap (entry b lrow) (cols_iter_ref c n rc)))
       (rows_iter_ref c lr a)).
Definition mmul_vv_z {T} (c : cfg) (d : ety S T) (z : zops S T) (lr n rc : nat) :=
  mmul_z c d lr n rc (entry_cloned_z c d z n rc).
Definition mmul_vr_z {T} (c : cfg) (d : ety S T) (z : zops S T) (lr n rc : nat) :=
  mmul_z c d lr n rc (entry_ref_z c d z n rc).
Definition mmul_rr_z {T} (c : cfg) (d : ety S T) (z : zops S T) (lr n rc : nat) :=
  mmul_z c d lr n rc (entry_ref_z c d z n rc).
Definition mmul_rv_z {T} (c : cfg) (d : ety S T) (z : zops S T) (lr n rc : nat) :=
  mmul_z c d lr n rc (entry_cloned_z c d z n rc).
(** [MulAssign<Matrix>], src/matrix/arith.rs:253-266. *)
Definition mmul_assign_z {T} (c : cfg) (d : ety S T) (z : zops S T) (n : nat) (rhs : list (list T))
  : M (list (list T) * S) unit :=
  m <- self ;;
  m' <- lift (mmul_z c d n n n (entry_cloned_z c d z n n) m rhs) ;;
  set_self m'.
(** [Mul<Vector>], src/matrix/arith.rs:277-294. *)
Definition mmulv_z {T} (c : cfg) (d : ety S T) (z : zops S T) (row col : nat) (m : list (list T)) (v : list T)
  : M S (list T) :=
  from_iter c d row
    (imap (fun r =>
             fold_from (Datatypes.S col)
               (imap (fun p => a <- o_clone (z_ops z) (fst p) ;; o_mul (z_ops z) a (snd p))
                  (zip ref_ety (slice_iter r) (cloned (o_clone (z_ops z)) (viter v))))
               (z_zero z) (o_add (z_ops z)))
       (rows_iter_ref c row m)).
(** [Mul<&Vector>], src/matrix/arith.rs:296-313: the row being worked on is owned by the iterator. *)
Definition mmulv_ref_z {T} (c : cfg) (d : ety S T) (z : zops S T) (row col : nat) (m : list (list T)) (v : list T)
  : M S (list T) :=
  from_iter c d row
    (imap (fun r =>
             fold_from (Datatypes.S col)
               (imap (fun p => o_mul (z_ops z) (fst p) (snd p)) (zip d (into_it c d col r) (viter v)))
               (z_zero z) (o_add (z_ops z)))
       (into_it c (vec_ety d) row m)).
(** [pow], src/matrix/mod.rs:677-679. *)
Definition mpow_z {T} (c : cfg) (d : ety S T) (z : zops S T) (n : nat) (m : list (list T)) (e : nat)
  : M S (list (list T)) :=
  m' <- mclone c d (o_clone (z_ops z)) n n m ;;
  num_pow (mmul_vv_z c d z n n n) (mclone c d (o_clone (z_ops z)) n n) (midentity_z c d z n) m' e.
End Num.

Section NumDiag.
Context {S : Type}.
(** [diag], src/matrix/mod.rs:115-130. *)
Definition mdiag_z {T} (c : cfg) (d : ety S T) (z : zops S T) (row col k : nat) (elems : list T)
  : M S (list (list T)) :=
  fun s =>
    let '(r, (ii, s')) :=
      mgenerate c (lift_ety d) row col
        (fun '(i, j) => if i =? j
                        then x <- ii_next_fn c d k ;; unwrap x
                        else lift (z_zero z))
        (into_iter k (vnew elems), s) in
    match r with
    | Ok m => (ii_drop d ii ;;; ret m) s'
    | Panic => (ii_drop d ii ;;; panic) s'
    | UB => (UB, s')
    | Diverge => (Diverge, s')
    end.
End NumDiag.

(** ** src/matrix/ops.rs *)
Section NumOps.
Context {S T : Type}.
Variable c : cfg.
Variable d : ety S T.
Variable z : zops S T.
Let o := z_ops z.

(** N > U3, src/matrix/ops.rs:88-116. *)
(** Lines 98-102. *)
Definition expand_col0_z (n : nat) (m : list (list T)) (cof : nat * nat -> M S T) : M S T :=
  fold_from (Datatypes.S n)
    (imap (fun i => a <- ix o m i 0 ;; cf <- cof (i, 0) ;; o_mul o a cf) (range 0 n))
    (z_zero z) (o_add o).
Definition det_big_z (n : nat) (m : list (list T)) (cof : nat * nat -> M S T) : M S T :=
  mat0 <- mclone c d (o_clone o) n n m ;;
  r <- for_range_ret 0 n (fun i mat =>
         for_range_ret (i + 1) n (fun j mat =>
           piv <- mindex mat (i, i) ;;
           flat <- z_is_zero z piv ;;
           if flat : bool then v <- expand_col0_z n m cof ;; ret (inr v)
           else
             a <- ix o mat j i ;; b <- ix o mat i i ;;
             dd <- o_div o a b ;;
             mat' <- elim_row o n i j dd mat ;;
             ret (inl mat')) mat) mat0 ;;
  match r with
  | inr v => ret v
  | inl mat =>
      fold_from (Datatypes.S n) (imap (fun i => ix o mat i i) (range 0 n)) (z_one z) (o_mul o)
  end.

(** The sign, src/matrix/ops.rs:138, 154, 199. *)
Definition cof_sign_z (i j : nat) : M S T :=
  s <- usz_add c i j ;;
  if s mod 2 =? 0 then z_one z else (u <- z_one z ;; o_neg o u).
(** U2, src/matrix/ops.rs:137-141. *)
Definition cof2_z (m : list (list T)) (ij : nat * nat) : M S T :=
  let (i, j) := ij in
  sgn <- cof_sign_z i j ;;
  a <- usz_sub c 1 i ;; b <- usz_sub c 1 j ;;
  x <- ix o m a b ;;
  o_mul o sgn x.
(** U3, src/matrix/ops.rs:151-162. *)
Definition cof3_z (m : list (list T)) (ij : nat * nat) : M S T :=
  let (i, j) := ij in
  assert ((i <? 3) && (j <? 3)) ;;;
  sgn <- cof_sign_z i j ;;
  arr <- submatrix c d o 3 m i j ;;
  dt <- det2 c o arr ;;
  o_mul o sgn dt.
(** N > U3, src/matrix/ops.rs:187-206. *)
Definition cof_big_z (n : nat) (det' : list (list T) -> M S T) (m : list (list T)) (ij : nat * nat) : M S T :=
  let (i, j) := ij in
  assert ((i <? n) && (j <? n)) ;;;
  arr <- submatrix c d o n m i j ;;
  sgn <- cof_sign_z i j ;;
  dt <- det' arr ;;
  o_mul o sgn dt.
(** Sizes 1 to 3 (src/matrix/ops.rs:31-68) call neither zero nor one: OpsM.v. *)
Fixpoint det_z (n : nat) (m : list (list T)) {struct n} : M S T :=
  match n with
  | 0 => ub
  | 1 => det1 c o m
  | 2 => det2 c o m
  | 3 => det3 c o m
  | Datatypes.S n' => det_big_z n m (cof_big_z n (det_z n') m)
  end.
Definition cofactor_z (n : nat) (m : list (list T)) (ij : nat * nat) : M S T :=
  match n with
  | 0 | 1 => ub
  | 2 => cof2_z m ij
  | 3 => cof3_z m ij
  | Datatypes.S n' => cof_big_z n (det_z n') m ij
  end.

(** U1, src/matrix/ops.rs:257-264: [T::one()] is called before the division [one / d]. *)
Definition inv1_z (m : list (list T)) : M S (option (list (list T))) :=
  dd <- idx c o 1 m 0 0 ;;
  flat <- z_is_zero z dd ;;
  if flat : bool then ret None
  else u <- z_one z ;; q <- o_div o u dd ;;
       r <- mnew c d 1 [[q]] ;; ret (Some r).
(** U2, src/matrix/ops.rs:275-283. *)
Definition inv2_z (m : list (list T)) : M S (option (list (list T))) :=
  dt <- det2 c o m ;;
  flat <- z_is_zero z dt ;;
  if flat : bool then ret None
  else
    a <- idx c o 2 m 1 1 ;;
    b <- idx c o 2 m 0 1 ;; nb <- o_neg o b ;;
    e <- idx c o 2 m 1 0 ;; ne <- o_neg o e ;;
    f <- idx c o 2 m 0 0 ;;
    mm <- mnew c d 2 [[a; nb]; [ne; f]] ;;
    r <- mscale c d 2 2 (o_div o) (o_clone o) mm dt ;;
    ret (Some r).
(** U3, src/matrix/ops.rs:294-321. *)
Definition inv3_z (m : list (list T)) : M S (option (list (list T))) :=
  dt <- det3 c o m ;;
  flat <- z_is_zero z dt ;;
  if flat : bool then ret None
  else
    let ms := ms c o m in
    a00 <- ms 1 1 2 2 1 2 2 1 ;; a01 <- ms 0 2 2 1 0 1 2 2 ;; a02 <- ms 0 1 1 2 0 2 1 1 ;;
    a10 <- ms 1 2 2 0 1 0 2 2 ;; a11 <- ms 0 0 2 2 0 2 2 0 ;; a12 <- ms 0 2 1 0 0 0 1 2 ;;
    a20 <- ms 1 0 2 1 1 1 2 0 ;; a21 <- ms 0 1 2 0 0 0 2 1 ;; a22 <- ms 0 0 1 1 0 1 1 0 ;;
    mm <- mnew c d 3 [[a00; a01; a02]; [a10; a11; a12]; [a20; a21; a22]] ;;
    r <- mscale c d 3 3 (o_div o) (o_clone o) mm dt ;;
    ret (Some r).
(** N > U3, src/matrix/ops.rs:355-391. *)
Definition inv_big_z (n : nat) (m : list (list T)) : M S (option (list (list T))) :=
  mat0 <- mclone c d (o_clone o) n n m ;;
  inv0 <- midentity_z c d z n ;;
  r <- for_range_ret 0 n (fun i mi =>
         dd <- ix o (fst mi) i i ;;
         flat <- z_is_zero z dd ;;
         if flat : bool then ret (inr tt)
         else
           u <- z_one z ;;
           rcp <- o_div o u dd ;;
           mi1 <- scale_rows o n i rcp mi ;;
           mi2 <- for_range 0 n (fun j mi =>
                    if i =? j then ret mi
                    else a <- ix o (fst mi) j i ;; elim_rows o n i j a mi) mi1 ;;
           ret (inl mi2)) (mat0, inv0) ;;
  match r with
  | inr _ => ret None
  | inl mi => ret (Some (snd mi))
  end.
Definition inverse_z (n : nat) (m : list (list T)) : M S (option (list (list T))) :=
  match n with
  | 0 => ub
  | 1 => inv1_z m
  | 2 => inv2_z m
  | 3 => inv3_z m
  | _ => inv_big_z n m
  end.
End NumOps.
