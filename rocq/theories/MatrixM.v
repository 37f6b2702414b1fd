(** * MatrixM.v - model of src/matrix/mod.rs (formatting is in FmtM.v).

    [Matrix<T, Row, Col>] is [Vector<Vector<T, Col>, Row>], i.e. a list of
    rows.  [row], [col] stand for [Row::to_usize()], [Col::to_usize()].
    No proofs here. *)
From Coq Require Import List Arith Bool.
From Verif Require Import Rust Iter Elem VectorM MatIterM.
Import ListNotations.

Section Mat.
Context {S : Type}.

(** [rows_iter], [cols_iter], [rows_iter_ref], [cols_iter_ref],
    src/matrix/mod.rs:837-864. *)
Definition rows_iter {T} (c : cfg) (row col : nat) (d : ety S T) (clone : T -> M S T) (m : list (list T)) :=
  ri_iter c row col m d clone.
Definition cols_iter {T} (c : cfg) (row col : nat) (d : ety S T) (clone : T -> M S T) (m : list (list T)) :=
  ci_iter c row col m d clone.
Definition rows_iter_ref {T} (c : cfg) (row : nat) (m : list (list T)) : iter S (list T) :=
  rr_iter c row m.
Definition cols_iter_ref (c : cfg) (row col : nat) : iter S (nat * cursor) := cr_iter c row col.

(** [Matrix::new], src/matrix/mod.rs:93-99. [dr] describes the row arrays. *)
Definition mnew {T} (c : cfg) (d : ety S T) (row : nat) (rows : list (list T)) : M S (list (list T)) :=
  from_iter c (vec_ety d) row
    (imap (fun r => ret (vnew r)) (into_it c (vec_ety d) row (vnew rows))).

(** [generate], src/matrix/mod.rs:155-157. *)
Definition mgenerate {T} (c : cfg) (d : ety S T) (row col : nat) (f : nat * nat -> M S T)
  : M S (list (list T)) :=
  from_iter c (vec_ety d) row
    (imap (fun i => vgenerate c d col (fun j => f (i, j))) (range 0 row)).

(** [dim], [rows], [cols], src/matrix/mod.rs:139-153. *)
Definition mdim (row col : nat) : nat * nat := (row, col).
Definition mrows (row : nat) : nat := row.
Definition mcols (col : nat) : nat := col.

(** [all], src/matrix/mod.rs:159-163; [any], 165-167. *)
Definition mall {T} (row col : nat) (pred : nat * nat -> T -> M S bool) (m : list (list T)) : M S bool :=
  iall (Datatypes.S row) (enumerate (viter m)) (fun '(i, r) =>
    iall (Datatypes.S col) (enumerate (viter r)) (fun '(j, v) => pred (i, j) v)).
Definition many {T} (row col : nat) (pred : nat * nat -> T -> M S bool) (m : list (list T)) : M S bool :=
  iany (Datatypes.S row) (enumerate (viter m)) (fun '(i, r) =>
    iany (Datatypes.S col) (enumerate (viter r)) (fun '(j, v) => pred (i, j) v)).

(** [map], src/matrix/mod.rs:169-178. *)
Definition mmap {T U} (c : cfg) (d : ety S T) (du : ety S U) (row col : nat)
    (f : nat * nat -> T -> M S U) (m : list (list T)) : M S (list (list U)) :=
  from_iter c (vec_ety du) row
    (imap (fun '(i, r) =>
             from_iter c du col
               (imap (fun '(j, a) => f (i, j) a) (enumerate (into_it c d col r))))
       (enumerate (into_it c (vec_ety d) row m))).

(** [get_unchecked], [get_unchecked_mut] + write, src/matrix/mod.rs:181-194. *)
Definition mget_unchecked {T} (c : cfg) (row col : nat) (m : list (list T)) (ij : nat * nat) : M S T :=
  let (i, j) := ij in
  debug_assert c (i <? row) ;;;
  debug_assert c (j <? col) ;;;
  r <- vget_unchecked c row m i ;;
  vget_unchecked c col r j.
Definition mset_unchecked {T} (c : cfg) (row col : nat) (m : list (list T)) (ij : nat * nat) (x : T)
  : M S (list (list T)) :=
  let (i, j) := ij in
  debug_assert c (i <? row) ;;;
  debug_assert c (j <? col) ;;;
  r <- vget_unchecked c row m i ;;
  r' <- vset_unchecked c col r j x ;;
  vset_unchecked c row m i r'.

(** [Index<(usize, usize)>], [IndexMut] (assignment), src/matrix/mod.rs:425-447. *)
Definition mindex {T} (m : list (list T)) (ij : nat * nat) : M S T :=
  let (i, j) := ij in r <- vindex m i ;; vindex r j.
Definition mindex_set {T} (m : list (list T)) (ij : nat * nat) (x : T) : M S (list (list T)) :=
  let (i, j) := ij in
  r <- vindex m i ;;
  r' <- slice_assign r j x ;;
  slice_assign m i r'.

(** The type-level index forms.  [i], [j] are the values of non-zero type-level
    numbers ([UInt<..>]); the [where] clauses require each index to be [Less]
    than the dimension.
    [(UInt, UInt)], src/matrix/mod.rs:449-493. *)
Definition mindex_uu {T} (c : cfg) (row col : nat) (m : list (list T)) (i j : nat) : M S T :=
  r <- vget_unchecked c row m i ;; vget_unchecked c col r j.
Definition mindex_uu_set {T} (c : cfg) (row col : nat) (m : list (list T)) (i j : nat) (x : T)
  : M S (list (list T)) :=
  r <- vget_unchecked c row m i ;; r' <- vset_unchecked c col r j x ;; vset_unchecked c row m i r'.
(** [(U0, U0)], src/matrix/mod.rs:495-526. *)
Definition mindex_00 {T} (c : cfg) (row col : nat) (m : list (list T)) : M S T :=
  r <- vget_unchecked c row m 0 ;; vget_unchecked c col r 0.
Definition mindex_00_set {T} (c : cfg) (row col : nat) (m : list (list T)) (x : T)
  : M S (list (list T)) :=
  r <- vget_unchecked c row m 0 ;; r' <- vset_unchecked c col r 0 x ;; vset_unchecked c row m 0 r'.
(** [(UInt, U0)], src/matrix/mod.rs:528-568. *)
Definition mindex_u0 {T} (c : cfg) (row col : nat) (m : list (list T)) (i : nat) : M S T :=
  r <- vget_unchecked c row m i ;; vget_unchecked c col r 0.
Definition mindex_u0_set {T} (c : cfg) (row col : nat) (m : list (list T)) (i : nat) (x : T)
  : M S (list (list T)) :=
  r <- vget_unchecked c row m i ;; r' <- vset_unchecked c col r 0 x ;; vset_unchecked c row m i r'.
(** [(U0, UInt)], src/matrix/mod.rs:570-610. *)
Definition mindex_0u {T} (c : cfg) (row col : nat) (m : list (list T)) (j : nat) : M S T :=
  r <- vget_unchecked c row m 0 ;; vget_unchecked c col r j.
Definition mindex_0u_set {T} (c : cfg) (row col : nat) (m : list (list T)) (j : nat) (x : T)
  : M S (list (list T)) :=
  r <- vget_unchecked c row m 0 ;; r' <- vset_unchecked c col r j x ;; vset_unchecked c row m 0 r'.
(** Which impl [m[(I::new(), J::new())]] resolves to. *)
Definition mindex_static {T} (c : cfg) (row col : nat) (m : list (list T)) (ij : nat * nat) : M S T :=
  match ij with
  | (0, 0) => mindex_00 c row col m
  | (0, j) => mindex_0u c row col m j
  | (i, 0) => mindex_u0 c row col m i
  | (i, j) => mindex_uu c row col m i j
  end.
Definition mindex_static_set {T} (c : cfg) (row col : nat) (m : list (list T)) (ij : nat * nat) (x : T)
  : M S (list (list T)) :=
  match ij with
  | (0, 0) => mindex_00_set c row col m x
  | (0, j) => mindex_0u_set c row col m j x
  | (i, 0) => mindex_u0_set c row col m i x
  | (i, j) => mindex_uu_set c row col m i j x
  end.

(** [transposed], src/matrix/mod.rs:197-201: [Matrix(self.cols_iter().collect())]. *)
Definition mtransposed {T} (c : cfg) (d : ety S T) (clone : T -> M S T) (row col : nat) (m : list (list T))
  : M S (list (list T)) :=
  from_iter c (vec_ety d) col (cols_iter c row col d clone m).

(** [transpose] in place, src/matrix/mod.rs:224-226 (square matrices). *)
Definition mtranspose {T} (c : cfg) (d : ety S T) (clone : T -> M S T) (n : nat)
  : M (list (list T) * S) unit :=
  m <- self ;;
  m' <- lift (mtransposed c d clone n n m) ;;
  set_self m'.

(** [identity], src/matrix/mod.rs:217-221. *)
Definition midentity {T} (c : cfg) (d : ety S T) (o : ops S T) (n : nat) : M S (list (list T)) :=
  mgenerate c d n n (fun '(i, j) => if i =? j then ret (o_one o) else ret (o_zero o)).

(** [Default], src/matrix/mod.rs:251-261: the default vector of default
    vectors. *)
Definition mdefault {T} (c : cfg) (d : ety S T) (dflt : M S T) (row col : nat) : M S (list (list T)) :=
  vdefault c (vec_ety d) row (vdefault c d col dflt).

(** [Clone], src/matrix/mod.rs:263-272. *)
Definition mclone {T} (c : cfg) (d : ety S T) (clone : T -> M S T) (row col : nat) (m : list (list T))
  : M S (list (list T)) :=
  vclone c (vec_ety d) row (vclone c d col clone) m.

(** [PartialEq], src/matrix/mod.rs:284-293. *)
Definition meq {T} (peq : T -> T -> bool) (a b : list (list T)) : bool := veq (veq peq) a b.

(** [num::Zero], src/matrix/mod.rs:612-626. *)
Definition mzero {T} (c : cfg) (d : ety S T) (o : ops S T) (row col : nat) : M S (list (list T)) :=
  mgenerate c d row col (fun _ => ret (o_zero o)).
Definition mis_zero {T} (o : ops S T) (row col : nat) (m : list (list T)) : M S bool :=
  iall (Datatypes.S row) (viter m) (fun r =>
    iall (Datatypes.S col) (viter r) (fun v => ret (o_is_zero o v))).

(** [num::Bounded], src/matrix/mod.rs:637-652. *)
Definition mbounded {T} (c : cfg) (d : ety S T) (bound : T) (row col : nat) : M S (list (list T)) :=
  mgenerate c d row col (fun _ => ret bound).

(** [num::One], src/matrix/mod.rs:661-670. *)
Definition mone {T} (c : cfg) (d : ety S T) (o : ops S T) (n : nat) : M S (list (list T)) :=
  midentity c d o n.

(** [sum], src/matrix/mod.rs:709-711. *)
Definition msum {T} (o : ops S T) (row col : nat) (m : list (list T)) : M S T :=
  fold (Datatypes.S row) (imap (vsum o col) (viter m)) (o_zero o) (o_add o).

(** [max], [min] (square, [n > 0]), src/matrix/mod.rs:730-741. *)
Definition mmax {T} (clone : T -> M S T) (cmp : T -> T -> comparison) (n : nat) (m : list (list T)) : M S T :=
  o <- imax (Datatypes.S n) cmp (imap (vmax clone cmp n) (viter m)) ;; unwrap o.
Definition mmin {T} (clone : T -> M S T) (cmp : T -> T -> comparison) (n : nat) (m : list (list T)) : M S T :=
  o <- imin (Datatypes.S n) cmp (imap (vmin clone cmp n) (viter m)) ;; unwrap o.

(** [max_by], src/matrix/mod.rs:763-779; [min_by], 784-786. *)
Definition mmax_by {T} (clone : T -> M S T) (comp : T -> T -> M S comparison) (n : nat) (m : list (list T))
  : M S T :=
  st <- for_each (Datatypes.S n) (viter m) None (fun st r =>
          for_each (Datatypes.S n) (viter r) st (fun st v =>
            match st with
            | Some st0 =>
                o <- comp v st0 ;;
                match o with Gt => ret (Some v) | _ => ret (Some st0) end
            | None => ret (Some v)
            end)) ;;
  r <- unwrap st ;; clone r.
Definition mmin_by {T} (clone : T -> M S T) (comp : T -> T -> M S comparison) (n : nat) (m : list (list T))
  : M S T :=
  mmax_by clone (fun a b => comp b a) n m.

(** [clamped], [clamp], src/matrix/mod.rs:805-818. *)
Definition mclamped {T} (c : cfg) (d : ety S T) (clone : T -> M S T) (cmp : T -> T -> comparison)
    (row col : nat) (m : list (list T)) (mn mx : T) : M S (list (list T)) :=
  from_iter c (vec_ety d) row
    (imap (fun r =>
             from_iter c d col (imap (fun v => clone (cmp_min cmp mx (cmp_max cmp mn v))) (viter r)))
       (viter m)).
Definition mclamp {T} (clone : T -> M S T) (cmp : T -> T -> comparison) (mn mx : T)
  : M (list (list T) * S) unit :=
  fun ms => iter_mut_for
              (fun rs => iter_mut_for (clamp_elem clone cmp mn mx) (fst rs) (snd rs))
              (fst ms) (snd ms).

(** [ApproxEq::relative_eq], [ulps_eq], src/matrix/mod.rs:891-903.  [aeq] is
    [|a, b| a.relative_eq(b, epsilon, max_relative)] (resp. [ulps_eq]) of the
    element type. *)
Definition mapprox_eq {T} (c : cfg) (aeq : T -> T -> M S bool) (row col : nat) (a b : list (list T))
  : M S bool :=
  fold (Datatypes.S row)
    (imap (fun '(ra, rb) =>
             iall (Datatypes.S col) (zip ref_ety (slice_iter ra) (slice_iter rb))
               (fun '(x, y) => aeq x y))
       (zip ref_ety (rows_iter_ref c row a) (rows_iter_ref c row b)))
    true (fun x y => ret (x && y)).
End Mat.

Section MatDiag.
Context {S : Type}.
(** [diag], src/matrix/mod.rs:115-130.  [k] is [Min<Row, Col>]; the captured
    iterator [elems] is a variable of the closure's world, dropped at the end
    (also on unwinding). *)
Definition mdiag {T} (c : cfg) (d : ety S T) (o : ops S T) (row col k : nat) (elems : list T)
  : M S (list (list T)) :=
  fun s =>
    let '(r, (ii, s')) :=
      mgenerate c (lift_ety d) row col
        (fun '(i, j) => if i =? j
                        then x <- ii_next_fn c d k ;; unwrap x
                        else ret (o_zero o))
        (into_iter k (vnew elems), s) in
    match r with
    | Ok m => (ii_drop d ii ;;; ret m) s'
    | Panic => (ii_drop d ii ;;; panic) s'
    | UB => (UB, s')
    | Diverge => (Diverge, s')
    end.

(** [From<Vector<T, Prod<Row, Col>>>], src/matrix/mod.rs:245-248. *)
Definition mfrom_vector {T} (c : cfg) (d : ety S T) (row col : nat) (v : list T) : M S (list (list T)) :=
  from_iter c (vec_ety d) row (ch_iter c d (row * col) col (into_chunks (row * col) v)).

(** num::Complex and [Complex::conj] (num 0.1.36), [conjugate],
    src/matrix/mod.rs:682-692. *)
Record complex (T : Type) := Complex { re : T; im : T }.
Arguments Complex {T}.
Arguments re {T}.
Arguments im {T}.
Definition conj {T} (o : ops S T) (a : complex T) : M S (complex T) :=
  r <- o_clone o (re a) ;; i <- o_clone o (im a) ;; ni <- o_neg o i ;; ret (Complex r ni).
Definition complex_clone {T} (o : ops S T) (a : complex T) : M S (complex T) :=
  r <- o_clone o (re a) ;; i <- o_clone o (im a) ;; ret (Complex r i).
Definition mconjugate {T} (c : cfg) (d : ety S (complex T)) (o : ops S T) (row col : nat)
    (m : list (list (complex T))) : M S (list (list (complex T))) :=
  cl <- mclone c d (complex_clone o) row col m ;;
  mmap c d d row col (fun _ a => conj o a) cl.
End MatDiag.
Arguments Complex {T}.
Arguments re {T}.
Arguments im {T}.
