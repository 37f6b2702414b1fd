(** * OwnTests.v - the crate's own unit tests and documentation examples, run on the model.

    These are tests, not proofs: they check that the model computes, on the literals of the
    upstream tests, the values the upstream [assert_eq!] demand of the Rust code.  Each is run
    with overflow checks on and off ([dbg], [rel]) where the assertion does not depend on it.
    No theorem relies on this file.  All 27 unit tests and all documentation examples are here;
    where an upstream test uses [assert_eq!] on two vectors, the model's value is compared directly. *)
From Coq Require Import Ascii String List Arith Bool ZArith NArith.
From Flocq Require Import Core IEEE754.BinarySingleNaN.
From Verif Require Import Rust Iter Elem VectorM MatIterM MatrixM ArithM OpsM MetaM IntM RatioM CplxM SpecAlg FloatM FmtM SpecCommon Harness.
Import ListNotations.
Local Close Scope string_scope.
Local Open Scope list_scope.

(** [m ==> x]: [m] returns [x] normally. *)
Notation "m ==> x" := (m Datatypes.tt = (Ok x, Datatypes.tt)) (at level 70, no associativity).
(** [both test]: the test holds with overflow checks on and off. *)
Definition both (test : cfg -> Prop) : Prop := test dbg /\ test rel.
Ltac run_test := unfold both; repeat match goal with |- _ /\ _ => split end; vm_compute; reflexivity.
Definition w := unit.
Lemma bits32 : (0 < 32)%Z. Proof. reflexivity. Qed.
Definition i32 : ity := Ity true 32 bits32.
Definition u32 : ity := Ity false 32 bits32.
Definition io (c : cfg) : ops w Z := int_ops (debug c) i32.
(** A [Copy] element type without destructor. *)
Definition e {T} : ety w T := Ety (fun _ s => s) true.
(** [*a op= b] of a primitive type. *)
Definition assign {T U} (op : T -> U -> M w T) (y : U) : M (T * w) unit :=
  fun '(x, s) => match op x y s with
                 | (Ok z, s') => (Ok Datatypes.tt, (z, s'))
                 | (Panic, s') => (Panic, (x, s'))
                 | (UB, s') => (UB, (x, s'))
                 | (Diverge, s') => (Diverge, (x, s'))
                 end.
(** Run a [&mut self] method on a value and return the value. *)
Definition on {X} (f : M (X * w) unit) (x : X) : M w X :=
  fun s => let '(r, (x', s')) := f (x, s) in
           match r with Ok _ => (Ok x', s') | Panic => (Panic, s') | UB => (UB, s') | Diverge => (Diverge, s') end.
(** Run a method that returns a value on an iterator. *)
Definition running {X Y} (f : M (X * w) Y) (x : X) : M w Y :=
  fun s => let '(r, (_, s')) := f (x, s) in (r, s').

(** ** src/vector.rs *)
Section Vector.
Local Open Scope Z_scope.

(** src/vector.rs:475-501. *)
Example test_vector_arith : both (fun c =>
  let a := [1; 2; 3] in let b := [4; 5; 6] in
  let add := o_add (io c) in let sub := o_sub (io c) in
  vzip_vv c e e e 3 add a b ==> [5; 7; 9] /\ vzip_rv c e e 3 add a b ==> [5; 7; 9] /\
  vzip_vr c e e 3 add a b ==> [5; 7; 9] /\ vzip_rr c e 3 add a b ==> [5; 7; 9] /\
  vzip_vv c e e e 3 sub a b ==> [-3; -3; -3] /\ vzip_rv c e e 3 sub a b ==> [-3; -3; -3] /\
  vzip_vr c e e 3 sub a b ==> [-3; -3; -3] /\ vzip_rr c e 3 sub a b ==> [-3; -3; -3] /\
  vscale c e e 3 (o_mul (io c)) ret a 2 ==> [2; 4; 6] /\ vscale c e e 3 (o_div (io c)) ret b 2 ==> [2; 2; 3] /\
  (a <- on (vscale_assign (assign (o_mul (io c))) ret 4) a ;;
   a1 <- on (vscale_assign (assign (o_div (io c))) ret 2) a ;;
   a2 <- on (vop_assign c e 3 (assign sub) [1; 1; 1]) a1 ;;
   a3 <- on (vop_assign c e 3 (assign add) [1; 2; 3]) a2 ;;
   ret (a, a1, a2, a3)) ==> ([4; 8; 12], [2; 4; 6], [1; 3; 5], [2; 5; 8])).
Proof. run_test. Qed.

(** src/vector.rs:516-520, 542-546, 585-588. *)
Example test_dot : both (fun c => vdot (io c) 3 [1; 2; 3] [4; 5; 6] ==> 32).
Proof. run_test. Qed.
Example test_cross : both (fun c => vcross c (io c) [1; 2; 3] [4; 5; 6] ==> [-3; 6; -3]).
Proof. run_test. Qed.
Example test_sum : both (fun c => vsum (io c) 2 [1; 2] ==> 3).
Proof. run_test. Qed.

(** src/vector.rs:657-663 and the documentation example, 629-634; [abs] of these literals does not overflow. *)
Definition dist5 (a b : Z) : M w comparison := ret (Z.abs (a - 5) ?= Z.abs (b - 5)).
Example test_minmax :
  vmax ret Z.compare 3 [1; 2; 3] ==> 3 /\ vmin ret Z.compare 3 [1; 2; 3] ==> 1 /\
  vmax_by ret dist5 3 [1; 2; 3] ==> 1 /\ vmin_by ret dist5 3 [1; 2; 3] ==> 3 /\
  vmax ret Z.compare 3 [-1; 2; -3] ==> 2 /\
  vmax_by ret (fun a b => ret (Z.abs a ?= Z.abs b)) 3 [-1; 2; -3] ==> -3.
Proof. run_test. Qed.

(** src/vector.rs:684-689. *)
Example test_clamp : both (fun c =>
  vclamped c e ret Z.compare 3 [1; 5; 8] 4 6 ==> [4; 5; 6] /\ on (vclamp ret Z.compare 3 4) [1; 5; 8] ==> [3; 4; 4]).
Proof. run_test. Qed.

(** src/vector.rs:814-818; [rev] calls [next_back]. *)
Example test_vec_intoiter : both (fun c =>
  running (run_history (ii_step c e 3) [Nth 1]) (into_iter 3 [1; 2; 3]) ==> [Item (Some 2)] /\
  running (run_history (ii_step c e 3) [NextBack; NextBack; NextBack; NextBack]) (into_iter 3 [1; 2; 3])
    ==> [Item (Some 3); Item (Some 2); Item (Some 1); Item None]).
Proof. run_test. Qed.

(** src/vector.rs:889-903 and the documentation example, 80-87. *)
Example test_vector_chunks : both (fun c =>
  running (run_history (ch_step c e 6 2) [Next; Next; Len]) (into_chunks 6 [1; 2; 3; 4; 5; 6])
    ==> [Item (Some [1; 2]); Item (Some [3; 4]); Num 1] /\
  running (run_history (ch_step c e 6 2) [NextBack; NextBack; NextBack; NextBack]) (into_chunks 6 [1; 2; 3; 4; 5; 6])
    ==> [Item (Some [5; 6]); Item (Some [3; 4]); Item (Some [1; 2]); Item None] /\
  running (run_history (ch_step c e 4 2) [Next; Next; Next]) (into_chunks 4 [1; 2; 3; 4])
    ==> [Item (Some [1; 2]); Item (Some [3; 4]); Item None]).
Proof. run_test. Qed.

(** src/vector.rs:952-960 ([U8 - U3] is [U5]); the documentation example, 25-32. *)
Example test_array : both (fun c => vdefault c e (vlen 5) (ret 0) ==> [0; 0; 0; 0; 0]) /\
  arraylen (U 5) = [5%nat] /\ to_usize (vector_count [1; 2; 3; 4; 5]) = 5%nat /\ as_slice (vnew [1; 2; 3; 4; 5]) = [1; 2; 3; 4; 5].
Proof. run_test. Qed.
End Vector.

(** ** src/macros.rs, src/util.rs *)
(** src/macros.rs:116-136 and the documentation examples, 5-12 and 55-62. *)
Example test_macro :
  vector_count [1%Z; 2%Z] = U 2 /\ vlen (to_usize (vector_count (@nil Z))) = 0 /\
  vis_empty (to_usize (vector_count (@nil Z))) = true /\
  vlen (to_usize (vector_count [1])) = 1 /\ vlen (to_usize (vector_count [1; 2])) = 2 /\
  (let dim {E} (rows : list (list E)) := mdim (to_usize (matrix_countrow rows)) (to_usize (matrix_countcol rows)) in
   dim [[1]; [2]] = (2, 1) /\ dim [[1; 2]] = (1, 2) /\ dim (@nil (list nat)) = (0, 0) /\ dim [@nil nat; []] = (2, 0) /\
   dim [[1; 2]; [3; 4]] = (2, 2)) /\
  both (fun c => mnew c e 2 [[1; 2]; [3; 4]] ==> [[1; 2]; [3; 4]] /\ mnew c e 2 [@nil Z; []] ==> [[]; []] /\
    (vzip_vv c e e e 4 (o_add (io c)) [1; 2; 3; 4] [4; 3; 2; 1] ==> [5; 5; 5; 5])%Z /\
    (mscale c e 2 2 (o_mul (io c)) ret [[1; 2]; [3; 4]] 2 ==> [[2; 4]; [6; 8]])%Z).
Proof. run_test. Qed.
(** src/util.rs:30-37. *)
Example test_typenum_min :
  to_usize (Min (U 3) (U 5)) = 3 /\ to_usize (Min (U 6) (U 5)) = 5 /\ to_usize (Min (U 4) (U 4)) = 4.
Proof. run_test. Qed.

(** ** src/matrix *)
Section Matrix.
Local Open Scope Z_scope.

(** src/matrix/ops.rs:210-218: the assertions about [i32]. *)
Example test_det_cof_impl_int : both (fun c =>
  let m := [[1; 2]; [3; 4]] in let m3 := [[1; 2; 3]; [4; 5; 6]; [7; 8; 9]] in
  cofactor c e (io c) 2 m (0, 0)%nat ==> 4 /\ cofactor c e (io c) 2 m (0, 1)%nat ==> -3 /\ det c e (io c) 2 m ==> -2 /\
  det c e (io c) 3 m3 ==> 0 /\ cofactor c e (io c) 3 m3 (1, 1)%nat ==> -12 /\ cofactor c e (io c) 3 m3 (0, 1)%nat ==> 6).
Proof. run_test. Qed.

(** src/matrix/ops.rs:324-337. *)
Definition of_int (z : Z) : ratio := Ratio z 1.
Definition to_integer (x : ratio) : Z := Z.quot (numer x) (denom x).
Definition inverse_times (c : cfg) (o : ops w ratio) (n : nat) (m : list (list Z)) (k : Z) : M w (list (list Z)) :=
  mr <- mmap c e e n n (fun _ z => ret (of_int z)) m ;;
  mi <- inverse c e o n mr ;;
  mi <- unwrap mi ;;
  p <- mscale c e n n (o_mul o) (o_clone o) mi (of_int k) ;;
  mmap c e e n n (fun _ x => ret (to_integer x)) p.
Example test_hard_coded_inverse : both (fun c =>
  inverse_times c big_ratio 2 [[1; 5]; [2; 4]] 6 ==> [[-4; 5]; [2; -1]] /\
  inverse_times c (checked_ratio i32) 3 [[1; 5; 3]; [2; 4; 1]; [2; 2; 2]] 16 ==> [[-6; 4; 7]; [2; 4; -5]; [4; -8; 6]]).
Proof. run_test. Qed.
(** src/matrix/ops.rs:395-410: the Gauss-Jordan code. *)
Example test_inverse : both (fun c =>
  inverse_times c (checked_ratio i32) 4 [[1; 5; 3; 1]; [2; 4; 1; 2]; [2; 2; 2; 1]; [1; 5; 1; 1]] 12
    ==> [[-9; -6; 12; 9]; [-1; -2; 0; 5]; [6; 0; 0; -6]; [8; 16; -12; -16]]).
Proof. run_test. Qed.

(** src/matrix/arith.rs:269-273. *)
Example test_mul_assign_mat : both (fun c =>
  on (mmul_assign c e (io c) 2 [[5; 6]; [7; 8]]) [[1; 2]; [3; 4]] ==> [[19; 22]; [43; 50]]).
Proof. run_test. Qed.

(** src/matrix/arith.rs:364-415. *)
Definition m1 : list (list Z) := [[1; 0]; [0; 4]].
Definition m2 : list (list Z) := [[0; 0]; [0; 1]].
Definition m3 : list (list Z) := [[1; 0]; [0; 5]].
Definition m4 : list (list Z) := [[1; 0]; [0; 3]].
Definition m5 : list (list Z) := [[1]; [3]].
Example test_matrix_arith : both (fun c =>
  let o := io c in let add := o_add o in let sub := o_sub o in
  (m <- mdefault c e (ret 0) 2 2 ;; m <- mindex_set m (1, 1)%nat 4 ;; mindex_set m (0, 0)%nat 1) ==> m1 /\
  mindex m2 (1, 1)%nat ==> 1 /\
  mzip_vv c e e e 2 2 add m1 m2 ==> m3 /\ mindex m3 (0, 0)%nat ==> 1 /\ mindex m3 (1, 1)%nat ==> 5 /\
  mneg c e e 2 2 (o_neg o) m3 ==> [[-1; 0]; [0; -5]] /\
  mzip_rv c e e 2 2 add m1 m2 ==> m3 /\ mzip_vr c e e 2 2 add m1 m2 ==> m3 /\ mzip_rr c e 2 2 add m1 m2 ==> m3 /\
  mzip_vv c e e e 2 2 sub m1 m2 ==> m4 /\ mindex m4 (0, 0)%nat ==> 1 /\ mindex m4 (1, 1)%nat ==> 3 /\
  mzip_rv c e e 2 2 sub m1 m2 ==> m4 /\ mzip_vr c e e 2 2 sub m1 m2 ==> m4 /\ mzip_rr c e 2 2 sub m1 m2 ==> m4 /\
  (id <- midentity c e o 2 ;; mmul_vv c e o 2 2 2 m1 id) ==> m1 /\
  (id <- midentity c e o 2 ;; p <- mpow c e o 2 id 20 ;; mmul_vv c e o 2 2 2 m1 p) ==> m1 /\
  mindex m5 (1, 0)%nat ==> 3 /\
  (s <- mzip_vv c e e e 2 1 add m5 m5 ;; d <- mzip_vv c e e e 2 1 sub s m5 ;; mindex d (1, 0)%nat) ==> 3 /\
  (p <- mmul_vv c e o 2 2 1 m4 m5 ;; mscale c e 2 1 (o_mul o) ret p 2) ==> [[2]; [18]] /\
  (p <- mmul_rv c e o 2 2 1 m4 m5 ;; mscale c e 2 1 (o_mul o) ret p 2) ==> [[2]; [18]] /\
  (p <- mmul_rr c e o 2 2 1 m4 m5 ;; mscale c e 2 1 (o_mul o) ret p 2) ==> [[2]; [18]] /\
  (p <- mmul_vr c e o 2 2 1 m4 m5 ;; q <- mscale c e 2 1 (o_mul o) ret p 2 ;; mscale c e 2 1 (o_div o) ret q 2) ==> [[1]; [9]] /\
  mmulv_ref c e o 2 1 m5 [2] ==> [2; 6] /\ mmulv c e o 2 1 m5 [2] ==> [2; 6] /\
  (m <- on (mscale_assign (assign (o_mul o)) ret 2) m4 ;; m <- mscale_ref c e 2 2 (o_mul o) m 2 ;;
   m <- on (mscale_assign (assign (o_div o)) ret 2) m ;; mscale_ref c e 2 2 (o_div o) m 2) ==> m4 /\
  mmul_vv c e bigint_ops 2 2 2 [[1; 2]; [3; 4]] [[1; 2]; [3; 4]] ==> [[7; 10]; [15; 22]]).
Proof. run_test. Qed.

(** src/matrix/mod.rs:230-236, 655-658, 715-718, 790-796, 822-827. *)
Example test_transposed : both (fun c =>
  mtransposed c e ret 2 2 [[1; 2]; [3; 4]] ==> [[1; 3]; [2; 4]] /\ on (mtranspose c e ret 2) [[1; 2]; [3; 4]] ==> [[1; 3]; [2; 4]]).
Proof. run_test. Qed.
Example test_bounded : both (fun c => mbounded c e (i_lo u32) 2 2 ==> [[0; 0]; [0; 0]]).
Proof. run_test. Qed.
Example test_matrix_sum : both (fun c => msum (io c) 2 2 [[1; 2]; [3; 4]] ==> 10).
Proof. run_test. Qed.
Example test_matrix_minmax :
  mmax ret Z.compare 2 [[1; 2]; [3; 4]] ==> 4 /\ mmin ret Z.compare 2 [[1; 2]; [3; 4]] ==> 1 /\
  mmax_by ret dist5 2 [[1; 2]; [3; 4]] ==> 1 /\ mmin_by ret dist5 2 [[1; 2]; [3; 4]] ==> 4 /\
  (* documentation example, src/matrix/mod.rs:757-762 *)
  mmax ret Z.compare 2 [[-1; 2]; [3; -4]] ==> 3 /\
  mmax_by ret (fun a b => ret (Z.abs a ?= Z.abs b)) 2 [[-1; 2]; [3; -4]] ==> -4.
Proof. run_test. Qed.
Example test_matrix_clamp : both (fun c =>
  mclamped c e ret Z.compare 2 2 [[1; 5]; [8; 2]] 4 6 ==> [[4; 5]; [6; 4]] /\
  on (mclamp ret Z.compare 3 4) [[1; 5]; [8; 2]] ==> [[3; 4]; [4; 3]]).
Proof. run_test. Qed.
(** src/matrix/mod.rs:695-700. *)
Example test_conjugate : both (fun c =>
  let m := [[Complex 1 1; Complex 1 (-1)]; [Complex (-2) 1; Complex 1 1]] in
  (n <- mconjugate c e (io c) 2 2 m ;; s <- mzip_vv c e e e 2 2 (o_add (complex_ops (io c))) n m ;;
   mall 2 2 (fun _ a => ret (im a =? 0)) s) ==> true).
Proof. run_test. Qed.

(** src/matrix/iter.rs:480-544.  [count] of these iterators is overridden and computes the same as
    [len] (iter.rs:45-48); [count] of their [Rev] is std's provided method, which calls [next_back]
    until [None]: the reversed runs therefore end with another [next_back], not with [len] (which
    does not count what was taken from the back, see C53). *)
Definition mi : list (list Z) := [[1; 0; 4]; [0; 2; 3]].
Definition items {T} (l : list T) : list (qout T) := map (fun x => Item (Some x)) l ++ [Item None; Num 0].
Definition items_back {T} (l : list T) : list (qout T) := map (fun x => Item (Some x)) l ++ [Item None; Item None].
Example test_matrix_rows_cols_iter : both (fun c =>
  (m <- mdefault c e (ret 0) 2 3 ;; m <- mindex_set m (0, 0)%nat 1 ;; m <- mindex_set m (1, 1)%nat 2 ;;
   m <- mindex_set m (1, 2)%nat 3 ;; mindex_set m (0, 2)%nat 4) ==> mi /\
  (mdim 2 3, mrows 2, mcols 3) = (2, 3, 2, 3)%nat /\
  running (run_history (ri_step c 2 3 mi e ret) [Len; Next; Next; Next; Len]) (rr_new 2) ==> Num 2 :: items [[1; 0; 4]; [0; 2; 3]] /\
  running (run_history (ri_step c 2 3 mi e ret) [Len; NextBack; NextBack; NextBack; NextBack]) (rr_new 2) ==> Num 2 :: items_back [[0; 2; 3]; [1; 0; 4]] /\
  running (run_history (rr_step c 2 mi) [Len; Next; Next; Next; Len]) (rr_new 2) ==> Num 2 :: items [[1; 0; 4]; [0; 2; 3]] /\
  running (run_history (ci_step c 2 3 mi e ret) [Len; Next; Next; Next; Next; Len]) (cr_new 3) ==> Num 3 :: items [[1; 0]; [0; 2]; [4; 3]] /\
  running (run_history (ci_step c 2 3 mi e ret) [Len; NextBack; NextBack; NextBack; NextBack; NextBack]) (cr_new 3) ==> Num 3 :: items_back [[4; 3]; [0; 2]; [1; 0]] /\
  (* each column of [cols_iter_ref], read to its end *)
  running (run_history (cr_step c 2 3) [Len; Next; Next; Next; Next; Len]) (cr_new 3)
    ==> Num 3 :: items [(0, rr_new 2); (1, rr_new 2); (2, rr_new 2)]%nat /\
  running (run_history (cin_step c 2 3 mi) [Next; Next; Next]) (0%nat, rr_new 2) ==> [Item (Some 1); Item (Some 0); Item None] /\
  running (run_history (cin_step c 2 3 mi) [Next; Next; Next]) (1%nat, rr_new 2) ==> [Item (Some 0); Item (Some 2); Item None] /\
  running (run_history (cin_step c 2 3 mi) [Next; Next; Next]) (2%nat, rr_new 2) ==> [Item (Some 4); Item (Some 3); Item None]).
Proof. run_test. Qed.
End Matrix.

(** ** Floating point: src/vector.rs:565-572, src/matrix/mod.rs:629-635, src/matrix/ops.rs:219-243 *)
Section Float.
Definition fz {t} (z : Z) : float t := binary_normalize (fprec t) (femax t) _ _ mode_NE z 0 false.
Definition feqb {t} (x y : float t) : bool := Beqb x y.
(** [relative_eq] of the approx crate for f32 with its default tolerances (both [EPSILON], 2^-23). *)
Definition eps32 : float F32 := binary_normalize (fprec F32) (femax F32) _ _ mode_NE 1 (-23) false.
Definition fleb (x y : float F32) : bool := Bleb x y.
Definition relative_eq (x y : float F32) : bool :=
  if feqb x y then true
  else let diff := Babs (Bminus mode_NE x y) in
       if fleb diff eps32 then true
       else let largest := if fleb (Babs x) (Babs y) then Babs y else Babs x in
            fleb diff (Bmult mode_NE largest eps32).
Definition fm {t} (m : list (list Z)) : list (list (float t)) := map (map fz) m.
Definition returns {T} (p : T -> bool) (m : M w T) : bool :=
  match m Datatypes.tt with (Ok x, _) => p x | _ => false end.
Definition o32 : ops w (float F32) := float_ops F32.
Definition o64 : ops w (float F64) := float_ops F64.
Definition fdiv32 (a b : Z) : float F32 := Bdiv mode_NE (fz a) (fz b).

(** src/vector.rs:565-572. *)
Example test_norm : both (fun c =>
  returns (fun x => relative_eq x (fz 5)) (vnorm (float_fops F32) 2 (map fz [3; 4]%Z)) = true /\
  returns (fun n => match n with [x; y] => relative_eq x (fdiv32 6 10) && relative_eq y (fdiv32 8 10) | _ => false end)
    (vnormalized c e (float_fops F32) 2 (map fz [3; 4]%Z)) = true).
Proof. run_test. Qed.

(** src/matrix/mod.rs:629-635. *)
Example test_zero : both (fun c =>
  returns (fun b => b) (m <- mzero c e o32 3 3 ;; mis_zero o32 3 3 m) = true /\
  returns negb (m <- mzero c e o32 3 3 ;; m <- mindex_set m (0, 0) (fz 1) ;; mis_zero o32 3 3 m) = true).
Proof. run_test. Qed.

(** src/matrix/ops.rs:219-243: the assertions about [f32], sizes 4 and 6. *)
Definition steps (n : nat) : list (list Z) :=
  map (fun i => map (fun j => Z.of_nat (i * n + j + 1)) (seq 0 n)) (seq 0 n).
Definition det6 : list (list Z) :=
  [[1; 1; 1; 1; 1; 63]; [7; 8; 9; 10; 11; 12]; [13; 14; 1; 18; 17; 18];
   [19; 80; 81; 22; 23; 20]; [25; 26; 27; 28; 29; 30]; [31; 32; 34; 34; 35; 44]]%Z.
Example test_det_cof_impl_float : both (fun c =>
  returns (fun x => relative_eq x (fz 0)) (det c e o32 4 (fm (steps 4))) = true /\
  returns (fun x => relative_eq x (fz 0)) (det c e o32 6 (fm (steps 6))) = true /\
  returns (fun x => relative_eq x (fz (-535680))) (det c e o32 6 (fm det6)) = true).
Proof. run_test. Qed.

(** Documentation examples, src/matrix/mod.rs:33-48, 52-66, 89-92, 105-114 (f64). *)
Definition fmeq {t} : list (list (float t)) -> list (list (float t)) -> bool := meq feqb.
Definition dm : list (list (float F64)) := fm [[1; 2]; [3; 4]]%Z.
Example doc_matrix : both (fun c =>
  returns (fun x => feqb x (fz (-2))) (t <- mtransposed c e ret 2 2 dm ;; det c e o64 2 t) = true /\
  returns (fun x => feqb x (fz (-8))) (t <- mscale c e 2 2 (o_mul o64) ret dm (fz 2) ;; det c e o64 2 t) = true /\
  returns (fun b => b) (i <- inverse c e o64 2 dm ;; i <- unwrap i ;; p <- mmul_vv c e o64 2 2 2 dm i ;;
                        id <- midentity c e o64 2 ;; ret (fmeq p id)) = true /\
  returns (fun x => fmeq x (fm [[22; 32]; [48; 70]]%Z))
    (p <- mmul_vv c e o64 2 2 2 dm dm ;; m <- on (mop_assign c e 2 2 (assign (o_add o64)) p) dm ;;
     m <- on (mscale_assign (assign (o_div o64)) ret (fz 2)) m ;;
     on (mmul_assign c e o64 2 dm) m) = true).
Proof. run_test. Qed.
Example doc_indexing : both (fun c =>
  returns (fun x => feqb x (fz 1)) (mindex dm (0, 0)) = true /\
  returns (fun m => fmeq m (fm [[2; 2]; [3; 4]]%Z))
    (x <- mindex dm (0, 0) ;; y <- o_add o64 x (fz 1) ;; mindex_set dm (0, 0) y) = true /\
  returns (fun x => feqb x (fz 4)) (mindex_static c 2 2 dm (1, 1)) = true) /\
  mindex_compiles (U 1) (U 1) (U 2) (U 2) = true /\ mindex_compiles (U 2) (U 2) (U 2) (U 2) = false.
Proof. run_test. Qed.
Example doc_diag : both (fun c =>
  returns (fun m => fmeq m (fm [[1; 0; 0]; [0; 2; 0]; [0; 0; 3]]%Z))
    (mdiag c e o32 3 3 (to_usize (Min (U 3) (U 3))) (map fz [1; 2; 3]%Z)) = true).
Proof. run_test. Qed.

(** src/matrix/mod.rs:134-137 ([Matrix3f32] is the alias of 3x3), 211-215. *)
Example doc_identity :
  In (mat_alias 3 MetaM.F32, MatOf MetaM.F32 3 3) prelude_aliases /\
  both (fun c =>
    returns (fun m => (length m =? 3) && forallb (fun r => length r =? 3) m) (midentity c e o32 3) = true /\
    returns (fun b => b) (i <- midentity c e o32 3 ;;
                          g <- mgenerate c e 3 3 (fun '(i, j) => ret (if i =? j then fz 1 else fz 0)) ;; ret (fmeq i g)) = true).
Proof. split; [cbn; tauto|]. run_test. Qed.
End Float.

(** The crate documentation, src/lib.rs:9-28. *)
Definition o_u64 (c : cfg) : ops w Z := int_ops (debug c) u64.
Example doc_fib : both (fun c =>
  fib_doc c e (o_u64 c) 0 ==> 0%Z /\ fib_doc c e (o_u64 c) 10 ==> 55%Z /\ fib_doc c e (o_u64 c) 50 ==> 12586269025%Z).
Proof. run_test. Qed.

(** ** Formatting: src/matrix/mod.rs:323-326, 409-426 *)
Section Format.
Fixpoint chars_of (s : string) : str :=
  match s with EmptyString => [] | String a s' => N_of_ascii a :: chars_of s' end.
(** [Display]/[Debug] of a non-negative integer below 1000. *)
Definition digit (k : nat) : char := N.of_nat (48 + k).
Definition show (k : nat) : str :=
  (if k <? 100 then [] else [digit (k / 100)]) ++ (if k <? 10 then [] else [digit (k / 10 mod 10)]) ++ [digit (k mod 10)].
(** Writing to a [String]. *)
Definition put (p : str) : M str bool := fun out => (Ok true, out ++ p).

Example test_debug_matrix : both (fun c =>
  mdebug c put (fun k => put (show k)) 2 [[1; 2]; [3; 4]] [] = (Ok true, chars_of "Matrix[[1, 2], [3, 4]]")).
Proof. run_test. Qed.

(** The brackets of the first, middle and last line. *)
Definition top (x : str) : str := [ch_tl] ++ x ++ [ch_tr].
Definition mid (x : str) : str := [ch_ml] ++ x ++ [ch_mr].
Definition bot (x : str) : str := [ch_bl] ++ x ++ [ch_br].
Definition nl (x y : str) : str := x ++ [ch_nl] ++ y.
(** With the feature "unicode_width": every character one column. *)
Definition width_len : str -> nat := @length char.
Definition show_m (c : cfg) (slen : str -> nat) (m : list (list nat)) : str :=
  match mdisplay c put slen (fun k => ret (show k)) 2 2 m [] with (Ok true, out) => out | _ => [] end.
Definition a1 : list (list nat) := [[111; 2]; [3; 4]].
Definition a2 : list (list nat) := [[1; 2]; [3; 4]].
Definition tr (m : list (list nat)) : list (list nat) :=
  match m with [[p; q]; [r; s]] => [[p; r]; [q; s]] | _ => [] end.
Definition show_nested (c : cfg) (slen : str -> nat) : str :=
  match mdisplay c put slen (fun m => ret (show_m c slen m)) 3 2 [[a1; a2]; [tr a2; a1]; [a2; tr a1]] [] with
  | (Ok true, out) => out | _ => [] end.
Definition nested : str :=
    nl (top (top (chars_of "111 2") ++ chars_of "  " ++ top (chars_of "1 2") ++ chars_of " ")) (
    nl (mid (bot (chars_of " 3  4") ++ chars_of "  " ++ bot (chars_of "3 4") ++ chars_of " ")) (
    nl (mid (chars_of " " ++ top (chars_of "1 3") ++ chars_of "  " ++ top (chars_of "111 2"))) (
    nl (mid (chars_of " " ++ bot (chars_of "2 4") ++ chars_of "  " ++ bot (chars_of " 3  4"))) (
    nl (mid (chars_of " " ++ top (chars_of "1 2") ++ chars_of "  " ++ top (chars_of "111 3"))) (
        bot (chars_of " " ++ bot (chars_of "3 4") ++ chars_of "  " ++ bot (chars_of " 2  4"))))))).
Example test_display : both (fun c =>
  show_m c utf8_len a1 = nl (top (chars_of "111 2")) (bot (chars_of " 3  4")) /\
  show_m c width_len a1 = nl (top (chars_of "111 2")) (bot (chars_of " 3  4")) /\
  show_nested c utf8_len = nested /\ show_nested c width_len = nested).
Proof. run_test. Qed.
End Format.
