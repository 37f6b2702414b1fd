(** * RatioM.v - num::rational::Ratio (num 0.1.36, external) as an element type, used by the tests of
    src/matrix/ops.rs:323-337 ([Ratio<BigInt>], [Ratio<i32>]).  No proofs here. *)
From Coq Require Import List Arith Bool ZArith.
From Verif Require Import Rust Iter Elem IntM.
Import ListNotations.
Local Open Scope Z_scope.

(** [Ratio { numer, denom }]. *)
Record ratio := Ratio { numer : Z; denom : Z }.

Section Ratio.
(** The operators and [Integer::gcd] of the integer type. *)
Context {S : Type} (io : ops S Z) (gcd : Z -> Z -> M S Z).
(** [Ratio::reduce]: divide by the gcd, make the denominator positive. *)
Definition r_reduce (n d : Z) : M S ratio :=
  g <- gcd n d ;;
  n' <- o_div io n g ;;
  d' <- o_div io d g ;;
  if d' <? 0
  then n'' <- o_sub io (o_zero io) n' ;; d'' <- o_sub io (o_zero io) d' ;; ret (Ratio n'' d'')
  else ret (Ratio n' d').
(** [Ratio::new]: panics with "denominator == 0". *)
Definition r_new (n d : Z) : M S ratio := if o_is_zero io d then panic else r_reduce n d.
(** [Add], [Sub], [Mul], [Div], [Neg]. *)
Definition r_add (x y : ratio) : M S ratio :=
  a <- o_mul io (numer x) (denom y) ;; b <- o_mul io (denom x) (numer y) ;; n <- o_add io a b ;;
  d <- o_mul io (denom x) (denom y) ;; r_new n d.
Definition r_sub (x y : ratio) : M S ratio :=
  a <- o_mul io (numer x) (denom y) ;; b <- o_mul io (denom x) (numer y) ;; n <- o_sub io a b ;;
  d <- o_mul io (denom x) (denom y) ;; r_new n d.
Definition r_mul (x y : ratio) : M S ratio :=
  n <- o_mul io (numer x) (numer y) ;; d <- o_mul io (denom x) (denom y) ;; r_new n d.
Definition r_div (x y : ratio) : M S ratio :=
  n <- o_mul io (numer x) (denom y) ;; d <- o_mul io (denom x) (numer y) ;; r_new n d.
Definition r_neg (x : ratio) : M S ratio := n <- o_neg io (numer x) ;; ret (Ratio n (denom x)).
(** [Zero], [One], [Clone]; [is_zero] compares with 0/1, which for a denominator that is not zero is the test below. *)
Definition ratio_ops : ops S ratio :=
  Ops (Ratio (o_zero io) (o_one io)) (Ratio (o_one io) (o_one io)) r_add r_sub r_mul r_div r_neg
    (fun x => o_is_zero io (numer x)) (fun x => n <- o_clone io (numer x) ;; d <- o_clone io (denom x) ;; ret (Ratio n d)).
End Ratio.

(** BigInt: no overflow; division truncates and panics on zero. *)
Definition bigint_ops {S} : ops S Z :=
  Ops 0 1 (fun x y => ret (x + y)) (fun x y => ret (x - y)) (fun x y => ret (x * y))
    (fun x y => if y =? 0 then panic else ret (Z.quot x y)) (fun x => ret (- x)) (fun x => x =? 0) ret.
(** [Ratio<BigInt>]; [Ratio<iN>] in a build with overflow checks ([gcd] ends with [abs()], which may overflow). *)
Definition big_ratio {S} : ops S ratio := ratio_ops bigint_ops (fun a b => ret (Z.gcd a b)).
Definition checked_ratio {S} (t : ity) : ops S ratio := ratio_ops (int_ops true t) (fun a b => chk true t (Z.gcd a b)).
