(** * SpecPow2.v - vocabulary for C98: scaling by powers of two.  Uses only Flocq's [B2R] and
    [is_finite], its operators, and [finite] of SpecPost.v. *)
From Coq Require Import List Arith ZArith Reals Bool.
From Flocq Require Import Core IEEE754.BinarySingleNaN.
From Verif Require Import Rust Elem FloatM SpecReal SpecPost.
Local Open Scope R_scope.

(** [y] is 2^k times [x], exactly. *)
Definition scaled {t} (k : Z) (x y : float t) : Prop := finite x /\ finite y /\ B2R y = bpow radix2 k * B2R x.
(** [w] is [v], and [p] is [m], with component i multiplied by 2^(f i), row i by 2^(f i) and column j
    by 2^(g j). *)
Definition scaled1 {t} (n : nat) (f : nat -> Z) (v w : list (float t)) : Prop :=
  length v = n /\ length w = n /\
  forall i, (i < n)%nat -> scaled (f i) (nth i v (B754_zero false)) (nth i w (B754_zero false)).
Definition scaled2 {t} (row col : nat) (f g : nat -> Z) (m p : list (list (float t))) : Prop :=
  length m = row /\ length p = row /\
  (forall i, (i < row)%nat -> length (nth i m nil) = col /\ length (nth i p nil) = col) /\
  forall i j, (i < row)%nat -> (j < col)%nat ->
  scaled (f i + g j) (nth j (nth i m nil) (B754_zero false)) (nth j (nth i p nil) (B754_zero false)).
(** f 0 + ... + f (n-1). *)
Fixpoint ztotal (n : nat) (f : nat -> Z) : Z := match n with 0%nat => 0%Z | S n' => (ztotal n' f + f n')%Z end.

(** ** Arithmetic that stops (here: panics) instead of overflowing or underflowing
    Whenever its operators return a value it is the one that f32's or f64's return.  They return it
    unless it is an infinity or NaN or, in a product or quotient of nonzero numbers, [small]. *)
Definition zero {t} (x : float t) : bool := match x with B754_zero _ => true | _ => false end.
(** Of absolute value at most 2^(2 - emax), the least normal number: C98_small. *)
Definition small {t} (x : float t) : bool :=
  match x with
  | B754_zero _ => true
  | B754_finite _ m e _ => ((e =? 3 - femax t - fprec t) && (Z.pos m <=? 2 ^ (fprec t - 1)))%Z%bool
  | _ => false
  end.
Definition unless {S A} (b : bool) (x : A) : M S A := if b then panic else ret x.
Definition careful_ops (t : float_type) {S} : ops S (float t) :=
  Ops (B754_zero false) Bone
    (fun x y => let z := Bplus mode_NE x y in unless (negb (is_finite z)) z)
    (fun x y => let z := Bminus mode_NE x y in unless (negb (is_finite z)) z)
    (fun x y => let z := Bmult mode_NE x y in unless (negb (is_finite z) || (small z && negb (zero x) && negb (zero y))) z)
    (fun x y => let z := Bdiv mode_NE x y in unless (negb (is_finite y) || negb (is_finite z) || (small z && negb (zero x))) z)
    (fun x => ret (Bopp x)) (fun x => Beqb x (B754_zero false)) ret.
Definition careful_fops (t : float_type) {S} : fops S (float t) :=
  Fops (careful_ops t) (fun x => o_mul (careful_ops t) x x)
    (fun x => let z := Bsqrt mode_NE x in unless (negb (is_finite z)) z).
(** Whenever both runs succeed in careful arithmetic, the same runs in f32 or f64 return the same
    values x and y, and Q x y. *)
Definition scales (t : float_type) {S B} (run run' : fops S (float t) -> M S B) (Q : B -> B -> Prop) (s : S) : Prop :=
  forall x y s1 s2, run (careful_fops t) s = (Ok x, s1) -> run' (careful_fops t) s = (Ok y, s2) ->
  run (float_fops t) s = (Ok x, s) /\ run' (float_fops t) s = (Ok y, s) /\ Q x y.
