(** * FloatM.v - IEEE-754 floating point (std's f32 and f64, external) as an element type.  No
    proofs here.  The formats, values and round-to-nearest-even operations are Flocq's
    (IEEE754.BinarySingleNaN: one NaN, payloads are not modelled). *)
From Coq Require Import ZArith List.
From Flocq Require Import Core IEEE754.BinarySingleNaN.
From Verif Require Import Rust Elem SpecAlg.

Section Format.
Variables prec emax : Z.
Context (Hp : Prec_gt_0 prec) (He : Prec_lt_emax prec emax).
Definition fl := binary_float prec emax.
Definition fl_zero : fl := B754_zero false.
(** The operators of [f32] / [f64]; [num::Zero for f64]: [*self == 0.0], which holds of [-0.0]
    and not of NaN. *)
Definition fl_is_zero (x : fl) : bool := Beqb x fl_zero.
Definition fl_arith : arith fl :=
  Arith fl_zero Bone (Bplus mode_NE) (Bminus mode_NE) (Bmult mode_NE) Bopp.
Definition fl_ops {S} : ops S fl :=
  Ops fl_zero Bone
    (fun x y => ret (Bplus mode_NE x y)) (fun x y => ret (Bminus mode_NE x y)) (fun x y => ret (Bmult mode_NE x y))
    (fun x y => ret (Bdiv mode_NE x y)) (fun x => ret (Bopp x)) fl_is_zero ret.
End Format.

#[global] Instance prec64 : Prec_gt_0 53 := eq_refl.
#[global] Instance emax64 : Prec_lt_emax 53 1024 := eq_refl.
Definition f64 := fl 53 1024.
Definition f64_arith : arith f64 := fl_arith 53 1024 _ _.
Definition f64_ops {S} : ops S f64 := fl_ops 53 1024 _ _.
(** [num::Float for f64]: [x.powi(2)] is a single rounded multiplication (what LLVM's powi
    intrinsic computes for exponent 2); [sqrt] is IEEE's. *)
Definition f64_fops {S} : fops S f64 := Fops f64_ops (fun x => ret (Bmult mode_NE x x)) (fun x => ret (Bsqrt mode_NE x)).

(** The two floating-point types of std. *)
#[global] Instance prec32 : Prec_gt_0 24 := eq_refl.
#[global] Instance emax32 : Prec_lt_emax 24 128 := eq_refl.
Inductive float_type := F32 | F64.
Definition fprec (t : float_type) : Z := match t with F32 => 24 | F64 => 53 end.
Definition femax (t : float_type) : Z := match t with F32 => 128 | F64 => 1024 end.
#[global] Instance fprec_gt (t : float_type) : Prec_gt_0 (fprec t) := match t with F32 => prec32 | F64 => prec64 end.
#[global] Instance fprec_lt (t : float_type) : Prec_lt_emax (fprec t) (femax t) := match t with F32 => emax32 | F64 => emax64 end.
Definition float (t : float_type) := fl (fprec t) (femax t).
Definition float_arith (t : float_type) : arith (float t) := fl_arith (fprec t) (femax t) _ _.
Definition float_ops (t : float_type) {S} : ops S (float t) := fl_ops (fprec t) (femax t) _ _.
Definition float_fops (t : float_type) {S} : fops S (float t) :=
  Fops (float_ops t) (fun x => ret (Bmult mode_NE x x)) (fun x => ret (Bsqrt mode_NE x)).
