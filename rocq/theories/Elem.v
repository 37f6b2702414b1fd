(** * Elem.v - what the crate may assume about an element type. *)
From Verif Require Import Rust.

(** The element operations the trait bounds of the crate mention
    (std::ops::{Add,Sub,Mul,Div,Neg}, num::{Zero,One}, Clone).  Operators are
    effectful: they may panic (overflow checks, division by zero). *)
Record ops (S T : Type) := Ops {
  o_zero : T;
  o_one : T;
  o_add : T -> T -> M S T;
  o_sub : T -> T -> M S T;
  o_mul : T -> T -> M S T;
  o_div : T -> T -> M S T;
  o_neg : T -> M S T;
  o_is_zero : T -> bool;
  o_clone : T -> M S T }.
Arguments Ops {S T}.
Arguments o_zero {S T} _.
Arguments o_one {S T} _.
Arguments o_add {S T} _ _ _ _.
Arguments o_sub {S T} _ _ _ _.
Arguments o_mul {S T} _ _ _ _.
Arguments o_div {S T} _ _ _ _.
Arguments o_neg {S T} _ _ _.
Arguments o_is_zero {S T} _ _.
Arguments o_clone {S T} _ _ _.

(** num::Float methods used by [Vector::norm] (src/vector.rs:553-556). *)
Record fops (S T : Type) := Fops {
  f_ops : ops S T;
  f_powi2 : T -> M S T;   (* x.powi(2) *)
  f_sqrt : T -> M S T }.
Arguments Fops {S T}.
Arguments f_ops {S T} _.
Arguments f_powi2 {S T} _ _ _.
Arguments f_sqrt {S T} _ _ _.
