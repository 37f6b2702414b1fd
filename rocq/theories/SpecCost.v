(** * SpecCost.v - element types that count their operations (C71-C73). *)
From Coq Require Import List Arith NArith.
From Verif Require Import Rust Elem SpecCommon SpecAlg.
Import ListNotations.

(** What one operation of each kind costs.  With [w_mul := 1] and all others 0 the total is the
    number of multiplications, and so on. *)
Record weights := Weights { w_add : nat; w_sub : nat; w_mul : nat; w_div : nat; w_neg : nat; w_clone : nat }.
(** Only multiplications; only divisions. *)
Definition multiplications : weights := Weights 0 0 1 0 0 0.
Definition divisions : weights := Weights 0 0 0 1 0 0.
(** Elements whose operators compute [A], [dv], [iz] and add their cost to a global counter. *)
Definition counting {T} (A : arith T) (dv : T -> T -> T) (iz : T -> bool) (w : weights) : ops nat T :=
  Ops (a_zero A) (a_one A)
    (fun x y s => (Ok (a_add A x y), s + w_add w))
    (fun x y s => (Ok (a_sub A x y), s + w_sub w))
    (fun x y s => (Ok (a_mul A x y), s + w_mul w))
    (fun x y s => (Ok (dv x y), s + w_div w))
    (fun x s => (Ok (a_neg A x), s + w_neg w))
    iz
    (fun x s => (Ok x, s + w_clone w)).
(** The program returns [v] and spends exactly [k]. *)
Definition spends {T} (m : M nat T) (v : T) (k : nat) : Prop := forall s, m s = (Ok v, s + k).
(** Number of ones in the binary numeral of [e]. *)
Fixpoint ones_pos (p : positive) : nat :=
  match p with xH => 1 | xO p => ones_pos p | xI p => Datatypes.S (ones_pos p) end.
Definition ones (e : nat) : nat := match N.of_nat e with N0 => 0 | Npos p => ones_pos p end.
