(** * SpecBlock.v - block matrices, for C88.  Independent of the model. *)
From Coq Require Import List Arith.
From Verif Require Import Rust Elem SpecCommon SpecAlg.
Import ListNotations.

(** An [l] x [n] matrix of [p] x [p] blocks. *)
Definition blocks {T} (l n p : nat) (m : list (list (list (list T)))) : Prop :=
  rect l n m /\ Forall (Forall (rect p p)) m.
(** A vector of [n] blocks. *)
Definition block_vec {T} (n p : nat) (v : list (list (list T))) : Prop :=
  length v = n /\ Forall (rect p p) v.
(** The [l*p] x [n*p] matrix of numbers: its entry (i, j) is entry (i mod p, j mod p) of block
    (i / p, j / p). *)
Definition flat {T} (A : arith T) (l n p : nat) (m : list (list (list (list T)))) : list (list T) :=
  mat (l * p) (n * p) (fun i j => at2 A (nth (j / p) (nth (i / p) m []) []) (i mod p) (j mod p)).
(** A vector of blocks: one block column. *)
Definition flat_vec {T} (A : arith T) (n p : nat) (v : list (list (list T))) : list (list T) :=
  flat A n 1 p (map (fun b => [b]) v).
(** The block diagonal matrix with [n] copies of [b]. *)
Definition flat_diag {T} (A : arith T) (n p : nat) (b : list (list T)) : list (list T) :=
  mat (n * p) (n * p) (fun i j => if i / p =? j / p then at2 A b (i mod p) (j mod p) else a_zero A).
