(** * SpecPow.v - vocabulary for C96: powers of matrices of reals. *)
From Coq Require Import Arith Reals.
From Verif Require Import SpecReal.
Local Open Scope R_scope.

(** Entry (i, j) of M^k. *)
Fixpoint rpow (n : nat) (M : nat -> nat -> R) (k i j : nat) : R :=
  match k with
  | 0%nat => if (i =? j)%nat then 1 else 0
  | S k' => rsum n (fun l => M i l * rpow n M k' l j)
  end.
(** |M|: the absolute values of the entries. *)
Definition rabs (M : nat -> nat -> R) : nat -> nat -> R := fun i j => Rabs (M i j).
(** Every row of |M| sums to at most [B]. *)
Definition row_sums_le (n : nat) (B : R) (M : nat -> nat -> R) : Prop :=
  forall i, (i < n)%nat -> rsum n (fun j => Rabs (M i j)) <= B.
