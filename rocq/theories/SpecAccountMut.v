(** * SpecAccountMut.v - accounting for operations in place, and for what a panic leaves behind: the
    vocabulary of C104 and C107. *)
From Coq Require Import List Permutation.
From Verif Require Import Rust Elem NumM SpecAccount.
Import ListNotations.

Section AccountMut.
Context {S T : Type}.
(** As in SpecAccount.v: the values that exist; may operations run forever? *)
Variable live : S -> list T.
Variable D : Prop.
(** May a panicking operation leave values behind that nobody will ever drop? *)
Variable leaky : Prop.

(** As [borrows], but unless [leaky], nothing is left when [m] panics: all of [before] is gone, and
    all that [m] made. *)
Definition tidies (refs : list T) {A} (m : M S A) (before : list T) (after : A -> list T) : Prop :=
  forall s rest, incl refs rest -> Permutation (live s) (before ++ rest) ->
  match m s with
  | (Ok r, s') => Permutation (live s') (after r ++ rest)
  | (Panic, s') => exists left, Permutation (live s') (left ++ rest) /\ (left = [] \/ leaky)
  | (UB, _) => False
  | (Diverge, _) => D
  end.

(** [edits own refs m x before]: [m] is a method on a place [&mut self] that holds [x]; [own] lists the
    values that a content owns.  [m] uses up [before]; the content that it leaves owns exactly what [x]
    owned and [m] did not use up, and what [m] put there; also when [m] panics, every value that the
    content owns exists, once. *)
Definition edits {X} (own : X -> list T) (refs : list T) (m : M (X * S) unit) (x : X) (before : list T) : Prop :=
  forall s rest, incl refs rest -> Permutation (live s) (own x ++ before ++ rest) ->
  match m (x, s) with
  | (Ok _, (x', s')) => Permutation (live s') (own x' ++ rest)
  | (Panic, (x', s')) => exists left, Permutation (live s') (own x' ++ left ++ rest) /\ (left = [] \/ leaky)
  | (UB, _) => False
  | (Diverge, _) => D
  end.

(** What one value of the element type owns, and what a method [op y] on a place does to it. *)
Definition one (x : T) : list T := [x].
Definition updates (op : T -> M (T * S) unit) : Prop := forall x y, edits one [] (op y) x [y].
(** Dropping a value is the end of it. *)
Definition drops (d : ety S T) : Prop :=
  forall x s rest, Permutation (live s) (x :: rest) -> Permutation (live (e_drop d x s)) rest.
(** An element type (operators, [clone], the constants, [is_zero], destructor) that keeps its own books:
    an operator uses up its operands and makes its result, [clone] and the constants make one value; unless
    [leaky], one that panics has dropped its operands and leaves nothing behind. *)
Record tidy_ops (d : ety S T) (z : zops S T) : Prop := {
  to_add : forall x y, tidies [] (o_add (z_ops z) x y) [x; y] one;
  to_sub : forall x y, tidies [] (o_sub (z_ops z) x y) [x; y] one;
  to_mul : forall x y, tidies [] (o_mul (z_ops z) x y) [x; y] one;
  to_div : forall x y, tidies [] (o_div (z_ops z) x y) [x; y] one;
  to_neg : forall x, tidies [] (o_neg (z_ops z) x) [x] one;
  to_clone : forall x, tidies [x] (o_clone (z_ops z) x) [] one;
  to_zero : tidies [] (z_zero z) [] one;
  to_one : tidies [] (z_one z) [] one;
  to_is_zero : forall x, tidies [x] (z_is_zero z x) [] (fun _ => []);
  to_drop : drops d }.
End AccountMut.
