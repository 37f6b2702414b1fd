(** * SpecAccount.v - accounting for element values: the vocabulary of C103. *)
From Coq Require Import List Permutation.
From Verif Require Import Rust Elem NumM.
Import ListNotations.

Section Account.
Context {S T : Type}.
(** The world [s] knows which element values exist (are owned by somebody and have not been dropped):
    [live s], in any order; a value that exists twice is listed twice. *)
Variable live : S -> list T.
(** May operations run forever? *)
Variable D : Prop.

(** [borrows refs m before after]: run while the values [before] exist, and whatever else exists too
    ([rest]), among it those that [m] has references to ([refs]), [m] turns exactly [before] into the
    values [after r], [r] being what it returns: it creates and drops what it must to this end, once, and
    touches nothing of [rest].  If it panics, some of what it was given or made may still exist ([left]),
    but again all of [rest] does. *)
Definition borrows (refs : list T) {A} (m : M S A) (before : list T) (after : A -> list T) : Prop :=
  forall s rest, incl refs rest -> Permutation (live s) (before ++ rest) ->
  match m s with
  | (Ok r, s') => Permutation (live s') (after r ++ rest)
  | (Panic, s') => exists left, Permutation (live s') (left ++ rest)
  | (UB, _) => False
  | (Diverge, _) => D
  end.
(** Without references. *)
Definition takes {A} (m : M S A) (before : list T) (after : A -> list T) : Prop := borrows [] m before after.

(** Ways to call an operation: operands by value are gone afterwards, operands by reference are not. *)
Definition by_value (op : T -> T -> M S T) : Prop := forall x y, takes (op x y) [x; y] (fun r => [r]).
Definition right_by_ref (op : T -> T -> M S T) : Prop := forall x y, borrows [y] (op x y) [x] (fun r => [r]).
Definition left_by_ref (op : T -> T -> M S T) : Prop := forall x y, borrows [x] (op x y) [y] (fun r => [r]).
Definition by_ref (op : T -> T -> M S T) : Prop := forall x y, borrows [x; y] (op x y) [] (fun r => [r]).
Definition consumes (op : T -> M S T) : Prop := forall x, takes (op x) [x] (fun r => [r]).
Definition copies (op : T -> M S T) : Prop := forall x, borrows [x] (op x) [] (fun r => [r]).
Definition creates (op : M S T) : Prop := takes op [] (fun r => [r]).
(** Comparisons. *)
Definition looks {A} (op : T -> T -> M S A) : Prop := forall x y, borrows [x; y] (op x y) [] (fun _ => []).

(** An element type that keeps the books.  [mul] is the way the multiplication is called. *)
Record books (mul : (T -> T -> M S T) -> Prop) (d : ety S T) (z : zops S T) : Prop := {
  bk_add : by_value (o_add (z_ops z));
  bk_sub : by_value (o_sub (z_ops z));
  bk_mul : mul (o_mul (z_ops z));
  bk_div : by_value (o_div (z_ops z));
  bk_neg : consumes (o_neg (z_ops z));
  bk_clone : copies (o_clone (z_ops z));
  bk_zero : creates (z_zero z);
  bk_one : creates (z_one z);
  bk_is_zero : forall x, borrows [x] (z_is_zero z x) [] (fun _ => []);
  bk_drop : forall x s rest, Permutation (live s) (x :: rest) -> Permutation (live (e_drop d x s)) rest }.
End Account.
