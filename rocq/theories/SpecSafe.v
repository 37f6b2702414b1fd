(** * SpecSafe.v - what "memory safe and well-shaped" means, for C85. *)
From Coq Require Import List.
From Verif Require Import Rust Iter Elem SpecCommon.
Import ListNotations.

(** A [Vector<T, n>] whose elements satisfy [P]; a [row] x [col] matrix of such elements. *)
Definition vec {T} (n : nat) (P : T -> Prop) (v : list T) : Prop := length v = n /\ Forall P v.
Definition mat {T} (row col : nat) (P : T -> Prop) (m : list (list T)) : Prop := vec row (vec col P) m.

(** From every world, [m] never has undefined behaviour, does not return unless with a value
    satisfying [Q], and fails to end only if [D] (it may panic). *)
Definition no_ub {S A} (D : Prop) (Q : A -> Prop) (m : M S A) : Prop :=
  forall s, match fst (m s) with
            | Ok x => Q x
            | Panic => True
            | UB => False
            | Diverge => D
            end.
(** The same for a method on a [&mut X] receiver; [J] holds of the receiver before, and again
    after the call, whether it returns or panics. *)
Definition no_ub_mut {S X A} (D : Prop) (J : X -> Prop) (Q : A -> Prop) (m : M (X * S) A) : Prop :=
  forall x s, J x ->
  let '(r, (x', _)) := m (x, s) in
  match r with
  | Ok a => J x' /\ Q a
  | Panic => J x'
  | UB => False
  | Diverge => D
  end.
Definition anything {A} (_ : A) : Prop := True.
Definition if_some {A} (Q : A -> Prop) (o : option A) : Prop := match o with Some x => Q x | None => True end.

(** Element operations that are themselves safe on elements satisfying [P]: they may panic and
    have any effect, and return elements satisfying [P]. *)
Definition ops_no_ub {S T} (D : Prop) (P : T -> Prop) (o : ops S T) : Prop :=
  P (o_zero o) /\ P (o_one o) /\
  (forall x y, P x -> P y -> no_ub D P (o_add o x y)) /\
  (forall x y, P x -> P y -> no_ub D P (o_sub o x y)) /\
  (forall x y, P x -> P y -> no_ub D P (o_mul o x y)) /\
  (forall x y, P x -> P y -> no_ub D P (o_div o x y)) /\
  (forall x, P x -> no_ub D P (o_neg o x)) /\
  (forall x, P x -> no_ub D P (o_clone o x)).

(** A user's iterator that is itself safe; it may be infinite, panic, and go on after [None]. *)
Definition iter_no_ub {S T} (D : Prop) (P : T -> Prop) (it : iter S T) : Prop :=
  exists J : i_st it -> Prop, J (i_cur it) /\
    no_ub_mut D J (if_some P) (i_next it) /\
    (forall st, J st -> no_ub D anything (i_drop it st)).

(** An item taken from an iterator satisfies [Q]. *)
Definition out_ok {T} (Q : T -> Prop) (o : qout T) : Prop :=
  match o with Item (Some x) => Q x | _ => True end.

(** Any history of calls on an iterator that starts in state [x0] is safe, and every item handed
    out satisfies [Q]. *)
Definition history_no_ub {S X T} (D : Prop) (Q : T -> Prop) (step : qop -> M (X * S) (qout T)) (x0 : X) : Prop :=
  forall ops s,
  match fst (run_history step ops (x0, s)) with
  | Ok outs => Forall (out_ok Q) outs
  | Panic => True
  | UB => False
  | Diverge => D
  end.

(** Operators, comparisons, closures: safe on arguments satisfying the predicates. *)
Definition op1_no_ub {S A B} (D : Prop) (P : A -> Prop) (Q : B -> Prop) (f : A -> M S B) : Prop :=
  forall x, P x -> no_ub D Q (f x).
Definition op2_no_ub {S A B C} (D : Prop) (P : A -> Prop) (Q : B -> Prop) (R : C -> Prop) (f : A -> B -> M S C) : Prop :=
  forall x y, P x -> Q y -> no_ub D R (f x y).
(** A compound assignment operator: the slot keeps an element satisfying [P] also when it panics. *)
Definition assign_no_ub {S A B} (D : Prop) (P : A -> Prop) (Q : B -> Prop) (f : B -> M (A * S) unit) : Prop :=
  forall y, Q y -> no_ub_mut D P anything (f y).
