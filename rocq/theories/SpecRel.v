(** * SpecRel.v - what it means that two instances of the crate behave alike, for C86. *)
From Coq Require Import List.
From Verif Require Import Rust Iter Elem MatrixM SpecCommon.
Import ListNotations.

(** Two outcomes of the same kind, with related values if both returned. *)
Definition res_rel {A B} (R : A -> B -> Prop) (r1 : res A) (r2 : res B) : Prop :=
  match r1, r2 with
  | Ok x, Ok y => R x y
  | Panic, Panic | UB, UB | Diverge, Diverge => True
  | _, _ => False
  end.
(** Started in related worlds, the two programs do the same thing (both return, with related
    values, or both panic, ...) and leave related worlds. *)
Definition alike {S1 S2 A B} (RS : S1 -> S2 -> Prop) (R : A -> B -> Prop) (m1 : M S1 A) (m2 : M S2 B) : Prop :=
  forall s1 s2, RS s1 s2 ->
    res_rel R (fst (m1 s1)) (fst (m2 s2)) /\ RS (snd (m1 s1)) (snd (m2 s2)).

(** Relations on structured data: component by component; the same for lists of the same length
    is [Forall2]. *)
Definition pair_rel {A B C D} (R : A -> B -> Prop) (Q : C -> D -> Prop) (x : A * C) (y : B * D) : Prop :=
  R (fst x) (fst y) /\ Q (snd x) (snd y).
Definition opt_rel {A B} (R : A -> B -> Prop) (x : option A) (y : option B) : Prop :=
  match x, y with Some a, Some b => R a b | None, None => True | _, _ => False end.
(** Vectors and matrices: entry by entry. *)
Definition vec_rel {A B} (R : A -> B -> Prop) : list A -> list B -> Prop := Forall2 R.
Definition mat_rel {A B} (R : A -> B -> Prop) : list (list A) -> list (list B) -> Prop := Forall2 (Forall2 R).

(** Functions taking related arguments to alike programs. *)
Definition op1_alike {S1 S2 A B C D} (RS : S1 -> S2 -> Prop) (R : A -> B -> Prop) (Q : C -> D -> Prop)
    (f : A -> M S1 C) (g : B -> M S2 D) : Prop :=
  forall x y, R x y -> alike RS Q (f x) (g y).
Definition op2_alike {S1 S2 A B C D E F} (RS : S1 -> S2 -> Prop) (R : A -> B -> Prop) (Q : C -> D -> Prop) (V : E -> F -> Prop)
    (f : A -> C -> M S1 E) (g : B -> D -> M S2 F) : Prop :=
  forall x y u v, R x y -> Q u v -> alike RS V (f x u) (g y v).
(** Destructors that leave related worlds related, of types both [Copy] or both not. *)
Definition ety_alike {S1 S2 A B} (RS : S1 -> S2 -> Prop) (R : A -> B -> Prop) (d1 : ety S1 A) (d2 : ety S2 B) : Prop :=
  e_copy d1 = e_copy d2 /\
  forall x y s1 s2, R x y -> RS s1 s2 -> RS (e_drop d1 x s1) (e_drop d2 y s2).
(** Two number types whose ring operations correspond; and also division and the zero test. *)
Record ring_alike {S1 S2 A B} (RS : S1 -> S2 -> Prop) (R : A -> B -> Prop) (o1 : ops S1 A) (o2 : ops S2 B) : Prop := RingAlike {
  ra_zero : R (o_zero o1) (o_zero o2);
  ra_one : R (o_one o1) (o_one o2);
  ra_add : op2_alike RS R R R (o_add o1) (o_add o2);
  ra_sub : op2_alike RS R R R (o_sub o1) (o_sub o2);
  ra_mul : op2_alike RS R R R (o_mul o1) (o_mul o2);
  ra_neg : op1_alike RS R R (o_neg o1) (o_neg o2);
  ra_clone : op1_alike RS R R (o_clone o1) (o_clone o2) }.
Record ops_alike {S1 S2 A B} (RS : S1 -> S2 -> Prop) (R : A -> B -> Prop) (o1 : ops S1 A) (o2 : ops S2 B) : Prop := OpsAlike {
  oa_ring : ring_alike RS R o1 o2;
  oa_div : op2_alike RS R R R (o_div o1) (o_div o2);
  oa_is_zero : forall x y, R x y -> o_is_zero o1 x = o_is_zero o2 y }.
(** Two iterators that hand out related items in the same way. *)
Definition iter_alike {S1 S2 A B} (RS : S1 -> S2 -> Prop) (R : A -> B -> Prop) (it1 : iter S1 A) (it2 : iter S2 B) : Prop :=
  exists Q : i_st it1 -> i_st it2 -> Prop,
    Q (i_cur it1) (i_cur it2) /\
    alike (pair_rel Q RS) (opt_rel R) (i_next it1) (i_next it2) /\
    op1_alike RS Q eq (i_drop it1) (i_drop it2).

(** Compound assignment operators and other functions on a place of type [A]: also after a panic
    the places hold related values. *)
Definition assign_alike {S1 S2 A B C D} (RS : S1 -> S2 -> Prop) (R : A -> B -> Prop) (Q : C -> D -> Prop)
    (f : C -> M (A * S1) unit) (g : D -> M (B * S2) unit) : Prop :=
  forall x y, Q x y -> alike (pair_rel R RS) eq (f x) (g y).
(** Complex numbers: real and imaginary parts. *)
Definition complex_rel {A B} (R : A -> B -> Prop) (z : complex A) (w : complex B) : Prop :=
  R (re z) (re w) /\ R (im z) (im w).
(** Replies of an iterator to a method call, and any history of calls. *)
Definition out_rel {A B} (R : A -> B -> Prop) (x : qout A) (y : qout B) : Prop :=
  match x, y with
  | Item a, Item b => opt_rel R a b
  | Num a, Num b => a = b
  | Hint l h, Hint l' h' => l = l' /\ h = h'
  | _, _ => False
  end.
Definition history_alike {S1 S2 X Y A B} (RS : S1 -> S2 -> Prop) (R : A -> B -> Prop)
    (step1 : qop -> M (X * S1) (qout A)) (x1 : X) (step2 : qop -> M (Y * S2) (qout B)) (x2 : Y) : Prop :=
  forall ops s1 s2, RS s1 s2 ->
    res_rel (Forall2 (out_rel R)) (fst (run_history step1 ops (x1, s1))) (fst (run_history step2 ops (x2, s2))) /\
    RS (snd (snd (run_history step1 ops (x1, s1)))) (snd (snd (run_history step2 ops (x2, s2)))).

(** The special case of a function between the element types, in one world: apply it to the result. *)
Definition map_res {A B} (f : A -> B) (r : res A) : res B :=
  match r with Ok x => Ok (f x) | Panic => Panic | UB => UB | Diverge => Diverge end.
Definition and_map {S A B} (f : A -> B) (m : M S A) : M S B := fun s => (map_res f (fst (m s)), snd (m s)).
