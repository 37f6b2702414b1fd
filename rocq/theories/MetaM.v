(** * MetaM.v - model of the type-level and macro-level parts:
    src/macros.rs, src/util.rs, src/prelude.rs, the [ArrayLen] impls of
    src/vector.rs:905-949 and the impl headers of src/matrix/ops.rs.
    No proofs here. *)
From Coq Require Import List Arith Bool String.
Import ListNotations.

(** ** typenum (external): unsigned type-level numbers, most significant bit
    innermost. *)
Inductive tbit := B0 | B1.
Inductive tnum := UTerm | UInt (u : tnum) (b : tbit).

Definition bit_val (b : tbit) : nat := match b with B0 => 0 | B1 => 1 end.
(** [Unsigned::to_usize]. *)
Fixpoint to_usize (t : tnum) : nat :=
  match t with UTerm => 0 | UInt u b => 2 * to_usize u + bit_val b end.

(** [U + B1] and [Ul + Ur] (typenum's [Add] impls). *)
Fixpoint tsucc (t : tnum) : tnum :=
  match t with
  | UTerm => UInt UTerm B1
  | UInt u B0 => UInt u B1
  | UInt u B1 => UInt (tsucc u) B0
  end.
Fixpoint tadd (a b : tnum) : tnum :=
  match a, b with
  | UTerm, _ => b
  | _, UTerm => a
  | UInt u B0, UInt v B0 => UInt (tadd u v) B0
  | UInt u B0, UInt v B1 => UInt (tadd u v) B1
  | UInt u B1, UInt v B0 => UInt (tadd u v) B1
  | UInt u B1, UInt v B1 => UInt (tsucc (tadd u v)) B0
  end.

(** typenum's constants [U0], [U1], ...: the canonical representation. *)
Fixpoint U (n : nat) : tnum := match n with 0 => UTerm | S n' => tsucc (U n') end.

(** [typenum::Compare<A, B>] (typenum's [PrivateCmp] impls): from the least significant bit
    up, the last differing bit decides ([sofar]); a number that runs out of digits first is
    the smaller one. *)
Fixpoint tcompare_sofar (a b : tnum) (sofar : comparison) : comparison :=
  match a, b with
  | UTerm, UTerm => sofar
  | UTerm, UInt _ _ => Lt
  | UInt _ _, UTerm => Gt
  | UInt u B0, UInt v B1 => tcompare_sofar u v Lt
  | UInt u B1, UInt v B0 => tcompare_sofar u v Gt
  | UInt u _, UInt v _ => tcompare_sofar u v sofar
  end.
Definition tcompare (a b : tnum) : comparison := tcompare_sofar a b Eq.
(** [Compare<A, B>: Same<Less>]. *)
Definition tless (a b : tnum) : bool := match tcompare a b with Lt => true | _ => false end.

(** ** Which type-level indices compile *)
(** [v[I::new()]] on a [Vector<T, N>]: [I = U0] always (src/vector.rs:274-285, 303-312, no
    [where] clause), [I = UInt<..>] when [Compare<I, N>: Same<Less>] (256-272, 287-301). *)
Definition vindex_compiles (i n : tnum) : bool :=
  match i with UTerm => true | UInt _ _ => tless i n end.
(** [m[(I::new(), J::new())]] on a [Matrix<T, Row, Col>], src/matrix/mod.rs:449-610: all four
    impls demand both [Same<Less>]. *)
Definition mindex_compiles (i j row col : tnum) : bool :=
  match i, j with
  | UInt _ _, UInt _ _ => tless i row && tless j col   (* 449-493 *)
  | UTerm, UTerm => tless i row && tless j col         (* 495-526 *)
  | UInt _ _, UTerm => tless i row && tless j col      (* 528-568 *)
  | UTerm, UInt _ _ => tless i row && tless j col      (* 570-610 *)
  end.

(** ** src/util.rs *)
(** The three [MinImpl] impls, src/util.rs:11-27, and [Min], line 5. *)
Definition MinImpl (a b : tnum) (o : comparison) : tnum :=
  match o with
  | Eq => a     (* 11-15 *)
  | Gt => b     (* 17-21 *)
  | Lt => a     (* 23-27 *)
  end.
Definition Min (a b : tnum) : tnum := MinImpl a b (tcompare a b).

(** ** src/macros.rs *)
(** [vector!(@count ...)], src/macros.rs:34-44: the type chosen for a literal
    with the given elements. *)
Fixpoint vector_count {E} (elems : list E) : tnum :=
  match elems with
  | [] => U 0                                        (* 34-36 *)
  | [_] => U 1                                       (* 38-40 *)
  | _ :: rest => tadd (U 1) (vector_count rest)      (* 42-44 *)
  end.
(** [matrix!(@countrow ...)], src/macros.rs:84-90. *)
Fixpoint matrix_countrow {E} (rows : list (list E)) : tnum :=
  match rows with
  | [] => U 0
  | [_] => U 1
  | _ :: rest => tadd (U 1) (matrix_countrow rest)
  end.
(** [matrix!(@countcol ...)], src/macros.rs:92-104: counts the first row. *)
Fixpoint matrix_countcol1 {E} (first : list E) : tnum :=
  match first with
  | [] => U 0
  | [_] => U 1
  | _ :: rest => tadd (U 1) (matrix_countcol1 rest)
  end.
Definition matrix_countcol {E} (rows : list (list E)) : tnum :=
  match rows with
  | [] => U 0                        (* 92 *)
  | [] :: [] => U 0                  (* 94 *)
  | r :: _ => matrix_countcol1 r     (* 96-104 *)
  end.

(** ** ArrayLen, src/vector.rs:905-949: the table of [impl_arraylen!] lines,
    [(Uk, length of [T; _])]. *)
Definition arraylen_table : list (tnum * nat) :=
  [ (U 0, 0); (U 1, 1); (U 2, 2); (U 3, 3); (U 4, 4); (U 5, 5); (U 6, 6); (U 7, 7); (U 8, 8);
    (U 9, 9); (U 10, 10); (U 11, 11); (U 12, 12); (U 13, 13); (U 14, 14); (U 15, 15); (U 16, 16);
    (U 17, 17); (U 18, 18); (U 19, 19); (U 20, 20); (U 21, 21); (U 22, 22); (U 23, 23); (U 24, 24);
    (U 25, 25); (U 26, 26); (U 27, 27); (U 28, 28); (U 29, 29); (U 30, 30); (U 31, 31); (U 32, 32) ].

(** An array type of length [len] accepts a literal with exactly [len]
    elements (Rust type checking); [vector!]/[matrix!] expand to
    [Vector::<_, count>::new([...])], src/macros.rs:46-48, 106-112. *)
Definition tbit_eqb (a b : tbit) : bool := match a, b with B0, B0 | B1, B1 => true | _, _ => false end.
(** Type equality (impl selection is by type, not by value). *)
Fixpoint tnum_eqb (a b : tnum) : bool :=
  match a, b with
  | UTerm, UTerm => true
  | UInt u x, UInt v y => tnum_eqb u v && tbit_eqb x y
  | _, _ => false
  end.
Definition arraylen (t : tnum) : list nat :=
  map snd (filter (fun p => tnum_eqb (fst p) t) arraylen_table).
Definition vector_typechecks {E} (elems : list E) : bool :=
  existsb (Nat.eqb (List.length elems)) (arraylen (vector_count elems)).
Definition matrix_typechecks {E} (rows : list (list E)) : bool :=
  existsb (Nat.eqb (List.length rows)) (arraylen (matrix_countrow rows)) &&
  existsb (fun c => forallb (fun r => Nat.eqb (List.length r) c) rows) (arraylen (matrix_countcol rows)).

(** ** Impl headers of src/matrix/ops.rs *)
Inductive impl := ImplU1 | ImplU2 | ImplU3 | ImplBig.
(** Does a square dimension match the header?  [ImplBig] is
    [UInt<UInt<UInt<U, Ba>, Bb>, Bc>]. *)
Definition header_matches (i : impl) (n : tnum) : bool :=
  match i, n with
  | ImplU1, UInt UTerm B1 => true
  | ImplU2, UInt (UInt UTerm B1) B0 => true
  | ImplU3, UInt (UInt UTerm B1) B1 => true
  | ImplBig, UInt (UInt (UInt _ _) _) _ => true
  | _, _ => false
  end.
(** Determinant: src/matrix/ops.rs:31, 40, 53, 72; Cofactor: 132, 144, 166;
    Inverse: 253, 267, 286, 342. *)
Definition determinant_impls : list impl := [ImplU1; ImplU2; ImplU3; ImplBig].
Definition cofactor_impls : list impl := [ImplU2; ImplU3; ImplBig].
Definition inverse_impls : list impl := [ImplU1; ImplU2; ImplU3; ImplBig].
Definition applicable (impls : list impl) (n : tnum) : list impl :=
  filter (fun i => header_matches i n) impls.

(** ** src/prelude.rs:8-34: the type aliases. *)
Inductive fty := F32 | F64.
Inductive alias_rhs := VecOf (t : fty) (n : nat) | MatOf (t : fty) (r c : nat).
(** The meaning announced by an alias name [Vector<n>f<w>] / [Matrix<n>f<w>]. *)
Record alias_name := Alias { a_matrix : bool; a_dim : nat; a_elem : fty }.
Definition vec_alias (n : nat) (t : fty) := Alias false n t.
Definition mat_alias (n : nat) (t : fty) := Alias true n t.
Definition prelude_aliases : list (alias_name * alias_rhs) :=
  [ (vec_alias 1 F32, VecOf F32 1); (vec_alias 1 F64, VecOf F64 1);
    (vec_alias 2 F32, VecOf F32 2); (vec_alias 2 F64, VecOf F64 2);
    (vec_alias 3 F32, VecOf F32 3); (vec_alias 3 F64, VecOf F64 3);
    (vec_alias 4 F32, VecOf F32 4); (vec_alias 4 F64, VecOf F64 4);
    (vec_alias 5 F32, VecOf F32 5); (vec_alias 5 F64, VecOf F64 5);
    (vec_alias 6 F32, VecOf F32 6); (vec_alias 6 F64, VecOf F64 6);
    (vec_alias 7 F32, VecOf F32 7); (vec_alias 7 F64, VecOf F64 7);
    (vec_alias 8 F32, VecOf F32 8); (vec_alias 8 F64, VecOf F64 8);
    (vec_alias 9 F32, VecOf F32 9); (vec_alias 9 F64, VecOf F64 9);
    (vec_alias 10 F32, VecOf F32 10); (vec_alias 10 F64, VecOf F64 10);
    (mat_alias 2 F32, MatOf F32 2 2);
    (mat_alias 2 F64, MatOf F32 2 2);      (* src/prelude.rs:30: Matrix<f32, U2, U2> *)
    (mat_alias 3 F32, MatOf F32 3 3); (mat_alias 3 F64, MatOf F64 3 3);
    (mat_alias 4 F32, MatOf F32 4 4); (mat_alias 4 F64, MatOf F64 4 4) ].
