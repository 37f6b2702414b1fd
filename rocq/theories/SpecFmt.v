(** * SpecFmt.v - specification vocabulary for the formatting properties C58-C60.
    Strings are lists of Unicode scalar values; [lines] (FmtM.v) is std's [str::lines]. *)
From Coq Require Import Ascii String List Arith Bool NArith.
From Verif Require Import Rust FmtM SpecCommon.
Import ListNotations.

(** An ASCII literal as a list of scalar values. *)
Definition chars (s : string) : str := map N_of_ascii (list_ascii_of_string s).

(** A sink that keeps everything written to it, as [format!] and [to_string] use. *)
Definition string_sink : str -> M str bool := fun t out => (Ok true, out ++ t).

(** ** Debug *)
(** What is printed, as a sequence of literal texts and of elements that print themselves. *)
Fixpoint joined {P} (sep : P) (l : list (list P)) : list P :=
  match l with
  | [] => []
  | [x] => x
  | x :: l' => x ++ [sep] ++ joined sep l'
  end.
Definition listing {T} (l : list T) : list (str + T) :=
  [inl (chars "[")] ++ joined (inl (chars ", ")) (map (fun x => [inr x]) l) ++ [inl (chars "]")].
Definition vector_pieces {T} (v : list T) : list (str + T) := [inl (chars "Vector")] ++ listing v.
Definition matrix_pieces {T} (m : list (list T)) : list (str + T) :=
  [inl (chars "Matrix[")] ++ joined (inl (chars ", ")) (map listing m) ++ [inl (chars "]")].
(** Printing one piece. *)
Definition print_piece {S T} (w : str -> M S bool) (dfmt : T -> M S bool) (p : str + T) : M S bool :=
  match p with inl t => w t | inr x => dfmt x end.
(** The whole text when each element prints [text x]. *)
Definition text_of {T} (text : T -> str) (ps : list (str + T)) : str :=
  concat (map (fun p => match p with inl t => t | inr x => text x end) ps).

(** ** Display *)
(** A display width: additive, one column for a space, the same for every bracket piece. *)
Record display_width (slen : str -> nat) (bracket : nat) : Prop := {
  dw_nil : slen [] = 0;
  dw_app : forall a b, slen (a ++ b) = slen a + slen b;
  dw_space : slen [ch_sp] = 1;
  dw_brackets : Forall (fun b => slen [b] = bracket) [ch_tl; ch_ml; ch_bl; ch_tr; ch_mr; ch_br] }.
Section Display.
Context {T : Type}.
Variable text : T -> str.        (* what an element displays as *)
Variable slen : str -> nat.
Definition spaces (k : nat) : str := repeat ch_sp k.
(** Printed lines of a row; columns of a column. *)
Definition height (r : list T) : nat := list_max (map (fun x => List.length (lines (text x))) r).
Definition entry_width (x : T) : nat := list_max (map slen (lines (text x))).
Definition width (m : list (list T)) (j : nat) : nat := list_max (map entry_width (col_of m j)).
(** Line [n] of the text of an entry: empty when it has fewer lines. *)
Definition line_of (x : T) (n : nat) : str := nth n (lines (text x)) [].
(** The display width of a printed line without its two brackets: the columns and one blank
    between neighbours. *)
Definition inner_width (col : nat) (m : list (list T)) : nat :=
  list_sum (map (width m) (seq 0 col)) + (col - 1).
(** The printed lines in order: (row, line within the row). *)
Definition positions (m : list (list T)) : list (nat * nat) :=
  concat (map (fun ir => map (pair (fst ir)) (seq 0 (height (snd ir)))) (indexed m)).
(** [cell] shows line [n] of [x] in column [j], padded with blanks only; all lines of an entry
    start at the same place, which centres the entry in its column (rounding to the left). *)
Definition shows (m : list (list T)) (col j n : nat) (x : T) (cell : str) : Prop :=
  exists a b, cell = spaces a ++ line_of x n ++ spaces b /\
    slen cell = width m j + (if j =? col - 1 then 0 else 1) /\
    2 * a <= width m j - entry_width x <= 2 * a + 1.
(** The brackets of a printed line: upper corners for the first line of the first row,
    lower corners for the last line of the last row, straight ones otherwise. *)
Definition brackets (m : list (list T)) (r : list T) (i n : nat) : char * char :=
  if (i =? 0) && (n =? 0) then (ch_tl, ch_tr)
  else if (i =? List.length m - 1) && (n =? height r - 1) then (ch_bl, ch_br)
  else (ch_ml, ch_mr).
(** Printed line [l] is line [n] of row [r], the [i]-th. *)
Definition shows_line (col : nat) (m : list (list T)) (i n : nat) (l : str) : Prop :=
  exists r cells, nth_error m i = Some r /\ n < height r /\ List.length cells = col /\
    l = [fst (brackets m r i n)] ++ concat cells ++ [snd (brackets m r i n)] /\
    forall j x cell, nth_error r j = Some x -> nth_error cells j = Some cell -> shows m col j n x cell.
(** Lines are separated by line breaks.  There is none at the end, except that a text of one
    row of height 1 ends with one, and so does a text whose last row has height 0. *)
Definition ends_with_break (m : list (list T)) : bool :=
  (0 <? list_sum (map height m)) &&
  ((height (last m []) =? 0) || ((List.length m =? 1) && (height (last m []) =? 1))).
End Display.
(** The lines of the printed text. *)
Definition printed (out : str) : list str := drop_last_empty (split_nl out).

(** The UTF-8 encoding of a code point (RFC 3629, section 3): the bytes of its one-, two-, three-
    or four-byte form, by the ranges of the RFC's table. *)
Definition utf8_encode (x : char) : list N :=
  (if x <=? 0x7F then [x]
   else if x <=? 0x7FF then [0xC0 + x / 64; 0x80 + x mod 64]
   else if x <=? 0xFFFF then [0xE0 + x / 4096; 0x80 + x / 64 mod 64; 0x80 + x mod 64]
   else [0xF0 + x / 262144; 0x80 + x / 4096 mod 64; 0x80 + x / 64 mod 64; 0x80 + x mod 64])%N.
