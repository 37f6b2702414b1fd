(** * FlagM.v - formatter flags: [{:#?}], [{:8.3?}], [{:.2}], ... for vectors and matrices.
    src/vector.rs:123-126, src/matrix/mod.rs:309-319, 337-404.  No proofs here.

    A [Formatter] is a sink together with flags.  Debug hands the caller's formatter on to std's slice formatting;
    Display formats the entries with [format!("{}", _)], which starts from fresh flags. *)
From Coq Require Import List Arith Bool NArith.
From Verif Require Import Rust Iter Elem VectorM MatIterM MatrixM FmtM.
Import ListNotations.

(** [fmt::Formatter]'s options (std). *)
Record flags := Flags { f_alternate : bool; f_width : option nat; f_precision : option nat; f_fill : char; f_plus : bool; f_zero : bool }.
Definition no_flags : flags := Flags false None None ch_sp false false.

(** [str::split_inclusive('\n')] (std). *)
Fixpoint split_inclusive (s : str) : list str :=
  match s with
  | [] => []
  | x :: s' =>
      if (x =? ch_nl)%N then [x] :: split_inclusive s'
      else match split_inclusive s' with
           | [] => [[x]]
           | l :: ls => (x :: l) :: ls
           end
  end.
Definition ends_nl (s : str) : bool := (last s 0 =? ch_nl)%N.

Section Flag.
Context {S : Type}.
(** Several writes, stopping at the first that fails. *)
Fixpoint write_all {S'} (w : str -> M S' bool) (l : list str) : M S' bool :=
  match l with
  | [] => ret true
  | t :: l' => try_ (w t) (write_all w l')
  end.

(** [PadAdapter] (std, core::fmt::builders): the extra component of the world is [on_newline]. *)
Fixpoint pad_pieces (w : str -> M S bool) (ps : list str) : M (bool * S) bool :=
  match ps with
  | [] => ret true
  | p :: ps' =>
      on_newline <- self ;;
      try_ (if (on_newline : bool) then lift (w [ch_sp; ch_sp; ch_sp; ch_sp]) else ret true)
        (set_self (ends_nl p) ;;;
         try_ (lift (w p)) (pad_pieces w ps'))
  end.
Definition pad_write (w : str -> M S bool) (s : str) : M (bool * S) bool := pad_pieces w (split_inclusive s).

(** [DebugInner::entry] and [DebugList::finish] (std, Rust 1.29 and later).  [writes f x] lists the [write_str] calls that
    the element's own [Debug::fmt] makes under flags [f]. *)
Definition pretty_entry {T} (w : str -> M S bool) (writes : T -> list str) (x : T) : M S bool :=
  fun s =>
    let '(r, (_, s')) := try_ (write_all (pad_write w) (writes x)) (pad_write w [ch_comma; ch_nl]) (true, s) in
    (r, s').
Fixpoint pretty_entries {T} (w : str -> M S bool) (writes : T -> list str) (first : bool) (l : list T) : M S bool :=
  match l with
  | [] => ret true
  | x :: l' =>
      try_ (if first then w [ch_nl] else ret true)
        (try_ (pretty_entry w writes x) (pretty_entries w writes false l'))
  end.
Definition std_debug_list {T} (w : str -> M S bool) (writes : flags -> T -> list str) (f : flags) (l : list T) : M S bool :=
  if f_alternate f
  then try_ (w [ch_lb]) (try_ (pretty_entries w (writes f) true l) (w [ch_rb]))
  else debug_list w (fun x => write_all w (writes f x)) l.

(** [Debug for Vector], src/vector.rs:123-126, and [Debug for Matrix], src/matrix/mod.rs:309-319, under flags [f]. *)
Definition vdebug_flags {T} (w : str -> M S bool) (writes : flags -> T -> list str) (f : flags) (v : list T) : M S bool :=
  vdebug_with w (std_debug_list w writes f) v.
Definition mdebug_flags {T} (c : cfg) (w : str -> M S bool) (writes : flags -> T -> list str) (f : flags) (row : nat)
    (m : list (list T)) : M S bool :=
  mdebug_with c w (std_debug_list w writes f) row m.

(** [Display for Matrix], src/matrix/mod.rs:337-404, under flags [f]: line 354 is [format!("{}", self[(i, j)])], whose
    formatter has no flags; the rest only calls [write_char] and [write_str].  [show f x] is the text of [x] under [f]. *)
Definition mdisplay_flags {T} (c : cfg) (w : str -> M S bool) (slen : str -> nat) (show : flags -> T -> M S str)
    (f : flags) (row col : nat) (m : list (list T)) : M S bool :=
  mdisplay c w slen (show no_flags) row col m.
End Flag.
