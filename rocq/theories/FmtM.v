(** * FmtM.v - model of the Debug and Display impls:
    src/vector.rs:120-127, src/matrix/mod.rs:303-405.

    A [Formatter] is a sink [w : str -> M S bool]: writing may fail
    ([false] is [Err(fmt::Error)]), and [try!] returns early on failure; a
    formatting method returns [M S bool].  Flags ([{:#?}], width, precision, ...) are in
    FlagM.v.  No proofs here. *)
From Coq Require Import List Arith Bool NArith.
From Verif Require Import Rust Iter Elem VectorM MatIterM MatrixM.
Import ListNotations.

(** Characters are Unicode scalar values. *)
Definition char := N.
Definition str := list char.

Definition ch_nl : char := 10%N.
Definition ch_cr : char := 13%N.
Definition ch_sp : char := 32%N.
Definition ch_comma : char := 44%N.
Definition ch_lb : char := 91%N.     (* [ *)
Definition ch_rb : char := 93%N.     (* ] *)
Definition ch_tl : char := 9121%N.   (* left square bracket upper corner *)
Definition ch_ml : char := 9122%N.
Definition ch_bl : char := 9123%N.
Definition ch_tr : char := 9124%N.
Definition ch_mr : char := 9125%N.
Definition ch_br : char := 9126%N.
(** "Vector" and "Matrix[". *)
Definition str_vector : str := [86; 101; 99; 116; 111; 114]%N.
Definition str_matrix : str := [77; 97; 116; 114; 105; 120; 91]%N.

(** [str::lines] (std): split at '\n', drop a final empty piece, strip one
    trailing '\r' from each piece. *)
Fixpoint split_nl (s : str) : list str :=
  match s with
  | [] => [[]]
  | x :: s' =>
      if (x =? ch_nl)%N then [] :: split_nl s'
      else match split_nl s' with
           | [] => [[x]]
           | l :: ls => (x :: l) :: ls
           end
  end.
Fixpoint drop_last_empty (ls : list str) : list str :=
  match ls with
  | [] => []
  | [[]] => []
  | l :: ls' => l :: drop_last_empty ls'
  end.
Fixpoint strip_cr (l : str) : str :=
  match l with
  | [] => []
  | [x] => if (x =? ch_cr)%N then [] else [x]
  | x :: l' => x :: strip_cr l'
  end.
Definition lines (s : str) : list str := map strip_cr (drop_last_empty (split_nl s)).

(** [str_len] without the feature "unicode_width", src/matrix/mod.rs:343-346: [s.len()], the
    number of UTF-8 bytes.  (With the feature it is [UnicodeWidthStr::width], external; the
    theorems allow any additive width, see [display_width] in SpecFmt.v.) *)
Definition utf8_bytes (x : char) : nat :=
  if (x <? 128)%N then 1 else if (x <? 2048)%N then 2 else if (x <? 65536)%N then 3 else 4.
Definition utf8_len (s : str) : nat := list_sum (map utf8_bytes s).

Section Fmt.
Context {S : Type}.

(** [try!(m); k]. *)
Definition try_ (m k : M S bool) : M S bool :=
  ok <- m ;; if ok then k else ret false.

(** [f.debug_list().entries(it).finish()] and [<[T] as Debug>::fmt] (std):
    "[" e0 ", " e1 ... "]". *)
Fixpoint list_entries {T} (w : str -> M S bool) (dfmt : T -> M S bool) (first : bool) (l : list T)
  : M S bool :=
  match l with
  | [] => ret true
  | x :: l' =>
      try_ (if first then ret true else w [ch_comma; ch_sp])
        (try_ (dfmt x) (list_entries w dfmt false l'))
  end.
Definition debug_list {T} (w : str -> M S bool) (dfmt : T -> M S bool) (l : list T) : M S bool :=
  try_ (w [ch_lb]) (try_ (list_entries w dfmt true l) (w [ch_rb])).

(** [Debug for Vector], src/vector.rs:123-126.  [sl] is what [debug_list().entries(..).finish()] does with the caller's
    formatter (std; it is where flags such as [#] are looked at, see FlagM.v); [vdebug] is the case of [{:?}]. *)
Definition vdebug_with {T} (w : str -> M S bool) (sl : list T -> M S bool) (v : list T) : M S bool :=
  try_ (w str_vector) (sl v).
Definition vdebug {T} (w : str -> M S bool) (dfmt : T -> M S bool) (v : list T) : M S bool :=
  vdebug_with w (debug_list w dfmt) v.

(** [Debug for Matrix], src/matrix/mod.rs:309-319.  [sl] is [<[T] as Debug>::fmt] (std) with the caller's formatter. *)
Definition mdebug_with {T} (c : cfg) (w : str -> M S bool) (sl : list T -> M S bool) (row : nat)
    (m : list (list T)) : M S bool :=
  try_ (w str_matrix)
    (last <- usz_sub c row 1 ;;
     try_ (iall (Datatypes.S row) (enumerate (viter m)) (fun '(i, r) =>
             try_ (sl (as_slice r))
               (if i =? last then ret true else w [ch_comma; ch_sp])))
       (w [ch_rb])).
Definition mdebug {T} (c : cfg) (w : str -> M S bool) (dfmt : T -> M S bool) (row : nat)
    (m : list (list T)) : M S bool :=
  mdebug_with c w (debug_list w dfmt) row m.

(** Display, src/matrix/mod.rs:337-404. *)

(** Lines 354-362: format one entry, updating the column widths [ws] and row
    heights [hs] captured by the closures; [tofmt] is [format!("{}", _)] of
    the element, [slen] is [str_len]. *)
Definition max_len (slen : str -> nat) (ls : list str) : nat :=
  fold_left (fun a l => Nat.max a (slen l)) ls 0.
Definition measure {T} (slen : str -> nat) (tofmt : T -> M S str) (m : list (list T)) (i j : nat)
  : M ((list nat * list nat) * S) (str * nat) :=
  x <- mindex m (i, j) ;;
  t <- lift (tofmt x) ;;
  let len := max_len slen (lines t) in
  '(ws, hs) <- self ;;
  wj <- vindex ws j ;;
  ws' <- (if wj <? len then vindex_set ws j len else ret ws) ;;
  set_self (ws', hs) ;;;
  let lin := length (lines t) in
  hi <- vindex hs i ;;
  hs' <- (if hi <? lin then vindex_set hs i lin else ret hs) ;;
  set_self (ws', hs') ;;;
  ret (t, len).

(** Strings own heap memory but their drop has no effect visible here. *)
Definition pod_ety {S' X} : ety S' X := Ety (fun _ s => s) false.

(** Lines 382, 389: [for _ in 0..k { try!(f.write_char(' ')) }]. *)
Definition pad (w : str -> M S bool) (k : nat) : M S bool :=
  iall (Datatypes.S k) (range 0 k) (fun _ => w [ch_sp]).

(** Lines 379-390: one cell of one printed line. *)
Definition print_cell (c : cfg) (w : str -> M S bool) (slen : str -> nat) (col : nat) (ws : list nat)
    (n : nat) (j : nat) (cell_ : str * nat) : M S bool :=
  let (text, maxlen) := cell_ in
  wj <- vindex ws j ;;
  t <- usz_sub c wj maxlen ;;
  let leftpad := t / 2 in
  try_ (pad w leftpad)
    (let line := match nth_error (lines text) n with Some l => l | None => [] end in
     try_ (w line)
       (wj' <- vindex ws j ;;
        t1 <- usz_sub c wj' (slen line) ;;
        t2 <- usz_sub c t1 leftpad ;;
        cl <- usz_sub c col 1 ;;
        rightpad <- usz_add c t2 (if j =? cl then 0 else 1) ;;
        pad w rightpad)).

(** [i == Row::to_usize()-1 && n == hs[i]-1] (lines 373, 395). *)
Definition is_last (c : cfg) (row : nat) (hs : list nat) (i n : nat) : M S bool :=
  r1 <- usz_sub c row 1 ;;
  if i =? r1 then hi <- vindex hs i ;; h1 <- usz_sub c hi 1 ;; ret (n =? h1) else ret false.

(** Lines 369-400: one printed line. *)
Definition print_line (c : cfg) (w : str -> M S bool) (slen : str -> nat) (row col : nat)
    (ws hs : list nat) (i : nat) (rw : list (str * nat)) (n : nat) : M S bool :=
  ch <- (if (i =? 0) && (n =? 0) then ret ch_tl
         else l <- is_last c row hs i n ;; ret (if l then ch_bl else ch_ml)) ;;
  try_ (w [ch])
    (try_ (iall (Datatypes.S col) (enumerate (viter rw))
             (fun '(j, cell_) => print_cell c w slen col ws n j cell_))
       (e <- (if (i =? 0) && (n =? 0) then ret [ch_tr; ch_nl]
              else l <- is_last c row hs i n ;; ret (if l then [ch_br] else [ch_mr; ch_nl])) ;;
        w e)).

(** Lines 366-403. *)
Definition print_rows (c : cfg) (w : str -> M S bool) (slen : str -> nat) (row col : nat)
    (ws hs : list nat) (ss : list (list (str * nat))) : M S bool :=
  try_ (iall (Datatypes.S row) (enumerate (into_it c (vec_ety pod_ety) row ss))
          (fun '(i, rw) =>
             h <- vindex hs i ;;
             iall (Datatypes.S h) (range 0 h) (fun n =>
               print_line c w slen row col ws hs i rw n)))
    (ret true).
End Fmt.

(** Lines 348-364, then 366-403. *)
Definition mdisplay {S T} (c : cfg) (w : str -> M S bool) (slen : str -> nat) (tofmt : T -> M S str)
    (row col : nat) (m : list (list T)) : M S bool :=
  ws0 <- vdefault c ref_ety col (ret 0) ;;
  hs0 <- vdefault c ref_ety row (ret 0) ;;
  fun s =>
    let '(r, ((ws, hs), s')) :=
      from_iter c (vec_ety pod_ety) row
        (imap (fun i =>
                 from_iter c pod_ety col (imap (fun j => measure slen tofmt m i j) (range 0 col)))
           (range 0 row))
        ((ws0, hs0), s) in
    match r with
    | Ok ss => print_rows c w slen row col ws hs ss s'
    | Panic => (Panic, s')
    | UB => (UB, s')
    | Diverge => (Diverge, s')
    end.
