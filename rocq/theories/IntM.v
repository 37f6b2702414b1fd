(** * IntM.v - machine integers (std, external) as an element type, and the crate's
    documentation example (src/lib.rs:9-28) and examples/fib.rs.  No proofs here. *)
From Coq Require Import List Arith Bool ZArith.
From Verif Require Import Rust Iter Elem VectorM MatIterM MatrixM ArithM.
Import ListNotations.
Local Open Scope Z_scope.

(** An integer type: i8 ... i128, isize (signed), u8 ... u128, usize (unsigned).  A value is
    an integer in the range of the type. *)
Record ity := Ity { i_signed : bool; i_bits : Z; i_bits_pos : 0 < i_bits }.
Definition i_lo (t : ity) : Z := if i_signed t then - 2 ^ (i_bits t - 1) else 0.
Definition i_hi (t : ity) : Z := if i_signed t then 2 ^ (i_bits t - 1) else 2 ^ i_bits t.  (* exclusive *)
Definition in_range (t : ity) (z : Z) : Prop := i_lo t <= z < i_hi t.
(** Two's complement reduction modulo 2^w. *)
Definition wrap (t : ity) (z : Z) : Z := i_lo t + (z - i_lo t) mod 2 ^ i_bits t.
(** The result of a primitive operation whose exact value is [z]: the value if it is in
    range, otherwise a panic (overflow checks on) or the wrapped value. *)
Definition chk {S} (debug : bool) (t : ity) (z : Z) : M S Z :=
  if (i_lo t <=? z) && (z <? i_hi t) then ret z else if debug then panic else ret (wrap t z).
(** Division truncates; it panics on division by zero and on MIN / -1 in both profiles. *)
Definition int_div {S} (t : ity) (x y : Z) : M S Z :=
  if y =? 0 then panic
  else let q := Z.quot x y in if (i_lo t <=? q) && (q <? i_hi t) then ret q else panic.
Definition int_ops {S} (debug : bool) (t : ity) : ops S Z :=
  Ops 0 1 (fun x y => chk debug t (x + y)) (fun x y => chk debug t (x - y)) (fun x y => chk debug t (x * y))
    (int_div t) (fun x => chk debug t (- x)) (fun x => x =? 0) ret.
Lemma bits64 : 0 < 64. Proof. reflexivity. Qed.
Definition u64 : ity := Ity false 64 bits64.

(** [fib], src/lib.rs:13-21: [(a.pow(n) * f)[1]]. *)
Definition fib_f : list Z := [1; 0].
Definition fib_a : list (list Z) := [[1; 1]; [1; 0]].
Definition fib_doc {S} (c : cfg) (d : ety S Z) (o : ops S Z) (n : nat) : M S Z :=
  p <- mpow c d o 2 fib_a n ;; v <- mmulv c d o 2 2 p fib_f ;; vindex v 1%nat.
(** [main] of examples/fib.rs with [k] iterations instead of 50; returns the printed numbers. *)
Definition fib_main {S} (c : cfg) (d : ety S Z) (o : ops S Z) (k : nat) : M S (list Z) :=
  p0 <- midentity c d o 2 ;;
  '(p, out) <- for_range 0 k (fun _ '(p, out) =>
      v <- mmulv c d o 2 2 p fib_f ;;
      x <- vindex v 1%nat ;;
      p' <- (fun s => let '(r, (p', s')) := mmul_assign c d o 2 fib_a (p, s) in
                      match r with
                      | Ok _ => (Ok p', s')
                      | Panic => (Panic, s')
                      | UB => (UB, s')
                      | Diverge => (Diverge, s')
                      end) ;;
      ret (p', out ++ [x])) (p0, []) ;;
  ret out.
