(** * CplxM.v - num::Complex<T> of num 0.1.36 (external) as an element type: the operators and
    [Zero]/[One] a matrix of complex numbers uses.  No proofs here. *)
From Coq Require Import List Arith Bool.
From Verif Require Import Rust Iter Elem VectorM MatIterM MatrixM.

(** num-complex: [re = self.re + other.re, im = self.im + other.im]; for the product
    [re = a.re*b.re - a.im*b.im, im = a.re*b.im + a.im*b.re]; division multiplies by the
    conjugate and divides both parts by [norm_sqr]; the components are cloned before use
    (Complex<T>: T: Clone + Num). *)
Definition complex_ops {S T} (o : ops S T) : ops S (complex T) :=
  Ops (Complex (o_zero o) (o_zero o)) (Complex (o_one o) (o_zero o))
    (fun x y => r <- o_add o (re x) (re y) ;; i <- o_add o (im x) (im y) ;; ret (Complex r i))
    (fun x y => r <- o_sub o (re x) (re y) ;; i <- o_sub o (im x) (im y) ;; ret (Complex r i))
    (fun x y => p <- o_mul o (re x) (re y) ;; q <- o_mul o (im x) (im y) ;; r <- o_sub o p q ;;
                p' <- o_mul o (re x) (im y) ;; q' <- o_mul o (im x) (re y) ;; i <- o_add o p' q' ;;
                ret (Complex r i))
    (fun x y => p0 <- o_mul o (re y) (re y) ;; q0 <- o_mul o (im y) (im y) ;; n <- o_add o p0 q0 ;;
                p <- o_mul o (re x) (re y) ;; q <- o_mul o (im x) (im y) ;; r <- o_add o p q ;;
                p' <- o_mul o (im x) (re y) ;; q' <- o_mul o (re x) (im y) ;; i <- o_sub o p' q' ;;
                r' <- o_div o r n ;; i' <- o_div o i n ;; ret (Complex r' i'))
    (fun x => r <- o_neg o (re x) ;; i <- o_neg o (im x) ;; ret (Complex r i))
    (fun x => o_is_zero o (re x) && o_is_zero o (im x))
    (complex_clone o).
