(** * PropsConj2.v - C56: which calls conjugate() makes when element operations have effects or panic. *)
From Coq Require Import List Arith Bool Lia.
From Verif Require Import Rust Iter Elem VectorM MatIterM MatrixM SpecCommon Harness IterProofs MatProofs PropsCont.
Import ListNotations.

(** Whatever cloning and negating an element do (effects, panics): conjugate first clones every entry, row by
    row, real part before imaginary part, and only then conjugates the clones, in the same order; when that panics, the clones
    not yet reached are dropped. *)
Theorem C56_order :
  forall S T (c : cfg) (d : ety S (complex T)) (o : ops S T) row col m (s : S),
  rect row col m -> row < W c -> col < W c ->
  let clone_then_conjugate : M S (list (complex T)) :=
    cl <- in_order (fun z => r <- o_clone o (re z) ;; i <- o_clone o (im z) ;; ret (Complex r i)) (concat m) ;;
    in_order_unwind (fun rest => drop_all d rest)
      (fun z => r <- o_clone o (re z) ;; i <- o_clone o (im z) ;; n <- o_neg o i ;; ret (Complex r n)) cl in
  match mconjugate c d o row col m s with
  | (Ok m', s') => rect row col m' /\ clone_then_conjugate s = (Ok (concat m'), s')
  | (Panic, s') => clone_then_conjugate s = (Panic, s')
  | (UB, s') => clone_then_conjugate s = (UB, s')
  | (Diverge, s') => clone_then_conjugate s = (Diverge, s')
  end.
Proof.
  intros S T c d o row col m s R H1 H2 spec.
  assert (ES : spec s = (cl <- in_order (complex_clone o) (concat m) ;; in_order_unwind (fun rest => drop_all d rest) (conj o) cl) s) by reflexivity.
  clearbody spec. unfold mconjugate, bind at 1. rewrite !ES. unfold bind.
  pose proof (C29_matrix_clone S (complex T) c d (complex_clone o) row col m s R) as HC.
  destruct (mclone c d (complex_clone o) row col m s) as [[cl| | |] s1]; try (now rewrite HC).
  destruct HC as [Rc HC]. rewrite HC.
  pose proof (C34_map S (complex T) (complex T) c d d row col (fun _ a => conj o a) cl s1 Rc H1 H2) as HM.
  cbv zeta in HM. rewrite <- entries_snd, unwind_map.
  destruct (mmap c d d row col (fun _ a => conj o a) cl s1) as [[m'| | |] s2]; exact HM.
Qed.
Print Assumptions C56_order.
(** Elements whose clone is one more than the original and whose negation panics on 4: the first column is conjugated, the
    clone [Complex 6 4] panics, the clone [Complex 8 8] is dropped. *)
Definition succ_ops : ops (list nat) nat :=
  Ops 0 1 (fun x y s => (Ok (x + y), s)) (fun x y s => (Ok (x - y), s))
    (fun x y s => (Ok (x * y), s)) (fun x y s => (Ok (x / y), s)) (fun x s => if x =? 5 then (Panic, s ++ [100]) else (Ok x, s ++ [101]))
    (fun x => x =? 0) (fun x s => (Ok (x + 1), s ++ [x])).
Example C56_order_ex :
  mconjugate dbg (Ety (fun z s => s ++ [200 + re z]) false) succ_ops 1 3 [[Complex 1 2; Complex 5 3; Complex 7 7]] []
  = (Panic, [1; 2; 5; 3; 7; 7; 2; 3; 101; 6; 4; 100; 208]).
Proof. vm_compute. reflexivity. Qed.
