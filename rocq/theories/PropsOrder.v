(** * PropsOrder.v - C70: which element operations the products perform, and in which order. *)
From Coq Require Import List Arith Bool Lia.
From Verif Require Import Rust Iter Elem VectorM MatIterM MatrixM ArithM SpecCommon Harness IterProofs OwnProofs VecProofs MatProofs.
Import ListNotations.

(** Clone [x], then [y]; if the second clone panics the first is dropped. *)
Definition clone_both {S T} (d : ety S T) (clone : T -> M S T) (x y : T) : M S (T * T) :=
  fun s => match clone x s with
           | (Ok a, s1) => match clone y s1 with
                           | (Ok b, s2) => (Ok (a, b), s2)
                           | (Panic, s2) => (Panic, e_drop d a s2)
                           | (UB, s2) => (UB, s2)
                           | (Diverge, s2) => (Diverge, s2)
                           end
           | (Panic, s1) => (Panic, s1)
           | (UB, s1) => (UB, s1)
           | (Diverge, s1) => (Diverge, s1)
           end.
(** [0 + t1 + t2 + ...], each term obtained when it is its turn. *)
Definition running_sum {S T X} (o : ops S T) (term : X -> M S T) (l : list X) : M S T :=
  fun s => fold_in_order (fun acc x => t <- term x ;; o_add o acc t) l (o_zero o) s.
(** One term of a sum of products: both factors cloned, or only the left one. *)
Definition term_cloned {S T} (d : ety S T) (o : ops S T) (p : T * T) : M S T :=
  q <- clone_both d (o_clone o) (fst p) (snd p) ;; o_mul o (fst q) (snd q).
Definition term_left {S T} (o : ops S T) (p : T * T) : M S T :=
  a <- o_clone o (fst p) ;; o_mul o a (snd p).
(** The rows of the product one after the other, each from left to right. *)
Definition row_major {S T} (rc : nat) (entry_at : list T -> nat -> M S T) (a : list (list T)) : M S (list (list T)) :=
  in_order (fun r => in_order (entry_at r) (seq 0 rc)) a.

Lemma running_gives {S T X} (o : ops S T) fuel (it : iter S T) (term : X -> M S T) l s :
  gives it (map term l) nodrop -> length l < fuel ->
  fold fuel it (o_zero o) (o_add o) s = running_sum o term l s.
Proof.
  intros G HF. unfold fold. rewrite (for_each_gives _ _ _ _ _ _ s G) by now rewrite map_length.
  rewrite foldm_in_order, fold_in_order_map. reflexivity.
Qed.
Lemma mmul_order {S T} c (d : ety S T) lr n rc (a b : list (list T)) (en : list T -> nat * cursor -> M S T) en' s :
  rect lr n a -> rect n rc b -> lr < W c -> rc < W c ->
  (forall lrow j s, length lrow = n -> j < rc -> en lrow (j, Cursor 0 n) s = en' lrow j s) ->
  from_iter c (vec_ety d) lr
    (imap (fun lrow => from_iter c d rc (imap (en lrow) (cols_iter_ref c n rc))) (rows_iter_ref c lr a)) s
  = row_major rc en' a s.
Proof.
  intros Ra Rb H1 H2 HE. unfold row_major.
  rewrite (from_iter_gives _ _ lr _ _ _ s (imap_ret_gives _ _ _ _ (rr_gives c lr a (proj1 Ra) H1))).
  2:{ rewrite map_length. apply Ra. }
  rewrite seqm_in_order. apply in_order_ext. intros r s0 Hin.
  rewrite (from_iter_gives _ _ rc _ _ _ s0 (imap_ret_gives _ _ _ _ (cr_gives c n rc H2))).
  2:{ now rewrite !map_length, seq_length. }
  rewrite seqm_in_order, in_order_map. apply in_order_ext. intros j s1 Hj. apply in_seq in Hj.
  apply HE; [eapply rect_row; eauto|lia].
Qed.
Section Entry.
Context {S T : Type} (c : cfg) (d : ety S T) (o : ops S T) (n rc : nat) (b : list (list T)).
Hypothesis Rb : rect n rc b.
Hypothesis Hn : n < W c.
Lemma entry_cloned_order lrow j s : length lrow = n -> j < rc ->
  entry_cloned c d o n rc b lrow (j, Cursor 0 n) s = running_sum o (term_cloned d o) (combine lrow (col_of b j)) s.
Proof.
  intros L Hj. unfold entry_cloned. apply running_gives.
  - exact (dot_gives d o (slice_iter lrow) (cin_iter c n rc b (j, Cursor 0 n)) lrow (col_of b j)
      (slice_iter_gives lrow) (cin_gives c n rc b j Rb Hj Hn) ltac:(now rewrite (col_of_length n rc) by assumption)).
  - rewrite combine_length. lia.
Qed.
Lemma entry_ref_order lrow j s : length lrow = n -> j < rc ->
  entry_ref c d o n rc b lrow (j, Cursor 0 n) s = running_sum o (term_left o) (combine lrow (col_of b j)) s.
Proof.
  intros L Hj. unfold entry_ref.
  pose proof (zip_gives d (cloned (o_clone o) (slice_iter lrow)) (cin_iter c n rc b (j, Cursor 0 n)) _ _ nodrop nodrop
     (imap_ret_gives (o_clone o) _ _ _ (slice_iter_gives lrow)) (cin_gives c n rc b j Rb Hj Hn)
     ltac:(rewrite !map_length; now rewrite (col_of_length n rc) by assumption) ltac:(reflexivity) ltac:(right; reflexivity)) as G.
  rewrite combine_map, map_map in G. apply (imap_gives (fun p => o_mul o (fst p) (snd p))) in G. rewrite map_map in G.
  apply running_gives; [|rewrite combine_length; lia].
  eapply gives_ext; [|exact G]. apply Forall2_map_map. intros [x y] _ s0.
  unfold term_left, pairm, bind, ret; cbn. destruct (o_clone o x s0) as [[u| | |] s1]; reflexivity.
Qed.
End Entry.

(** ** C70: the products, for arbitrary (effectful, possibly panicking) element operations. *)
Theorem C70_matrix_product :
  forall S T (c : cfg) (d : ety S T) (o : ops S T) l n r a b (s : S),
  rect l n a -> rect n r b -> l < W c -> n < W c -> r < W c ->
  let by_value := row_major r (fun lrow j => running_sum o (term_cloned d o) (combine lrow (col_of b j))) a in
  let by_ref := row_major r (fun lrow j => running_sum o (term_left o) (combine lrow (col_of b j))) a in
  mmul_vv c d o l n r a b s = by_value s /\ mmul_rv c d o l n r a b s = by_value s /\
  mmul_vr c d o l n r a b s = by_ref s /\ mmul_rr c d o l n r a b s = by_ref s.
Proof.
  intros S T c d o l n r a b s Ra Rb H1 H2 H3 bv br.
  assert (V : forall s, mmul_vv c d o l n r a b s = bv s).
  { intros s0. apply (mmul_order c d l n r a b); auto. intros. now apply entry_cloned_order. }
  assert (R : forall s, mmul_vr c d o l n r a b s = br s).
  { intros s0. apply (mmul_order c d l n r a b); auto. intros. now apply entry_ref_order. }
  split; [apply V|]. split; [exact (V s)|]. split; [apply R|exact (R s)].
Qed.
Print Assumptions C70_matrix_product.
(** [a *= b]: the same operations; [a] is overwritten only when all of them returned. *)
Theorem C70_mul_assign :
  forall S T (c : cfg) (d : ety S T) (o : ops S T) n a b (s : S),
  rect n n a -> rect n n b -> n < W c ->
  mmul_assign c d o n b (a, s)
  = match row_major n (fun lrow j => running_sum o (term_cloned d o) (combine lrow (col_of b j))) a s with
    | (Ok p, s') => (Ok tt, (p, s'))
    | (Panic, s') => (Panic, (a, s'))
    | (UB, s') => (UB, (a, s'))
    | (Diverge, s') => (Diverge, (a, s'))
    end.
Proof.
  intros S T c d o n a b s Ra Rb HW.
  destruct (C70_matrix_product S T c d o n n n a b s Ra Rb HW HW HW) as (E & _). cbv zeta in E. rewrite <- E.
  unfold mmul_assign, mmul_vv, bind, self, lift. cbn.
  destruct (from_iter c (vec_ety d) n
    (imap (fun lrow => from_iter c d n (imap (entry_cloned c d o n n b lrow) (cols_iter_ref c n n))) (rows_iter_ref c n a)) s) as [[p| | |] s']; reflexivity.
Qed.
Print Assumptions C70_mul_assign.
(** [m * v]: the factors of a term are cloned right factor first. *)
Definition term_right_first {S T} (o : ops S T) (p : T * T) : M S T :=
  y <- o_clone o (snd p) ;; x <- o_clone o (fst p) ;; o_mul o x y.
Theorem C70_matrix_vector :
  forall S T (c : cfg) (d : ety S T) (o : ops S T) row col (m : list (list T)) v (s : S),
  rect row col m -> length v = col -> row < W c ->
  mmulv c d o row col m v s = in_order (fun r => running_sum o (term_right_first o) (combine r v)) m s.
Proof.
  intros S T c d o row col m v s R Lv HW. unfold mmulv.
  rewrite (from_iter_gives _ _ row _ _ _ s (imap_ret_gives _ _ _ _ (rr_gives c row m (proj1 R) HW))).
  2:{ rewrite map_length. apply R. }
  rewrite seqm_in_order. apply in_order_ext. intros r s0 Hin.
  pose proof (rect_row _ _ _ _ R Hin) as Lr.
  pose proof (zip_gives ref_ety (slice_iter r) (cloned (o_clone o) (viter v)) _ _ nodrop nodrop
     (slice_iter_gives r) (imap_ret_gives (o_clone o) _ _ _ (slice_iter_gives v))
     ltac:(unfold as_slice; rewrite !map_length; congruence) ltac:(reflexivity) ltac:(right; reflexivity)) as G.
  rewrite combine_map, map_map in G.
  apply (imap_gives (fun p => a <- o_clone o (fst p) ;; o_mul o a (snd p))) in G. rewrite map_map in G.
  apply running_gives; [|rewrite combine_length; lia].
  eapply gives_ext; [|exact G]. apply Forall2_map_map. intros [x y] _ s1.
  unfold term_right_first, pairm, bind, ret; cbn. destruct (o_clone o y s1) as [[u| | |] s2]; reflexivity.
Qed.
Print Assumptions C70_matrix_vector.
(** [m * &v] consumes the rows of [m]: nothing is cloned; on a panic the rest of the current row
    and the remaining rows are dropped. *)
Fixpoint running_sum_owned {S T} (d : ety S T) (o : ops S T) (l : list (T * T)) (acc : T) (s : S) : res T * S :=
  match l with
  | [] => (Ok acc, s)
  | p :: l' =>
      match (t <- o_mul o (fst p) (snd p) ;; o_add o acc t) s with
      | (Ok acc', s') => running_sum_owned d o l' acc' s'
      | (Panic, s') => (Panic, fold_left (fun s x => e_drop d x s) (map fst l') s')
      | (r, s') => (r, s')
      end
  end.
Theorem C70_matrix_vector_ref :
  forall S T (c : cfg) (d : ety S T) (o : ops S T) row col (m : list (list T)) v (s : S),
  rect row col m -> length v = col -> row < W c -> col < W c ->
  mmulv_ref c d o row col m v s
  = in_order_unwind (fold_left (fun s r => fold_left (fun s x => e_drop d x s) r s))
      (fun r => running_sum_owned d o (combine r v) (o_zero o)) m s.
Proof.
  intros S T c d o row col m v s R Lv HW HW2. rewrite mmulv_ref_spec by assumption.
  apply unwind_ext; [|reflexivity]. intros r s0 _. generalize (o_zero o) (combine r v). intros z l. revert z s0.
  induction l as [|p l IH]; intros z s0; cbn [fold_unwind running_sum_owned]; [reflexivity|].
  destruct ((t <- o_mul o (fst p) (snd p) ;; o_add o z t) s0) as [[t| | |] s1]; try reflexivity. apply IH.
Qed.
Print Assumptions C70_matrix_vector_ref.
(** [v.dot(&w)]. *)
Theorem C70_dot :
  forall S T (o : ops S T) n a b (s : S), length a = n -> length b = n ->
  vdot o n a b s = running_sum o (fun p => x <- o_clone o (fst p) ;; y <- o_clone o (snd p) ;; o_mul o x y) (combine a b) s.
Proof. intros S T o n a b s Ha Hb. now apply vdot_spec. Qed.
Print Assumptions C70_dot.
(** Two element operations with a visible effect: each multiplication logs its operands, and
    multiplying by 9 panics. *)
Definition logging : ops (list (nat * nat)) nat :=
  Ops 0 1 (fun x y => ret (x + y)) (fun x y => ret (x - y))
    (fun x y s => (if y =? 9 then Panic else Ok (x * y), s ++ [(x, y)]))
    (fun x y => ret (x / y)) (fun x => ret x) (fun x => x =? 0) (fun x => ret x).
Example C70_ex : rect 2 2 [[1; 2]; [3; 4]] /\ rect 2 2 [[5; 9]; [7; 8]] /\
  mmul_vv dbg (Ety (fun _ s => s) true) logging 2 2 2 [[1; 2]; [3; 4]] [[5; 6]; [7; 8]] []
    = (Ok [[19; 22]; [43; 50]], [(1, 5); (2, 7); (1, 6); (2, 8); (3, 5); (4, 7); (3, 6); (4, 8)]) /\
  mmul_assign dbg (Ety (fun _ s => s) true) logging 2 [[5; 9]; [7; 8]] ([[1; 2]; [3; 4]], [])
    = (Panic, ([[1; 2]; [3; 4]], [(1, 5); (2, 7); (1, 9)])) /\
  mmulv_ref dbg log_ety (Ops 0 1 (fun x y => ret (x + y)) (fun x y => ret (x - y)) (fun x y => if y =? 9 then panic else ret (x * y))
    (fun x y => ret (x / y)) (fun x => ret x) (fun x => x =? 0) (fun x => ret x)) 2 3 [[1; 2; 3]; [4; 5; 6]] [2; 9; 2] []
    = (Panic, [3; 4; 5; 6]).
Proof. repeat split; try (repeat constructor; fail); vm_compute; reflexivity. Qed.
