(** * PropsOwn.v - properties C01-C11: collecting, owning iterators, chunks.
    Each theorem is closed by a lemma of OwnProofs.v / ChunkProofs.v / ExactProofs.v. *)
From Coq Require Import List Arith Bool Lia.
From Verif Require Import Rust Iter Elem VectorM MatIterM MatrixM SpecCommon Harness IterProofs OwnProofs ChunkProofs ExactProofs.
Import ListNotations.

(** ** C01: an iterator that yields exactly N items (then [None]) is collected
    into those items, in both profiles; the iterator is dropped once (after
    the [None] that the debug assertion provokes, in a debug build). *)
Theorem C01_collect_exact :
  forall S T (c : cfg) (d : ety S T) (it : iter S T) s xs it1 s1 it2 s2 s1' s2',
  yields it s xs it1 s1 ->
  next (it1, s1) = (Ok None, (it2, s2)) ->
  drop_iter it1 s1 = (Ok tt, s1') -> drop_iter it2 s2 = (Ok tt, s2') ->
  from_iter c d (length xs) it s = (Ok xs, if debug c then s2' else s1').
Proof. intros; eapply collect_exact; eassumption. Qed.
Print Assumptions C01_collect_exact.
Example C01_ex : exists it1 it2,
  yields (@slice_iter (list nat) nat [7; 8; 9]) [] [7; 8; 9] it1 [] /\
  next (it1, []) = (Ok None, (it2, [])) /\ drop_iter it2 [] = (Ok tt, []) /\
  from_iter dbg log_ety 3 (into_it dbg log_ety 3 [7; 8; 9]) [] = (Ok [7; 8; 9], []).
Proof.
  eexists. eexists. split.
  - repeat (econstructor; [reflexivity|]). constructor.
  - split; [reflexivity|]. split; [reflexivity|]. vm_compute; reflexivity.
Qed.

(** ** C02: fewer than N items: a panic, and what was received is dropped once,
    in order, then the iterator is dropped. *)
Theorem C02_collect_short :
  forall S T (c : cfg) (d : ety S T) n (it : iter S T) s xs it1 s1 it2 s2 s3,
  yields it s xs it1 s1 -> length xs < n ->
  next (it1, s1) = (Ok None, (it2, s2)) ->
  drop_iter it2 (fold_left (fun s x => e_drop d x s) xs s2) = (Ok tt, s3) ->
  from_iter c d n it s = (Panic, s3).
Proof. intros S T c d n it s xs it1 s1 it2 s2 s3 Y L N D. exact (collect_short c d n it s xs it1 s1 it2 s2 s3 Y L N D). Qed.
Print Assumptions C02_collect_short.
Example C02_ex : from_iter rel log_ety 5 (into_it rel log_ety 3 [7; 8; 9]) [] = (Panic, [7; 8; 9]).
Proof. vm_compute. reflexivity. Qed.

(** ** C03: more than N items.  In a debug build [count()] pulls and drops the
    surplus [ys], then the assertion panics (the collected items leak); in a
    release build the first N items are returned and the iterator (with the
    surplus in it) is dropped. *)
Theorem C03_collect_long_debug :
  forall S T (c : cfg) (d : ety S T) (it : iter S T) s xs it1 s1 ys it2 s2 it3 s3 s4,
  debug c = true ->
  yields it s xs it1 s1 -> drains d it1 s1 ys it2 s2 -> ys <> [] -> length ys <= fuel_count c ->
  next (it2, s2) = (Ok None, (it3, s3)) -> drop_iter it3 s3 = (Ok tt, s4) ->
  from_iter c d (length xs) it s = (Panic, s4).
Proof. intros; eapply collect_long_debug; eassumption. Qed.
Print Assumptions C03_collect_long_debug.
Theorem C03_collect_long_release :
  forall S T (c : cfg) (d : ety S T) (it : iter S T) s xs it1 s1 s2,
  debug c = false ->
  yields it s xs it1 s1 -> drop_iter it1 s1 = (Ok tt, s2) ->
  from_iter c d (length xs) it s = (Ok xs, s2).
Proof. intros; eapply collect_long_release; eassumption. Qed.
Print Assumptions C03_collect_long_release.
Example C03_ex :
  from_iter dbg log_ety 2 (into_it dbg log_ety 4 [6; 7; 8; 9]) [] = (Panic, [8; 9]) /\
  from_iter rel log_ety 2 (into_it rel log_ety 4 [6; 7; 8; 9]) [] = (Ok [6; 7], [8; 9]).
Proof. vm_compute. auto. Qed.

(** ** C04: the source panics on some call of [next].  The panic propagates and
    the only effect is the drop of the source: the items [xs] are neither
    dropped (they leak) nor dropped twice. *)
Theorem C04_collect_source_panics :
  forall S T (c : cfg) (d : ety S T) n (it : iter S T) s xs it1 s1 it2 s2 s3,
  yields it s xs it1 s1 -> length xs < n ->
  next (it1, s1) = (Panic, (it2, s2)) -> drop_iter it2 s2 = (Ok tt, s3) ->
  from_iter c d n it s = (Panic, s3).
Proof. intros; eapply collect_panic; eassumption. Qed.
Print Assumptions C04_collect_source_panics.
(** ... also when it panics while the debug assertion counts the surplus. *)
Theorem C04_collect_source_panics_in_count :
  forall S T (c : cfg) (d : ety S T) (it : iter S T) s xs it1 s1 ys it2 s2 it3 s3 s4,
  debug c = true ->
  yields it s xs it1 s1 -> drains d it1 s1 ys it2 s2 -> length ys <= fuel_count c ->
  next (it2, s2) = (Panic, (it3, s3)) -> drop_iter it3 s3 = (Ok tt, s4) ->
  from_iter c d (length xs) it s = (Panic, s4).
Proof. intros; eapply collect_panic_surplus; eassumption. Qed.
Print Assumptions C04_collect_source_panics_in_count.
Example C04_ex :
  from_iter dbg log_ety 3
    (imap (fun x => if x =? 8 then panic else ret x) (into_it dbg log_ety 3 [7; 8; 9])) []
  = (Panic, [9]).
Proof. vm_compute. reflexivity. Qed.

(** ** C05: generate calls the closure once per index 0, 1, ..., N-1 in order and
    stops at the first call that does not return. *)
Theorem C05_generate_in_order :
  forall S T (c : cfg) (d : ety S T) n (f : nat -> M S T) s,
  vgenerate c d n f s = in_order f (seq 0 n) s.
Proof. intros; apply vgenerate_spec. Qed.
Print Assumptions C05_generate_in_order.
Example C05_ex :
  vgenerate dbg copy_ety 4 (fun i s => (Ok (10 * i), s ++ [i])) [] = (Ok [0; 10; 20; 30], [0; 1; 2; 3]) /\
  vgenerate rel copy_ety 4 (fun i s => if i =? 2 then (Panic, s ++ [i]) else (Ok (10 * i), s ++ [i])) []
  = (Panic, [0; 1; 2]).
Proof. vm_compute. auto. Qed.

(** ** C06: [k] calls of [next] on the owning iterator, then its drop. *)
Theorem C06_into_iter_front :
  forall S T (c : cfg) (d : ety S T) n (v : list T) k s,
  length v = n -> n < W c ->
  exists st', run_history (ii_step c d n) (repeat Next k) (into_iter n v, s)
    = (Ok (map (fun x => Item (Some x)) (firstn k v) ++ repeat (Item None) (k - n)), (st', s)) /\
    ii_drop d st' s = (Ok tt, fold_left (fun s x => e_drop d x s) (skipn k v) s).
Proof. exact (@ii_front). Qed.
Print Assumptions C06_into_iter_front.
Example C06_ex : exists st',
  run_history (ii_step dbg log_ety 3) (repeat Next 2) (into_iter 3 [7; 8; 9], [])
  = (Ok [Item (Some 7); Item (Some 8)], (st', [])) /\ ii_drop log_ety st' [] = (Ok tt, [9]).
Proof. eexists. split; vm_compute; reflexivity. Qed.

(** ** C07: the full claim, and its refutation. *)
Definition C07_statement : Prop :=
  forall S T (c : cfg) (d : ety S T) n (v : list T) ops s,
  length v = n -> n < W c -> no_last ops ->
  let '(outs, (q', s')) := deque_run (e_drop d) ops v s in
  exists st', run_history (ii_step c d n) ops (into_iter n v, s) = (Ok outs, (st', s')) /\
    ii_drop d st' s' = (Ok tt, fold_left (fun s x => e_drop d x s) q' s').
(** [next] then [next_back] on a one-element vector: the element is read again,
    which is undefined behaviour unless the type is [Copy]; and for a [Copy]
    type [len()] then underflows. *)
Theorem C07_refuted : ~ C07_statement.
Proof.
  intros H. specialize (H (list nat) nat dbg log_ety 1 [5] [Next; NextBack] [] eq_refl).
  specialize (H (Nat.lt_trans _ _ _ (ltac:(lia) : 1 < 32) (W_gt dbg)) I). cbn -[run_history] in H.
  destruct H as (st' & H & _). rewrite ii_back_after_front in H. discriminate.
Qed.
Print Assumptions C07_refuted.
Theorem C07_next_back_after_next_refuted :
  forall S T (c : cfg) (d : ety S T) (x : T) s,
  run_history (ii_step c d 1) [Next; NextBack] (into_iter 1 [x], s)
  = if e_copy d
    then (Ok [Item (Some x); Item (Some x)], (IntoIter [Moved x] 1 0, s))
    else (UB, (IntoIter [Moved x] 1 0, s)).
Proof. exact (@ii_back_after_front). Qed.
Print Assumptions C07_next_back_after_next_refuted.
Theorem C07_len_refuted :
  forall S T (c : cfg) (d : ety S T) (x : T) s,
  e_copy d = true ->
  run_history (ii_step c d 1) [Next; NextBack; Len] (into_iter 1 [x], s)
  = if debug c then (Panic, (IntoIter [Moved x] 1 0, s))
    else (Ok [Item (Some x); Item (Some x); Num (W c - 1)], (IntoIter [Moved x] 1 0, s)).
Proof. exact (@ii_len_after_back). Qed.
Print Assumptions C07_len_refuted.
(** What holds: every history in which [next_back] is not called on an exhausted
    iterator from whose front something was taken, and [nth] skips no further than
    the end, behaves as the deque; afterwards dropping the iterator drops what is
    left, once each and in order, and [count()] is the number left.  Missing: the
    histories excluded by [guarded], on which the code is wrong (above). *)
Theorem C07_into_iter_deque_partial :
  forall S T (c : cfg) (d : ety S T) n (v : list T) ops s,
  length v = n -> n < W c -> guarded false ops v ->
  let '(outs, (q', s')) := deque_run (e_drop d) ops v s in
  exists st', run_history (ii_step c d n) ops (into_iter n v, s) = (Ok outs, (st', s')) /\
    ii_drop d st' s' = (Ok tt, fold_left (fun s x => e_drop d x s) q' s') /\
    ii_count c d st' s' = (Ok (length q'), fold_left (fun s x => e_drop d x s) q' s').
Proof. exact (@ii_deque). Qed.
Print Assumptions C07_into_iter_deque_partial.
(** The guard is exact for every element type that is not [Copy]: a history runs to its end
    if and only if it is guarded, and otherwise it commits undefined behaviour (or, in a debug
    build, [nth] panics on [usize] overflow). *)
Theorem C07_exact :
  forall S T (c : cfg) (d : ety S T) n (v : list T) ops s,
  length v = n -> n < W c -> e_copy d = false -> no_last ops -> usize_args c ops ->
  let r := fst (run_history (ii_step c d n) ops (into_iter n v, s)) in
  (guarded false ops v <-> exists outs, r = Ok outs) /\
  (~ guarded false ops v -> r = UB \/ (debug c = true /\ r = Panic)).
Proof. exact (@ii_exact). Qed.
Print Assumptions C07_exact.
Example C07_ex :
  guarded false [Next; NextBack; Len; Nth 1; SizeHint; Next] [1; 2; 3; 4; 5; 6] /\
  fst (deque_run (fun x s => s ++ [x]) [Next; NextBack; Len; Nth 1; SizeHint; Next] [1; 2; 3; 4; 5; 6] [])
  = [Item (Some 1); Item (Some 6); Num 4; Item (Some 3); Hint 2 (Some 2); Item (Some 4)].
Proof. cbn. split; [|reflexivity]. repeat split; auto with arith. left; discriminate. Qed.

(** ** C08: [nth].  Refuted: skipping past the end drops out of bounds, for every
    vector, element type and profile. *)
Definition C08_statement : Prop :=
  forall S T (c : cfg) (d : ety S T) n (v : list T) k s,
  length v = n -> n < W c -> k < W c ->
  exists st', ii_nth_fn c d n k (into_iter n v, s)
    = (Ok (nth_error v k), (st', fold_left (fun s x => e_drop d x s) (firstn k v) s)).
Theorem C08_nth_past_end_is_ub :
  forall S T (c : cfg) (d : ety S T) n (v : list T) k s,
  length v = n -> n < k -> k < W c ->
  fst (ii_nth_fn c d n k (into_iter n v, s)) = UB.
Proof. exact (@ii_nth_overshoot). Qed.
Print Assumptions C08_nth_past_end_is_ub.
Theorem C08_refuted : ~ C08_statement.
Proof.
  intros H. pose proof (W_gt dbg) as HW.
  specialize (H (list nat) nat dbg log_ety 1 [5] 2 [] eq_refl).
  destruct H as (st' & H); [lia|lia|].
  assert (E := C08_nth_past_end_is_ub (list nat) nat dbg log_ety 1 [5] 2 [] eq_refl).
  rewrite H in E. discriminate E; lia.
Qed.
Print Assumptions C08_refuted.
(** What holds: from every state reached by a guarded history, [nth k] with [k] no
    larger than the number of items left drops exactly the [k] skipped items and
    returns the next one. *)
Theorem C08_nth_partial :
  forall S T (c : cfg) (d : ety S T) n (v : list T) ops k s,
  length v = n -> n < W c -> guarded false (ops ++ [Nth k]) v ->
  let '(outs, (q', s')) := deque_run (e_drop d) (ops ++ [Nth k]) v s in
  exists st', run_history (ii_step c d n) (ops ++ [Nth k]) (into_iter n v, s) = (Ok outs, (st', s')) /\
    ii_drop d st' s' = (Ok tt, fold_left (fun s x => e_drop d x s) q' s') /\
    ii_count c d st' s' = (Ok (length q'), fold_left (fun s x => e_drop d x s) q' s').
Proof. intros S T c d n v ops k s. exact (ii_deque c d n v (ops ++ [Nth k]) s). Qed.
Print Assumptions C08_nth_partial.
Example C08_ex : exists st',
  ii_nth_fn dbg log_ety 4 2 (into_iter 4 [6; 7; 8; 9], []) = (Ok (Some 8), (st', [6; 7])) /\
  ii_drop log_ety st' [6; 7] = (Ok tt, [6; 7; 9]).
Proof. eexists. split; vm_compute; reflexivity. Qed.

(** ** C09: reversed owning iterator ([Rev::next] is [next_back]). *)
Theorem C09_rev :
  forall S T (c : cfg) (d : ety S T) n (v : list T) k s,
  length v = n -> n < W c ->
  exists st', run_history (ii_step c d n) (repeat NextBack k) (into_iter n v, s)
    = (Ok (map (fun x => Item (Some x)) (firstn k (rev v)) ++ repeat (Item None) (k - n)), (st', s)) /\
    ii_drop d st' s = (Ok tt, fold_left (fun s x => e_drop d x s) (firstn (n - k) v) s).
Proof. exact (@ii_back_only). Qed.
Print Assumptions C09_rev.
Theorem C09_rev_collect :
  forall S T (c : cfg) (d : ety S T) n (v : list T) s,
  length v = n -> n < W c ->
  from_iter c d n (rev_iter (ii_diter c d n (into_iter n v))) s = (Ok (rev v), s).
Proof. exact (@rev_collect). Qed.
Print Assumptions C09_rev_collect.
Example C09_ex : exists st',
  run_history (ii_step rel log_ety 3) (repeat NextBack 2) (into_iter 3 [7; 8; 9], [])
  = (Ok [Item (Some 9); Item (Some 8)], (st', [])) /\ ii_drop log_ety st' [] = (Ok tt, [7]).
Proof. eexists. split; vm_compute; reflexivity. Qed.

(** ** C10: a vector that is the concatenation of the pieces [Q], each of length
    [k]: [into_chunks] is the deque of those pieces (under [next], [next_back],
    [nth], [len], [size_hint] in any order and number), and dropping it drops the
    elements of the remaining pieces. *)
Theorem C10_chunks_deque :
  forall S T (c : cfg) (d : ety S T) k (Q : list (list T)) ops s,
  Forall (fun x => length x = k) Q -> 0 < k -> length (concat Q) < W c -> no_last ops ->
  let n := length (concat Q) in
  let '(outs, (Q', s')) := deque_run (fun x s => fold_left (fun s y => e_drop d y s) x s) ops Q s in
  exists st', run_history (ch_step c d n k) ops (into_chunks n (concat Q), s) = (Ok outs, (st', s')) /\
    ch_drop d st' s' = (Ok tt, fold_left (fun s y => e_drop d y s) (concat Q') s').
Proof. exact (@ch_deque). Qed.
Print Assumptions C10_chunks_deque.
(** Every vector whose length is a multiple of [k] is of that form. *)
Theorem C10_pieces_exist :
  forall T k m (v : list T), length v = m * k ->
  exists Q, v = concat Q /\ length Q = m /\ Forall (fun x => length x = k) Q.
Proof. exact (@chunks_exist). Qed.
Print Assumptions C10_pieces_exist.
Example C10_ex : exists st',
  run_history (ch_step dbg log_ety 6 2) [NextBack; Len; Next; SizeHint; Next; Next; NextBack]
    (into_chunks 6 [1; 2; 3; 4; 5; 6], [])
  = (Ok [Item (Some [5; 6]); Num 2; Item (Some [1; 2]); Hint 1 (Some 1); Item (Some [3; 4]); Item None; Item None],
     (st', [])).
Proof. eexists. vm_compute. reflexivity. Qed.

(** ** C11: Matrix::from(vector) is row-major. *)
Theorem C11_from_vector :
  forall S T (c : cfg) (d : ety S T) row col (v : list T) s,
  length v = row * col -> 0 < col -> row * col < W c ->
  exists m, mfrom_vector c d row col v s = (Ok m, s) /\ rect row col m /\
    forall i j, i < row -> j < col -> entry m i j = nth_error v (i * col + j).
Proof. exact (@mfrom_vector_entries). Qed.
Print Assumptions C11_from_vector.
Example C11_ex : mfrom_vector dbg log_ety 2 3 [1; 2; 3; 4; 5; 6] [] = (Ok [[1; 2; 3]; [4; 5; 6]], []).
Proof. vm_compute. reflexivity. Qed.
