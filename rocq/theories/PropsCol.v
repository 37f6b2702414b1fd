(** * PropsCol.v - C89: the public constructor of column iterators; C90: their equality. *)
From Coq Require Import List Arith Bool Lia.
From Verif Require Import Rust Iter Elem VectorM MatIterM MatrixM ColM SpecCommon SpecSafe SpecRel Harness.
From Verif Require Import IterProofs OwnProofs ChunkProofs VecProofs MatProofs AccProofs CursorProofs PropsIter RelProofs RelLib RelMat PropsRel.
Import ListNotations.

(** The promise: making a column iterator with the public safe function
    [matrix::iter::ColsIterRefInner::new(&rows, j)], for whatever [j], and using it cannot cause
    undefined behaviour. *)
Definition use_col {S T} (c : cfg) row col (m : list (list T)) j ops (s : S) : res (list (qout T)) :=
  match cin_new c row col j s with
  | (Ok it, s') => fst (run_history (cin_step c row col m) ops (it, s'))
  | (Panic, _) => Panic
  | (UB, _) => UB
  | (Diverge, _) => Diverge
  end.
Definition C89_statement : Prop := forall S T (c : cfg) row col (m : list (list T)) j ops (s : S),
  rect row col m -> row < W c -> nth_in_range ops row -> use_col c row col m j ops s <> UB.

Section Out.
Context {S T : Type} (c : cfg) (row col : nat) (m : list (list T)).
Hypothesis R : rect row col m.
Hypothesis Rel : debug c = false.
Variable j : nat.
Hypothesis Hj : col <= j.
Lemma row_at i : i < row -> exists r, nth_error m i = Some r /\ length r = col.
Proof.
  intros Hi. destruct (nth_error m i) as [r|] eqn:E; [|exfalso; apply nth_error_None in E; destruct R; lia].
  exists r. split; [reflexivity|]. exact (rect_row _ _ _ _ R (nth_error_In _ _ E)).
Qed.
Lemma vget_out {X} r (w : X) : length r = col -> vget_unchecked c col r j w = (@UB T, w).
Proof.
  intros L. unfold vget_unchecked, debug_assert, bind, slice_get_unchecked, as_slice. rewrite Rel. cbn.
  now rewrite (proj2 (nth_error_None r j)) by lia.
Qed.
Lemma out_cursor : row < W c -> cursor_ok c (seq 0 row) (fun _ => ub) (fun f b => (j, Cursor f b)) (@cin_step S T c row col m).
Proof.
  intros HW f b s Hb. rewrite seq_length in Hb.
  repeat split.
  - intros L a Ea. cbn. unfold cin_step, item, cin_next, bind, self. cbn. destruct (row_at f ltac:(lia)) as (r & E1 & E2).
    destruct (Nat.ltb_spec f b); [|lia]. rewrite add_fits by lia. cbn.
    rewrite (vget_ok c row m f r _ (proj1 R) E1), (vget_out r) by exact E2. eexists. reflexivity.
  - intros L a Ea. cbn. unfold cin_step, item, cin_next_back, bind, self. cbn. destruct (row_at (b - 1) ltac:(lia)) as (r & E1 & E2).
    destruct (Nat.ltb_spec f b); [|lia]. rewrite sub_fits by lia. cbn.
    rewrite (vget_ok c row m (b - 1) r _ (proj1 R) E1), (vget_out r) by exact E2. eexists. reflexivity.
  - intros L. unfold cin_step, item, cin_next, bind, self. cbn. now destruct (Nat.ltb_spec f b); [lia|].
  - intros L. unfold cin_step, item, cin_next_back, bind, self. cbn. now destruct (Nat.ltb_spec f b); [lia|].
  - intros k Hk. unfold cin_step, item, cin_nth, bind, self. cbn. now rewrite add_fits by lia.
Qed.
Lemma out_len : len_ok (seq 0 row) (fun f b => (j, Cursor f b)) (@cin_step S T c row col m).
Proof. intros f b s Hb Hf. unfold cin_step, num, hint, lift, cin_len, cin_size_hint, cur_size_hint, cur_len, bind, self. cbn. rewrite !sub_fits by lia. split; reflexivity. Qed.
End Out.

(** ** C89: what is true.  In builds with debug assertions the constructor panics for a column that
    does not exist; for one that does, the iterator is the queue of that column's entries; in
    release builds, for a column that does not exist, it is a queue as long as the matrix has rows,
    of which handing out any item is undefined behaviour (the other calls answer normally). *)
Theorem C89_constructor_partial : forall S T (c : cfg) row col (m : list (list T)) j (s : S),
  rect row col m -> row < W c ->
  (j < col -> exists it, cin_new c row col j s = (Ok it, s) /\ @yields_entries S T c row col m it (col_of m j)) /\
  (col <= j -> debug c = true -> cin_new c row col j s = (Panic, s)) /\
  (col <= j -> debug c = false -> exists it, cin_new c row col j s = (Ok it, s) /\
     forall ops (s0 : S), nth_in_range ops row ->
     let '(r, (_, s')) := run_history (lazy_deque (fun _ => @ub S T)) ops (seq 0 row, s0) in
     exists st', run_history (cin_step c row col m) ops (it, s0) = (r, (st', s'))).
Proof.
  intros S T c row col m j s R HW. split; [|split].
  - intros Hj. exists (j, Cursor 0 row). split; [|now apply column_entries].
    unfold cin_new, bind. now rewrite assert_lt by exact Hj.
  - intros Hj D. unfold cin_new, bind, debug_assert. rewrite D. destruct (Nat.ltb_spec j col); [lia|]. reflexivity.
  - intros Hj D. exists (j, Cursor 0 row). split; [unfold cin_new, bind, debug_assert; now rewrite D|].
    intros ops s0 HN.
    pose proof (hist_all c (seq 0 row) (fun _ => ub) (fun f b => (j, Cursor f b)) _ (out_cursor c row col m R D j Hj HW) (@out_len S T c row col m j Hj) ops 0 row s0) as H.
    pose proof (win_all (seq 0 row)) as EW. rewrite seq_length in EW, H. rewrite EW, Nat.sub_0_r in H.
    specialize (H (Nat.le_0_l _) (le_n _) HW HN).
    destruct (run_history (lazy_deque (fun _ => ub)) ops (seq 0 row, s0)) as [r [q s']]. destruct H as (st' & E & _). eauto.
Qed.
Print Assumptions C89_constructor_partial.
(** Exactly which uses are undefined behaviour: those of a missing column, in a release build, that
    ask for an item while one is left. *)
Definition asks_item (op : qop) (left : nat) : bool :=
  match op with Next | NextBack | Last => 1 <=? left | Nth k => k <? left | Len | SizeHint => false end.
(** Until the first call that asks for an item, nothing changes except by [nth] past the end. *)
Fixpoint some_item (ops : list qop) (left : nat) : bool :=
  match ops with
  | [] => false
  | op :: ops' => asks_item op left || some_item ops' (match op with Nth k => left - (k + 1) | _ => left end)
  end.
Lemma ub_queue {S} : forall ops (q : list nat) (s : S) (T : Type),
  (fst (run_history (lazy_deque (fun _ => @ub S T)) ops (q, s)) = UB <-> some_item ops (length q) = true).
Proof.
  induction ops as [|op ops IH]; intros q s T; cbn [run_history some_item]; [split; discriminate|].
  assert (K : forall (o : qout T) (q' : list nat), (fst ((os <- run_history (lazy_deque (fun _ => @ub S T)) ops ;; ret (o :: os)) (q', s)) = UB <-> some_item ops (length q') = true)).
  { intros o q'. rewrite <- (IH q' s T). unfold bind. destruct (run_history (lazy_deque (fun _ => @ub S T)) ops (q', s)) as [[x| | |] w]; cbn; split; congruence. }
  unfold bind at 1. destruct op as [| |k| | |]; cbn [lazy_deque asks_item].
  - destruct q as [|x q]; cbn [hd_error]; [apply K|]. cbn. tauto.
  - destruct q as [|x q] using rev_ind; [apply K|]. rewrite rev_app_distr. cbn. rewrite app_length. cbn. rewrite Nat.add_1_r. cbn. tauto.
  - destruct (nth_error q k) as [x|] eqn:E.
    + assert (k < length q) by (apply nth_error_Some; congruence). destruct (Nat.ltb_spec k (length q)); [|lia]. cbn. tauto.
    + apply nth_error_None in E. destruct (Nat.ltb_spec k (length q)); [lia|]. cbn [orb]. specialize (K (Item None) (skipn (k + 1) q)).
      rewrite skipn_length in K. exact K.
  - destruct q as [|x q] using rev_ind; [apply K|]. rewrite rev_app_distr. cbn. rewrite app_length. cbn. rewrite Nat.add_1_r. cbn. tauto.
  - apply K.
  - apply K.
Qed.
Theorem C89_exact_partial : forall S T (c : cfg) row col (m : list (list T)) j ops (s : S),
  rect row col m -> row < W c -> nth_in_range ops row ->
  (use_col c row col m j ops s = UB <-> col <= j /\ debug c = false /\ some_item ops row = true).
Proof.
  intros S T c row col m j ops s R HW HN. destruct (C89_constructor_partial S T c row col m j s R HW) as (H1 & H2 & H3).
  unfold use_col. destruct (Nat.lt_ge_cases j col) as [Hj|Hj].
  - destruct (H1 Hj) as (it & -> & Y). split; [|lia]. intros U. exfalso. specialize (Y ops s). rewrite (col_of_length _ _ _ _ R Hj) in Y. specialize (Y HN).
    assert (N : forall (q : list T) (s0 : S), fst (run_history (lazy_deque (@ret S T)) ops (q, s0)) <> UB).
    { clear. induction ops as [|op ops IH]; intros q s; cbn [run_history]; [discriminate|].
      assert (K : forall (o : qout T) (q' : list T), fst ((os <- run_history (lazy_deque (@ret S T)) ops ;; ret (o :: os)) (q', s)) <> UB).
      { intros o q'. specialize (IH q' s). unfold bind. destruct (run_history (lazy_deque (@ret S T)) ops (q', s)) as [[x| | |] w]; cbn in *; congruence. }
      unfold bind at 1. destruct op as [| |k| | |]; cbn [lazy_deque].
      - destruct (hd_error q); cbn [ret]; apply K.
      - destruct (hd_error (rev q)); cbn [ret]; apply K.
      - destruct (nth_error q k); cbn [ret]; apply K.
      - destruct (hd_error (rev q)); cbn [ret]; apply K.
      - apply K.
      - apply K. }
    specialize (N (col_of m j) s). destruct (run_history (lazy_deque (@ret S T)) ops (col_of m j, s)) as [r [q s']].
    destruct Y as (st' & E & _). rewrite E in U. cbn in *. congruence.
  - destruct (debug c) eqn:D.
    + rewrite (H2 Hj eq_refl). split; [discriminate|]. intros (_ & ? & _). discriminate.
    + destruct (H3 Hj eq_refl) as (it & -> & Y). specialize (Y ops s HN).
      pose proof (ub_queue ops (seq 0 row) s T) as Q. rewrite seq_length in Q.
      destruct (run_history (lazy_deque (fun _ => @ub S T)) ops (seq 0 row, s)) as [r [q s']]. destruct Y as (st' & E). rewrite E. cbn in *. tauto.
Qed.
Print Assumptions C89_exact_partial.
Theorem C89_refuted : ~ C89_statement.
Proof.
  intros H. refine (H unit nat rel 1 1 [[7]] 1 [Next] tt _ _ _ _).
  - repeat constructor.
  - exact (Nat.lt_trans 1 32 _ ltac:(lia) (W_gt rel)).
  - exact I.
  - vm_compute. reflexivity.
Qed.
Print Assumptions C89_refuted.
(** A 2 x 2 matrix: column 1 exists, column 2 does not. *)
Example C89_ex :
  use_col rel 2 2 [[1; 2]; [3; 4]] 1 [Len; Next; NextBack; Next] tt = Ok [Num 2; Item (Some 2); Item (Some 4); Item None] /\
  use_col rel 2 2 [[1; 2]; [3; 4]] 2 [Len; SizeHint] tt = Ok [Num 2; Hint 2 (Some 2)] /\
  use_col rel 2 2 [[1; 2]; [3; 4]] 2 [Len; Next] tt = UB /\
  use_col dbg 2 2 [[1; 2]; [3; 4]] 2 [Len] tt = Panic.
Proof. vm_compute. auto. Qed.

(** ** C90: equality of column iterators: the matrices are equal entry by entry, the column is the
    same, and so are the positions of both ends. *)
Lemma veq_forall2 {T U} (peq : T -> U -> bool) a b : veq peq a b = true <-> Forall2 (fun x y => peq x y = true) a b.
Proof. exact (slice_eq_forall2 peq a b). Qed.
Lemma forall2_iff {A B} (P Q : A -> B -> Prop) : (forall x y, P x y <-> Q x y) -> forall l k, Forall2 P l k <-> Forall2 Q l k.
Proof. intros H l k. split; induction 1; constructor; firstorder. Qed.
Lemma cin_eq_spec {T U} (peq : T -> U -> bool) m1 it1 m2 it2 :
  cin_eq peq m1 it1 m2 it2 = true <-> mat_rel (fun x y => peq x y = true) m1 m2 /\ it1 = it2.
Proof.
  destruct it1 as [j1 [f1 b1]], it2 as [j2 [f2 b2]]. unfold cin_eq, mat_rel. cbn. rewrite !andb_true_iff, !Nat.eqb_eq, veq_forall2.
  rewrite (forall2_iff _ (Forall2 (fun x y => peq x y = true))) by (intros; apply veq_forall2).
  split; [intros (((H & ->) & ->) & ->); auto|]. intros (H & E). injection E as -> -> ->. auto.
Qed.
Lemma forall2_nth_error {A B} (P : A -> B -> Prop) : forall l k, length l = length k ->
  (Forall2 P l k <-> forall i x y, nth_error l i = Some x -> nth_error k i = Some y -> P x y).
Proof.
  intros l k L. split.
  - intros H. induction H as [|a b l k H0 H IH]; intros [|i] x y; cbn; try discriminate; [now intros [= <-] [= <-]|]. apply IH. now injection L.
  - revert k L. induction l as [|a l IH]; intros [|b k]; cbn; try discriminate; intros L H; constructor.
    + now apply (H 0).
    + apply IH; [congruence|]. intros i. apply (H (S i)).
Qed.
Theorem C90_equal : forall T U (peq : T -> U -> bool) row col m1 m2 j1 f1 b1 j2 f2 b2,
  rect row col m1 -> rect row col m2 ->
  (cin_eq peq m1 (j1, Cursor f1 b1) m2 (j2, Cursor f2 b2) = true <->
   (forall i j x y, entry m1 i j = Some x -> entry m2 i j = Some y -> peq x y = true) /\ j1 = j2 /\ f1 = f2 /\ b1 = b2).
Proof.
  intros T U peq row col m1 m2 j1 f1 b1 j2 f2 b2 R1 R2. rewrite cin_eq_spec. unfold mat_rel.
  rewrite forall2_nth_error by (destruct R1, R2; congruence).
  assert (K : (forall i r1 r2, nth_error m1 i = Some r1 -> nth_error m2 i = Some r2 -> Forall2 (fun x y => peq x y = true) r1 r2) <->
              (forall i j x y, entry m1 i j = Some x -> entry m2 i j = Some y -> peq x y = true)).
  { unfold entry. split; intros H i.
    - intros j x y. destruct (nth_error m1 i) as [r1|] eqn:E1; [|discriminate]. destruct (nth_error m2 i) as [r2|] eqn:E2; [|discriminate].
      specialize (H i r1 r2 E1 E2). rewrite forall2_nth_error in H; [apply H|].
      now rewrite (rect_row _ _ _ _ R1 (nth_error_In _ _ E1)), (rect_row _ _ _ _ R2 (nth_error_In _ _ E2)).
    - intros r1 r2 E1 E2. rewrite forall2_nth_error by (now rewrite (rect_row _ _ _ _ R1 (nth_error_In _ _ E1)), (rect_row _ _ _ _ R2 (nth_error_In _ _ E2))).
      intros j. specialize (H i j). now rewrite E1, E2 in H. }
  rewrite K. split; intros (H & E); [injection E as -> -> ->; auto|]. destruct E as (-> & -> & ->). auto.
Qed.
Print Assumptions C90_equal.
(** Equal iterators answer every history of calls alike: the same lengths, and items that are
    equal; and in particular, after the same history, they are still equal. *)
Theorem C90_alike : forall S T U (peq : T -> U -> bool) (c : cfg) row col m1 m2 it1 it2,
  cin_eq peq m1 it1 m2 it2 = true ->
  history_alike (S1 := S) eq (fun x y => peq x y = true) (cin_step c row col m1) it1 (cin_step c row col m2) it2 /\
  forall ops (s : S), cin_eq peq m1 (fst (snd (run_history (cin_step c row col m1) ops (it1, s)))) m2 (fst (snd (run_history (cin_step c row col m2) ops (it2, s)))) = true.
Proof.
  intros S T U peq c row col m1 m2 it1 it2 H. apply cin_eq_spec in H. destruct H as (H & <-).
  assert (K : forall op, alike (pair_rel eq eq) (out_rel (fun x y => peq x y = true)) (@cin_step S T c row col m1 op) (@cin_step S U c row col m2 op)).
  { intros op. now apply r_cin_step. }
  split.
  - apply (of_hist eq eq); [exact K|reflexivity].
  - intros ops s. apply cin_eq_spec. split; [exact H|].
    now destruct (r_history eq eq _ _ _ K ops (it1, s) (it1, s) (Logic.conj eq_refl eq_refl)) as [_ [G _]].
Qed.
Print Assumptions C90_alike.
(** Iterators over equal matrices, same column and position; over another column with the same
    entries; over the same matrix after a step; and, for elements that are not equal to themselves,
    an iterator that is not equal to itself. *)
Example C90_ex :
  cin_eq Nat.eqb [[1; 1]; [3; 3]] (0, Cursor 0 2) [[1; 1]; [3; 3]] (0, Cursor 0 2) = true /\
  cin_eq Nat.eqb [[1; 1]; [3; 3]] (0, Cursor 0 2) [[1; 1]; [3; 3]] (1, Cursor 0 2) = false /\
  cin_eq Nat.eqb [[1; 1]; [3; 3]] (0, Cursor 0 2) [[1; 1]; [3; 3]] (0, Cursor 1 2) = false /\
  cin_eq Nat.eqb [[1; 1]; [3; 3]] (0, Cursor 0 2) [[1; 2]; [3; 3]] (0, Cursor 0 2) = false /\
  (let nan_eq (x y : nat) := negb (x =? 0) && (x =? y) in cin_eq nan_eq [[0; 1]] (1, Cursor 0 1) [[0; 1]] (1, Cursor 0 1) = false).
Proof. vm_compute. auto. Qed.
