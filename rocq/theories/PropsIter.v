(** * PropsIter.v - properties C52-C55: the five matrix iterators. *)
From Coq Require Import List Arith Bool Lia.
From Verif Require Import Rust Iter Elem VectorM MatIterM MatrixM SpecCommon Harness IterProofs OwnProofs VecProofs MatProofs CursorProofs.
Import ListNotations.

(** ** The five instances of the generic simulation. *)
Lemma add_fits {S} c a b : a + b < W c -> @usz_add S c a b = ret (a + b).
Proof. intros H. unfold usz_add. destruct (Nat.ltb_spec (a + b) (W c)); [reflexivity|lia]. Qed.
Lemma sub_fits {S} c a b : b <= a -> @usz_sub S c a b = ret (a - b).
Proof. intros H. unfold usz_sub. destruct (Nat.leb_spec b a); [reflexivity|lia]. Qed.
Lemma assert_le {S} c a b : a <= b -> @debug_assert S c (a <=? b) = ret tt.
Proof. intros H. unfold debug_assert. destruct (Nat.leb_spec a b); [|lia]. now rewrite andb_false_r. Qed.
Lemma assert_lt {S} c a b : a < b -> @debug_assert S c (a <? b) = ret tt.
Proof. intros H. unfold debug_assert. destruct (Nat.ltb_spec a b); [|lia]. now rewrite andb_false_r. Qed.

Section Instances.
Context {S T : Type}.
Variables (c : cfg) (row col : nat) (m : list (list T)).
Hypothesis R : rect row col m.
Lemma rows_len : length m = row.
Proof. apply R. Qed.

Section Owned.
Variables (d : ety S T) (clone : T -> M S T).
Lemma ri_cursor : row < W c -> cursor_ok c m (in_order clone) Cursor (ri_step c row col m d clone).
Proof.
  intros HW f b s Hb. rewrite rows_len in Hb. repeat split.
  - intros L a Ea. unfold ri_step, item, ri_next, bind, self, slice_index. cbn.
    destruct (Nat.ltb_spec f b); [|lia]. rewrite Ea. cbn. unfold lift. cbn.
    rewrite vclone_spec by (eapply rect_row; [exact R|eapply nth_error_In; eauto]).
    destruct (in_order clone a s) as [[y| | |] s']; try (eexists; reflexivity).
    rewrite add_fits by lia. reflexivity.
  - intros L a Ea. unfold ri_step, item, ri_next_back, bind, self, slice_index. cbn.
    destruct (Nat.ltb_spec f b); [|lia]. rewrite !sub_fits by lia. cbn. rewrite Ea. cbn. unfold lift. cbn.
    rewrite vclone_spec by (eapply rect_row; [exact R|eapply nth_error_In; eauto]).
    destruct (in_order clone a s) as [[y| | |] s']; try (eexists; reflexivity).
  - intros L. unfold ri_step, item, ri_next, bind, self. cbn. now destruct (Nat.ltb_spec f b); [lia|].
  - intros L. unfold ri_step, item, ri_next_back, bind, self. cbn. now destruct (Nat.ltb_spec f b); [lia|].
  - intros k Hk. unfold ri_step, item, ri_nth, bind, self. cbn. now rewrite add_fits by lia.
Qed.
Definition columns : list (list T) := map (col_of m) (seq 0 col).
Lemma columns_len : length columns = col.
Proof. unfold columns. now rewrite map_length, seq_length. Qed.
Lemma nth_seq0 n i a : nth_error (seq 0 n) i = Some a -> a = i /\ i < n.
Proof.
  intros E. assert (Hi : i < n) by (rewrite <- (seq_length n 0); apply nth_error_Some; congruence).
  split; [|exact Hi]. rewrite (nth_error_nth' _ 0) in E by (now rewrite seq_length). rewrite seq_nth in E by exact Hi. cbn in E. congruence.
Qed.
Lemma nth_columns i a : nth_error columns i = Some a -> a = col_of m i /\ i < col.
Proof.
  unfold columns. rewrite nth_error_map. destruct (nth_error (seq 0 col) i) as [k|] eqn:E; [|discriminate].
  apply nth_seq0 in E. destruct E as [-> Hi]. cbn. intros [= <-]. auto.
Qed.
Lemma ci_cursor : col < W c -> cursor_ok c columns (in_order clone) Cursor (ci_step c row col m d clone).
Proof.
  intros HW f b s Hb. rewrite columns_len in Hb. repeat split.
  - intros L a Ea. apply nth_columns in Ea. destruct Ea as [-> Hi].
    unfold ci_step, item, ci_next, bind, self. cbn. rewrite assert_le by exact Hb. cbn.
    destruct (Nat.ltb_spec f b); [|lia]. rewrite add_fits by lia. cbn. unfold lift. cbn.
    rewrite (collect_col_spec c row col) by auto.
    destruct (in_order clone (col_of m f) s) as [[y| | |] s']; eexists; reflexivity.
  - intros L a Ea. apply nth_columns in Ea. destruct Ea as [-> Hi].
    unfold ci_step, item, ci_next_back, bind, self. cbn.
    destruct (Nat.ltb_spec f b); [|lia]. rewrite !sub_fits by lia. cbn. unfold lift. cbn.
    rewrite (collect_col_spec c row col) by auto.
    destruct (in_order clone (col_of m (b - 1)) s) as [[y| | |] s']; eexists; reflexivity.
  - intros L. unfold ci_step, item, ci_next, bind, self. cbn. rewrite assert_le by exact Hb. now destruct (Nat.ltb_spec f b); [lia|].
  - intros L. unfold ci_step, item, ci_next_back, bind, self. cbn. now destruct (Nat.ltb_spec f b); [lia|].
  - intros k Hk. unfold ci_step, item, ci_nth, bind, self. cbn. now rewrite add_fits by lia.
Qed.
Lemma ri_len_front : len_front_ok m Cursor (ri_step c row col m d clone).
Proof. intros f s Hf. rewrite rows_len in *. unfold ri_step, num, hint, lift, ri_len, ri_size_hint, bind, self. cbn. rewrite !sub_fits by lia. split; reflexivity. Qed.
Lemma ci_len_front : len_front_ok columns Cursor (ci_step c row col m d clone).
Proof. intros f s Hf. rewrite columns_len in *. unfold ci_step, num, hint, lift, ci_len, ci_size_hint, bind, self. cbn. rewrite !sub_fits by lia. split; reflexivity. Qed.
End Owned.

Lemma vget_hit {A} k (l : list A) i x (s : S) : length l = k -> nth_error l i = Some x -> vget_unchecked c k l i s = (Ok x, s).
Proof. intros L E. now apply vget_ok. Qed.
Lemma rr_cursor : row < W c -> cursor_ok c m ret Cursor (@rr_step S T c row m).
Proof.
  intros HW f b s Hb. rewrite rows_len in Hb. repeat split.
  - intros L a Ea. cbn. unfold rr_step, item, rr_next, bind, self. cbn. rewrite assert_le by exact Hb. cbn.
    destruct (Nat.ltb_spec f b); [|lia]. rewrite add_fits by lia. cbn. now rewrite (vget_ok c row m f a _ rows_len Ea).
  - intros L a Ea. cbn. unfold rr_step, item, rr_next_back, bind, self. cbn. rewrite assert_le by exact Hb. cbn.
    destruct (Nat.ltb_spec f b); [|lia]. rewrite sub_fits by lia. cbn. now rewrite (vget_ok c row m (b - 1) a _ rows_len Ea).
  - intros L. unfold rr_step, item, rr_next, bind, self. cbn. rewrite assert_le by exact Hb. now destruct (Nat.ltb_spec f b); [lia|].
  - intros L. unfold rr_step, item, rr_next_back, bind, self. cbn. rewrite assert_le by exact Hb. now destruct (Nat.ltb_spec f b); [lia|].
  - intros k Hk. unfold rr_step, item, rr_nth, bind, self. cbn. now rewrite add_fits by lia.
Qed.
Lemma rr_len_ok : len_ok m Cursor (@rr_step S T c row m).
Proof. intros f b s Hb Hf. unfold rr_step, num, hint, lift, cur_size_hint, cur_len, bind, self. cbn. rewrite !sub_fits by lia. split; reflexivity. Qed.

Definition column_iters : list (nat * cursor) := map (fun j => (j, Cursor 0 row)) (seq 0 col).
Lemma column_iters_len : length column_iters = col.
Proof. unfold column_iters. now rewrite map_length, seq_length. Qed.
Lemma nth_iters i a : nth_error column_iters i = Some a -> a = (i, Cursor 0 row) /\ i < col.
Proof.
  unfold column_iters. rewrite nth_error_map. destruct (nth_error (seq 0 col) i) as [k|] eqn:E; [|discriminate].
  apply nth_seq0 in E. destruct E as [-> Hi]. cbn. intros [= <-]. auto.
Qed.
Lemma cr_cursor : col < W c -> cursor_ok c column_iters ret Cursor (@cr_step S c row col).
Proof.
  intros HW f b s Hb. rewrite column_iters_len in Hb. repeat split.
  - intros L a Ea. apply nth_iters in Ea. destruct Ea as [-> Hi].
    cbn. unfold cr_step, item, cr_next, bind, self. cbn. rewrite assert_le by exact Hb. cbn.
    destruct (Nat.ltb_spec f b); [|lia]. rewrite add_fits by lia. cbn. unfold lift, cin_new, bind. cbn. now rewrite assert_lt by exact Hi.
  - intros L a Ea. apply nth_iters in Ea. destruct Ea as [-> Hi].
    cbn. unfold cr_step, item, cr_next_back, bind, self. cbn. rewrite assert_le by exact Hb. cbn.
    destruct (Nat.ltb_spec f b); [|lia]. rewrite sub_fits by lia. cbn. unfold lift, cin_new, bind. cbn. now rewrite assert_lt by exact Hi.
  - intros L. unfold cr_step, item, cr_next, bind, self. cbn. rewrite assert_le by exact Hb. now destruct (Nat.ltb_spec f b); [lia|].
  - intros L. unfold cr_step, item, cr_next_back, bind, self. cbn. rewrite assert_le by exact Hb. now destruct (Nat.ltb_spec f b); [lia|].
  - intros k Hk. unfold cr_step, item, cr_nth, bind, self. cbn. now rewrite add_fits by lia.
Qed.
Lemma cr_len_ok : len_ok column_iters Cursor (@cr_step S c row col).
Proof. intros f b s Hb Hf. unfold cr_step, num, hint, lift, cur_size_hint, cur_len, bind, self. cbn. rewrite !sub_fits by lia. split; reflexivity. Qed.

Variable j : nat.
Hypothesis Hj : j < col.
Lemma cin_at i x : nth_error (col_of m j) i = Some x -> exists r, nth_error m i = Some r /\ nth_error r j = Some x /\ length r = col.
Proof.
  intros E. rewrite (col_of_nth _ _ _ _ _ R Hj) in E. unfold entry in E.
  destruct (nth_error m i) as [r|] eqn:Er; [|discriminate]. exists r. repeat split; auto. eapply rect_row; [exact R|eapply nth_error_In; eauto].
Qed.
Lemma cin_cursor : row < W c -> cursor_ok c (col_of m j) ret (fun f b => (j, Cursor f b)) (@cin_step S T c row col m).
Proof.
  intros HW f b s Hb. rewrite (col_of_length _ _ _ _ R Hj) in Hb. repeat split.
  - intros L a Ea. apply cin_at in Ea. destruct Ea as (r & E1 & E2 & E3).
    cbn. unfold cin_step, item, cin_next, bind, self. cbn.
    destruct (Nat.ltb_spec f b); [|lia]. rewrite add_fits by lia. cbn.
    rewrite (vget_ok c row m f r _ rows_len E1). now rewrite (vget_ok c col r j a _ E3 E2).
  - intros L a Ea. apply cin_at in Ea. destruct Ea as (r & E1 & E2 & E3).
    cbn. unfold cin_step, item, cin_next_back, bind, self. cbn.
    destruct (Nat.ltb_spec f b); [|lia]. rewrite sub_fits by lia. cbn.
    rewrite (vget_ok c row m (b - 1) r _ rows_len E1). now rewrite (vget_ok c col r j a _ E3 E2).
  - intros L. unfold cin_step, item, cin_next, bind, self. cbn. now destruct (Nat.ltb_spec f b); [lia|].
  - intros L. unfold cin_step, item, cin_next_back, bind, self. cbn. now destruct (Nat.ltb_spec f b); [lia|].
  - intros k Hk. unfold cin_step, item, cin_nth, bind, self. cbn. now rewrite add_fits by lia.
Qed.
Lemma cin_len_ok : len_ok (col_of m j) (fun f b => (j, Cursor f b)) (@cin_step S T c row col m).
Proof. intros f b s Hb Hf. unfold cin_step, num, hint, lift, cin_len, cin_size_hint, cur_size_hint, cur_len, bind, self. cbn. rewrite !sub_fits by lia. split; reflexivity. Qed.
End Instances.

(** ** C52: rows_iter() / cols_iter() as queues of the rows / columns. *)
(** [clone] is arbitrary (it may have effects and may panic); a row or column is cloned,
    element by element, at the moment it is taken; skipped ones are not cloned. *)
Theorem C52_rows_iter_items :
  forall S T (c : cfg) (d : ety S T) (clone : T -> M S T) row col (m : list (list T)) ops (s : S),
  rect row col m -> no_len ops -> row + skips ops < W c ->
  let '(r, (_, s')) := run_history (lazy_deque (in_order clone)) ops (m, s) in
  exists st', run_history (ri_step c row col m d clone) ops (ri_new row, s) = (r, (st', s')).
Proof.
  intros S T c d clone row col m ops s R HN HW. pose proof (rows_len _ _ _ R) as L.
  pose proof (hist_items c m (in_order clone) Cursor _ (ri_cursor c row col m R d clone ltac:(lia)) ops 0 row s) as H.
  pose proof (win_all m) as EW. rewrite L in EW. rewrite EW in H. apply H; auto; lia.
Qed.
Print Assumptions C52_rows_iter_items.
Theorem C52_cols_iter_items :
  forall S T (c : cfg) (d : ety S T) (clone : T -> M S T) row col (m : list (list T)) ops (s : S),
  rect row col m -> no_len ops -> col + skips ops < W c ->
  let '(r, (_, s')) := run_history (lazy_deque (in_order clone)) ops (map (col_of m) (seq 0 col), s) in
  exists st', run_history (ci_step c row col m d clone) ops (ci_new col, s) = (r, (st', s')).
Proof.
  intros S T c d clone row col m ops s R HN HW. pose proof (columns_len col m) as L.
  pose proof (hist_items c (columns col m) (in_order clone) Cursor _ (ci_cursor c row col m R d clone ltac:(lia)) ops 0 col s) as H.
  pose proof (win_all (columns col m)) as EW. rewrite L in EW. rewrite EW in H. apply H; auto; lia.
Qed.
Print Assumptions C52_cols_iter_items.
(** When a clone panics: [rows_iter] has not moved, so taking again offers the same row;
    [cols_iter] has moved, so that column is gone. *)
Theorem C52_after_panic :
  forall S T (c : cfg) (d : ety S T) (clone : T -> M S T) row col (m : list (list T)) f b (s s' : S),
  rect row col m -> row < W c -> col < W c -> f < b ->
  (forall r, b <= row -> nth_error m f = Some r -> in_order clone r s = (Panic, s') ->
     ri_step c row col m d clone Next (Cursor f b, s) = (Panic, (Cursor f b, s'))) /\
  (forall r, b <= row -> nth_error m (b - 1) = Some r -> in_order clone r s = (Panic, s') ->
     ri_step c row col m d clone NextBack (Cursor f b, s) = (Panic, (Cursor f b, s'))) /\
  (b <= col -> in_order clone (col_of m f) s = (Panic, s') ->
     ci_step c row col m d clone Next (Cursor f b, s) = (Panic, (Cursor (f + 1) b, s'))) /\
  (b <= col -> in_order clone (col_of m (b - 1)) s = (Panic, s') ->
     ci_step c row col m d clone NextBack (Cursor f b, s) = (Panic, (Cursor f (b - 1), s'))).
Proof.
  intros S T c d clone row col m f b s s' R HW HC Hf. repeat split.
  - intros r Hb Er EP. unfold ri_step, item, ri_next, bind, self, slice_index. cbn.
    destruct (Nat.ltb_spec f b); [|lia]. rewrite Er. cbn. unfold lift. cbn.
    rewrite vclone_spec by (eapply rect_row; [exact R|eapply nth_error_In; eauto]). now rewrite EP.
  - intros r Hb Er EP. unfold ri_step, item, ri_next_back, bind, self, slice_index. cbn.
    destruct (Nat.ltb_spec f b); [|lia]. rewrite !sub_fits by lia. cbn. rewrite Er. cbn. unfold lift. cbn.
    rewrite vclone_spec by (eapply rect_row; [exact R|eapply nth_error_In; eauto]). now rewrite EP.
  - intros Hb EP. unfold ci_step, item, ci_next, bind, self. cbn. rewrite assert_le by exact Hb. cbn.
    destruct (Nat.ltb_spec f b); [|lia]. rewrite add_fits by lia. cbn. unfold lift. cbn.
    rewrite (collect_col_spec c row col) by (auto; lia). now rewrite EP.
  - intros Hb EP. unfold ci_step, item, ci_next_back, bind, self. cbn.
    destruct (Nat.ltb_spec f b); [|lia]. rewrite !sub_fits by lia. cbn. unfold lift. cbn.
    rewrite (collect_col_spec c row col) by (auto; lia). now rewrite EP.
Qed.
Print Assumptions C52_after_panic.
(** A clone that counts its calls and panics on the element 9. *)
Definition counting (x : nat) : M nat nat := fun s => (if x =? 9 then Panic else Ok x, s + 1).
(** Used up as iterators, e.g. collected into a vector or run by a [for] loop: the rows (columns)
    come out in order, each cloned element by element when its turn comes, and nothing else happens. *)
Lemma ri_gives {S T} c (d : ety S T) clone row col m : rect row col m -> row < W c ->
  gives (rows_iter c row col d clone m) (map (in_order clone) m) nodrop.
Proof.
  intros R HW. pose proof (rows_len _ _ _ R) as L. unfold rows_iter, ri_iter, ri_new.
  apply (gives_intro _ _ (fun st acts => exists pre rest, m = pre ++ rest /\ st = Cursor (length pre) row /\ acts = map (in_order clone) rest)).
  - reflexivity.
  - intros st (pre & rest & E & -> & EN) s. destruct rest; [|discriminate]. rewrite app_nil_r in E. subst pre.
    exists (Cursor row row). rewrite L. split; [|reflexivity]. unfold ri_next, bind, self. cbn.
    now rewrite Nat.ltb_irrefl.
  - intros st a l (pre & rest & E & -> & EN) s. destruct rest as [|r rest]; [discriminate|]. injection EN as -> ->.
    assert (Lt : length pre < row) by (rewrite <- L, E, app_length; cbn; lia).
    assert (Er : nth_error m (length pre) = Some r) by (now rewrite E, nth_error_mid).
    unfold ri_next, bind, self, slice_index. cbn.
    destruct (Nat.ltb_spec (length pre) row); [|lia]. rewrite Er. cbn. unfold lift. cbn.
    rewrite vclone_spec by (eapply rect_row; [exact R|eapply nth_error_In; eauto]).
    destruct (in_order clone r s) as [[y| | |] s']; rewrite ?add_fits by lia; cbn;
      eexists; (split; [reflexivity|]); (split; [reflexivity|]); intros K; try contradiction.
    exists (pre ++ [r]), rest. rewrite <- app_assoc, app_length. auto.
  - exists [], m. auto.
Qed.
Lemma ci_gives {S T} c (d : ety S T) clone row col m : rect row col m -> col < W c ->
  gives (cols_iter c row col d clone m) (map (in_order clone) (columns col m)) nodrop.
Proof.
  intros R HW. unfold cols_iter, ci_iter, ci_new, columns.
  apply (gives_intro _ _ (fun st acts => exists k, k <= col /\ st = Cursor k col /\
     acts = map (in_order clone) (map (col_of m) (seq k (col - k))))).
  - reflexivity.
  - intros st (k & Hk & -> & EN) s. destruct (col - k) as [|x] eqn:Ex; [|discriminate]. assert (k = col) by lia. subst k.
    exists (Cursor col col). split; [|reflexivity]. unfold ci_next, bind, self, debug_assert. cbn.
    now rewrite Nat.leb_refl, andb_false_r, Nat.ltb_irrefl.
  - intros st a l (k & Hk & -> & EN) s. destruct (col - k) as [|x] eqn:Ex; [discriminate|].
    cbn in EN. injection EN as -> ->. exists (Cursor (k + 1) col).
    unfold ci_next, bind, self. cbn. rewrite assert_le by lia. cbn.
    destruct (Nat.ltb_spec k col); [|lia]. rewrite add_fits by lia. cbn. unfold lift. cbn.
    rewrite (collect_col_spec c row col) by auto.
    destruct (in_order clone (col_of m k) s) as [[y| | |] s']; (split; [reflexivity|]); (split; [reflexivity|]); intros K; try contradiction.
    exists (k + 1). replace (Datatypes.S k) with (k + 1) by lia.
    replace (col - (k + 1)) with x by lia. repeat split. lia.
  - exists 0. rewrite Nat.sub_0_r. split; [lia|]. split; reflexivity.
Qed.
Theorem C52_collected :
  forall S T (c : cfg) (d : ety S T) (clone : T -> M S T) row col (m : list (list T)) (s : S),
  rect row col m ->
  (row < W c ->
   from_iter c (vec_ety d) row (rows_iter c row col d clone m) s = in_order (in_order clone) m s) /\
  (col < W c ->
   from_iter c (vec_ety d) col (cols_iter c row col d clone m) s
   = in_order (in_order clone) (map (col_of m) (seq 0 col)) s).
Proof.
  intros S T c d clone row col m s R. split; intros HW.
  - rewrite (from_iter_gives _ _ _ _ _ _ _ (ri_gives c d clone row col m R HW)) by (rewrite map_length; apply R).
    refine (eq_trans (seqm_unwind (fun _ s => s) (in_order clone) _ nodrop s _ _ _) (unwind_id _ _ _)); reflexivity.
  - rewrite (from_iter_gives _ _ _ _ _ _ _ (ci_gives c d clone row col m R HW)) by (rewrite map_length; apply columns_len).
    refine (eq_trans (seqm_unwind (fun _ s => s) (in_order clone) _ nodrop s _ _ _) (unwind_id _ _ _)); reflexivity.
Qed.
Print Assumptions C52_collected.
Example C52_ex :
  from_iter dbg (vec_ety (Ety (fun _ s => s) false)) 2
    (cols_iter dbg 3 2 (Ety (fun _ s => s) false) counting [[1; 2]; [3; 4]; [5; 6]]) 0 = (Ok [[1; 3; 5]; [2; 4; 6]], 6) /\
  rect 3 2 [[1; 2]; [3; 4]; [5; 6]] /\ no_len [NextBack; Nth 1; Next] /\
  run_history (lazy_deque (in_order counting)) [NextBack; Nth 1; Next] ([[1; 2]; [3; 4]; [5; 6]], 0)
    = (Ok [Item (Some [5; 6]); Item (Some [3; 4]); Item None], ([], 4)) /\
  fst (run_history (ri_step dbg 3 2 [[1; 2]; [3; 4]; [5; 6]] (Ety (fun _ s => s) false) counting)
    [NextBack; Nth 1; Next] (ri_new 3, 0)) = Ok [Item (Some [5; 6]); Item (Some [3; 4]); Item None] /\
  ci_step dbg 2 2 [[1; 2]; [9; 4]] (Ety (fun _ s => s) false) counting Next (ci_new 2, 0) = (Panic, (Cursor 1 2, 2)) /\
  ri_step dbg 2 2 [[9; 2]; [3; 4]] (Ety (fun _ s => s) false) counting Next (ri_new 2, 0) = (Panic, (Cursor 0 2, 1)).
Proof. repeat split; try (repeat constructor; fail); vm_compute; reflexivity. Qed.

(** ** C53: the reported length. *)
(** Refuted: after [next_back] the owned iterators still report the whole length. *)
Theorem C53_refuted :
  forall S T (c : cfg) (d : ety S T) (clone : T -> M S T) row col (m : list (list T)) (s : S),
  rect row col m -> row < W c -> col < W c -> faithful clone ->
  (0 < row -> exists r,
   run_history (ri_step c row col m d clone) [NextBack; Len; SizeHint] (ri_new row, s)
     = (Ok [Item (Some r); Num row; Hint row (Some row)], (Cursor 0 (row - 1), s)) /\
   ri_count c row (Cursor 0 (row - 1)) s = (Ok row, s) /\
   fst (run_history (lazy_deque (in_order clone)) [NextBack; Len; SizeHint] (m, s))
     = Ok [Item (Some r); Num (row - 1); Hint (row - 1) (Some (row - 1))]) /\
  (0 < col -> exists r,
   run_history (ci_step c row col m d clone) [NextBack; Len; SizeHint] (ci_new col, s)
     = (Ok [Item (Some r); Num col; Hint col (Some col)], (Cursor 0 (col - 1), s)) /\
   ci_count c col (Cursor 0 (col - 1)) s = (Ok col, s) /\
   fst (run_history (lazy_deque (in_order clone)) [NextBack; Len; SizeHint] (map (col_of m) (seq 0 col), s))
     = Ok [Item (Some r); Num (col - 1); Hint (col - 1) (Some (col - 1))]).
Proof.
  intros S T c d clone row col m s R HW HC HF.
  assert (HI : forall l (s : S), in_order clone l s = (Ok l, s)).
  { induction l as [|x l IH]; intros s0; [reflexivity|]. cbn. now rewrite HF, IH. }
  assert (G : forall (items : list (list T)) step, cursor_ok c items (in_order clone) Cursor step -> 0 < length items ->
     exists r, step NextBack (Cursor 0 (length items), s) = (Ok (Item (Some r)), (Cursor 0 (length items - 1), s)) /\
       lazy_deque (in_order clone) NextBack (items, s) = (Ok (Item (Some r)), (removelast items, s))).
  { intros items step HCur H0. destruct (HCur 0 (length items) s (le_n _)) as (_ & HB & _).
    destruct (win_snoc items 0 (length items) H0 (le_n _)) as (x & Ex & Ew). rewrite win_all in Ew.
    exists x. specialize (HB H0 x Ex). rewrite HI in HB. split; [exact HB|]. cbn [lazy_deque].
    rewrite Ew at 1. rewrite rev_unit. cbn [hd_error]. now rewrite HI. }
  assert (RL : forall (items : list (list T)), 0 < length items -> length (removelast items) = length items - 1).
  { intros items H0. rewrite <- (firstn_all items) at 1. destruct (length items) as [|n] eqn:E; [lia|].
    rewrite removelast_firstn by lia. rewrite firstn_length. lia. }
  split; intros H0.
  - pose proof (rows_len _ _ _ R) as L.
    destruct (G m _ (ri_cursor c row col m R d clone HW) ltac:(lia)) as (r & E1 & E2). rewrite L in E1. exists r.
    cbn [run_history]. unfold bind, ri_new in *. rewrite E1, E2. cbn. rewrite (RL m) by lia. rewrite L.
    unfold num, hint, lift, self, ri_len, ri_size_hint, ri_count, bind. cbn. repeat (rewrite sub_fits by lia; cbn). rewrite !Nat.sub_0_r. auto.
  - pose proof (columns_len col m) as L. fold (columns col m).
    destruct (G (columns col m) _ (ci_cursor c row col m R d clone HC) ltac:(lia)) as (r & E1 & E2). rewrite L in E1. exists r.
    cbn [run_history]. unfold bind, ci_new in *. rewrite E1, E2. cbn. rewrite (RL (columns col m)) by lia. rewrite L.
    unfold num, hint, lift, self, ci_len, ci_size_hint, ci_count, bind. cbn. repeat (rewrite sub_fits by lia; cbn). rewrite !Nat.sub_0_r. auto.
Qed.
Print Assumptions C53_refuted.
(** What holds: when nothing has been taken from the back and [nth] was not used to skip
    past the end, [len], [size_hint] and [count] are exact after every history. *)
Theorem C53_partial :
  forall S T (c : cfg) (d : ety S T) (clone : T -> M S T) row col (m : list (list T)) ops (s : S),
  rect row col m ->
  (row < W c -> front_only ops row ->
   let '(r, (q, s')) := run_history (lazy_deque (in_order clone)) ops (m, s) in
   exists st', run_history (ri_step c row col m d clone) ops (ri_new row, s) = (r, (st', s')) /\
     forall os, r = Ok os -> ri_count c row st' s' = (Ok (length q), s')) /\
  (col < W c -> front_only ops col ->
   let '(r, (q, s')) := run_history (lazy_deque (in_order clone)) ops (map (col_of m) (seq 0 col), s) in
   exists st', run_history (ci_step c row col m d clone) ops (ci_new col, s) = (r, (st', s')) /\
     forall os, r = Ok os -> ci_count c col st' s' = (Ok (length q), s')).
Proof.
  intros S T c d clone row col m ops s R. split; intros HW HF.
  - pose proof (rows_len _ _ _ R) as L.
    pose proof (hist_front c m (in_order clone) Cursor _ (ri_cursor c row col m R d clone HW) (ri_len_front c row col m R d clone) ops 0 s) as H.
    rewrite win_all, L, Nat.sub_0_r in H. specialize (H ltac:(lia) ltac:(lia) HF). revert H.
    unfold ri_new. destruct (run_history (lazy_deque (in_order clone)) ops (m, s)) as [r [q s']]. intros (st' & E & HF').
    exists st'. split; [exact E|]. intros os ->. destruct HF' as (f' & -> & -> & H1).
    unfold ri_count. cbn. rewrite sub_fits by exact H1. rewrite win_length by lia. reflexivity.
  - pose proof (columns_len col m) as L.
    pose proof (hist_front c (columns col m) (in_order clone) Cursor _ (ci_cursor c row col m R d clone HW) (ci_len_front c row col m d clone) ops 0 s) as H.
    rewrite win_all, L, Nat.sub_0_r in H. specialize (H ltac:(lia) ltac:(lia) HF). revert H.
    unfold ci_new. fold (columns col m). destruct (run_history (lazy_deque (in_order clone)) ops (columns col m, s)) as [r [q s']]. intros (st' & E & HF').
    exists st'. split; [exact E|]. intros os ->. destruct HF' as (f' & -> & -> & H1).
    unfold ci_count. cbn. rewrite sub_fits by exact H1. rewrite win_length by lia. reflexivity.
Qed.
Print Assumptions C53_partial.
(** Exactly what is reported after any history whose skips stay in range: the items not yet
    removed at the front.  This is never less than the number of items to come. *)
Theorem C53_reported_partial :
  forall S T (c : cfg) (d : ety S T) (clone : T -> M S T) row col (m : list (list T)) ops (s : S) outs q s',
  rect row col m -> no_len ops ->
  (row < W c -> nth_in_range ops row ->
   run_history (lazy_deque (in_order clone)) ops (m, s) = (Ok outs, (q, s')) ->
   let k := row - taken_front ops row in
   length q <= k /\
   exists st', run_history (ri_step c row col m d clone) (ops ++ [Len; SizeHint]) (ri_new row, s)
       = (Ok (outs ++ [Num k; Hint k (Some k)]), (st', s')) /\ ri_count c row st' s' = (Ok k, s')) /\
  (col < W c -> nth_in_range ops col ->
   run_history (lazy_deque (in_order clone)) ops (map (col_of m) (seq 0 col), s) = (Ok outs, (q, s')) ->
   let k := col - taken_front ops col in
   length q <= k /\
   exists st', run_history (ci_step c row col m d clone) (ops ++ [Len; SizeHint]) (ci_new col, s)
       = (Ok (outs ++ [Num k; Hint k (Some k)]), (st', s')) /\ ci_count c col st' s' = (Ok k, s')).
Proof.
  intros S T c d clone row col m ops s outs q s' R HL. split; intros HW HN E k.
  - pose proof (rows_len _ _ _ R) as L.
    pose proof (hist_moves c m (in_order clone) Cursor _ (ri_cursor c row col m R d clone HW) ops 0 row s) as H.
    pose proof (win_all m) as EW. rewrite L in EW. rewrite EW, Nat.sub_0_r, L, E in H. specialize (H (Nat.le_0_l _) (le_n _) HW HL HN).
    destruct H as (st' & E1 & b' & -> & H1 & H2 & ->). cbn [Nat.add] in *. rewrite total_moves_spec in * by assumption. fold k.
    split; [rewrite win_length by lia; unfold k; lia|].
    exists (Cursor (taken_front ops row) b'). split; [|unfold ri_count; cbn; rewrite sub_fits by lia; reflexivity].
    unfold ri_new. rewrite run_history_app. unfold bind at 1. rewrite E1. cbn [run_history].
    unfold ri_step, num, hint, lift, self, ri_len, ri_size_hint, bind. cbn. now repeat (rewrite sub_fits by lia; cbn).
  - pose proof (columns_len col m) as L. fold (columns col m) in E.
    pose proof (hist_moves c (columns col m) (in_order clone) Cursor _ (ci_cursor c row col m R d clone HW) ops 0 col s) as H.
    pose proof (win_all (columns col m)) as EW. rewrite L in EW. rewrite EW, Nat.sub_0_r, L, E in H. specialize (H (Nat.le_0_l _) (le_n _) HW HL HN).
    destruct H as (st' & E1 & b' & -> & H1 & H2 & ->). cbn [Nat.add] in *. rewrite total_moves_spec in * by assumption. fold k.
    split; [rewrite win_length by lia; unfold k; lia|].
    exists (Cursor (taken_front ops col) b'). split; [|unfold ci_count; cbn; rewrite sub_fits by lia; reflexivity].
    unfold ci_new. rewrite run_history_app. unfold bind at 1. rewrite E1. cbn [run_history].
    unfold ci_step, num, hint, lift, self, ci_len, ci_size_hint, bind. cbn. now repeat (rewrite sub_fits by lia; cbn).
Qed.
Print Assumptions C53_reported_partial.
Example C53_ex : rect 3 2 [[1; 2]; [3; 4]; [5; 6]] /\ faithful (@ret nat nat) /\ front_only [Next; Len; Nth 1; SizeHint; Next; Len] 3 /\
  fst (run_history (ri_step dbg 3 2 [[1; 2]; [3; 4]; [5; 6]] (Ety (fun _ s => s) false) (@ret nat nat)) [Next; Len; Nth 1; SizeHint; Next; Len] (ri_new 3, 0))
   = Ok [Item (Some [1; 2]); Num 2; Item (Some [5; 6]); Hint 0 (Some 0); Item None; Num 0] /\
  fst (run_history (ri_step dbg 3 2 [[1; 2]; [3; 4]; [5; 6]] (Ety (fun _ s => s) false) (@ret nat nat)) [NextBack; Len] (ri_new 3, 0))
   = Ok [Item (Some [5; 6]); Num 3].
Proof. repeat split; try (repeat constructor; fail); vm_compute; auto. Qed.

(** ** C54: rows_iter_ref(), cols_iter_ref() and the iterators over one column. *)
Theorem C54_rows_iter_ref :
  forall S T (c : cfg) row col (m : list (list T)) ops (s : S),
  rect row col m -> row < W c -> nth_in_range ops row ->
  let '(r, (q, s')) := run_history (lazy_deque ret) ops (m, s) in
  exists st', run_history (rr_step c row m) ops (rr_new row, s) = (r, (st', s')) /\
    forall os, r = Ok os -> cur_count c st' s' = (Ok (length q), s').
Proof.
  intros S T c row col m ops s R HW HN. pose proof (rows_len _ _ _ R) as L.
  pose proof (hist_all c m ret Cursor _ (rr_cursor c row col m R HW) (@rr_len_ok S T c row m) ops 0 row s) as H.
  pose proof (win_all m) as EW. rewrite L in EW. rewrite EW, Nat.sub_0_r, L in H. specialize (H (Nat.le_0_l _) (le_n _) HW HN). unfold rr_new.
  destruct (run_history (lazy_deque ret) ops (m, s)) as [r [q s']]. destruct H as (st' & E & HF).
  exists st'. split; [exact E|]. intros os ->. destruct HF as (f' & b' & -> & -> & H1 & H2).
  unfold cur_count, cur_len. cbn. rewrite sub_fits by exact H1. now rewrite win_length by exact H2.
Qed.
Print Assumptions C54_rows_iter_ref.
(** An iterator over one column, as yielded by [cols_iter_ref], is a queue of its entries. *)
Definition yields_entries {S T} (c : cfg) (row col : nat) (m : list (list T)) (it : nat * cursor) (entries : list T) : Prop :=
  forall ops (s : S), nth_in_range ops (length entries) ->
  let '(r, (q, s')) := run_history (lazy_deque ret) ops (entries, s) in
  exists st', run_history (cin_step c row col m) ops (it, s) = (r, (st', s')) /\
    forall os, r = Ok os -> cin_count c st' s' = (Ok (length q), s').
Lemma column_entries S T c row col (m : list (list T)) j : rect row col m -> row < W c -> j < col ->
  @yields_entries S T c row col m (j, Cursor 0 row) (col_of m j).
Proof.
  intros R HW Hj ops s HN. pose proof (col_of_length _ _ _ _ R Hj) as L.
  pose proof (hist_all c (col_of m j) ret (fun f b => (j, Cursor f b)) _ (cin_cursor c row col m R j Hj HW) (@cin_len_ok S T c row col m j Hj) ops 0 row s) as H.
  pose proof (win_all (col_of m j)) as EW. rewrite L in EW, HN. rewrite EW, Nat.sub_0_r, L in H. specialize (H (Nat.le_0_l _) (le_n _) HW HN).
  destruct (run_history (lazy_deque ret) ops (col_of m j, s)) as [r [q s']]. destruct H as (st' & E & HF).
  exists st'. split; [exact E|]. intros os ->. destruct HF as (f' & b' & -> & -> & H1 & H2).
  unfold cin_count, cur_count, cur_len. cbn. rewrite sub_fits by exact H1. now rewrite win_length by exact H2.
Qed.
(** There are [col] column iterators, the [j]-th yields column [j], and [cols_iter_ref] is
    a queue of them. *)
Theorem C54_cols_iter_ref :
  forall S T (c : cfg) row col (m : list (list T)),
  rect row col m -> row < W c -> col < W c ->
  exists its : list (nat * cursor), length its = col /\
  (forall j it, nth_error its j = Some it -> @yields_entries S T c row col m it (col_of m j)) /\
  forall ops (s : S), nth_in_range ops col ->
  let '(r, (q, s')) := run_history (lazy_deque ret) ops (its, s) in
  exists st', run_history (cr_step c row col) ops (cr_new col, s) = (r, (st', s')) /\
    forall os, r = Ok os -> cur_count c st' s' = (Ok (length q), s').
Proof.
  intros S T c row col m R HR HC. pose proof (column_iters_len row col) as L.
  exists (column_iters row col). split; [exact L|]. split.
  - intros j it E. apply nth_iters in E. destruct E as [-> Hj]. now apply column_entries.
  - intros ops s HN.
    pose proof (hist_all c (column_iters row col) ret Cursor _ (@cr_cursor S c row col HC) (@cr_len_ok S c row col) ops 0 col s) as H.
    pose proof (win_all (column_iters row col)) as EW. rewrite L in EW. rewrite EW, Nat.sub_0_r, L in H. specialize (H (Nat.le_0_l _) (le_n _) HC HN). unfold cr_new.
    destruct (run_history (lazy_deque ret) ops (column_iters row col, s)) as [r [q s']]. destruct H as (st' & E & HF).
    exists st'. split; [exact E|]. intros os ->. destruct HF as (f' & b' & -> & -> & H1 & H2).
    unfold cur_count, cur_len. cbn. rewrite sub_fits by exact H1. now rewrite win_length by exact H2.
Qed.
Print Assumptions C54_cols_iter_ref.
Example C54_ex : rect 3 2 [[1; 2]; [3; 4]; [5; 6]] /\ nth_in_range [NextBack; Len; Nth 1; SizeHint; Next; Len] 3 /\
  run_history (rr_step dbg 3 [[1; 2]; [3; 4]; [5; 6]]) [NextBack; Len; Nth 1; SizeHint; Next; Len] (rr_new 3, tt)
    = (Ok [Item (Some [5; 6]); Num 2; Item (Some [3; 4]); Hint 0 (Some 0); Item None; Num 0], (Cursor 2 2, tt)) /\
  run_history (cr_step dbg 3 2) [NextBack; Len; Next; SizeHint] (cr_new 2, tt)
    = (Ok [Item (Some (1, Cursor 0 3)); Num 1; Item (Some (0, Cursor 0 3)); Hint 0 (Some 0)], (Cursor 1 1, tt)) /\
  run_history (cin_step dbg 3 2 [[1; 2]; [3; 4]; [5; 6]]) [Next; NextBack; Len] ((1, Cursor 0 3), tt)
    = (Ok [Item (Some 2); Item (Some 6); Num 1], ((1, Cursor 1 2), tt)).
Proof. repeat split; try (repeat constructor; fail); vm_compute; auto. Qed.

(** ** C55: nth past the end. *)
Lemma add_wraps {S} c a b : W c <= a + b -> debug c = false -> @usz_add S c a b = ret (a + b - W c).
Proof. intros H D. unfold usz_add. destruct (Nat.ltb_spec (a + b) (W c)); [lia|]. now rewrite D. Qed.
Lemma add_panics {S} c a b : W c <= a + b -> debug c = true -> @usz_add S c a b = panic.
Proof. intros H D. unfold usz_add. destruct (Nat.ltb_spec (a + b) (W c)); [lia|]. now rewrite D. Qed.
Lemma sub_under {S} c a b : a < b -> @usz_sub S c a b = if debug c then panic else ret (a + W c - b).
Proof. intros H. unfold usz_sub. destruct (Nat.leb_spec b a); [lia|reflexivity]. Qed.
(** After skipping past the end the next [len] underflows: it panics in a debug build and
    reports a huge number in a release build (all five iterators). *)
Definition len_underflows {X S T} (c : cfg) (step : qop -> M (X * S) (qout T)) (new : X) (n : nat) : Prop :=
  forall k (s : S), n < k < W c -> exists st',
  run_history step [Nth k; Len] (new, s)
  = if debug c then (Panic, (st', s)) else (Ok [Item None; Num (n + W c - k)], (st', s)).
Theorem C55_refuted :
  forall S T (c : cfg) (d : ety S T) (clone : T -> M S T) row col (m : list (list T)),
  rect row col m -> row < W c -> col < W c ->
  len_underflows c (ri_step c row col m d clone) (ri_new row) row /\
  len_underflows c (ci_step c row col m d clone) (ci_new col) col /\
  len_underflows (S := S) c (rr_step c row m) (rr_new row) row /\
  len_underflows (S := S) c (cr_step c row col) (cr_new col) col /\
  (forall j, j < col -> len_underflows (S := S) c (cin_step c row col m) (j, Cursor 0 row) row).
Proof.
  intros S T c d clone row col m R HR HC.
  assert (G : forall X A B (items : list A) (get : A -> M S B) (emb : nat -> nat -> X) step n, length items = n ->
    cursor_ok c items get emb step -> (forall f b (s : S), b = n -> b < f -> f < W c -> step Len (emb f b, s) = 
       if debug c then (Panic, (emb f b, s)) else (Ok (Num (n + W c - f)), (emb f b, s))) -> len_underflows c step (emb 0 n) n).
  { intros X A B items get emb step n L HCur HL k s [H1 H2]. exists (emb k n).
    assert (Hn : n <= length items) by lia.
    destruct (HCur 0 n s Hn) as (_ & _ & _ & _ & _ & HN). destruct (HCur (0 + k) n s Hn) as (_ & _ & HE & _).
    cbn [run_history]. unfold bind. rewrite HN by exact H2. rewrite HE by (cbn; lia). cbn [Nat.add]. rewrite HL by auto. now destruct (debug c). }
  repeat split.
  - apply (G _ _ _ m (in_order clone) Cursor); [apply R|now apply ri_cursor|].
    intros f b s -> H1 H2. unfold ri_step, num, lift, ri_len, bind, self. cbn. rewrite sub_under by exact H1. now destruct (debug c).
  - apply (G _ _ _ (columns col m) (in_order clone) Cursor); [apply columns_len|now apply ci_cursor|].
    intros f b s -> H1 H2. unfold ci_step, num, lift, ci_len, bind, self. cbn. rewrite sub_under by exact H1. now destruct (debug c).
  - apply (G _ _ _ m ret Cursor); [apply R|eapply rr_cursor; eauto|].
    intros f b s -> H1 H2. unfold rr_step, num, lift, cur_len, bind, self. cbn. rewrite sub_under by exact H1. now destruct (debug c).
  - apply (G _ _ _ (column_iters row col) ret Cursor); [apply column_iters_len|now apply cr_cursor|].
    intros f b s -> H1 H2. unfold cr_step, num, lift, cur_len, bind, self. cbn. rewrite sub_under by exact H1. now destruct (debug c).
  - intros j Hj. apply (G _ _ _ (col_of m j) ret (fun f b => (j, Cursor f b))); [now apply (col_of_length row col)|now apply cin_cursor|].
    intros f b s -> H1 H2. unfold cin_step, num, lift, cin_len, cur_len, bind, self. cbn. rewrite sub_under by exact H1. now destruct (debug c).
Qed.
Print Assumptions C55_refuted.
(** In a release build [nth(usize::MAX)] after one [next] wraps around and yields the first
    item again (in a debug build it panics). *)
Theorem C55_resurrects_refuted :
  forall S T (c : cfg) row col (m : list (list T)) r (s : S),
  rect row col m -> row < W c -> nth_error m 0 = Some r ->
  run_history (rr_step c row m) [Next; Nth (W c - 1)] (rr_new row, s)
  = if debug c then (Panic, (Cursor 1 row, s))
    else (Ok [Item (Some r); Item (Some r)], (Cursor 1 row, s)).
Proof.
  intros S T c row col m r s R HW E. pose proof (rows_len _ _ _ R) as L.
  assert (H0 : 0 < row). { rewrite <- L. apply nth_error_Some. congruence. }
  destruct (rr_cursor c row col m R HW 0 row s ltac:(lia)) as (H1 & _). pose proof (H1 H0 r E : rr_step c row m Next (Cursor 0 row, s) = (Ok (Item (Some r)), (Cursor 1 row, s))) as H1'. clear H1. rename H1' into H1.
  cbn [run_history]. unfold bind at 1. unfold rr_new. rewrite H1. cbn [Nat.add].
  unfold bind. cbn [rr_step]. unfold item, rr_nth, bind at 1, bind at 1, self. cbn [fst cfront cback].
  unfold bind. destruct (debug c) eqn:D.
  - rewrite add_panics by (lia || exact D). reflexivity.
  - rewrite add_wraps by (lia || exact D). cbn [ret]. replace (1 + (W c - 1) - W c) with 0 by lia.
    cbn [set_self snd]. unfold rr_step, item, bind in H1.
    destruct (rr_next c row m (Cursor 0 row, s)) as [[o| | |] w]; cbn in *; inversion H1; subst; reflexivity.
Qed.
Print Assumptions C55_resurrects_refuted.
(** What holds: as long as the skips do not overflow [usize], an iterator that skipped to or
    past the end returns [None] from then on (all five iterators). *)
Definition stays_exhausted {X S T} (c : cfg) (step : qop -> M (X * S) (qout T)) (new : X) (n : nat) : Prop :=
  forall k ops (s : S), n <= k -> no_len ops -> k + skips ops < W c ->
  exists st', run_history step (Nth k :: ops) (new, s) = (Ok (repeat (Item None) (1 + length ops)), (st', s)).
Theorem C55_partial :
  forall S T (c : cfg) (d : ety S T) (clone : T -> M S T) row col (m : list (list T)),
  rect row col m -> row < W c -> col < W c ->
  stays_exhausted c (ri_step c row col m d clone) (ri_new row) row /\
  stays_exhausted c (ci_step c row col m d clone) (ci_new col) col /\
  stays_exhausted (S := S) c (rr_step c row m) (rr_new row) row /\
  stays_exhausted (S := S) c (cr_step c row col) (cr_new col) col /\
  (forall j, j < col -> stays_exhausted (S := S) c (cin_step c row col m) (j, Cursor 0 row) row).
Proof.
  intros S T c d clone row col m R HR HC.
  assert (G : forall X A B (items : list A) (get : A -> M S B) (emb : nat -> nat -> X) step n, length items = n ->
    cursor_ok c items get emb step -> stays_exhausted c step (emb 0 n) n).
  { intros X A B items get emb step n L HCur k ops s Hk HN HW. assert (Hn : n <= length items) by lia.
    assert (I : forall ops f, n <= f -> no_len ops -> f + skips ops < W c ->
      exists st', run_history step ops (emb f n, s) = (Ok (repeat (Item None) (length ops)), (st', s))).
    { clear ops HN HW. induction ops as [|op ops IH]; intros f Hf HN HW; cbn [run_history]; [eexists; reflexivity|].
      assert (HS : exists f', n <= f' /\ f' + skips ops < W c /\ step op (emb f n, s) = (Ok (Item None), (emb f' n, s))).
      { destruct (HCur f n s Hn) as (_ & _ & H3 & H4 & H5 & H6).
        destruct op; cbn in HN, HW; try contradiction.
        - exists f. auto.
        - exists f. auto.
        - exists (f + k0). rewrite H6 by lia. destruct (HCur (f + k0) n s Hn) as (_ & _ & H3' & _). rewrite H3' by lia. repeat split; auto; lia.
        - exists f. rewrite H5. auto. }
      destruct HS as (f' & Hf' & HW' & ES). unfold bind at 1. rewrite ES.
      assert (HN' : no_len ops) by (destruct op; cbn in HN; tauto).
      destruct (IH f' Hf' HN' HW') as (st' & E). unfold bind. rewrite E. eexists; reflexivity. }
    destruct (HCur 0 n s Hn) as (_ & _ & _ & _ & _ & H6). destruct (HCur (0 + k) n s Hn) as (_ & _ & H3 & _).
    cbn [run_history]. unfold bind at 1. rewrite H6 by lia. rewrite H3 by lia. cbn [Nat.add].
    destruct (I ops k Hk HN HW) as (st' & E). exists st'. unfold bind. now rewrite E. }
  repeat split.
  - apply (G _ _ _ m (in_order clone) Cursor); [apply R|now apply ri_cursor].
  - apply (G _ _ _ (columns col m) (in_order clone) Cursor); [apply columns_len|now apply ci_cursor].
  - apply (G _ _ _ m ret Cursor); [apply R|eapply rr_cursor; eauto].
  - apply (G _ _ _ (column_iters row col) ret Cursor); [apply column_iters_len|now apply cr_cursor].
  - intros j Hj. apply (G _ _ _ (col_of m j) ret (fun f b => (j, Cursor f b))); [now apply (col_of_length row col)|now apply cin_cursor].
Qed.
Print Assumptions C55_partial.
Example C55_ex : rect 2 1 [[1]; [2]] /\ 2 <= 7 /\ no_len [Next; Nth 3; NextBack] /\
  run_history (rr_step dbg 2 [[1]; [2]]) [Nth 7; Next; Nth 3; NextBack] (rr_new 2, tt)
  = (Ok [Item None; Item None; Item None; Item None], (Cursor 10 2, tt)).
Proof. repeat split; try (repeat constructor; fail); vm_compute; auto. Qed.
