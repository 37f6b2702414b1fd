(** * PropsVec.v - properties C12-C19: access and elementwise arithmetic. *)
From Coq Require Import List Arith Bool Lia.
From Verif Require Import Rust Iter Elem VectorM MatIterM MatrixM ArithM SpecCommon Harness
  IterProofs OwnProofs VecProofs MatProofs AccProofs.
Import ListNotations.

(** ** C12: v[i], v[i] = x with i: usize. *)
Theorem C12_index :
  forall S T n (v : list T) i (s : S), length v = n ->
  (i < n -> exists x, nth_error v i = Some x /\ vindex v i s = (Ok x, s)) /\
  (n <= i -> vindex v i s = (Panic, s)).
Proof.
  intros S T n v i s L. split; intros H.
  - destruct (nth_error v i) as [x|] eqn:E; [|apply nth_error_None in E; lia]. exists x. split; [reflexivity|]. now apply vindex_in.
  - apply vindex_out. lia.
Qed.
Print Assumptions C12_index.
Theorem C12_index_set :
  forall S T n (v : list T) i x (s : S), length v = n ->
  (i < n -> exists w, vindex_set v i x s = (Ok w, s) /\ length w = n /\
     forall j, nth_error w j = if j =? i then Some x else nth_error v j) /\
  (n <= i -> vindex_set v i x s = (Panic, s)).
Proof.
  intros S T n v i x s L. split; intros H.
  - exists (list_set v i x). split; [apply slice_assign_in; lia|]. split; [now rewrite list_set_length|].
    intros j. apply list_set_nth. lia.
  - apply slice_assign_out. lia.
Qed.
Print Assumptions C12_index_set.
Example C12_ex : vindex [7; 8; 9] 1 tt = (Ok 8, tt) /\ @vindex unit nat [7; 8; 9] 3 tt = (Panic, tt) /\
  vindex_set [7; 8; 9] 1 0 tt = (Ok [7; 0; 9], tt).
Proof. vm_compute. auto. Qed.

(** ** C13: type-level indices.  The full claim fails for [U0] on an empty vector. *)
Definition C13_statement : Prop :=
  forall S T (c : cfg) n (v : list T) i (s : S), length v = n -> vindex_accepted n i ->
  exists x, nth_error v i = Some x /\ vindex_static c n v i s = (Ok x, s).
Theorem C13_refuted : ~ C13_statement.
Proof.
  intros H. destruct (H unit nat rel 0 [] 0 tt eq_refl (or_introl eq_refl)) as (x & E & _). discriminate.
Qed.
Print Assumptions C13_refuted.
(** What happens there: a panic in a debug build, an out-of-bounds access in a
    release build. *)
Theorem C13_u0_on_empty_refuted :
  forall S T (c : cfg) (x : T) (s : S), vindex_accepted 0 0 /\
  @vindex_static S T c 0 [] 0 s = (if debug c then Panic else UB, s) /\
  @vindex_static_set S T c 0 [] 0 x s = (if debug c then Panic else UB, s).
Proof.
  intros S T c x s. split; [now left|].
  unfold vindex_static, vindex_static_set, vindex_u0, vindex_u0_set, vget_unchecked, vset_unchecked, debug_assert, bind.
  cbn. destruct (debug c); auto.
Qed.
Print Assumptions C13_u0_on_empty_refuted.
(** What holds: every accepted index of a non-empty vector.  Missing: [U0] on the
    empty vector (above). *)
Theorem C13_static_index_partial :
  forall S T (c : cfg) n (v : list T) i x (s : S), length v = n -> 0 < n -> vindex_accepted n i ->
  (exists y, nth_error v i = Some y /\ vindex_static c n v i s = (Ok y, s)) /\
  (exists w, vindex_static_set c n v i x s = (Ok w, s) /\ length w = n /\
     forall j, nth_error w j = if j =? i then Some x else nth_error v j).
Proof.
  intros S T c n v i x s L H A. assert (Hi : i < n) by (destruct A; lia). split.
  - destruct (nth_error v i) as [y|] eqn:E; [|apply nth_error_None in E; lia]. exists y. split; [reflexivity|].
    now apply vstatic_ok.
  - exists (list_set v i x). split; [now apply vstatic_set_ok|]. split; [now rewrite list_set_length|].
    intros j. apply list_set_nth. lia.
Qed.
Print Assumptions C13_static_index_partial.
Example C13_ex : vindex_accepted 3 2 /\ vindex_static rel 3 [7; 8; 9] 2 tt = (Ok 9, tt) /\
  vindex_static dbg 3 [7; 8; 9] 0 tt = (Ok 7, tt).
Proof. split; [right; lia|]. vm_compute. auto. Qed.

(** ** C14: m[(i, j)]. *)
Theorem C14_index :
  forall S T row col (m : list (list T)) i j (s : S), rect row col m ->
  (i < row -> j < col -> exists x, entry m i j = Some x /\ mindex m (i, j) s = (Ok x, s)) /\
  (row <= i \/ col <= j -> mindex m (i, j) s = (Panic, s)).
Proof.
  intros S T row col m i j s R. split.
  - intros Hi Hj. destruct (entry_some _ _ _ _ _ R Hi Hj) as (x & E). exists x. split; [exact E|]. now apply mindex_in.
  - intros [H|H]; apply mindex_out; [eapply entry_none_row|eapply entry_none_col]; eauto.
Qed.
Print Assumptions C14_index.
Theorem C14_index_set :
  forall S T row col (m : list (list T)) i j x (s : S), rect row col m ->
  (i < row -> j < col -> exists m', mindex_set m (i, j) x s = (Ok m', s) /\ rect row col m' /\
     forall i' j', entry m' i' j' = if (i' =? i) && (j' =? j) then Some x else entry m i' j') /\
  (row <= i \/ col <= j -> mindex_set m (i, j) x s = (Panic, s)).
Proof.
  intros S T row col m i j x s R. split.
  - intros Hi Hj. exists (mat_set m i j x). split; [eapply mindex_set_in; eauto|]. split; [now apply mat_set_rect|].
    intros. eapply mat_set_entry; eauto.
  - intros H. eapply mindex_set_out; eauto.
Qed.
Print Assumptions C14_index_set.
(** The four type-level forms; the [where] clauses of all of them require both
    indices to be smaller than the dimensions. *)
Theorem C14_static_index :
  forall S T (c : cfg) row col (m : list (list T)) i j x (s : S), rect row col m -> i < row -> j < col ->
  (exists y, entry m i j = Some y /\ mindex_static c row col m (i, j) s = (Ok y, s)) /\
  (exists m', mindex_static_set c row col m (i, j) x s = (Ok m', s) /\ rect row col m' /\
     forall i' j', entry m' i' j' = if (i' =? i) && (j' =? j) then Some x else entry m i' j').
Proof.
  intros S T c row col m i j x s R Hi Hj. split.
  - destruct (entry_some _ _ _ _ _ R Hi Hj) as (y & E). exists y. split; [exact E|]. now apply mstatic_in.
  - exists (mat_set m i j x). split; [now apply mstatic_set_in|]. split; [now apply mat_set_rect|].
    intros. eapply mat_set_entry; eauto.
Qed.
Print Assumptions C14_static_index.
Example C14_ex : rect 2 3 [[1; 2; 3]; [4; 5; 6]] /\ mindex [[1; 2; 3]; [4; 5; 6]] (1, 2) tt = (Ok 6, tt) /\
  mindex_set [[1; 2; 3]; [4; 5; 6]] (1, 0) 9 tt = (Ok [[1; 2; 3]; [9; 5; 6]], tt) /\
  mindex_static rel 2 3 [[1; 2; 3]; [4; 5; 6]] (0, 2) tt = (Ok 3, tt).
Proof. repeat split; repeat constructor. Qed.

(** ** C15: get_unchecked, get_unchecked_mut. *)
Theorem C15_vector_unchecked :
  forall S T (c : cfg) n (v : list T) i x (s : S), length v = n ->
  (i < n -> (exists y, nth_error v i = Some y /\ vget_unchecked c n v i s = (Ok y, s)) /\
    (exists w, vset_unchecked c n v i x s = (Ok w, s) /\ length w = n /\
       forall j, nth_error w j = if j =? i then Some x else nth_error v j)) /\
  (n <= i -> debug c = true ->
    vget_unchecked c n v i s = (Panic, s) /\ vset_unchecked c n v i x s = (Panic, s)).
Proof.
  intros S T c n v i x s L. split.
  - intros Hi. split.
    + destruct (nth_error v i) as [y|] eqn:E; [|apply nth_error_None in E; lia]. exists y. split; [reflexivity|]. now apply vget_ok.
    + exists (list_set v i x). split; [now apply vset_ok|]. split; [now rewrite list_set_length|].
      intros j. apply list_set_nth. lia.
  - intros Hi D. split; [now apply vget_out_debug|now apply vset_out_debug].
Qed.
Print Assumptions C15_vector_unchecked.
Theorem C15_matrix_unchecked :
  forall S T (c : cfg) row col (m : list (list T)) i j x (s : S), rect row col m ->
  (i < row -> j < col -> (exists y, entry m i j = Some y /\ mget_unchecked c row col m (i, j) s = (Ok y, s)) /\
    (exists m', mset_unchecked c row col m (i, j) x s = (Ok m', s) /\ rect row col m' /\
       forall i' j', entry m' i' j' = if (i' =? i) && (j' =? j) then Some x else entry m i' j')) /\
  (row <= i \/ col <= j -> debug c = true ->
    mget_unchecked c row col m (i, j) s = (Panic, s) /\ mset_unchecked c row col m (i, j) x s = (Panic, s)).
Proof.
  intros S T c row col m i j x s R. split.
  - intros Hi Hj. split.
    + destruct (entry_some _ _ _ _ _ R Hi Hj) as (y & E). exists y. split; [exact E|]. now apply mget_in.
    + exists (mat_set m i j x). split; [now apply mset_in|]. split; [now apply mat_set_rect|].
      intros. eapply mat_set_entry; eauto.
  - intros H D. split; [now apply mget_out_debug|now apply mset_out_debug].
Qed.
Print Assumptions C15_matrix_unchecked.
Example C15_ex : vget_unchecked rel 3 [7; 8; 9] 1 tt = (Ok 8, tt) /\ @vget_unchecked unit nat dbg 3 [7; 8; 9] 3 tt = (Panic, tt) /\
  mset_unchecked dbg 2 2 [[1; 2]; [3; 4]] (1, 0) 9 tt = (Ok [[1; 2]; [9; 4]], tt) /\
  @mget_unchecked unit nat dbg 2 2 [[1; 2]; [3; 4]] (0, 2) tt = (Panic, tt).
Proof. vm_compute. auto. Qed.

(** ** C16: a op b on vectors, for an arbitrary effectful element operator.  The
    operator is called once per index, in order; when it panics the elements
    that were not yet passed to it and are owned by the operation are dropped. *)
Theorem C16_elementwise_in_order :
  forall S A B C (c : cfg) (da : ety S A) (db : ety S B) (dc : ety S C) n (op : A -> B -> M S C) a b s,
  length a = n -> length b = n -> n < W c ->
  let f := fun p => op (fst p) (snd p) in
  vzip_rr c dc n op a b s = in_order f (combine a b) s /\
  vzip_vv c da db dc n op a b s
    = in_order_unwind (fun l s => drop_all db (map snd l) (drop_all da (map fst l) s)) f (combine a b) s /\
  vzip_vr c da dc n op a b s = in_order_unwind (fun l => drop_all da (map fst l)) f (combine a b) s /\
  vzip_rv c db dc n op a b s = in_order_unwind (fun l => drop_all db (map snd l)) f (combine a b) s.
Proof.
  intros S A B C c da db dc n op a b s La Lb HW. repeat split.
  - now apply vzip_rr_spec.
  - now apply vzip_vv_spec.
  - now apply vzip_vr_spec.
  - now apply vzip_rv_spec.
Qed.
Print Assumptions C16_elementwise_in_order.
(** The four forms agree: they return the same value and world whenever one of
    them returns. *)
Theorem C16_forms_agree :
  forall S A B C (c : cfg) (da : ety S A) (db : ety S B) (dc : ety S C) n (op : A -> B -> M S C) a b s r s',
  length a = n -> length b = n -> n < W c ->
  (vzip_vv c da db dc n op a b s = (Ok r, s') <-> vzip_rr c dc n op a b s = (Ok r, s')) /\
  (vzip_vr c da dc n op a b s = (Ok r, s') <-> vzip_rr c dc n op a b s = (Ok r, s')) /\
  (vzip_rv c db dc n op a b s = (Ok r, s') <-> vzip_rr c dc n op a b s = (Ok r, s')).
Proof.
  intros S A B C c da db dc n op a b s r s' La Lb HW.
  rewrite vzip_rr_spec, vzip_vv_spec, vzip_vr_spec, vzip_rv_spec by assumption. repeat split; apply unwind_ok.
Qed.
Print Assumptions C16_forms_agree.
(** For an operator without effects: position i holds a[i] op b[i]. *)
Theorem C16_elementwise :
  forall S A B C (c : cfg) (da : ety S A) (db : ety S B) (dc : ety S C) n (op : A -> B -> M S C) g a b s,
  length a = n -> length b = n -> n < W c -> pure2 op g ->
  exists r, length r = n /\
    (forall i x y, nth_error a i = Some x -> nth_error b i = Some y -> nth_error r i = Some (g x y)) /\
    vzip_vv c da db dc n op a b s = (Ok r, s) /\ vzip_vr c da dc n op a b s = (Ok r, s) /\
    vzip_rv c db dc n op a b s = (Ok r, s) /\ vzip_rr c dc n op a b s = (Ok r, s).
Proof.
  intros S A B C c da db dc n op g a b s La Lb HW P.
  exists (map (fun p => g (fst p) (snd p)) (combine a b)). split; [rewrite map_length, combine_length; lia|]. split.
  - intros i x y E1 E2. rewrite nth_error_map, combine_nth_error, E1, E2. reflexivity.
  - rewrite vzip_rr_spec, vzip_vv_spec, vzip_vr_spec, vzip_rv_spec by assumption.
    repeat split; ((apply unwind_pure || apply in_order_pure); intros; apply P).
Qed.
Print Assumptions C16_elementwise.
Example C16_ex :
  let op := fun x y (s : list nat) => (Ok (x + y), s ++ [x]) in
  vzip_vv dbg log_ety log_ety log_ety 3 op [1; 2; 3] [10; 20; 30] [] = (Ok [11; 22; 33], [1; 2; 3]) /\
  vzip_rr rel log_ety 3 op [1; 2; 3] [10; 20; 30] [] = (Ok [11; 22; 33], [1; 2; 3]).
Proof. vm_compute. auto. Qed.

(** ** C17: compound assignment. *)
Lemma slot_agrees {S T U} (op : T -> U -> M S T) opa : assign_agrees op opa ->
  forall p s, slot opa p s = op (fst p) (snd p) s.
Proof.
  intros H [x y] s. unfold slot. cbn. rewrite H. destruct (op x y s) as [[]]; reflexivity.
Qed.
Theorem C17_add_assign :
  forall S T U (c : cfg) (du : ety S U) (dt : ety S T) n (op : T -> U -> M S T) op_assign a b s r s',
  length a = n -> length b = n -> n < W c -> assign_agrees op op_assign ->
  vzip_rr c dt n op a b s = (Ok r, s') ->
  vop_assign c du n op_assign b (a, s) = (Ok tt, (r, s')).
Proof.
  intros S T U c du dt n op opa a b s r s' La Lb HW HA H. rewrite vzip_rr_spec in H by assumption.
  unfold vop_assign. cbn [fst snd].
  eapply iter_mut_zip_ok with (us := b) (2 := into_it_gives c du n b Lb HW); [intros; now rewrite lastn_0|lia|].
  rewrite <- H. apply in_order_ext. intros p s0 _. now apply slot_agrees.
Qed.
Print Assumptions C17_add_assign.
Theorem C17_add_assign_panic :
  forall S T U (c : cfg) (du : ety S U) n (op : T -> U -> M S T) op_assign a1 x a2 b1 y b2 s r1 s1 s2,
  length (a1 ++ x :: a2) = n -> length (b1 ++ y :: b2) = n -> length a1 = length b1 -> n < W c ->
  assign_agrees op op_assign ->
  in_order (fun p => op (fst p) (snd p)) (combine a1 b1) s = (Ok r1, s1) -> op x y s1 = (Panic, s2) ->
  vop_assign c du n op_assign (b1 ++ y :: b2) (a1 ++ x :: a2, s)
  = (Panic, (r1 ++ x :: a2, drop_all du b2 s2)).
Proof.
  intros S T U c du n op opa a1 x a2 b1 y b2 s r1 s1 s2 La Lb L1 HW HA H1 H2.
  unfold vop_assign. cbn [fst snd].
  rewrite (iter_mut_zip_panic opa _ a1 x a2 b1 y b2 _ s r1 s1 x s2 (into_it_gives c du n _ Lb HW)); auto.
  - f_equal. f_equal. change (length b2) with (length b2). rewrite (lastn_len_app (b1 ++ [y]) b2); [reflexivity|].
    now rewrite <- app_assoc.
  - rewrite <- H1. apply in_order_ext. intros p s0 _. now apply slot_agrees.
  - now rewrite HA, H2.
Qed.
Print Assumptions C17_add_assign_panic.
Lemma slot0_agrees {S T U} (op : T -> U -> M S T) opa (cl : U -> M S U) (u : U) : assign_agrees op opa ->
  forall x s, slot0 (r <- lift (cl u) ;; opa r) x s = (r <- cl u ;; op x r) s.
Proof.
  intros H x s. unfold slot0, bind, lift. cbn. destruct (cl u s) as [[y| | |] s1]; cbn; try reflexivity.
  rewrite H. destruct (op x y s1) as [[]]; reflexivity.
Qed.
(** [v *= k], [v /= k]: the scalar is cloned once per element. *)
Theorem C17_scale_assign :
  forall S T U (c : cfg) (d dc : ety S T) n (op : T -> U -> M S T) op_assign (clone : U -> M S U) v k s r s',
  length v = n -> n < W c -> assign_agrees op op_assign ->
  vscale c d dc n op clone v k s = (Ok r, s') ->
  vscale_assign op_assign clone k (v, s) = (Ok tt, (r, s')).
Proof.
  intros S T U c d dc n op opa clone v k s r s' L HW HA H. rewrite vscale_spec in H by assumption. apply unwind_ok in H.
  unfold vscale_assign. cbn [fst snd]. apply iter_mut_ok. rewrite <- H. apply in_order_ext. intros. now apply slot0_agrees.
Qed.
Print Assumptions C17_scale_assign.
Theorem C17_scale_assign_panic :
  forall S T U (op : T -> U -> M S T) op_assign (clone : U -> M S U) v1 x v2 k s r1 s1 s2,
  faithful clone -> assign_agrees op op_assign ->
  in_order (fun x => op x k) v1 s = (Ok r1, s1) -> op x k s1 = (Panic, s2) ->
  vscale_assign op_assign clone k (v1 ++ x :: v2, s) = (Panic, (r1 ++ x :: v2, s2)).
Proof.
  intros S T U op opa clone v1 x v2 k s r1 s1 s2 HC HA H1 H2. unfold vscale_assign. cbn [fst snd].
  apply iter_mut_panic with (s1 := s1).
  - rewrite <- H1. apply in_order_ext. intros y s0 _. rewrite (slot0_agrees op) by assumption. unfold bind. now rewrite HC.
  - unfold bind, lift. cbn. rewrite HC. cbn. now rewrite HA, H2.
Qed.
Print Assumptions C17_scale_assign_panic.
(** The matrix forms. *)
Theorem C17_matrix_add_assign :
  forall S T U (c : cfg) (du : ety S U) (dt : ety S T) row col (op : T -> U -> M S T) op_assign a b s r s',
  rect row col a -> rect row col b -> row < W c -> col < W c -> assign_agrees op op_assign ->
  mzip_rr c dt row col op a b s = (Ok r, s') ->
  mop_assign c du row col op_assign b (a, s) = (Ok tt, (r, s')).
Proof.
  intros S T U c du dt row col op opa a b s r s' Ra Rb HW1 HW2 HA H. rewrite mzip_rr_spec in H by assumption.
  unfold mop_assign. cbn [fst snd].
  eapply iter_mut_zip_ok with (us := b) (2 := into_it_gives c (vec_ety du) row b (proj1 Rb) HW1);
    [intros; now rewrite lastn_0|destruct Ra, Rb; lia|].
  destruct Ra as [_ Fa], Rb as [_ Fb]. revert s r s' b Fb H.
  induction a as [|ra a IH]; intros s r s' b Fb H; [exact H|]. destruct b as [|rb b]; [exact H|]. inv Fa. inv Fb.
  cbn in H |- *. unfold op2 at 1 in H. cbn in H.
  destruct (in_order (fun p : T * U => op (fst p) (snd p)) (combine ra rb) s) as [[r1| | |] s1] eqn:E1; try discriminate.
  unfold slot at 1. cbn.
  rewrite (iter_mut_zip_ok opa (fun k s => drop_all du (lastn k rb) s)) with (us := rb) (w := r1) (s' := s1);
    [|intros; now rewrite lastn_0|apply into_it_gives; auto|congruence|rewrite <- E1; apply in_order_ext; intros p s0 _; now apply slot_agrees].
  cbn. destruct (in_order (op2 _) (combine a b) s1) as [[r2| | |] s2] eqn:E2; try discriminate. rewrite (IH ltac:(assumption) _ _ _ _ ltac:(eassumption) E2). exact H.
Qed.
Print Assumptions C17_matrix_add_assign.
Theorem C17_matrix_scale_assign :
  forall S T (c : cfg) (d : ety S T) row col (op : T -> T -> M S T) op_assign (clone : T -> M S T) m k s r s',
  rect row col m -> row < W c -> col < W c -> faithful clone -> assign_agrees op op_assign ->
  mscale c d row col op clone m k s = (Ok r, s') ->
  mscale_assign op_assign clone k (m, s) = (Ok tt, (r, s')).
Proof.
  intros S T c d row col op opa clone m k s r s' R HW1 HW2 HC HA H. rewrite mscale_spec in H by assumption.
  apply unwind_ok in H. unfold mscale_assign. cbn [fst snd]. apply iter_mut_ok. clear R HW1 HW2. revert s r s' H.
  induction m as [|x m IH]; intros s r s' H; cbn in *; [exact H|].
  unfold bind at 1 in H. rewrite HC in H.
  destruct (in_order_unwind (drop_all d) (fun e => y <- clone k ;; op e y) x s) as [[r1| | |] s1] eqn:E1; try discriminate.
  apply unwind_ok in E1. unfold slot0 at 1. cbn.
  rewrite (iter_mut_ok _ _ _ r1 s1) by (rewrite <- E1; apply in_order_ext; intros; now apply slot0_agrees). cbn.
  destruct (in_order _ m s1) as [[r2| | |] s2] eqn:E2; try discriminate. rewrite (IH _ _ _ E2). exact H.
Qed.
Print Assumptions C17_matrix_scale_assign.
Example C17_ex :
  let op := fun x y (s : list nat) => if x + y <? 30 then (Ok (x + y), s) else (Panic, s ++ [x]) in
  let opa := fun y (xs : nat * list nat) => if fst xs + y <? 30 then (Ok tt, (fst xs + y, snd xs)) else (Panic, (fst xs, snd xs ++ [fst xs])) in
  assign_agrees op opa /\
  vop_assign dbg log_ety 3 opa [10; 20; 3] ([1; 2; 3], []) = (Ok tt, ([11; 22; 6], [])) /\
  vop_assign dbg log_ety 3 opa [10; 28; 3] ([1; 2; 3], []) = (Panic, ([11; 2; 3], [2; 3])).
Proof.
  split; [|vm_compute; auto]. intros x y s. cbn. destruct (x + y <? 30); reflexivity.
Qed.

(** ** C18: v * k, v / k, -v, and the matrix forms. *)
Theorem C18_vector_scale :
  forall S T U C (c : cfg) (d : ety S T) (dc : ety S C) n (op : T -> U -> M S C) (clone : U -> M S U) g v k s,
  length v = n -> n < W c -> faithful clone -> pure2 op g ->
  exists r, vscale c d dc n op clone v k s = (Ok r, s) /\ length r = n /\
    forall i x, nth_error v i = Some x -> nth_error r i = Some (g x k).
Proof.
  intros S T U C c d dc n op clone g v k s L HW HC P. exists (map (fun x => g x k) v). split; [|split].
  - rewrite vscale_spec by assumption. apply unwind_pure. intros x s0 _. unfold bind. now rewrite HC, P.
  - now rewrite map_length.
  - intros i x E. now rewrite nth_error_map, E.
Qed.
Print Assumptions C18_vector_scale.
Theorem C18_vector_neg :
  forall S T C (c : cfg) (d : ety S T) (dc : ety S C) n (neg : T -> M S C) g v s,
  length v = n -> n < W c -> pure1 neg g ->
  exists r, vneg c d dc n neg v s = (Ok r, s) /\ length r = n /\
    forall i x, nth_error v i = Some x -> nth_error r i = Some (g x).
Proof.
  intros S T C c d dc n neg g v s L HW P. exists (map g v). split; [|split].
  - rewrite vneg_spec by assumption. apply unwind_pure. intros; apply P.
  - now rewrite map_length.
  - intros i x E. now rewrite nth_error_map, E.
Qed.
Print Assumptions C18_vector_neg.
(** For an operator with effects: one call per element, in order. *)
Theorem C18_vector_in_order :
  forall S T U C (c : cfg) (d : ety S T) (dc : ety S C) n (op : T -> U -> M S C) (clone : U -> M S U) (neg : T -> M S C) v k s,
  length v = n -> n < W c ->
  vscale c d dc n op clone v k s = in_order_unwind (drop_all d) (fun x => k' <- clone k ;; op x k') v s /\
  vneg c d dc n neg v s = in_order_unwind (drop_all d) neg v s.
Proof. intros. split; [now apply vscale_spec|now apply vneg_spec]. Qed.
Print Assumptions C18_vector_in_order.
Lemma map_map_entry {A B} (g : A -> B) row col (m : list (list A)) : rect row col m ->
  rect row col (map (map g) m) /\ forall i j x, entry m i j = Some x -> entry (map (map g) m) i j = Some (g x).
Proof.
  intros R. split.
  - split; [rewrite map_length; apply R|]. rewrite Forall_forall. intros r Hr. apply in_map_iff in Hr.
    destruct Hr as (r' & <- & Hin). rewrite map_length. eapply rect_row; eauto.
  - intros i j x. unfold entry. rewrite nth_error_map. destruct (nth_error m i) as [r|]; cbn; [|discriminate].
    intros E. now rewrite nth_error_map, E.
Qed.
Theorem C18_matrix_scale :
  forall S T (c : cfg) (d : ety S T) row col (op : T -> T -> M S T) (clone : T -> M S T) g m k s,
  rect row col m -> row < W c -> col < W c -> faithful clone -> pure2 op g ->
  exists r, mscale c d row col op clone m k s = (Ok r, s) /\ mscale_ref c d row col op m k s = (Ok r, s) /\
    rect row col r /\ forall i j x, entry m i j = Some x -> entry r i j = Some (g x k).
Proof.
  intros S T c d row col op clone g m k s R H1 H2 HC P. exists (map (map (fun x => g x k)) m).
  split; [|split; [|now apply map_map_entry]].
  - rewrite mscale_spec by assumption. apply unwind_pure. intros r s0 _. unfold bind. rewrite HC.
    apply unwind_pure. intros x s1 _. now rewrite HC, P.
  - rewrite mscale_ref_spec by assumption. apply unwind_pure. intros r s0 _. apply unwind_pure. intros; apply P.
Qed.
Print Assumptions C18_matrix_scale.
Theorem C18_matrix_neg :
  forall S T C (c : cfg) (d : ety S T) (dc : ety S C) row col (neg : T -> M S C) g m s,
  rect row col m -> row < W c -> col < W c -> pure1 neg g ->
  exists r, mneg c d dc row col neg m s = (Ok r, s) /\
    rect row col r /\ forall i j x, entry m i j = Some x -> entry r i j = Some (g x).
Proof.
  intros S T C c d dc row col neg g m s R H1 H2 P. exists (map (map g) m). split; [|now apply map_map_entry].
  rewrite mneg_spec by assumption. apply unwind_pure. intros r s0 _. apply unwind_pure. intros; apply P.
Qed.
Print Assumptions C18_matrix_neg.
Example C18_ex :
  vscale dbg log_ety log_ety 3 (fun x y (s : list nat) => (Ok (x * y), s)) ret [1; 2; 3] 5 [] = (Ok [5; 10; 15], []) /\
  vneg rel log_ety log_ety 3 (fun x (s : list nat) => (Ok (100 - x), s)) [1; 2; 3] [] = (Ok [99; 98; 97], []) /\
  mscale dbg log_ety 2 2 (fun x y (s : list nat) => (Ok (x * y), s)) ret [[1; 2]; [3; 4]] 5 [] = (Ok [[5; 10]; [15; 20]], []).
Proof. vm_compute. auto. Qed.

(** ** C19: the element operator panics.  [a1], [b1] are the elements already passed to
    it, [x], [y] those passed to the panicking call: the only drops performed by
    the crate are those of [a2] and [b2], once each. *)
Theorem C19_zip_panic :
  forall S A B C (c : cfg) (da : ety S A) (db : ety S B) (dc : ety S C) n (op : A -> B -> M S C)
    a1 x a2 b1 y b2 s r1 s1 s2,
  length (a1 ++ x :: a2) = n -> length (b1 ++ y :: b2) = n -> length a1 = length b1 -> n < W c ->
  in_order (fun p => op (fst p) (snd p)) (combine a1 b1) s = (Ok r1, s1) -> op x y s1 = (Panic, s2) ->
  let a := a1 ++ x :: a2 in let b := b1 ++ y :: b2 in
  vzip_vv c da db dc n op a b s = (Panic, drop_all db b2 (drop_all da a2 s2)) /\
  vzip_vr c da dc n op a b s = (Panic, drop_all da a2 s2) /\
  vzip_rv c db dc n op a b s = (Panic, drop_all db b2 s2) /\
  vzip_rr c dc n op a b s = (Panic, s2).
Proof.
  intros S A B C c da db dc n op a1 x a2 b1 y b2 s r1 s1 s2 La Lb L1 HW H1 H2 a b.
  assert (L2 : length a2 = length b2) by (rewrite app_length in *; cbn in *; lia).
  assert (E : combine a b = combine a1 b1 ++ (x, y) :: combine a2 b2).
  { unfold a, b. clear -L1. revert b1 L1. induction a1; intros [|z b1] L1; cbn in *; try discriminate; [reflexivity|].
    f_equal. auto. }
  unfold a, b in *. rewrite vzip_rr_spec, vzip_vv_spec, vzip_vr_spec, vzip_rv_spec by assumption. rewrite E.
  change (fun p : A * B => op (fst p) (snd p)) with (op2 op) in H1. change (op2 op (x, y) s1 = (Panic, s2)) in H2.
  split; [|split; [|split]].
  - rewrite (unwind_panic_at _ _ _ _ _ _ _ _ _ H1 H2). unfold drop2. now rewrite map_fst_combine, map_snd_combine by assumption.
  - rewrite (unwind_panic_at _ _ _ _ _ _ _ _ _ H1 H2). now rewrite map_fst_combine by assumption.
  - rewrite (unwind_panic_at _ _ _ _ _ _ _ _ _ H1 H2). now rewrite map_snd_combine by assumption.
  - rewrite <- unwind_id. now rewrite (unwind_panic_at _ _ _ _ _ _ _ _ _ H1 H2).
Qed.
Print Assumptions C19_zip_panic.
Theorem C19_map_panic :
  forall S T U C (c : cfg) (d : ety S T) (dc : ety S C) n (op : T -> U -> M S C) (clone : U -> M S U) (neg : T -> M S C) v1 x v2 k s r1 s1 s2,
  length (v1 ++ x :: v2) = n -> n < W c -> faithful clone ->
  (in_order (fun e => op e k) v1 s = (Ok r1, s1) -> op x k s1 = (Panic, s2) ->
   vscale c d dc n op clone (v1 ++ x :: v2) k s = (Panic, drop_all d v2 s2)) /\
  (in_order neg v1 s = (Ok r1, s1) -> neg x s1 = (Panic, s2) ->
   vneg c d dc n neg (v1 ++ x :: v2) s = (Panic, drop_all d v2 s2)).
Proof.
  intros S T U C c d dc n op clone neg v1 x v2 k s r1 s1 s2 L HW HC. split; intros H1 H2.
  - rewrite vscale_spec by assumption.
    rewrite (unwind_ext _ (drop_all d) _ (fun e => op e k)) by (intros; try reflexivity; unfold bind; now rewrite HC).
    exact (unwind_panic_at _ _ _ _ _ _ _ _ _ H1 H2).
  - rewrite vneg_spec by assumption. exact (unwind_panic_at _ _ _ _ _ _ _ _ _ H1 H2).
Qed.
Print Assumptions C19_map_panic.
(** Matrices by value: [-m] (the entries after the panicking one, in row-major order). *)
Theorem C19_matrix_neg_panic :
  forall S T C (c : cfg) (d : ety S T) (dc : ety S C) row col (neg : T -> M S C) m l1 x l2 s r1 s1 s2,
  rect row col m -> row < W c -> col < W c ->
  concat m = l1 ++ x :: l2 -> in_order neg l1 s = (Ok r1, s1) -> neg x s1 = (Panic, s2) ->
  mneg c d dc row col neg m s = (Panic, drop_all d l2 s2).
Proof.
  intros S T C c d dc row col neg m l1 x l2 s r1 s1 s2 R H1 H2 E E1 E2. rewrite mneg_spec by assumption.
  assert (NF := nested_flat (drop_all (vec_ety d)) (drop_all d) (drop_all d) (fun r : list T => r) neg m s).
  rewrite map_id in NF. destruct (in_order_unwind _ _ m s) as [r s'].
  specialize (NF ltac:(intros l b s0; rewrite map_id, drop_all_app', drop_all_concat; reflexivity)).
  rewrite E, (unwind_panic_at _ _ _ _ _ _ _ _ _ E1 E2) in NF. destruct r; cbn in NF; congruence.
Qed.
Print Assumptions C19_matrix_neg_panic.
Example C19_ex :
  let op := fun x y (s : list nat) => if x =? 2 then (Panic, s ++ [x; y]) else (Ok (x + y), s ++ [x; y]) in
  vzip_vv dbg log_ety log_ety log_ety 4 op [1; 2; 3; 4] [10; 20; 30; 40] []
  = (Panic, [1; 10; 2; 20; 3; 4; 30; 40]).
Proof. vm_compute. reflexivity. Qed.
