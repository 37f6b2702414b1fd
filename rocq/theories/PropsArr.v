(** * PropsArr.v - C87: implementations of the public trait [ArrayLen] outside the crate. *)
From Coq Require Import List Arith Bool Lia.
From Verif Require Import Rust Iter Elem VectorM SpecCommon SpecSafe Harness MetaM ArrM IterProofs OwnProofs PropsMeta PropsSafe.
Import ListNotations.

(** The promise, for collecting: whatever the implementation of [ArrayLen], collecting a safe
    iterator has no undefined behaviour. *)
Definition C87_statement : Prop := forall (L : len_ty) (S T : Type) (c : cfg) (d : ety S T) (it : iter S T),
  iter_no_ub True (fun _ => True) it -> no_ub True anything (from_iter_l c d L it).

Lemma collect_overflow {S T} c (d : ety S T) : forall k (it : iter S T) s xs it1 s1 pre,
  yields it s xs it1 s1 -> k < length xs ->
  fst (from_iter_loop c d (length xs) (length pre) (map Live pre ++ repeat Uninit k) it s) = UB.
Proof.
  intros k it s xs it1 s1 pre Y. revert k pre. induction Y as [it s|it s x it1 s1 xs it2 s2 E Y IH]; intros k pre Hk; cbn in Hk; [lia|].
  cbn [length from_iter_loop]. rewrite E. unfold bind, ptr_write. rewrite app_length, map_length, repeat_length.
  destruct k as [|k].
  - destruct (Nat.ltb_spec (length pre) (length pre + 0)); [lia|]. reflexivity.
  - destruct (Nat.ltb_spec (length pre) (length pre + Datatypes.S k)); [|lia]. unfold ret. cbn [repeat].
    rewrite <- (map_length Live pre) at 2. rewrite list_set_app. specialize (IH k (pre ++ [x]) ltac:(lia)).
    rewrite app_length, map_app, <- !app_assoc in IH. cbn [app map length] in IH. exact IH.
Qed.
Lemma assume_init_short {S T} (xs : list T) k (s : S) : 0 < k -> fst (assume_init (map Live xs ++ repeat Uninit k) s) = UB.
Proof.
  intros Hk. induction xs as [|x xs IH]; cbn.
  - destruct k; [lia|]. reflexivity.
  - unfold bind. destruct (assume_init (map Live xs ++ repeat Uninit k) s) as [r s'] eqn:E. cbn in IH. subst r. reflexivity.
Qed.
Lemma collect_underflow {S T} c (d : ety S T) : forall (it : iter S T) s xs it1 s1 it2 s2 s2',
  yields it s xs it1 s1 -> next (it1, s1) = (Ok None, (it2, s2)) -> drop_iter it2 s2 = (Ok tt, s2') ->
  forall pre k, length xs < k ->
  fst (from_iter_loop c d (length xs) (length pre) (map Live pre ++ repeat Uninit k) it s) = UB.
Proof.
  intros it s xs it1 s1 it2 s2 s2' Y. induction Y as [it s|it s x it1 s1 xs it3 s3 E Y IH]; intros HN HD pre k Hk; cbn in Hk.
  - cbn [length from_iter_loop]. unfold from_iter_finish. pose proof (assume_init_short (S := S) pre k) as A. destruct (debug c).
    + assert (EC : icount d (fuel_count c) it 0 s = (Ok 0, s2')).
      { destruct (fuel_count c); cbn; rewrite HN; unfold out_of_scope, bind; now rewrite HD. }
      unfold bind. rewrite EC. change (0 =? 0) with true. cbn [assert]. unfold ret. now apply A.
    + unfold bind. specialize (A s Hk). destruct (assume_init _ s) as [r t]. cbn in A. subst r. reflexivity.
  - cbn [length from_iter_loop]. rewrite E. unfold bind, ptr_write. rewrite app_length, map_length, repeat_length.
    destruct k as [|k]; [lia|].
    destruct (Nat.ltb_spec (length pre) (length pre + Datatypes.S k)); [|lia]. unfold ret. cbn [repeat].
    rewrite <- (map_length Live pre) at 2. rewrite list_set_app. specialize (IH HN HD (pre ++ [x]) k ltac:(lia)).
    rewrite app_length, map_app, <- !app_assoc in IH. cbn [app map length] in IH. exact IH.
Qed.

(** ** C87: collecting is safe exactly for the implementations whose array has [to_usize()]
    elements; for any other one, collecting exactly [to_usize()] items is undefined behaviour. *)
Theorem C87_collect_partial : forall L : len_ty,
  (l_cells L = l_usize L ->
     forall (S T : Type) (D : Prop) (P : T -> Prop) (c : cfg) (d : ety S T) (it : iter S T),
     D -> iter_no_ub D P it -> no_ub D (vec (l_usize L) P) (from_iter_l c d L it)) /\
  (l_cells L <> l_usize L ->
     forall (S T : Type) (c : cfg) (d : ety S T) (it : iter S T) s xs it1 s1 it2 s2 s2',
     length xs = l_usize L -> yields it s xs it1 s1 ->
     next (it1, s1) = (Ok None, (it2, s2)) -> drop_iter it2 s2 = (Ok tt, s2') ->
     fst (from_iter_l c d L it s) = UB).
Proof.
  intros [n k]; cbn [l_cells l_usize]. split.
  - intros -> S T D P c d it HD Hit. exact (C85_collect S T D P c d n it HD Hit).
  - intros Hk S T c d it s xs it1 s1 it2 s2 s2' <- Y HN HD. unfold from_iter_l; cbn [l_cells l_usize].
    destruct (Nat.lt_ge_cases k (length xs)) as [H|H].
    + exact (collect_overflow c d k it s xs it1 s1 [] Y H).
    + exact (collect_underflow c d it s xs it1 s1 it2 s2 s2' Y HN HD [] k ltac:(lia)).
Qed.
Print Assumptions C87_collect_partial.
Lemma slice_yields {S T} (xs : list T) (s : S) : yields (slice_iter xs) s xs (slice_iter []) s.
Proof. induction xs as [|x xs IH]; [constructor|]. econstructor; [reflexivity|exact IH]. Qed.
Theorem C87_refuted : ~ C87_statement.
Proof.
  intros H. specialize (H (LenTy 2 1) unit nat dbg ref_ety (slice_iter [7; 8])).
  assert (Hit : iter_no_ub True (fun _ : nat => True) (@slice_iter unit nat [7; 8])).
  { exists (fun _ => True). split; [exact I|]. split.
    - intros l s _. destruct l; cbn; auto.
    - intros l _ s. exact I. }
  specialize (H Hit tt). cbn in H. exact H.
Qed.
Print Assumptions C87_refuted.

(** ** C87: the crate's own implementations agree with their length types. *)
Theorem C87_own_impls_partial : forall (t : tnum) (k : nat), In k (arraylen t) -> k = to_usize t.
Proof.
  unfold arraylen. assert (G : forallb (fun p => snd p =? to_usize (fst p)) arraylen_table = true) by (vm_compute; reflexivity).
  revert G. generalize arraylen_table. intros tb G t k H. rewrite forallb_forall in G.
  apply in_map_iff in H. destruct H as ([u j] & Ej & H). apply filter_In in H. destruct H as [H E]. cbn [fst snd] in *.
  apply tnum_eqb_eq in E. subst u k. exact (proj1 (Nat.eqb_eq _ _) (G _ H)).
Qed.
Print Assumptions C87_own_impls_partial.

(** ** C87: the owning iterator of a vector made from an array of another length. *)
Definition at_ {T} (pre rest : list T) (n : nat) : into_iter_t T := IntoIter (map Moved pre ++ map Live rest) (length pre) n.
Lemma at_next {S T} c (d : ety S T) n pre rest s : n < W c ->
  ii_next_fn c d n (at_ pre rest n, s)
  = if length pre <? n
    then match rest with
         | x :: rest' => (Ok (Some x), (at_ (pre ++ [x]) rest' n, s))
         | [] => (UB, (IntoIter (map Moved pre) (length pre + 1) n, s))
         end
    else (Ok None, (at_ pre rest n, s)).
Proof.
  intros HW. unfold ii_next_fn, at_. unfold bind, self. cbn -[Nat.leb Nat.ltb].
  unfold debug_assert. rewrite Nat.leb_refl, andb_false_r. destruct (Nat.ltb_spec (length pre) n); [|reflexivity].
  unfold usz_add. destruct (Nat.ltb_spec (length pre + 1) (W c)); [|lia]. destruct rest as [|x rest].
  - cbn. unfold lift; cbn. rewrite app_nil_r. unfold ptr_read.
    replace (nth_error (map Moved pre) (length pre)) with (@None (cell T)); [reflexivity|].
    symmetry. apply nth_error_None. rewrite map_length. lia.
  - cbn. unfold lift; cbn. rewrite ptr_read_mid by now rewrite map_length. cbn.
    rewrite app_length, map_app, <- app_assoc. reflexivity.
Qed.
Lemma at_yields {S T} c (d : ety S T) n : n < W c -> forall xs pre rest (s : S), length (pre ++ xs) <= n ->
  yields (ii_iter c d n (at_ pre (xs ++ rest) n)) s xs (ii_iter c d n (at_ (pre ++ xs) rest n)) s.
Proof.
  intros HW. induction xs as [|x xs IH]; intros pre rest s Hn; [rewrite app_nil_r; constructor|].
  rewrite app_length in Hn. cbn in Hn. econstructor.
  - unfold next, ii_iter. cbn [fst snd i_st i_cur i_next i_drop]. rewrite (at_next c d n pre ((x :: xs) ++ rest) s HW).
    destruct (Nat.ltb_spec (length pre) n); [|lia]. reflexivity.
  - specialize (IH (pre ++ [x]) rest s). rewrite <- app_assoc in IH. apply IH. rewrite !app_length. cbn. lia.
Qed.
Lemma drop_cells_oob {S T} (d : ety S T) : forall (xs : list T) (pre : list (cell T)) n s,
  length pre + length xs < n -> fst (drop_cells d (length pre) n (pre ++ map Live xs) s) = UB.
Proof.
  unfold drop_cells, for_range. induction xs as [|x xs IH]; intros pre n s Hn; cbn in Hn.
  - destruct (n - length pre) as [|k] eqn:E; [lia|]. cbn. unfold bind, drop_in_place. rewrite app_nil_r.
    replace (nth_error pre (length pre)) with (@None (cell T)); [reflexivity|]. symmetry. apply nth_error_None. lia.
  - destruct (n - length pre) as [|k] eqn:E; [lia|]. cbn [for_n map]. unfold bind at 1. unfold drop_in_place at 1. rewrite nth_error_mid. unfold bind, tick, ret. cbn [fst snd].
    rewrite list_set_app. specialize (IH (pre ++ [Moved x]) n (e_drop d x s)). rewrite app_length, <- app_assoc in IH. cbn [length app] in IH.
    replace k with (n - (length pre + 1)) by lia. apply IH. lia.
Qed.
Lemma at_drop {S T} (d : ety S T) n pre rest (s : S) : length pre <= n ->
  if n <=? length (pre ++ rest)
  then ii_drop d (at_ pre rest n) s = (Ok tt, drop_all d (firstn (n - length pre) rest) s)
  else fst (ii_drop d (at_ pre rest n) s) = UB.
Proof.
  intros Hp. rewrite app_length. unfold ii_drop, at_. cbn [ii_next ii_back ii_arr]. destruct (Nat.leb_spec n (length pre + length rest)).
  - pose proof (drop_cells_live d (map Moved pre) (firstn (n - length pre) rest) (map Live (skipn (n - length pre) rest)) s) as E.
    rewrite map_length, <- map_app, firstn_skipn, firstn_length, Nat.min_l in E by lia.
    replace (length pre + (n - length pre)) with n in E by lia. unfold bind. now rewrite E.
  - pose proof (drop_cells_oob d rest (map Moved pre) n s) as E. rewrite map_length in E. specialize (E ltac:(lia)).
    unfold bind. destruct (drop_cells _ _ _ _ _) as [r t]. cbn in E. subst r. reflexivity.
Qed.
(** [next()] hands out the elements of the array up to position [to_usize()]; when the array is
    shorter, the call after its last element is undefined behaviour; when it is longer, the
    iterator then ends, and the rest of the array is never dropped.  Dropping the iterator before
    the first call drops that prefix, or is undefined behaviour when the array is shorter. *)
Theorem C87_iterate_partial : forall (S T : Type) (c : cfg) (d : ety S T) (L : len_ty) (array : list T) (s : S),
  l_usize L < W c -> length array = l_cells L ->
  exists it1,
    yields (into_it_l c d L array) s (firstn (l_usize L) array) it1 s /\
    (if l_usize L <=? l_cells L
     then exists it2, next (it1, s) = (Ok None, (it2, s)) /\ drop_iter it2 s = (Ok tt, s) /\
          drop_iter (into_it_l c d L array) s = (Ok tt, drop_all d (firstn (l_usize L) array) s)
     else fst (next (it1, s)) = UB /\ fst (drop_iter (into_it_l c d L array) s) = UB).
Proof.
  intros S T c d [n k] array s HW Hk. cbn [l_usize l_cells] in *. unfold into_it_l. cbn [l_usize].
  unfold into_it, into_iter, vnew. change (IntoIter (map Live array) 0 n) with (at_ [] array n).
  exists (ii_iter c d n (at_ (firstn n array) (skipn n array) n)). split.
  { rewrite <- (firstn_skipn n array) at 1. apply (at_yields c d n HW (firstn n array) []).
    cbn. rewrite firstn_length. lia. }
  assert (HN : forall it, next (ii_iter c d n it, s) = let (r, x) := ii_next_fn c d n (it, s) in (r, (ii_iter c d n (fst x), snd x))).
  { intros it. unfold next, ii_iter. cbn [fst snd i_st i_cur i_next i_drop]. destruct (ii_next_fn c d n (it, s)) as [r [it' s']]. reflexivity. }
  assert (HD : forall it, drop_iter (ii_iter c d n it) s = ii_drop d it s) by reflexivity.
  rewrite HN, (at_next c d n (firstn n array) (skipn n array) s HW). rewrite firstn_length, Hk.
  pose proof (at_drop d n [] array s ltac:(cbn; lia)) as D0. cbn [app length] in D0. rewrite Hk, Nat.sub_0_r in D0.
  destruct (Nat.leb_spec n k).
  - rewrite Nat.min_l by lia. rewrite Nat.ltb_irrefl. eexists. split; [reflexivity|]. cbn [fst].
    rewrite !HD. split; [|exact D0].
    pose proof (at_drop d n (firstn n array) (skipn n array) s) as D1. rewrite firstn_skipn, firstn_length, Hk, Nat.min_l in D1 by lia.
    specialize (D1 ltac:(lia)). destruct (Nat.leb_spec n k); [|lia]. now rewrite Nat.sub_diag in D1.
  - rewrite Nat.min_r by lia. destruct (Nat.ltb_spec k n); [|lia]. rewrite (skipn_all2 array) by lia. split; [reflexivity|]. rewrite HD. exact D0.
Qed.
Print Assumptions C87_iterate_partial.

(** ** C87: indexing.  By [usize] it is bounds-checked against the array; by a type-level index
    (accepted below [to_usize()]) it is undefined behaviour past the array, in debug builds too. *)
Theorem C87_index_partial : forall (S T : Type) (c : cfg) (L : len_ty) (array : list T) (i : nat) (s : S),
  length array = l_cells L ->
  (@vindex S T array i s = match nth_error array i with Some x => (Ok x, s) | None => (Panic, s) end) /\
  (i < l_usize L ->
     vindex_static_l c L array i s = match nth_error array i with Some x => (Ok x, s) | None => (UB, s) end) /\
  (i < l_usize L -> ((exists x, vindex_static_l c L array i s = (Ok x, s)) <-> i < l_cells L)).
Proof.
  intros S T c [n k] array i s Hk. cbn [l_usize l_cells] in *.
  assert (E : i < n -> vindex_static_l c (LenTy n k) array i s = match nth_error array i with Some x => (Ok x, s) | None => (UB, s) end).
  { intros Hi. assert (G : vget_unchecked c n array i s = match nth_error array i with Some x => (Ok x, s) | None => (UB, s) end).
    { unfold vget_unchecked, bind, debug_assert, vlen, slice_get_unchecked, as_slice. destruct (Nat.ltb_spec i n); [|lia]. rewrite andb_false_r.
      unfold ret, ub. now destruct (nth_error array i). }
    unfold vindex_static_l, vindex_static. cbn [l_usize]. destruct i; exact G. }
  split; [unfold vindex, slice_index, as_slice; now destruct (nth_error array i)|]. split; [exact E|].
  intros Hi. rewrite (E Hi), <- Hk. split.
  - intros [x Hx]. apply nth_error_Some. now destruct (nth_error array i).
  - intros Hl. destruct (nth_error array i) eqn:N; [eexists; reflexivity|]. apply nth_error_None in N. lia.
Qed.
Print Assumptions C87_index_partial.

(** ** C87, example: a user type with [to_usize() = 2] and [Array = [T; 1]], and one with
    [Array = [T; 3]]. *)
Example C87_ex :
  fst (from_iter_l rel log_ety (LenTy 2 1) (slice_iter [7; 8]) []) = UB /\
  fst (from_iter_l rel log_ety (LenTy 2 3) (slice_iter [7; 8]) []) = UB /\
  from_iter_l rel log_ety (LenTy 2 2) (slice_iter [7; 8]) [] = (Ok [7; 8], []) /\
  fst (vindex_static_l dbg (LenTy 2 1) [7] 1 tt) = UB /\
  drop_iter (into_it_l rel log_ety (LenTy 2 3) [7; 8; 9]) [] = (Ok tt, [7; 8]) /\
  arraylen (U 5) = [5] /\ l_usize (LenTy 2 3) < W rel.
Proof.
  do 6 (split; [vm_compute; reflexivity|]). exact (Nat.lt_trans 2 32 _ ltac:(lia) (ChunkProofs.W_gt rel)).
Qed.
