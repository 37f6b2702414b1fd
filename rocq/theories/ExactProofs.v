(** * ExactProofs.v - the owning iterator outside the guard: what goes wrong, exactly. *)
From Coq Require Import List Arith Bool Lia.
From Verif Require Import Rust Iter Elem VectorM MatIterM MatrixM SpecCommon Harness IterProofs OwnProofs ChunkProofs.
Import ListNotations.

(** The outcome of a call outside the guard, for a type that is not [Copy]. *)
Definition went_wrong {A} (c : cfg) (r : res A) : Prop := r = UB \/ (debug c = true /\ r = Panic).

Lemma mid_next_back_bad {S T} c (d : ety S T) n pre post s :
  n = length pre + length post -> pre <> [] -> e_copy d = false ->
  fst (ii_next_back_fn c d n (mid pre [] post, s)) = UB.
Proof.
  intros Hn Hp HC. destruct (rev pre) as [|x r] eqn:ER.
  { apply (f_equal (@rev T)) in ER. rewrite rev_involutive in ER. cbn in ER. contradiction. }
  assert (EP : pre = rev r ++ [x]). { apply (f_equal (@rev T)) in ER. now rewrite rev_involutive in ER. }
  unfold ii_next_back_fn, mid, bind, self. cbn -[length].
  unfold debug_assert. destruct (Nat.leb_spec (length pre + length (@nil T)) n); [|cbn in *; lia].
  rewrite andb_false_r. cbn -[length]. rewrite EP, app_length. cbn.
  destruct (Nat.ltb_spec 0 (length (rev r) + 1 + 0)); [|lia].
  unfold usz_sub. destruct (Nat.leb_spec 1 (length (rev r) + 1 + 0)); [|lia].
  unfold ret, lift, ptr_read; cbn. replace (length (rev r) + 1 + 0 - 1) with (length (map Moved (rev r)) + 0) by (rewrite map_length; lia).
  rewrite map_app, <- app_assoc, nth_error_app2 by lia.
  replace (length (map Moved (rev r)) + 0 - length (map Moved (rev r))) with 0 by lia. cbn. now rewrite HC.
Qed.

Lemma drop_past {S T} (d : ety S T) j post : e_copy d = false -> forall xs pre s,
  fst (for_n (length xs + Datatypes.S j) (length pre) (fun i arr => drop_in_place d arr i)
         (map Moved pre ++ map Live xs ++ map Moved post) s) = UB.
Proof.
  intros HC. induction xs as [|x xs IH]; intros pre s0; cbn [length Nat.add for_n]; unfold bind at 1.
  - unfold drop_in_place at 1. cbn [map app]. rewrite nth_error_app2 by (rewrite map_length; lia). rewrite map_length, Nat.sub_diag.
    destruct post as [|y post]; cbn; [reflexivity|]. now rewrite HC.
  - assert (E : drop_in_place d (map Moved pre ++ map Live (x :: xs) ++ map Moved post) (length pre) s0
            = (Ok (map Moved (pre ++ [x]) ++ map Live xs ++ map Moved post), e_drop d x s0)).
    { cbn [map app]. unfold drop_in_place. rewrite <- (map_length Moved pre). rewrite nth_error_mid, list_set_app.
      unfold bind, tick, ret. rewrite map_app, <- app_assoc. reflexivity. }
    rewrite E. specialize (IH (pre ++ [x]) (e_drop d x s0)). rewrite app_length in IH. exact IH.
Qed.

Lemma mid_nth_bad {S T} c (d : ety S T) n pre q post k s :
  n = length pre + length q + length post -> n < W c -> k < W c -> length q < k -> e_copy d = false ->
  went_wrong c (fst (ii_nth_fn c d n k (mid pre q post, s))).
Proof.
  intros Hn HW HK Hk HC. unfold ii_nth_fn, bind at 1, self. cbn -[ii_next_fn drop_cells].
  unfold bind at 1. unfold usz_add at 1.
  destruct (Nat.ltb_spec (length pre + k) (W c)) as [L|L].
  - left. unfold ret at 1. unfold bind at 1, lift. cbn -[ii_next_fn drop_cells]. unfold drop_cells, for_range.
    replace (length pre + k - length pre) with (length q + Datatypes.S (k - length q - 1)) by lia.
    pose proof (drop_past d (k - length q - 1) post HC q pre s) as A.
    destruct (for_n (length q + Datatypes.S (k - length q - 1)) (length pre) (fun i arr => drop_in_place d arr i)
       (map Moved pre ++ map Live q ++ map Moved post) s) as [r s']. cbn in A. subst r. reflexivity.
  - destruct (debug c) eqn:ED; [right; split; [exact ED|reflexivity]|]. left.
    assert (LT : length pre + k - W c < length pre) by lia.
    unfold ret at 1. unfold bind at 1, lift. cbn -[ii_next_fn drop_cells]. unfold drop_cells, for_range.
    replace (length pre + k - W c - length pre) with 0 by lia. cbn -[ii_next_fn].
    unfold bind at 1. unfold usz_add at 1. destruct (Nat.ltb_spec (length pre + k) (W c)); [lia|]. rewrite ED.
    unfold ret at 1. unfold bind at 1. cbn -[ii_next_fn].
    set (i := length pre + k - W c) in *. unfold ii_next_fn, bind, self. cbn.
    unfold debug_assert. rewrite ED. cbn.
    destruct (Nat.ltb_spec i (length pre + length q)); [|lia].
    unfold usz_add. destruct (Nat.ltb_spec (i + 1) (W c)); [|lia]. unfold ret, lift, ptr_read. cbn.
    rewrite nth_error_app1 by (rewrite map_length; lia). rewrite nth_error_map.
    destruct (nth_error pre i) as [x|] eqn:Ex; [|apply nth_error_None in Ex; lia]. cbn. now rewrite HC.
Qed.

Lemma ww_cons {X S T} (c : cfg) (step : qop -> M (X * S) (qout T)) op ops st s o st' s' :
  step op (st, s) = (Ok o, (st', s')) -> went_wrong c (fst (run_history step ops (st', s'))) ->
  went_wrong c (fst (run_history step (op :: ops) (st, s))).
Proof.
  intros E H. cbn [run_history]. unfold bind at 1. rewrite E. unfold bind.
  destruct (run_history step ops (st', s')) as [[os| | |] w]; cbn in *; destruct H as [H|[H1 H]]; try discriminate; [right|left]; auto.
Qed.
Lemma ww_now {X S T} (c : cfg) (step : qop -> M (X * S) (qout T)) op ops w :
  went_wrong c (fst (step op w)) -> went_wrong c (fst (run_history step (op :: ops) w)).
Proof.
  intros H. cbn [run_history]. unfold bind at 1.
  destruct (step op w) as [[o| | |] w']; cbn in *; destruct H as [H|[H1 H]]; try discriminate; [right|left]; auto.
Qed.
Lemma ww_item {X S T} (c : cfg) (m : M (X * S) (option T)) w : went_wrong c (fst (m w)) -> went_wrong c (fst (item m w)).
Proof.
  intros H. unfold item, bind. destruct (m w) as [[o| | |] w']; cbn in *; destruct H as [H|[H1 H]]; try discriminate; [right|left]; auto.
Qed.

Lemma ii_dichotomy {S T} c (d : ety S T) n : n < W c -> e_copy d = false -> forall ops pre q post s (front : bool),
  n = length pre + length q + length post ->
  (front = true <-> pre <> []) -> no_last ops -> usize_args c ops ->
  guarded front ops q \/ (~ guarded front ops q /\ went_wrong c (fst (run_history (ii_step c d n) ops (mid pre q post, s)))).
Proof.
  intros HW HC. induction ops as [|op ops IH]; intros pre q post s front Hn Hf HL HA; [left; exact I|].
  assert (F1 : forall l, (front || negb (length q =? 0) = true <-> pre ++ firstn (Datatypes.S l) q <> [])).
  { intros l. rewrite orb_true_iff, Hf. destruct q as [|x q].
    - cbn. rewrite app_nil_r. split; [intros [H|H]; [exact H|discriminate]|auto].
    - cbn. split; [intros _ E; now apply app_eq_nil in E|auto]. }
  destruct op; cbn [no_last usize_args] in HL, HA; try contradiction.
  - cbn [guarded].
    assert (E : ii_step c d n Next (mid pre q post, s) = (Ok (Item (nth_error q 0)), (mid (pre ++ firstn 1 q) (tl q) post, s))).
    { cbn [ii_step]. unfold item, bind at 1. rewrite (mid_next c d n pre q post s Hn HW). destruct q; cbn; [now rewrite app_nil_r|reflexivity]. }
    destruct (IH (pre ++ firstn 1 q) (tl q) post s (front || negb (length q =? 0))) as [H|[H1 H2]]; auto.
    { rewrite app_length. destruct q; cbn in *; lia. }
    right. split; [exact H1|]. eapply ww_cons; eauto.
  - cbn [guarded]. assert (DQ : q = [] \/ q <> []) by (destruct q; [left; reflexivity|right; discriminate]).
    destruct DQ as [Eq|Nq'].
    + subst q. destruct front.
      * right. split; [intros [[H|H] _]; congruence|]. apply ww_now. cbn [ii_step]. apply ww_item. left.
        apply mid_next_back_bad; [cbn in Hn; lia|apply Hf; reflexivity|exact HC].
      * assert (pre = []) as -> by (destruct pre; [reflexivity|destruct Hf as [_ Hf]; discriminate Hf; discriminate]).
        assert (E : ii_step c d n NextBack (mid [] [] post, s) = (Ok (Item None), (mid [] [] post, s))).
        { cbn [ii_step]. unfold item, bind at 1. rewrite (mid_next_back c d n [] [] post s Hn) by auto. reflexivity. }
        cbn [removelast]. destruct (IH [] [] post s false) as [H|[H1 H2]]; auto.
        right. split; [tauto|]. eapply ww_cons; eauto.
    + rewrite removelast_rev. pose proof (mid_next_back c d n pre q post s Hn (or_introl Nq')) as E.
      destruct (rev q) as [|x r] eqn:ER; [apply (f_equal (@rev T)) in ER; rewrite rev_involutive in ER; contradiction|].
      assert (E' : ii_step c d n NextBack (mid pre q post, s) = (Ok (Item (Some x)), (mid pre (rev r) (x :: post), s))).
      { cbn [ii_step]. unfold item, bind at 1. now rewrite E. }
      destruct (IH pre (rev r) (x :: post) s front) as [H|[H1 H2]]; auto.
      { assert (LQ : length q = Datatypes.S (length r)) by (rewrite <- rev_length, ER; reflexivity). rewrite rev_length. cbn. lia. }
      right. split; [tauto|]. eapply ww_cons; eauto.
  - cbn [guarded]. destruct HA as [HK HA]. destruct (le_lt_dec k (length q)) as [L|L].
    + assert (E : ii_step c d n (Nth k) (mid pre q post, s) = (Ok (Item (nth_error q k)), (mid (pre ++ firstn (k + 1) q) (skipn (k + 1) q) post, drop_all d (firstn k q) s))).
      { cbn [ii_step]. unfold item, bind at 1. now rewrite (mid_nth c d n pre q post k s Hn HW L). }
      destruct (IH (pre ++ firstn (k + 1) q) (skipn (k + 1) q) post (drop_all d (firstn k q) s) (front || negb (length q =? 0))) as [H|[H1 H2]]; auto.
      { rewrite app_length. pose proof (firstn_skipn (k + 1) q) as E0. apply (f_equal (@length T)) in E0. rewrite app_length in E0. lia. }
      { rewrite Nat.add_1_r. apply F1. }
      right. split; [tauto|]. eapply ww_cons; eauto.
    + right. split; [lia|]. apply ww_now. cbn [ii_step]. apply ww_item. now apply mid_nth_bad.
  - cbn [guarded].
    assert (E : ii_step c d n Len (mid pre q post, s) = (Ok (Num (length q)), (mid pre q post, s))).
    { cbn [ii_step]. unfold bind at 1, self at 1, num, lift. cbn [fst snd]. unfold bind at 1. rewrite mid_len. reflexivity. }
    destruct (IH pre q post s front) as [H|[H1 H2]]; auto. right. split; [exact H1|]. eapply ww_cons; eauto.
  - cbn [guarded].
    assert (E : ii_step c d n SizeHint (mid pre q post, s) = (Ok (Hint (length q) (Some (length q))), (mid pre q post, s))).
    { cbn [ii_step]. unfold bind at 1, self at 1, hint, lift. cbn [fst snd]. unfold bind at 1. unfold ii_size_hint. unfold bind at 1. rewrite mid_len. reflexivity. }
    destruct (IH pre q post s front) as [H|[H1 H2]]; auto. right. split; [exact H1|]. eapply ww_cons; eauto.
Qed.

Theorem ii_exact {S T} c (d : ety S T) n (v : list T) ops s :
  length v = n -> n < W c -> e_copy d = false -> no_last ops -> usize_args c ops ->
  let r := fst (run_history (ii_step c d n) ops (into_iter n v, s)) in
  (guarded false ops v <-> exists outs, r = Ok outs) /\
  (~ guarded false ops v -> r = UB \/ (debug c = true /\ r = Panic)).
Proof.
  intros Hv HW HC HL HA r. subst r.
  pose proof (ii_deque c d n v ops s Hv HW) as HD.
  rewrite (mid_init v n Hv) in *.
  destruct (ii_dichotomy c d n HW HC ops [] v [] s false) as [H|[H1 H2]]; auto.
  - cbn. lia.
  - split; [discriminate|congruence].
  - specialize (HD H). destruct (deque_run (e_drop d) ops v s) as [outs [q' s']]. destruct HD as (st' & E & _).
    rewrite E. cbn. split; [|tauto]. split; eauto.
  - split; [|intros _; exact H2]. split; [tauto|]. intros (outs & E). rewrite E in H2. destruct H2 as [H2|[_ H2]]; discriminate.
Qed.
