(** * OwnProofs.v - proofs for properties C01-C11: collecting, owning iterators,
    chunks. *)
From Coq Require Import List Arith Bool Lia.
From Verif Require Import Rust Iter Elem VectorM SpecCommon Harness IterProofs.
Import ListNotations.

Ltac inv H := inversion H; subst; clear H.

(** ** Collecting an arbitrary iterator *)
Lemma from_iter_loop_yields {S T} c (d : ety S T) k (it : iter S T) s xs it1 s1 :
  yields it s xs it1 s1 -> forall pre, 
  from_iter_loop c d (length xs + k) (length pre) (map Live pre ++ repeat Uninit (length xs + k)) it s
  = from_iter_loop c d k (length (pre ++ xs)) (map Live (pre ++ xs) ++ repeat Uninit k) it1 s1.
Proof.
  induction 1 as [it s|it s x it1 s1 xs it2 s2 E Y IH]; intros pre.
  - cbn. now rewrite app_nil_r.
  - cbn [length Nat.add from_iter_loop repeat]. rewrite E. unfold bind, ptr_write.
    rewrite app_length, map_length. cbn [length].
    destruct (Nat.ltb_spec (length pre) (length pre + Datatypes.S (length (repeat (@Uninit T) (length xs + k))))); [|lia].
    unfold ret. rewrite <- (map_length Live pre) at 2. rewrite list_set_app.
    specialize (IH (pre ++ [x])). rewrite app_length, map_app, <- !app_assoc in IH. cbn [app map length] in IH.
    rewrite IH. reflexivity.
Qed.

Lemma from_iter_yields {S T} c (d : ety S T) k (it : iter S T) s xs it1 s1 :
  yields it s xs it1 s1 ->
  from_iter c d (length xs + k) it s
  = from_iter_loop c d k (length xs) (map Live xs ++ repeat Uninit k) it1 s1.
Proof. intros Y. exact (from_iter_loop_yields c d k it s xs it1 s1 Y []). Qed.

Lemma collect_exact {S T} c (d : ety S T) (it : iter S T) s xs it1 s1 it2 s2 s1' s2' :
  yields it s xs it1 s1 ->
  next (it1, s1) = (Ok None, (it2, s2)) ->
  drop_iter it1 s1 = (Ok tt, s1') -> drop_iter it2 s2 = (Ok tt, s2') ->
  from_iter c d (length xs) it s = (Ok xs, if debug c then s2' else s1').
Proof.
  intros Y E D1 D2. replace (length xs) with (length xs + 0) at 1 by lia.
  rewrite (from_iter_yields _ _ _ _ _ _ _ _ Y). cbn [repeat from_iter_loop]. rewrite app_nil_r.
  unfold from_iter_finish. destruct (debug c).
  - unfold bind.
    assert (EC : icount d (fuel_count c) it1 0 s1 = (Ok 0, s2')).
    { destruct (fuel_count c); cbn; rewrite E; unfold out_of_scope, bind; now rewrite D2. }
    rewrite EC. change (0 =? 0) with true. cbn [assert]. unfold ret. now rewrite assume_init_live.
  - unfold bind. rewrite assume_init_live. unfold out_of_scope, bind. now rewrite D1.
Qed.

Lemma collect_short {S T} c (d : ety S T) n (it : iter S T) s xs it1 s1 it2 s2 s3 :
  yields it s xs it1 s1 -> length xs < n ->
  next (it1, s1) = (Ok None, (it2, s2)) ->
  drop_iter it2 (drop_all d xs s2) = (Ok tt, s3) ->
  from_iter c d n it s = (Panic, s3).
Proof.
  intros Y L E D. replace n with (length xs + (n - length xs)) by lia.
  rewrite (from_iter_yields _ _ _ _ _ _ _ _ Y).
  destruct (n - length xs) as [|k] eqn:Ek; [lia|]. cbn [from_iter_loop repeat].
  rewrite E. unfold bind at 1.
  pose proof (drop_cells_live d [] xs (Uninit :: repeat Uninit k) s2) as DC. cbn [length Nat.add app] in DC.
  rewrite DC. unfold out_of_scope, bind. now rewrite D.
Qed.

Lemma icount_drains {S T} (d : ety S T) : forall fuel (it : iter S T) s ys it1 s1 it2 s2 s3 acc,
  drains d it s ys it1 s1 -> length ys <= fuel ->
  next (it1, s1) = (Ok None, (it2, s2)) -> drop_iter it2 s2 = (Ok tt, s3) ->
  icount d fuel it acc s = (Ok (acc + length ys), s3).
Proof.
  intros fuel it s ys it1 s1 it2 s2 s3 acc Y. revert fuel acc.
  induction Y as [it s|it s x it1 s1 xs it2' s2' E Y IH]; intros fuel acc L N D.
  - destruct fuel; cbn; rewrite N; unfold out_of_scope, bind; rewrite D; now rewrite Nat.add_0_r.
  - cbn in L. destruct fuel as [|fuel]; [lia|]. cbn. rewrite E.
    rewrite (IH fuel (acc + 1)) by (auto; lia). do 2 f_equal. lia.
Qed.

Lemma collect_long_debug {S T} c (d : ety S T) (it : iter S T) s xs it1 s1 ys it2 s2 it3 s3 s4 :
  debug c = true ->
  yields it s xs it1 s1 -> drains d it1 s1 ys it2 s2 -> ys <> [] -> length ys <= fuel_count c ->
  next (it2, s2) = (Ok None, (it3, s3)) -> drop_iter it3 s3 = (Ok tt, s4) ->
  from_iter c d (length xs) it s = (Panic, s4).
Proof.
  intros HD Y DR NE L N D. replace (length xs) with (length xs + 0) at 1 by lia.
  rewrite (from_iter_yields _ _ _ _ _ _ _ _ Y). cbn [repeat from_iter_loop].
  unfold from_iter_finish. rewrite HD. unfold bind.
  rewrite (icount_drains d _ _ _ _ _ _ _ _ _ 0 DR L N D). destruct ys; [congruence|]. reflexivity.
Qed.

Lemma collect_long_release {S T} c (d : ety S T) (it : iter S T) s xs it1 s1 s2 :
  debug c = false ->
  yields it s xs it1 s1 -> drop_iter it1 s1 = (Ok tt, s2) ->
  from_iter c d (length xs) it s = (Ok xs, s2).
Proof.
  intros HD Y D. replace (length xs) with (length xs + 0) at 1 by lia.
  rewrite (from_iter_yields _ _ _ _ _ _ _ _ Y). cbn [repeat from_iter_loop]. rewrite app_nil_r.
  unfold from_iter_finish. rewrite HD. unfold bind. rewrite assume_init_live.
  unfold out_of_scope, bind. now rewrite D.
Qed.

Lemma collect_panic {S T} c (d : ety S T) n (it : iter S T) s xs it1 s1 it2 s2 s3 :
  yields it s xs it1 s1 -> length xs < n ->
  next (it1, s1) = (Panic, (it2, s2)) -> drop_iter it2 s2 = (Ok tt, s3) ->
  from_iter c d n it s = (Panic, s3).
Proof.
  intros Y L E D. replace n with (length xs + (n - length xs)) by lia.
  rewrite (from_iter_yields _ _ _ _ _ _ _ _ Y).
  destruct (n - length xs) as [|k] eqn:Ek; [lia|]. cbn [from_iter_loop repeat].
  rewrite E. unfold out_of_scope, bind. now rewrite D.
Qed.

Lemma icount_panic {S T} (d : ety S T) : forall fuel (it : iter S T) s ys it1 s1 it2 s2 s3 acc,
  drains d it s ys it1 s1 -> length ys <= fuel ->
  next (it1, s1) = (Panic, (it2, s2)) -> drop_iter it2 s2 = (Ok tt, s3) ->
  icount d fuel it acc s = (Panic, s3).
Proof.
  intros fuel it s ys it1 s1 it2 s2 s3 acc Y. revert fuel acc.
  induction Y as [it s|it s x it1 s1 xs it2' s2' E Y IH]; intros fuel acc L N D.
  - destruct fuel; cbn; rewrite N; unfold out_of_scope, bind; now rewrite D.
  - cbn in L. destruct fuel as [|fuel]; [lia|]. cbn. rewrite E.
    rewrite (IH fuel (acc + 1)) by (auto; lia). reflexivity.
Qed.

Lemma collect_panic_surplus {S T} c (d : ety S T) (it : iter S T) s xs it1 s1 ys it2 s2 it3 s3 s4 :
  debug c = true ->
  yields it s xs it1 s1 -> drains d it1 s1 ys it2 s2 -> length ys <= fuel_count c ->
  next (it2, s2) = (Panic, (it3, s3)) -> drop_iter it3 s3 = (Ok tt, s4) ->
  from_iter c d (length xs) it s = (Panic, s4).
Proof.
  intros HD Y DR L N D. replace (length xs) with (length xs + 0) at 1 by lia.
  rewrite (from_iter_yields _ _ _ _ _ _ _ _ Y). cbn [repeat from_iter_loop].
  unfold from_iter_finish. rewrite HD. unfold bind.
  now rewrite (icount_panic d _ _ _ _ _ _ _ _ _ 0 DR L N D).
Qed.

(** ** generate *)
Lemma seqm_in_order {S A B} (f : A -> M S B) l s : seqm (map f l) nodrop s = in_order f l s.
Proof.
  revert s. induction l as [|x l IH]; intros s; cbn; [reflexivity|].
  destruct (f x s) as [[y| | |] s1]; try reflexivity. now rewrite IH.
Qed.

Lemma in_order_ext {S A B} (f g : A -> M S B) l s :
  (forall x s, In x l -> f x s = g x s) -> in_order f l s = in_order g l s.
Proof.
  revert s. induction l as [|x l IH]; intros s H; cbn; [reflexivity|].
  rewrite H by now left. destruct (g x s) as [[y| | |] s1]; try reflexivity.
  rewrite IH; [reflexivity|]. intros; apply H; now right.
Qed.

Lemma map_bind_ret {S A B C} (f : A -> B) (g : B -> M S C) (l : list A) s :
  seqm (map (fun m : M S B => b <- m ;; g b) (map (fun a => ret (f a)) l)) nodrop s
  = in_order (fun a => g (f a)) l s.
Proof. rewrite map_map. apply seqm_in_order. Qed.

Lemma imap_ret_gives {S A B} (f : A -> M S B) (it : iter S A) l dr :
  gives it (map ret l) dr -> gives (imap f it) (map f l) dr.
Proof.
  intros G. pose proof (imap_gives f it _ _ G) as H. rewrite map_map in H. exact H.
Qed.

Lemma vgenerate_spec {S T} c (d : ety S T) n f s :
  vgenerate c d n f s = in_order f (seq 0 n) s.
Proof.
  unfold vgenerate. erewrite from_iter_gives.
  2:{ apply imap_ret_gives. apply range_gives. }
  - rewrite Nat.sub_0_r. apply seqm_in_order.
  - now rewrite map_length, seq_length, Nat.sub_0_r.
Qed.

Lemma skipn_skipn_add {T} (a b : nat) (l : list T) : skipn a (skipn b l) = skipn (b + a) l.
Proof. revert b. induction l as [|x l IH]; intros [|b]; cbn; rewrite ?skipn_nil; auto. Qed.

(** ** Owning iterator: the states *)
Definition mid {T} (pre q post : list T) : into_iter_t T :=
  IntoIter (map Moved pre ++ map Live q ++ map Moved post) (length pre) (length pre + length q).

Lemma mid_init {T} (v : list T) n : length v = n -> into_iter n v = mid [] v [].
Proof. intros <-. unfold into_iter, mid. cbn. now rewrite app_nil_r. Qed.

Lemma mid_drop {S T} (d : ety S T) pre q post s :
  ii_drop d (mid pre q post) s = (Ok tt, drop_all d q s).
Proof.
  unfold ii_drop, mid, bind; cbn -[drop_cells].
  pose proof (drop_cells_live d (map Moved pre) q (map Moved post) s) as H.
  rewrite map_length in H. now rewrite H.
Qed.

Lemma mid_len {S T} c (pre q post : list T) (s : S) :
  ii_len c (mid pre q post) s = (Ok (length q), s).
Proof.
  unfold ii_len, usz_sub, mid; cbn. destruct (Nat.leb_spec (length pre) (length pre + length q)); [|lia].
  unfold ret. do 2 f_equal. lia.
Qed.

Lemma mid_next {S T} c (d : ety S T) n pre q post s :
  n = length pre + length q + length post -> n < W c ->
  ii_next_fn c d n (mid pre q post, s) =
  match q with
  | [] => (Ok None, (mid pre [] post, s))
  | x :: q' => (Ok (Some x), (mid (pre ++ [x]) q' post, s))
  end.
Proof.
  intros Hn HW. unfold ii_next_fn, mid, bind, self. cbn -[length].
  unfold debug_assert. destruct (Nat.leb_spec (length pre + length q) n); [|lia].
  rewrite andb_false_r. cbn -[length]. destruct q as [|x q].
  - cbn. rewrite Nat.add_0_r, Nat.ltb_irrefl. reflexivity.
  - cbn in *. destruct (Nat.ltb_spec (length pre) (length pre + Datatypes.S (length q))); [|lia].
    unfold usz_add. destruct (Nat.ltb_spec (length pre + 1) (W c)); [|lia].
    unfold ret, lift; cbn. rewrite ptr_read_mid by now rewrite map_length. cbn.
    rewrite app_length, map_app, <- app_assoc. cbn.
    replace (length pre + 1 + length q) with (length pre + Datatypes.S (length q)) by lia. reflexivity.
Qed.

Lemma mid_next_back {S T} c (d : ety S T) n pre q post s :
  n = length pre + length q + length post -> (q <> [] \/ pre = []) ->
  ii_next_back_fn c d n (mid pre q post, s) =
  match rev q with
  | [] => (Ok None, (mid pre [] post, s))
  | x :: r => (Ok (Some x), (mid pre (rev r) (x :: post), s))
  end.
Proof.
  intros Hn Hg. unfold ii_next_back_fn, mid, bind, self. cbn -[length].
  unfold debug_assert. destruct (Nat.leb_spec (length pre + length q) n); [|lia].
  rewrite andb_false_r. cbn -[length].
  destruct (rev q) as [|x r] eqn:ER.
  - apply (f_equal (@rev T)) in ER. rewrite rev_involutive in ER. cbn in ER. subst q. destruct Hg as [Hg| ->]; [congruence|].
    reflexivity.
  - assert (EQ : q = rev r ++ [x]). { apply (f_equal (@rev T)) in ER. now rewrite rev_involutive in ER. }
    subst q. rewrite app_length in *; cbn in *.
    destruct (Nat.ltb_spec 0 (length pre + (length (rev r) + 1))); [|lia].
    unfold usz_sub. destruct (Nat.leb_spec 1 (length pre + (length (rev r) + 1))); [|lia].
    unfold ret, lift; cbn. rewrite map_app, <- app_assoc. cbn. rewrite app_assoc.
    rewrite ptr_read_mid by (rewrite app_length, !map_length; lia). cbn. rewrite <- app_assoc.
    replace (length pre + (length (rev r) + 1) - 1) with (length pre + length (rev r)) by lia. reflexivity.
Qed.

Lemma mid_nth {S T} c (d : ety S T) n pre q post k s :
  n = length pre + length q + length post -> n < W c -> k <= length q ->
  ii_nth_fn c d n k (mid pre q post, s) =
  (Ok (nth_error q k), (mid (pre ++ firstn (k + 1) q) (skipn (k + 1) q) post,
                        drop_all d (firstn k q) s)).
Proof.
  intros Hn HW Hk. unfold ii_nth_fn, bind at 1, self. cbn -[ii_next_fn drop_cells].
  unfold bind at 1. unfold usz_add at 1.
  destruct (Nat.ltb_spec (length pre + k) (W c)); [|lia]. unfold ret at 1.
  unfold bind at 1. unfold lift. cbn -[ii_next_fn drop_cells].
  pose proof (drop_cells_live d (map Moved pre) (firstn k q) (map Live (skipn k q) ++ map Moved post) s) as DC.
  rewrite map_length, firstn_length, Nat.min_l in DC by lia.
  rewrite (app_assoc (map Live (firstn k q))), <- map_app, firstn_skipn in DC. rewrite DC.
  unfold bind at 1. unfold usz_add at 1. destruct (Nat.ltb_spec (length pre + k) (W c)); [|lia].
  unfold ret at 1. unfold bind at 1. cbn -[ii_next_fn].
  assert (EM : IntoIter (map Moved pre ++ map Moved (firstn k q) ++ map Live (skipn k q) ++ map Moved post)
            (length pre + k) (length pre + length q) = mid (pre ++ firstn k q) (skipn k q) post).
  { unfold mid. rewrite map_app, <- app_assoc, app_length, firstn_length, skipn_length, Nat.min_l by lia.
    f_equal; lia. }
  rewrite EM, mid_next; [|rewrite app_length, firstn_length, skipn_length, Nat.min_l; lia|assumption].
  assert (EN : forall l : list T, nth_error l 0 = match l with [] => None | x :: _ => Some x end) by now destruct l.
  assert (E0 : nth_error q k = nth_error (skipn k q) 0).
  { rewrite <- (firstn_skipn k q) at 1. rewrite nth_error_app2; rewrite firstn_length, Nat.min_l; try lia.
    now rewrite Nat.sub_diag. }
  assert (E1 : firstn (k + 1) q = firstn k q ++ firstn 1 (skipn k q)).
  { rewrite <- (firstn_skipn k q) at 1. rewrite firstn_app, firstn_length, Nat.min_l by lia.
    rewrite firstn_all2 by (rewrite firstn_length; lia). repeat f_equal. lia. }
  assert (E2 : skipn (k + 1) q = skipn 1 (skipn k q)).
  { now rewrite skipn_skipn_add. }
  rewrite E0, E1, E2. destruct (skipn k q) as [|x r]; cbn.
  - now rewrite app_nil_r.
  - now rewrite app_assoc.
Qed.

Lemma removelast_rev {T} (q : list T) : removelast q = match rev q with [] => [] | _ :: r => rev r end.
Proof.
  destruct (rev q) as [|x r] eqn:E.
  - apply (f_equal (@rev T)) in E. rewrite rev_involutive in E. now subst.
  - assert (EQ : q = rev r ++ [x]). { apply (f_equal (@rev T)) in E. now rewrite rev_involutive in E. }
    subst q. now rewrite removelast_last.
Qed.

Lemma ii_run {S T} c (d : ety S T) n : n < W c -> forall ops pre q post s (front : bool),
  n = length pre + length q + length post ->
  (front = false -> pre = []) ->
  guarded front ops q ->
  exists pre' post',
    let '(outs, (q', s')) := deque_run (e_drop d) ops q s in
    n = length pre' + length q' + length post' /\
    run_history (ii_step c d n) ops (mid pre q post, s) = (Ok outs, (mid pre' q' post', s')).
Proof.
  intros HW. induction ops as [|op ops IH]; intros pre q post s front Hn Hf G.
  - exists pre, post. cbn. auto.
  - assert (NF : forall y : list T, q <> [] -> front || negb (length q =? 0) = false -> y = []).
    { intros y Hq E. apply orb_false_iff in E. destruct E as [_ E]. destruct q; [congruence|discriminate]. }
    assert (F0 : q = [] -> front || negb (length q =? 0) = false -> pre = []).
    { intros -> E. rewrite orb_false_r in E. auto. }
    cbn [run_history]. unfold bind at 1. destruct op; cbn [ii_step deque_run deque_step].
    + unfold item, bind at 1. rewrite (mid_next c d n pre q post s Hn HW).
      cbn in G. destruct q as [|x q]; cbn [ret].
      * destruct (IH pre [] post s _ Hn (F0 eq_refl) G) as (pre' & post' & H).
        exists pre', post'. destruct (deque_run (e_drop d) ops [] s) as [outs [q' s']].
        destruct H as [H1 H2]. split; [exact H1|]. unfold ret, bind; cbn [fst snd]; now rewrite H2.
      * assert (Hn' : n = length (pre ++ [x]) + length q + length post) by (rewrite app_length; cbn in *; lia).
        destruct (IH (pre ++ [x]) q post s _ Hn' (fun E => NF _ ltac:(discriminate) E) G) as (pre' & post' & H).
        exists pre', post'. destruct (deque_run (e_drop d) ops q s) as [outs [q' s']].
        destruct H as [H1 H2]. split; [exact H1|]. unfold ret, bind; cbn [fst snd]; now rewrite H2.
    + cbn in G. destruct G as [Gq G].
      assert (Hg : q <> [] \/ pre = []) by (destruct Gq as [Gq|Gq]; auto).
      unfold item, bind at 1. rewrite (mid_next_back c d n pre q post s Hn Hg).
      rewrite removelast_rev in G. destruct (rev q) as [|x r] eqn:ER; cbn [ret].
      * assert (q = []) as -> by (apply (f_equal (@rev T)) in ER; now rewrite rev_involutive in ER).
        destruct (IH pre [] post s _ Hn Hf G) as (pre' & post' & H).
        exists pre', post'. destruct (deque_run (e_drop d) ops [] s) as [outs [q' s']].
        destruct H as [H1 H2]. split; [exact H1|]. unfold ret, bind; cbn [fst snd]; now rewrite H2.
      * assert (Hn' : n = length pre + length (rev r) + length (x :: post)).
        { assert (LQ : length q = Datatypes.S (length r)) by (rewrite <- rev_length, ER; reflexivity).
          rewrite rev_length. cbn. lia. }
        destruct (IH pre (rev r) (x :: post) s _ Hn' Hf G) as (pre' & post' & H).
        exists pre', post'. destruct (deque_run (e_drop d) ops (rev r) s) as [outs [q' s']].
        destruct H as [H1 H2]. split; [exact H1|]. unfold ret, bind; cbn [fst snd]; now rewrite H2.
    + cbn in G. destruct G as [Gk G].
      unfold item, bind at 1. rewrite (mid_nth c d n pre q post k s Hn HW Gk).
      assert (Hn' : n = length (pre ++ firstn (k + 1) q) + length (skipn (k + 1) q) + length post).
      { rewrite app_length. pose proof (firstn_skipn (k + 1) q) as E. apply (f_equal (@length T)) in E.
        rewrite app_length in E. lia. }
      assert (Hf' : front || negb (length q =? 0) = false -> pre ++ firstn (k + 1) q = []).
      { intros E. destruct q as [|x q].
        - rewrite firstn_nil, app_nil_r. auto.
        - apply NF; [discriminate|exact E]. }
      destruct (IH _ _ _ (drop_all d (firstn k q) s) _ Hn' Hf' G) as (pre' & post' & H).
      exists pre', post'. unfold drop_all in *.
      destruct (deque_run (e_drop d) ops (skipn (k + 1) q) (fold_left (fun s x => e_drop d x s) (firstn k q) s)) as [outs [q' s']].
      destruct H as [H1 H2]. split; [exact H1|]. unfold ret, bind; cbn [fst snd]; now rewrite H2.
    + contradiction.
    + cbn in G. unfold bind at 1, self at 1, num, lift. cbn [fst snd]. unfold bind at 1. rewrite mid_len.
      destruct (IH _ _ _ s _ Hn Hf G) as (pre' & post' & H). exists pre', post'.
      destruct (deque_run (e_drop d) ops q s) as [outs [q' s']].
      destruct H as [H1 H2]. split; [exact H1|]. unfold ret, bind; cbn [fst snd]; now rewrite H2.
    + cbn in G. unfold bind at 1, self at 1, hint, lift. cbn [fst snd]. unfold bind at 1.
      unfold ii_size_hint. unfold bind at 1. rewrite mid_len.
      destruct (IH _ _ _ s _ Hn Hf G) as (pre' & post' & H). exists pre', post'.
      destruct (deque_run (e_drop d) ops q s) as [outs [q' s']].
      destruct H as [H1 H2]. split; [exact H1|]. unfold ret, bind; cbn [fst snd]; now rewrite H2.
Qed.

(** Main statement for the owning iterator. *)
Theorem ii_deque {S T} c (d : ety S T) n (v : list T) ops s :
  length v = n -> n < W c -> guarded false ops v ->
  let '(outs, (q', s')) := deque_run (e_drop d) ops v s in
  exists st', run_history (ii_step c d n) ops (into_iter n v, s) = (Ok outs, (st', s')) /\
    ii_drop d st' s' = (Ok tt, drop_all d q' s') /\
    ii_count c d st' s' = (Ok (length q'), drop_all d q' s').
Proof.
  intros Hv HW G. rewrite (mid_init v n Hv).
  assert (Hn : n = length (@nil T) + length v + length (@nil T)) by (cbn; lia).
  destruct (ii_run c d n HW ops [] v [] s false Hn (fun _ => eq_refl) G) as (pre' & post' & H).
  destruct (deque_run (e_drop d) ops v s) as [outs [q' s']]. destruct H as [_ H].
  exists (mid pre' q' post'). split; [exact H|]. split; [apply mid_drop|].
  unfold ii_count, bind. rewrite mid_len, mid_drop. reflexivity.
Qed.
