(** * ChunkProofs.v - proofs for C09 (reverse), C10 (chunks), C11 (matrix from a
    flat vector). *)
From Coq Require Import List Arith Bool Lia.
From Verif Require Import Rust Iter Elem VectorM MatIterM MatrixM SpecCommon Harness IterProofs OwnProofs.
Import ListNotations.

(** ** Reversed owning iterator *)
Lemma rev_gives {S T} c (d : ety S T) n (v : list T) :
  length v = n -> n < W c ->
  gives (rev_iter (ii_diter c d n (into_iter n v))) (map ret (rev v)) (fun k => drop_all d (firstn k v)).
Proof.
  intros Hv HW. unfold rev_iter, ii_diter; cbn. rewrite (mid_init v n Hv).
  apply (gives_intro _ _ (fun st acts => exists q post, st = mid [] q post /\ acts = map ret (rev q) /\
           v = q ++ post)).
  - intros st l (q & post & -> & -> & ->) s. rewrite mid_drop, map_length, rev_length.
    rewrite firstn_app, firstn_all, Nat.sub_diag. cbn. now rewrite app_nil_r.
  - intros st (q & post & -> & E & ->) s.
    assert (q = []) as ->. { destruct q as [|x q]; [reflexivity|]. cbn in E. rewrite map_app in E. now destruct (map ret (rev q)). }
    exists (mid [] [] post). rewrite mid_next_back; [|rewrite <- Hv; reflexivity|now right].
    split; [reflexivity|]. intros s1. now rewrite mid_drop.
  - intros st m l (q & post & -> & E & ->) s.
    destruct (rev q) as [|x r] eqn:ER; [discriminate|]. injection E as -> ->.
    exists (mid [] (rev r) (x :: post)).
    rewrite mid_next_back; [|rewrite <- Hv, app_length; reflexivity|now right].
    rewrite ER. split; [reflexivity|].
    assert (EQ : q = rev r ++ [x]). { apply (f_equal (@rev T)) in ER. now rewrite rev_involutive in ER. }
    split.
    + intros s1. rewrite mid_drop, map_length. subst q. rewrite <- app_assoc.
      rewrite <- (rev_length r), firstn_app, firstn_all, Nat.sub_diag. cbn. now rewrite app_nil_r.
    + intros _. exists (rev r), (x :: post). rewrite rev_involutive. repeat split. subst q. now rewrite <- app_assoc.
  - exists v, []. rewrite app_nil_r. repeat split.
Qed.

(** ** Taking [k] items through a mutable borrow *)
Inductive chain {W T} (nx : M W (option T)) : W -> list T -> W -> Prop :=
| chain_nil w : chain nx w [] w
| chain_cons w x w1 xs w2 : nx w = (Ok (Some x), w1) -> chain nx w1 xs w2 -> chain nx w (x :: xs) w2.

Lemma take_by_ref {X S T} (c : cfg) (d : ety (X * S) T) (nx : M (X * S) (option T)) w xs w' :
  chain nx w xs w' -> from_iter c d (length xs) (take (length xs) (by_ref nx)) w = (Ok xs, w').
Proof.
  intros C.
  assert (Y : yields (take (length xs + 0) (by_ref nx)) w xs (take 0 (by_ref nx)) w').
  { induction C as [w|w x w1 xs w2 E C IH]; [constructor|].
    econstructor; [|exact IH]. unfold next. cbn. unfold lift; cbn. now rewrite E. }
  rewrite Nat.add_0_r in Y.
  rewrite (collect_exact c d _ w xs _ w' (take 0 (by_ref nx)) w' w' w' Y); try reflexivity.
  now destruct (debug c).
Qed.

Lemma chain_front {S T} c (d : ety S T) n : n < W c -> forall q1 q2 pre post s,
  n = length pre + length (q1 ++ q2) + length post ->
  chain (ii_next_fn c d n) (mid pre (q1 ++ q2) post, s) q1 (mid (pre ++ q1) q2 post, s).
Proof.
  intros HW. induction q1 as [|x q1 IH]; intros q2 pre post s Hn.
  - cbn. rewrite app_nil_r. constructor.
  - econstructor; [rewrite mid_next by assumption; reflexivity|].
    replace (pre ++ x :: q1) with ((pre ++ [x]) ++ q1) by now rewrite <- app_assoc.
    apply IH. rewrite app_length; cbn in *; lia.
Qed.

Lemma chain_back {S T} c (d : ety S T) n : forall q1 q2 pre post s,
  n = length pre + length (q2 ++ rev q1) + length post ->
  chain (ii_next_back_fn c d n) (mid pre (q2 ++ rev q1) post, s) q1 (mid pre q2 (rev q1 ++ post), s).
Proof.
  induction q1 as [|x q1 IH]; intros q2 pre post s Hn.
  - cbn. rewrite app_nil_r. constructor.
  - econstructor.
    + rewrite mid_next_back; [|exact Hn|left; destruct q2; cbn; destruct (rev q1); discriminate].
      cbn. rewrite app_assoc, rev_app_distr. cbn. rewrite rev_involutive. reflexivity.
    + cbn. rewrite <- app_assoc. cbn. apply IH. cbn in Hn. rewrite app_assoc, app_length in Hn. cbn in *. lia.
Qed.

(** ** Chunks *)
Lemma concat_len {T} k (Q : list (list T)) : Forall (fun x => length x = k) Q -> length (concat Q) = length Q * k.
Proof. induction 1 as [|x Q E F IH]; cbn; [reflexivity|]. rewrite app_length. lia. Qed.

Section ChunkSec.
Context {S T : Type} (c : cfg) (d : ety S T) (n k : nat).
Hypothesis HW : n < W c.
Hypothesis Hk : 0 < k.

Lemma ch_next_cons x Q pre post s :
  Forall (fun x => length x = k) (x :: Q) ->
  n = length pre + length (concat (x :: Q)) + length post ->
  ch_next c d n k (mid pre (concat (x :: Q)) post, s)
  = (Ok (Some x), (mid (pre ++ x) (concat Q) post, s)).
Proof.
  intros F Hn. pose proof (Forall_inv F) as Hx. unfold ch_next, bind at 1, self. cbn [fst snd].
  unfold bind at 1. pose proof (mid_len (S := into_iter_t T * S) c pre (concat (x :: Q)) post) as ML.
  rewrite ML. cbn [concat] in *. rewrite app_length.
  destruct (Nat.eqb_spec (length x + length (concat Q)) 0); [lia|].
  unfold bind at 1. rewrite <- Hx at 1 2. rewrite (take_by_ref c (lift_ety d) _ _ x (mid (pre ++ x) (concat Q) post, s)).
  - reflexivity.
  - apply chain_front; assumption.
Qed.

Lemma ch_next_nil pre post s : 
  ch_next c d n k (mid pre [] post, s) = (Ok None, (mid pre [] post, s)).
Proof.
  unfold ch_next, bind, self. cbn [fst snd]. now rewrite (mid_len (S := into_iter_t T * S)).
Qed.

Lemma ch_next_back_snoc x Q pre post s :
  Forall (fun x => length x = k) (Q ++ [x]) ->
  n = length pre + length (concat (Q ++ [x])) + length post ->
  ch_next_back c d n k (mid pre (concat (Q ++ [x])) post, s)
  = (Ok (Some x), (mid pre (concat Q) (x ++ post), s)).
Proof.
  intros F Hn. apply Forall_app in F. destruct F as [_ F]. pose proof (Forall_inv F) as Hx. cbn beta in Hx.
  rewrite concat_app in *. cbn [concat] in *. rewrite app_nil_r in *.
  unfold ch_next_back, bind at 1, self. cbn [fst snd].
  unfold bind at 1. pose proof (mid_len (S := into_iter_t T * S) c pre (concat Q ++ x) post) as ML. rewrite ML.
  rewrite app_length in *. destruct (Nat.eqb_spec (length (concat Q) + length x) 0); [lia|].
  unfold bind at 1. rewrite <- (rev_length x) in Hx. rewrite <- Hx.
  rewrite (take_by_ref c (lift_ety d) _ _ (rev x) (mid pre (concat Q) (x ++ post), s)).
  - unfold bind, lift. cbn [fst snd]. rewrite (from_iter_gives c d (length (rev x)) _ (map ret (rev (rev x))) (fun k => drop_all d (firstn k (rev x)))).
    + rewrite seqm_ret, rev_involutive. cbn. reflexivity.
    + apply rev_gives; [reflexivity|]. rewrite rev_length. lia.
    + now rewrite map_length, rev_length.
  - pose proof (chain_back c d n (rev x) (concat Q) pre post s) as CB. rewrite rev_involutive in CB.
    apply CB. rewrite app_length. lia.
Qed.

Lemma ch_next_back_nil pre post s : 
  ch_next_back c d n k (mid pre [] post, s) = (Ok None, (mid pre [] post, s)).
Proof.
  unfold ch_next_back, bind, self. cbn [fst snd]. now rewrite (mid_len (S := into_iter_t T * S)).
Qed.

Lemma ch_size (Q : list (list T)) pre post s : Forall (fun x => length x = k) Q ->
  ch_size_hint c k (mid pre (concat Q) post) s = (Ok (length Q, Some (length Q)), s : S).
Proof.
  intros F. unfold ch_size_hint, bind. rewrite mid_len, (concat_len k Q F), Nat.div_mul by lia.
  destruct (Nat.eqb_spec k 0); [lia|]. reflexivity.
Qed.

Lemma ch_len_eq (Q : list (list T)) pre post s : Forall (fun x => length x = k) Q ->
  ch_len c k (mid pre (concat Q) post) s = (Ok (length Q), s : S).
Proof.
  intros F. unfold ch_len, bind at 1. rewrite ch_size by exact F. now rewrite Nat.eqb_refl.
Qed.

Lemma ch_nth_run : forall j (Q : list (list T)) pre post s,
  Forall (fun x => length x = k) Q ->
  n = length pre + length (concat Q) + length post ->
  provided_nth (ch_next c d n k) (drop_all d) j (mid pre (concat Q) post, s) =
  (Ok (nth_error Q j), (mid (pre ++ concat (firstn (j + 1) Q)) (concat (skipn (j + 1) Q)) post,
     fold_left (fun s x => drop_all d x s) (firstn j Q) s)).
Proof.
  induction j as [|j IH]; intros Q pre post s F Hn; cbn [provided_nth]; unfold bind at 1;
    (destruct Q as [|x Q]; [rewrite ch_next_nil; cbn; now rewrite app_nil_r|]); rewrite ch_next_cons by assumption.
  - cbn. now rewrite app_nil_r.
  - apply Forall_inv_tail in F. unfold bind, tick; cbn [fst snd].
    cbn [concat] in Hn. rewrite IH; [|assumption|rewrite !app_length in *; lia].
    cbn. now rewrite <- app_assoc.
Qed.

Lemma ch_run : forall ops pre Q post s,
  Forall (fun x => length x = k) Q ->
  n = length pre + length (concat Q) + length post -> no_last ops ->
  exists pre' post',
    let '(outs, (Q', s')) := deque_run (drop_all d) ops Q s in
    n = length pre' + length (concat Q') + length post' /\ Forall (fun x => length x = k) Q' /\
    run_history (ch_step c d n k) ops (mid pre (concat Q) post, s) = (Ok outs, (mid pre' (concat Q') post', s')).
Proof.
  induction ops as [|op ops IH]; intros pre Q post s F Hn NL.
  - exists pre, post. cbn. auto.
  - cbn [run_history]. unfold bind at 1. destruct op; cbn [ch_step deque_run deque_step]; cbn in NL; try contradiction.
    + unfold item, bind at 1. destruct Q as [|x Q].
      * cbn [concat]. rewrite ch_next_nil. destruct (IH pre [] post s F Hn NL) as (pre' & post' & H).
        exists pre', post'. destruct (deque_run (drop_all d) ops [] s) as [outs [Q' s']].
        destruct H as (H1 & H2 & H3). repeat (split; [assumption|]). unfold ret, bind; cbn [concat] in H3; now rewrite H3.
      * rewrite ch_next_cons by assumption.
        assert (Hn' : n = length (pre ++ x) + length (concat Q) + length post)
          by (cbn in Hn; rewrite !app_length in *; lia). apply Forall_inv_tail in F.
        destruct (IH (pre ++ x) Q post s F Hn' NL) as (pre' & post' & H).
        exists pre', post'. destruct (deque_run (drop_all d) ops Q s) as [outs [Q' s']].
        destruct H as (G1 & G2 & G3). repeat (split; [assumption|]). unfold ret, bind; now rewrite G3.
    + unfold item, bind at 1. destruct (rev Q) as [|x r] eqn:ER.
      * assert (Q = []) as -> by (apply (f_equal (@rev _)) in ER; now rewrite rev_involutive in ER).
        cbn [concat]. rewrite ch_next_back_nil. destruct (IH pre [] post s F Hn NL) as (pre' & post' & H).
        exists pre', post'. destruct (deque_run (drop_all d) ops [] s) as [outs [Q' s']].
        destruct H as (H1 & H2 & H3). repeat (split; [assumption|]). unfold ret, bind; cbn [concat] in H3; now rewrite H3.
      * assert (EQ : Q = rev r ++ [x]) by (apply (f_equal (@rev _)) in ER; now rewrite rev_involutive in ER).
        subst Q. rewrite ch_next_back_snoc by assumption.
        assert (Hn' : n = length pre + length (concat (rev r)) + length (x ++ post)).
        { rewrite concat_app in Hn. cbn in Hn. rewrite app_nil_r in Hn. rewrite !app_length in *. lia. }
        apply Forall_app in F. destruct F as [F1 F2].
        destruct (IH pre (rev r) (x ++ post) s F1 Hn' NL) as (pre' & post' & H).
        exists pre', post'. destruct (deque_run (drop_all d) ops (rev r) s) as [outs [Q' s']].
        destruct H as (G1 & G2 & G3). repeat (split; [assumption|]). unfold ret, bind; now rewrite G3.
    + unfold item, bind at 1. rewrite ch_nth_run by assumption.
      assert (Hn' : n = length (pre ++ concat (firstn (k0 + 1) Q)) + length (concat (skipn (k0 + 1) Q)) + length post).
      { rewrite <- (firstn_skipn (k0 + 1) Q), concat_app in Hn. rewrite !app_length in *. lia. }
      assert (F' : Forall (fun x => length x = k) (skipn (k0 + 1) Q)).
      { rewrite <- (firstn_skipn (k0 + 1) Q) in F. apply Forall_app in F. tauto. }
      destruct (IH _ _ _ (fold_left (fun s x => drop_all d x s) (firstn k0 Q) s) F' Hn' NL) as (pre' & post' & H).
      exists pre', post'. destruct (deque_run (drop_all d) ops (skipn (k0 + 1) Q) _) as [outs [Q' s']].
      destruct H as (G1 & G2 & G3). repeat (split; [assumption|]). unfold ret, bind; now rewrite G3.
    + unfold bind at 1, self at 1, num, lift. cbn [fst snd]. unfold bind at 1.
      cbn [fst snd]. rewrite (ch_len_eq Q pre post s F). cbn [fst snd].
      destruct (IH _ _ _ s F Hn NL) as (pre' & post' & H).
      exists pre', post'. destruct (deque_run (drop_all d) ops Q s) as [outs [Q' s']].
      destruct H as (G1 & G2 & G3). repeat (split; [assumption|]). unfold ret, bind; cbn [fst snd]; now rewrite G3.
    + unfold bind at 1, self at 1, hint, lift. cbn [fst snd]. unfold bind at 1.
      cbn [fst snd]. rewrite (ch_size Q pre post s F). cbn [fst snd].
      destruct (IH _ _ _ s F Hn NL) as (pre' & post' & H).
      exists pre', post'. destruct (deque_run (drop_all d) ops Q s) as [outs [Q' s']].
      destruct H as (G1 & G2 & G3). repeat (split; [assumption|]). unfold ret, bind; cbn [fst snd]; now rewrite G3.
Qed.
End ChunkSec.

Lemma drop_all_app {S T} (d : ety S T) a b s : drop_all d (a ++ b) s = drop_all d b (drop_all d a s).
Proof. unfold drop_all. apply fold_left_app. Qed.

Theorem ch_deque {S T} c (d : ety S T) k (Q : list (list T)) ops s :
  Forall (fun x => length x = k) Q -> 0 < k -> length (concat Q) < W c -> no_last ops ->
  let n := length (concat Q) in
  let '(outs, (Q', s')) := deque_run (drop_all d) ops Q s in
  exists st', run_history (ch_step c d n k) ops (into_chunks n (concat Q), s) = (Ok outs, (st', s')) /\
    ch_drop d st' s' = (Ok tt, drop_all d (concat Q') s').
Proof.
  intros F Hk HW NL n. unfold into_chunks. rewrite (mid_init (concat Q) n eq_refl).
  assert (Hn : n = length (@nil T) + length (concat Q) + length (@nil T)) by (cbn; lia).
  destruct (ch_run c d n k HW Hk ops [] Q [] s F Hn NL) as (pre' & post' & H).
  destruct (deque_run (drop_all d) ops Q s) as [outs [Q' s']]. destruct H as (H1 & H2 & H3).
  exists (mid pre' (concat Q') post'). split; [exact H3|apply mid_drop].
Qed.

(** Every vector whose length is a multiple of [k] is cut in exactly one way. *)
Lemma chunks_exist {T} k m (v : list T) : length v = m * k ->
  exists Q, v = concat Q /\ length Q = m /\ Forall (fun x => length x = k) Q.
Proof.
  revert v. induction m as [|m IH]; intros v Hv.
  - exists []. destruct v; [auto|discriminate].
  - destruct (IH (skipn k v)) as (Q & E & L & F). { rewrite skipn_length. cbn in Hv. lia. }
    exists (firstn k v :: Q). cbn. rewrite <- E, firstn_skipn. repeat split; [congruence|].
    constructor; [|exact F]. rewrite firstn_length. cbn in Hv. lia.
Qed.

(** ** Matrix from a flat vector *)
Lemma ch_iter_gives {S T} c (d : ety S T) k (Q : list (list T)) :
  Forall (fun x => length x = k) Q -> 0 < k -> length (concat Q) < W c ->
  let n := length (concat Q) in
  gives (ch_iter c d n k (into_chunks n (concat Q))) (map ret Q) (fun j => drop_all d (concat (lastn j Q))).
Proof.
  intros F Hk HW n. unfold ch_iter, into_chunks. rewrite (mid_init (concat Q) n eq_refl).
  apply (gives_intro _ _ (fun st acts => exists done Q', st = mid (concat done) (concat Q') [] /\
     acts = map ret Q' /\ Q = done ++ Q')).
  - intros st l (dn & Q' & -> & -> & ->) s. rewrite map_length, lastn_app. apply mid_drop.
  - intros st (dn & Q' & -> & E & ->) s. destruct Q'; [|discriminate].
    exists (mid (concat dn) [] []). cbn [concat]. rewrite ch_next_nil. split; [reflexivity|].
    intros s1. rewrite lastn_0. apply mid_drop.
  - intros st m l (dn & Q' & -> & E & ->) s. destruct Q' as [|x Q']; [discriminate|]. injection E as -> ->.
    apply Forall_app in F. destruct F as [F1 F2].
    exists (mid (concat (dn ++ [x])) (concat Q') []). split.
    + rewrite ch_next_cons; [| assumption | assumption | assumption |].
      * rewrite concat_app. cbn. now rewrite app_nil_r.
      * unfold n. rewrite concat_app, app_length. cbn. lia.
    + replace (dn ++ x :: Q') with ((dn ++ [x]) ++ Q') by now rewrite <- app_assoc. split.
      * intros s1. rewrite map_length, lastn_app. apply mid_drop.
      * intros _. exists (dn ++ [x]), Q'. repeat split.
  - exists [], Q. repeat split.
Qed.

Theorem mfrom_vector_concat {S T} c (d : ety S T) row col (Q : list (list T)) s :
  length Q = row -> Forall (fun x => length x = col) Q -> 0 < col -> row * col < W c ->
  mfrom_vector c d row col (concat Q) s = (Ok Q, s).
Proof.
  intros HR F Hc HW. unfold mfrom_vector. rewrite <- HR in *. rewrite <- (concat_len col Q F) in *.
  rewrite (from_iter_gives c (vec_ety d) (length Q) _ (map ret Q) _ s (ch_iter_gives c d col Q F Hc HW)).
  - rewrite seqm_ret, lastn_0. reflexivity.
  - now rewrite map_length.
Qed.

(** Entry (i, j) of a concatenation of rows of length [col]. *)
Lemma concat_entry {T} col (Q : list (list T)) i j r :
  Forall (fun x => length x = col) Q -> j < col ->
  nth_error Q i = Some r -> nth_error (concat Q) (i * col + j) = nth_error r j.
Proof.
  revert i. induction Q as [|x Q IH]; intros [|i] F Hj E; cbn in *; try discriminate.
  - injection E as ->. inv F. rewrite nth_error_app1 by lia. reflexivity.
  - inv F. rewrite nth_error_app2 by lia.
    replace (length x + i * length x + j - length x) with (i * length x + j) by lia. now apply IH.
Qed.

Theorem mfrom_vector_entries {S T} c (d : ety S T) row col (v : list T) s :
  length v = row * col -> 0 < col -> row * col < W c ->
  exists m, mfrom_vector c d row col v s = (Ok m, s) /\ rect row col m /\
    forall i j, i < row -> j < col -> entry m i j = nth_error v (i * col + j).
Proof.
  intros HL Hc HW. destruct (chunks_exist col row v HL) as (Q & -> & L & F).
  exists Q. split; [now apply mfrom_vector_concat|]. split; [now split|].
  intros i j Hi Hj. unfold entry. destruct (nth_error Q i) as [r|] eqn:E.
  - symmetry. now apply concat_entry.
  - apply nth_error_None in E. lia.
Qed.

(** Front-only and back-only histories of the owning iterator. *)
Lemma deque_run_nexts {S T} (drop : T -> S -> S) k (q : list T) s :
  deque_run drop (repeat Next k) q s
  = (map (fun x => Item (Some x)) (firstn k q) ++ repeat (Item None) (k - length q), (skipn k q, s)).
Proof.
  revert q. induction k as [|k IH]; intros q; cbn; [reflexivity|].
  destruct q as [|x q]; cbn.
  - rewrite IH. cbn. rewrite firstn_nil, skipn_nil. cbn. now rewrite Nat.sub_0_r.
  - now rewrite IH.
Qed.
Lemma guarded_nexts {T} k (q : list T) f : guarded f (repeat Next k) q.
Proof. revert q f. induction k; cbn; auto. Qed.

Lemma deque_run_backs {S T} (drop : T -> S -> S) k (q : list T) s :
  deque_run drop (repeat NextBack k) q s
  = (map (fun x => Item (Some x)) (firstn k (rev q)) ++ repeat (Item None) (k - length q),
     (firstn (length q - k) q, s)).
Proof.
  revert q. induction k as [|k IH]; intros q; cbn [repeat deque_run].
  - cbn. now rewrite Nat.sub_0_r, firstn_all.
  - cbn [deque_step]. destruct (rev q) as [|x r] eqn:E.
    + assert (q = []) as -> by (apply (f_equal (@rev _)) in E; now rewrite rev_involutive in E).
      rewrite IH. cbn. rewrite firstn_nil. cbn. now rewrite Nat.sub_0_r.
    + rewrite IH. assert (EQ : q = rev r ++ [x]) by (apply (f_equal (@rev _)) in E; now rewrite rev_involutive in E).
      subst q. rewrite rev_involutive, app_length, rev_length. cbn.
      replace (k - length r) with (Datatypes.S k - (length r + 1)) by lia. do 2 f_equal.
      replace (length r - k) with (length r + 1 - Datatypes.S k) by lia.
      rewrite firstn_app, rev_length. replace (length r + 1 - Datatypes.S k - length r) with 0 by lia.
      cbn. now rewrite app_nil_r.
Qed.
Lemma guarded_backs {T} k (q : list T) : guarded false (repeat NextBack k) q.
Proof. revert q. induction k; cbn; auto. Qed.

Theorem ii_front {S T} c (d : ety S T) n (v : list T) k s :
  length v = n -> n < W c ->
  exists st', run_history (ii_step c d n) (repeat Next k) (into_iter n v, s)
    = (Ok (map (fun x => Item (Some x)) (firstn k v) ++ repeat (Item None) (k - n)), (st', s)) /\
    ii_drop d st' s = (Ok tt, drop_all d (skipn k v) s).
Proof.
  intros Hv HW. pose proof (ii_deque c d n v (repeat Next k) s Hv HW (guarded_nexts k v false)) as H.
  rewrite deque_run_nexts in H. destruct H as (st' & H1 & H2 & _). rewrite Hv in H1. eauto.
Qed.

Theorem ii_back_only {S T} c (d : ety S T) n (v : list T) k s :
  length v = n -> n < W c ->
  exists st', run_history (ii_step c d n) (repeat NextBack k) (into_iter n v, s)
    = (Ok (map (fun x => Item (Some x)) (firstn k (rev v)) ++ repeat (Item None) (k - n)), (st', s)) /\
    ii_drop d st' s = (Ok tt, drop_all d (firstn (n - k) v) s).
Proof.
  intros Hv HW. pose proof (ii_deque c d n v (repeat NextBack k) s Hv HW (guarded_backs k v)) as H.
  rewrite deque_run_backs in H. destruct H as (st' & H1 & H2 & _). rewrite Hv in *. eauto.
Qed.

Theorem rev_collect {S T} c (d : ety S T) n (v : list T) s :
  length v = n -> n < W c ->
  from_iter c d n (rev_iter (ii_diter c d n (into_iter n v))) s = (Ok (rev v), s).
Proof.
  intros Hv HW. rewrite (from_iter_gives c d n _ _ _ s (rev_gives c d n v Hv HW)).
  - now rewrite seqm_ret.
  - now rewrite map_length, rev_length.
Qed.

(** ** What goes wrong outside the guard *)
Lemma W_gt c : 32 < W c.
Proof.
  unfold W. pose proof (wbits_ok c) as H.
  assert (2 ^ 6 <= 2 ^ wbits c) by (apply Nat.pow_le_mono_r; lia). cbn in *. lia.
Qed.

Theorem ii_back_after_front {S T} c (d : ety S T) (x : T) s :
  run_history (ii_step c d 1) [Next; NextBack] (into_iter 1 [x], s)
  = if e_copy d
    then (Ok [Item (Some x); Item (Some x)], (IntoIter [Moved x] 1 0, s))
    else (UB, (IntoIter [Moved x] 1 0, s)).
Proof.
  pose proof (W_gt c) as HW. cbn [run_history ii_step]. unfold item, bind at 1.
  rewrite (mid_init [x] 1 eq_refl). unfold bind at 1. rewrite mid_next by (cbn; lia). unfold ret at 1.
  unfold bind, ii_next_back_fn, bind, self. cbn. unfold debug_assert. change (1 <=? 1) with true.
  rewrite andb_false_r. change (0 <? 1) with true. cbn. unfold usz_sub. change (1 <=? 1) with true. cbn.
  unfold lift, ptr_read; cbn. destruct (e_copy d); reflexivity.
Qed.

Theorem ii_len_after_back {S T} c (d : ety S T) (x : T) s :
  e_copy d = true ->
  run_history (ii_step c d 1) [Next; NextBack; Len] (into_iter 1 [x], s)
  = if debug c then (Panic, (IntoIter [Moved x] 1 0, s))
    else (Ok [Item (Some x); Item (Some x); Num (W c - 1)], (IntoIter [Moved x] 1 0, s)).
Proof.
  intros HC. pose proof (ii_back_after_front c d x s) as H. rewrite HC in H.
  change [Next; NextBack; Len] with ([Next; NextBack] ++ [Len]).
  assert (A : forall (ops : list qop) w outs w', run_history (ii_step c d 1) ops w = (Ok outs, w') ->
     run_history (ii_step c d 1) (ops ++ [Len]) w
     = match ii_step c d 1 Len w' with
       | (Ok o, w'') => (Ok (outs ++ [o]), w'') | (Panic, w'') => (Panic, w'')
       | (UB, w'') => (UB, w'') | (Diverge, w'') => (Diverge, w'') end).
  { clear. induction ops as [|op ops IH]; intros w outs w' H.
    - cbn in H. injection H as <- <-. cbn [run_history app]. unfold bind at 1.
      destruct (ii_step c d 1 Len w) as [[]]; reflexivity.
    - cbn [run_history app] in *. unfold bind at 1 in H. unfold bind at 1.
      destruct (ii_step c d 1 op w) as [[o| | |] w1]; try discriminate.
      unfold bind at 1 in H. unfold bind at 1.
      destruct (run_history (ii_step c d 1) ops w1) as [[os| | |] w2] eqn:E; try discriminate.
      injection H as <- <-. rewrite (IH _ _ _ E). destruct (ii_step c d 1 Len w2) as [[]]; reflexivity. }
  rewrite (A _ _ _ _ H). cbn. unfold bind, self, num, bind, lift. cbn. unfold ii_len, usz_sub; cbn.
  change (1 <=? 0) with false. destruct (debug c); reflexivity.
Qed.

Theorem ii_nth_overshoot {S T} c (d : ety S T) n (v : list T) k s :
  length v = n -> n < k -> k < W c ->
  fst (ii_nth_fn c d n k (into_iter n v, s)) = UB.
Proof.
  intros Hv Hk HW. unfold ii_nth_fn, bind at 1, self. cbn -[ii_next_fn drop_cells].
  unfold bind at 1. unfold usz_add at 1. cbn [Nat.add]. destruct (Nat.ltb_spec k (W c)); [|lia]. unfold ret at 1.
  unfold bind at 1, lift. cbn -[ii_next_fn drop_cells]. unfold drop_cells, for_range.
  replace (k - 0) with (length v + Datatypes.S (k - n - 1)) by lia.
  assert (A : forall xs pre s, fst (for_n (length xs + Datatypes.S (k - n - 1)) (length pre)
      (fun i arr => drop_in_place d arr i) (map Moved pre ++ map Live xs) s) = UB).
  { induction xs as [|x xs IH]; intros pre s0; cbn [length Nat.add for_n]; unfold bind at 1.
    - unfold drop_in_place at 1. rewrite (proj2 (nth_error_None _ _)); [reflexivity|].
      cbn. rewrite app_nil_r, map_length. lia.
    - assert (E : drop_in_place d (map Moved pre ++ map Live (x :: xs)) (length pre) s0
              = (Ok (map Moved (pre ++ [x]) ++ map Live xs), e_drop d x s0)).
      { cbn [map]. unfold drop_in_place. rewrite <- (map_length Moved pre). rewrite nth_error_mid, list_set_app.
        unfold bind, tick, ret. rewrite map_app, <- app_assoc. reflexivity. }
      rewrite E. specialize (IH (pre ++ [x]) (e_drop d x s0)). rewrite app_length in IH. exact IH. }
  specialize (A v [] s). cbn [map app length] in A.
  destruct (for_n (length v + Datatypes.S (k - n - 1)) 0 (fun i arr => drop_in_place d arr i) (map Live v) s) as [r s'].
  cbn in A. subst r. reflexivity.
Qed.
