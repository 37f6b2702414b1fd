(** * PropsDrop.v - theorems for C80: destructors that panic. *)
From Coq Require Import List Arith Bool Lia.
From Verif Require Import Rust Iter Elem VectorM DropM SpecCommon Harness IterProofs OwnProofs.
Import ListNotations.

(** ** Specification *)
(** The destructors of the items of [l] in order, up to the first that panics. *)
Fixpoint drops {S T} (dr : T -> M S unit) (l : list T) : M S unit :=
  match l with [] => ret tt | x :: l' => dr x ;;; drops dr l' end.
(** A destructor of safe code: it returns or panics. *)
Definition safe_drop {S T} (dr : T -> M S unit) : Prop :=
  forall x s, (exists s', dr x s = (Ok tt, s')) \/ (exists s', dr x s = (Panic, s')).
Definition no_nth (ops : list qop) : Prop := Forall (fun op => match op with Nth _ | Last => False | _ => True end) ops.

Lemma drops_safe {S T} (dr : T -> M S unit) l : safe_drop dr -> safe_drop (T := list T) (drops dr) /\
  forall s, (exists s', drops dr l s = (Ok tt, s')) \/ (exists s', drops dr l s = (Panic, s')).
Proof.
  intros H. assert (K : forall l s, (exists s', drops dr l s = (Ok tt, s')) \/ (exists s', drops dr l s = (Panic, s'))).
  { clear l. induction l as [|x l IH]; intros s; cbn; [left; now exists s|]. unfold bind. destruct (H x s) as [(s1 & ->)|(s1 & ->)]; [apply IH|right; now exists s1]. }
  split; [exact K|apply K].
Qed.
(** The cells of a live stretch after the loop: what was dropped, then what was not. *)
Lemma drop_cells_p_live {S T} (dr : T -> M S unit) (xs : list T) : forall (pre post : list (cell T)) s,
  exists a b, xs = a ++ b /\ (xs <> [] -> a <> []) /\ (fst (drops dr xs s) = Ok tt -> b = []) /\
  drop_cells_p dr (length pre) (length pre + length xs) (pre ++ map Live xs ++ post, s)
  = (fst (drops dr xs s), (pre ++ map Moved a ++ map Live b ++ post, snd (drops dr xs s))).
Proof.
  unfold drop_cells_p, for_range.
  induction xs as [|x xs IH]; intros pre post s.
  - exists [], []. cbn. replace (length pre + 0 - length pre) with 0 by lia. repeat split; auto.
  - cbn [length]. replace (length pre + Datatypes.S (length xs) - length pre) with (Datatypes.S (length xs)) by lia.
    cbn [for_n drops map app]. unfold bind at 1. unfold bind at 1. cbn [drop_in_place_p].
    rewrite nth_error_app2, Nat.sub_diag by lia. cbn [nth_error].
    destruct (dr x s) as [r s1] eqn:E. rewrite list_set_app. destruct r as [[]| | |].
    2-4: exists [x], xs; unfold bind; rewrite E; cbn; repeat split; discriminate.
    specialize (IH (pre ++ [Moved x]) post s1). rewrite app_length in IH. cbn [length] in IH.
    replace (length pre + 1 + length xs - (length pre + 1)) with (length xs) in IH by lia.
    rewrite <- app_assoc in IH. cbn [app] in IH. destruct IH as (a & b & E1 & E2 & E3 & E4).
    exists (x :: a), b. split; [cbn; now rewrite E1|]. split; [discriminate|]. unfold bind. rewrite E. split; [exact E3|].
    unfold ret in *. rewrite E4. now rewrite <- app_assoc.
Qed.
Lemma from_iter_loop_p_yields {S T} (dr : T -> M S unit) c k (it : iter S T) s xs it1 s1 :
  yields it s xs it1 s1 -> forall pre,
  from_iter_loop_p dr c (length xs + k) (length pre) (map Live pre ++ repeat Uninit (length xs + k)) it s
  = from_iter_loop_p dr c k (length (pre ++ xs)) (map Live (pre ++ xs) ++ repeat Uninit k) it1 s1.
Proof.
  induction 1 as [it s|it s x it1 s1 xs it2 s2 E Y IH]; intros pre.
  - cbn. now rewrite app_nil_r.
  - cbn [length Nat.add from_iter_loop_p repeat]. rewrite E. unfold ptr_write.
    rewrite app_length, map_length. cbn [length].
    destruct (Nat.ltb_spec (length pre) (length pre + Datatypes.S (length (repeat (@Uninit T) (length xs + k))))); [|lia].
    unfold ret. rewrite <- (map_length Live pre) at 2. rewrite list_set_app.
    specialize (IH (pre ++ [x])). rewrite app_length, map_app, <- !app_assoc in IH. cbn [app map length] in IH.
    rewrite IH. reflexivity.
Qed.
Lemma short_p_at {S T} (dr : T -> M S unit) c n (it : iter S T) s xs it1 s1 it2 s2 :
  yields it s xs it1 s1 -> length xs < n -> next (it1, s1) = (Ok None, (it2, s2)) ->
  from_iter_p dr c n it s = short_p dr (length xs) (map Live xs ++ repeat Uninit (n - length xs)) it2 s2.
Proof.
  intros Y L E. unfold from_iter_p. replace n with (length xs + (n - length xs)) at 1 2 by lia.
  pose proof (from_iter_loop_p_yields dr c (n - length xs) it s xs it1 s1 Y []) as H. cbn [length map app] in H. rewrite H.
  destruct (n - length xs) as [|k] eqn:Ek; [lia|]. cbn [from_iter_loop_p]. now rewrite E.
Qed.
Lemma glue_moved {S T} (dr : T -> M S unit) (a : list T) rest s : a <> [] -> array_glue_unwinding dr (map Moved a ++ rest) s = (Done UB, s).
Proof. destruct a; [congruence|reflexivity]. Qed.

Lemma mid_drop_p {S T} (dr : T -> M S unit) pre q post s : ii_drop_p dr (mid pre q post) s = drops dr q s.
Proof.
  unfold ii_drop_p, mid. cbn [ii_next ii_back ii_arr].
  destruct (drop_cells_p_live dr q (map Moved pre) (map Moved post) s) as (a & b & _ & _ & _ & E4). rewrite map_length in E4. rewrite E4. now destruct (drops dr q s).
Qed.
Lemma nth_p_ok {S T} (dr : T -> M S unit) c n v k s s1 : length v = n -> n < W c -> k <= n -> drops dr (firstn k v) s = (Ok tt, s1) ->
  exists pre post, ii_nth_p dr c n k (into_iter n v, s) = (Ok (nth_error v k), (mid pre (skipn (k + 1) v) post, s1)).
Proof.
  intros L HW Hk D1.
  destruct (drop_cells_p_live dr (firstn k v) [] (map Live (skipn k v)) s) as (a & b & E1 & _ & E3 & E4).
  rewrite D1 in E3, E4. rewrite (E3 eq_refl), app_nil_r in E1. subst a. rewrite (E3 eq_refl) in E4.
  cbn [length app Nat.add map] in E4. rewrite <- map_app, firstn_skipn, firstn_length, Nat.min_l in E4 by lia. cbn [fst snd] in E4.
  unfold ii_nth_p, bind at 1, self at 1, into_iter. cbn [fst ii_next]. unfold bind at 1. unfold usz_add at 1. cbn [Nat.add].
  destruct (Nat.ltb_spec k (W c)); [|lia]. unfold ret at 1. unfold bind at 1. cbn [ii_next ii_arr ii_back]. rewrite E4.
  unfold bind at 1, self at 1. cbn [fst ii_next ii_arr ii_back]. unfold bind at 1, usz_add at 1. cbn [Nat.add].
  destruct (Nat.ltb_spec k (W c)); [|lia]. unfold ret at 1. unfold bind at 1, set_self at 1. cbn [fst snd].
  assert (EM : IntoIter (map Moved (firstn k v) ++ map Live (skipn k v)) k n = mid (firstn k v) (skipn k v) []).
  { unfold mid. cbn [map]. rewrite app_nil_r, firstn_length, skipn_length, Nat.min_l by lia. f_equal. lia. }
  rewrite EM, mid_next; [|rewrite firstn_length, skipn_length; cbn; lia|exact HW].
  assert (E0 : nth_error v k = match skipn k v with [] => None | x :: _ => Some x end).
  { rewrite <- (firstn_skipn k v) at 1. rewrite nth_error_app2; rewrite firstn_length, Nat.min_l; try lia. rewrite Nat.sub_diag. now destruct (skipn k v). }
  assert (E5 : skipn (k + 1) v = tl (skipn k v)) by (rewrite <- (skipn_skipn_add 1 k v); now destruct (skipn k v)).
  rewrite E0, E5. destruct (skipn k v) as [|x r]; cbn [tl]; do 2 eexists; reflexivity.
Qed.

(** ** C80 *)
(** The claim: whatever destructors panic, nothing undefined happens. *)
Definition C80_statement : Prop :=
  forall S T (c : cfg) (dr : T -> M S unit), safe_drop dr ->
  (forall n (it : iter S T) s xs it1 s1 it2 s2, yields it s xs it1 s1 -> length xs < n -> next (it1, s1) = (Ok None, (it2, s2)) ->
     (forall s, exists s', drop_iter it2 s = (Ok tt, s')) -> fst (from_iter_p dr c n it s) <> Done UB) /\
  (forall n (v : list T) k s, length v = n -> n < W c -> k <= n -> fst (nth_then_drop dr c n k v s) <> Done UB) /\
  (forall n (v : list T) ops s, length v = n -> n < W c -> guarded false ops v -> no_nth ops ->
     exists outs st', run_history (ii_step c (Ety (fun _ s => s) false) n) ops (into_iter n v, s) = (Ok outs, (st', s)) /\
       fst (ii_drop_p dr st' s) <> UB).

(** Refuted, in every single case: collecting too few items is undefined behaviour as soon as the
    destructor of one of them panics (the array is dropped again by the unwinding, with the slots
    that were never written) ... *)
Theorem C80_collect_short_refuted :
  forall S T (c : cfg) (dr : T -> M S unit) n (it : iter S T) s xs it1 s1 it2 s2 s3,
  yields it s xs it1 s1 -> length xs < n -> next (it1, s1) = (Ok None, (it2, s2)) ->
  drops dr xs s2 = (Panic, s3) ->
  from_iter_p dr c n it s = (Done UB, s3).
Proof.
  intros S T c dr n it s xs it1 s1 it2 s2 s3 Y L E D. rewrite (short_p_at dr c n it s xs it1 s1 it2 s2 Y L E).
  unfold short_p. destruct (drop_cells_p_live dr xs [] (repeat Uninit (n - length xs)) s2) as (a & b & E1 & E2 & _ & E4).
  cbn [length app Nat.add] in E4. rewrite E4, D. cbn [fst snd]. rewrite glue_moved; [reflexivity|].
  apply E2. intros ->. discriminate.
Qed.
Print Assumptions C80_collect_short_refuted.
(** ... and so is [nth(k)] on an owning iterator as soon as the destructor of a skipped element
    panics (the iterator, dropped by the unwinding, starts again at the first of them; so does
    [next()] if the panic is caught). *)
Theorem C80_nth_refuted :
  forall S T (c : cfg) (dr : T -> M S unit) n (v : list T) k s s1,
  length v = n -> n < W c -> k <= n -> drops dr (firstn k v) s = (Panic, s1) ->
  nth_then_drop dr c n k v s = (Done UB, s1) /\
  exists ii, ii_nth_p dr c n k (into_iter n v, s) = (Panic, (ii, s1)) /\
    fst (ii_next_fn c (Ety (fun _ s => s) false) n (ii, s1)) = UB.
Proof.
  intros S T c dr n v k s s1 L HW Hk D.
  destruct (drop_cells_p_live dr (firstn k v) [] (map Live (skipn k v)) s) as (a & b & E1 & E2 & _ & E4).
  cbn [length app Nat.add] in E4. rewrite <- map_app, firstn_skipn, firstn_length, Nat.min_l, D in E4 by lia. cbn [fst snd] in E4.
  assert (Na : a <> []) by (apply E2; intros F; rewrite F in D; discriminate).
  set (arr := map Moved a ++ map Live b ++ map Live (skipn k v)) in *.
  assert (E : ii_nth_p dr c n k (into_iter n v, s) = (Panic, (IntoIter arr 0 n, s1))).
  { unfold ii_nth_p, bind at 1, self, into_iter. cbn [fst ii_next]. unfold bind at 1. unfold usz_add at 1. cbn [Nat.add].
    destruct (Nat.ltb_spec k (W c)); [|lia]. unfold ret at 1. unfold bind at 1. cbn [ii_next ii_arr ii_back]. rewrite E4. reflexivity. }
  assert (N0 : nth_error arr 0 = match a with [] => None | x :: _ => Some (Moved x) end) by (unfold arr; destruct a; [congruence|reflexivity]).
  assert (Pn : 0 < n).
  { destruct n; [|lia]. destruct v; [|discriminate]. rewrite firstn_nil in D. discriminate. }
  destruct a as [|x a]; [congruence|]. split.
  - unfold nth_then_drop. rewrite E. unfold ii_drop_unwinding, ii_drop_p. cbn [ii_next ii_back ii_arr]. unfold drop_cells_p, for_range.
    destruct n as [|n]; [lia|]. rewrite Nat.sub_0_r. cbn [for_n]. unfold bind at 1. cbn [drop_in_place_p]. rewrite N0. reflexivity.
  - exists (IntoIter arr 0 n). split; [exact E|]. unfold ii_next_fn, bind at 1, self. cbn [fst ii_back ii_next ii_arr].
    unfold debug_assert. rewrite Nat.leb_refl, andb_false_r. unfold bind at 1, ret at 1.
    destruct (Nat.ltb_spec 0 n); [|lia]. unfold bind at 1, usz_add. assert (2 <= W c) by (unfold W; pose proof (Nat.pow_le_mono_r 2 1 (wbits c) ltac:(lia) ltac:(pose proof (wbits_ok c); lia)); cbn [Nat.pow] in *; lia).
    destruct (Nat.ltb_spec (0 + 1) (W c)); [|lia]. unfold ret at 1, bind at 1, set_self at 1. unfold bind at 1, lift, ptr_read. cbn [snd fst]. rewrite N0. reflexivity.
Qed.
Print Assumptions C80_nth_refuted.

Definition bomb (x : bool) : M (list bool) unit := fun s => (if x then Panic else Ok tt, s ++ [x]).
Lemma bomb_safe : safe_drop bomb.
Proof. intros x s. destruct x; [right|left]; eexists; reflexivity. Qed.
Theorem C80_refuted : forall c : cfg, ~ C80_statement.
Proof.
  intros c H. destruct (H (list bool) bool c bomb bomb_safe) as (_ & H2 & _).
  assert (HW : 2 < W c) by (unfold W; pose proof (Nat.pow_le_mono_r 2 2 (wbits c) ltac:(lia) ltac:(pose proof (wbits_ok c); lia)); cbn [Nat.pow] in *; lia).
  specialize (H2 2 [true; false] 1 [] eq_refl HW ltac:(lia)). apply H2.
  destruct (C80_nth_refuted _ _ c bomb 2 [true; false] 1 [] [true] eq_refl HW ltac:(lia) eq_refl) as [-> _]. reflexivity.
Qed.
Print Assumptions C80_refuted.

(** What holds.  Dropping (or counting) an owning iterator at any point of a history of [next],
    [next_back], [len], [size_hint] (as far as C07 allows the history): the destructors of the
    elements that are left run in order, each at most once, up to the first that panics; the others
    are leaked. *)
Theorem C80_drop_partial :
  forall S T (c : cfg) (dr : T -> M S unit) n (v : list T) ops s,
  length v = n -> n < W c -> guarded false ops v -> no_nth ops ->
  let '(outs, (q, _)) := deque_run (fun _ (s : S) => s) ops v s in
  exists st', run_history (ii_step c (Ety (fun _ s => s) false) n) ops (into_iter n v, s) = (Ok outs, (st', s)) /\
    (forall s, ii_drop_p dr st' s = drops dr q s) /\
    (forall s, ii_count_p dr c st' s = (drops dr q ;;; ret (length q)) s).
Proof.
  intros S T c dr n v ops s L HW G N.
  pose proof (ii_run c (Ety (fun _ (s : S) => s) false) n HW ops [] v [] s false ltac:(cbn; lia) (fun _ => eq_refl) G) as (pre & post & H).
  cbn [e_drop] in H. destruct (deque_run (fun _ (s : S) => s) ops v s) as [outs [q s']] eqn:E. destruct H as [_ H].
  assert (Es : s' = s).
  { clear -E N. revert v outs q s' E. induction N as [|op ops Hop N IH]; intros v outs q s' E; [now injection E|]. cbn [deque_run] in E.
    destruct (deque_step _ op v s) as [o [q1 s1]] eqn:E1. assert (s1 = s) by (destruct op; unfold deque_step in E1; try contradiction; repeat match type of E1 with context [match ?x with _ => _ end] => destruct x end; now injection E1). subst s1.
    destruct (deque_run _ ops q1 s) as [os [q2 s2]] eqn:E2. injection E as _ _ <-. eapply IH, E2. }
  subst s'. exists (mid pre q post). rewrite <- (mid_init v n L) in H. split; [exact H|].
  split; [apply mid_drop_p|]. intros s0. unfold ii_count_p, bind. rewrite mid_len, mid_drop_p. reflexivity.
Qed.
Print Assumptions C80_drop_partial.
(** ... hence no undefined behaviour there. *)
Theorem C80_drop_safe_partial :
  forall S T (c : cfg) (dr : T -> M S unit) n (v : list T) ops s, safe_drop dr ->
  length v = n -> n < W c -> guarded false ops v -> no_nth ops ->
  exists outs st', run_history (ii_step c (Ety (fun _ s => s) false) n) ops (into_iter n v, s) = (Ok outs, (st', s)) /\
    fst (ii_drop_p dr st' s) <> UB.
Proof.
  intros S T c dr n v ops s SD L HW G N. pose proof (C80_drop_partial S T c dr n v ops s L HW G N) as H.
  destruct (deque_run _ ops v s) as [outs [q s']]. destruct H as (st & H1 & H2 & _). exists outs, st. split; [exact H1|].
  rewrite H2. destruct (proj2 (drops_safe dr q SD) s) as [(s1 & ->)|(s1 & ->)]; discriminate.
Qed.
Print Assumptions C80_drop_safe_partial.
(** Collecting too few items and skipping with [nth], when no destructor panics. *)
Theorem C80_collect_short_partial :
  forall S T (c : cfg) (dr : T -> M S unit) n (it : iter S T) s xs it1 s1 it2 s2 s3 s4,
  yields it s xs it1 s1 -> length xs < n -> next (it1, s1) = (Ok None, (it2, s2)) ->
  drops dr xs s2 = (Ok tt, s3) -> drop_iter it2 s3 = (Ok tt, s4) ->
  from_iter_p dr c n it s = (Done Panic, s4).
Proof.
  intros S T c dr n it s xs it1 s1 it2 s2 s3 s4 Y L E D DI. rewrite (short_p_at dr c n it s xs it1 s1 it2 s2 Y L E).
  unfold short_p. destruct (drop_cells_p_live dr xs [] (repeat Uninit (n - length xs)) s2) as (a & b & _ & _ & _ & E4).
  cbn [length app Nat.add] in E4. rewrite E4, D. cbn [fst snd]. unfold done, out_of_scope, bind. now rewrite DI.
Qed.
Print Assumptions C80_collect_short_partial.
Theorem C80_nth_partial :
  forall S T (c : cfg) (dr : T -> M S unit) n (v : list T) k s s1 r s2,
  length v = n -> n < W c -> k <= n ->
  drops dr (firstn k v) s = (Ok tt, s1) -> drops dr (skipn (k + 1) v) s1 = (r, s2) ->
  nth_then_drop dr c n k v s = (Done (match r with Ok _ => Ok (nth_error v k) | Panic => Panic | UB => UB | Diverge => Diverge end), s2).
Proof.
  intros S T c dr n v k s s1 r s2 L HW Hk D1 D2. unfold nth_then_drop.
  destruct (nth_p_ok dr c n v k s s1 L HW Hk D1) as (pre & post & E). rewrite E, mid_drop_p, D2. now destruct r.
Qed.
Print Assumptions C80_nth_partial.
(** Too many items, debug build: the surplus is counted and dropped; a destructor that panics there
    ends the collection with that panic (the collected items are leaked). *)
Inductive drains_p {S T} (dr : T -> M S unit) : iter S T -> S -> list T -> iter S T -> S -> Prop :=
| drains_p_nil it s : drains_p dr it s [] it s
| drains_p_cons it s x it1 s1 s1' xs it2 s2 :
    next (it, s) = (Ok (Some x), (it1, s1)) -> dr x s1 = (Ok tt, s1') -> drains_p dr it1 s1' xs it2 s2 ->
    drains_p dr it s (x :: xs) it2 s2.
Theorem C80_collect_long_partial :
  forall S T (c : cfg) (dr : T -> M S unit) (it : iter S T) s xs it1 s1 ys it2 s2 y it3 s3 s4 s5,
  debug c = true -> yields it s xs it1 s1 -> drains_p dr it1 s1 ys it2 s2 -> length ys < fuel_count c ->
  next (it2, s2) = (Ok (Some y), (it3, s3)) -> dr y s3 = (Panic, s4) -> drop_iter it3 s4 = (Ok tt, s5) ->
  from_iter_p dr c (length xs) it s = (Done Panic, s5).
Proof.
  intros S T c dr it s xs it1 s1 ys it2 s2 y it3 s3 s4 s5 Dbg Y Dr L E D DI. unfold from_iter_p.
  pose proof (from_iter_loop_p_yields dr c 0 it s xs it1 s1 Y []) as H. cbn [length map app] in H. rewrite Nat.add_0_r in H. rewrite H.
  cbn [from_iter_loop_p]. unfold done, from_iter_finish_p. rewrite Dbg.
  assert (K : forall fuel acc, length ys < fuel -> icount_p dr fuel it1 acc s1 = (Panic, s5)).
  { clear - Dr E D DI. induction Dr as [it s|it s x it1 s1 s1' xs it2 s2 E1 D1 Dr IH]; intros fuel acc L; destruct fuel as [|fuel]; cbn [length] in L; try lia.
    - cbn [icount_p]. rewrite E, D. unfold out_of_scope, bind. now rewrite DI.
    - cbn [icount_p]. rewrite E1, D1. apply IH; auto; lia. }
  unfold bind at 1. now rewrite K.
Qed.
Print Assumptions C80_collect_long_partial.
(** For destructors that never panic this model and the one of VectorM.v (all other properties)
    agree. *)
Theorem C80_agrees_with_model :
  forall S T (c : cfg) (d : ety S T), e_copy d = false ->
  let dr := fun x => tick (e_drop d x) in
  (forall n (it : iter S T) s, from_iter_p dr c n it s = (Done (fst (from_iter c d n it s)), snd (from_iter c d n it s))) /\
  (forall n k ii s, fst (ii_nth_p dr c n k (ii, s)) = fst (ii_nth_fn c d n k (ii, s)) /\ snd (snd (ii_nth_p dr c n k (ii, s))) = snd (snd (ii_nth_fn c d n k (ii, s)))) /\
  (forall ii s, ii_drop_p dr ii s = ii_drop d ii s).
Proof.
  intros S T c d NC dr.
  assert (DI : forall i arr (s : S), drop_in_place_p dr i (arr, s) = match drop_in_place d arr i s with (Ok a, s') => (Ok tt, (a, s')) | (Panic, s') => (Panic, (arr, s')) | (UB, s') => (UB, (arr, s')) | (Diverge, s') => (Diverge, (arr, s')) end).
  { intros i arr s. unfold drop_in_place_p, drop_in_place. destruct (nth_error arr i) as [[x|x|]|]; try reflexivity. now rewrite NC. }
  assert (DN : forall (k : nat) i arr (s : S), match drop_in_place d arr i s with (Panic, _) => False | _ => True end).
  { intros k i arr s. unfold drop_in_place. destruct (nth_error arr i) as [[x|x|]|]; try exact I. now rewrite NC. }
  assert (DC : forall k lo arr (s : S), exists arr', for_n k lo (fun i _ => drop_in_place_p dr i) tt (arr, s) =
    match for_n k lo (fun i arr => drop_in_place d arr i) arr s with (Ok a, s') => (Ok tt, (a, s')) | (Panic, s') => (Panic, (arr', s')) | (UB, s') => (UB, (arr', s')) | (Diverge, s') => (Diverge, (arr', s')) end
    /\ fst (for_n k lo (fun i arr => drop_in_place d arr i) arr s) <> Panic).
  { induction k as [|k IH]; intros lo arr s; cbn [for_n].
    - exists arr. split; [reflexivity|discriminate].
    - unfold bind at 1. rewrite DI. pose proof (DN 0 lo arr s). unfold bind. destruct (drop_in_place d arr lo s) as [[a| | |] s1]; [apply IH|easy|exists arr; split; [reflexivity|discriminate]..]. }
  assert (IC : forall fuel (it : iter S T) acc s, icount_p dr fuel it acc s = icount d fuel it acc s).
  { induction fuel as [|fuel IH]; intros it acc s; cbn [icount_p icount]; destruct (next (it, s)) as [[[x|]| | |] [it' s']]; try reflexivity. apply IH. }
  split; [|split].
  - assert (FL : forall k i arr (it : iter S T) s, from_iter_loop_p dr c k i arr it s = (Done (fst (from_iter_loop c d k i arr it s)), snd (from_iter_loop c d k i arr it s))).
    { induction k as [|k IH]; intros i arr it s; cbn [from_iter_loop_p from_iter_loop].
      - unfold done, from_iter_finish_p, from_iter_finish. destruct (debug c).
        + unfold bind at 1. rewrite IC. unfold bind at 2 4. destruct (icount d _ it 0 s) as [[a| | |] s1]; try reflexivity.
          now destruct ((assert (a =? 0);;; assume_init arr) s1).
        + now destruct ((v <- assume_init arr;; out_of_scope it (Ok v)) s).
      - destruct (next (it, s)) as [[[x|]| | |] [it' s']].
        + unfold bind at 1 2. destruct (ptr_write arr i x s') as [[a| | |] s1] eqn:E; [apply IH|..]; reflexivity.
        + unfold short_p, drop_cells_p, drop_cells, for_range. destruct (DC (i - 0) 0 arr s') as (arr' & E & NP). unfold bind at 1 2. rewrite E.
          destruct (for_n (i - 0) 0 (fun i arr => drop_in_place d arr i) arr s') as [[a| | |] s1]; try reflexivity; [|now destruct NP].
          unfold done. now destruct (out_of_scope it' Panic s1).
        + unfold done. now destruct (out_of_scope it' Panic s').
        + reflexivity.
        + reflexivity. }
    intros n it s. apply FL.
  - assert (NX : forall n ii (s : S), ii_next_fn c (Ety (fun _ (s : S) => s) false) n (ii, s) = ii_next_fn c d n (ii, s)).
    { intros n ii s. unfold ii_next_fn, bind, self, lift, ptr_read. rewrite NC. reflexivity. }
    assert (UA : forall A a b (s : A), exists r, usz_add c a b s = (r, s) /\ forall B (s : B), usz_add c a b s = (r, s)).
    { intros A a b s0. unfold usz_add. destruct (_ <? _); [|destruct (debug c)]; eexists; split; reflexivity. }
    intros n k ii s. unfold ii_nth_p, ii_nth_fn, bind, self, lift, set_self. cbn [fst].
    destruct (UA _ (ii_next ii) k (ii, s)) as (r & -> & UB'). destruct r as [hi| | |]; try (split; reflexivity).
    cbn [fst snd]. unfold drop_cells_p, drop_cells, for_range.
    destruct (DC (hi - ii_next ii) (ii_next ii) (ii_arr ii) s) as (arr' & -> & NP).
    destruct (for_n (hi - ii_next ii) (ii_next ii) (fun i arr => drop_in_place d arr i) (ii_arr ii) s) as [[a| | |] s1]; try (split; reflexivity).
    cbn [fst snd ii_next ii_arr ii_back]. rewrite !UB'. cbn [fst snd]. rewrite NX. split; reflexivity.
  - intros ii s. unfold ii_drop_p, ii_drop, drop_cells_p, drop_cells, for_range, bind.
    destruct (DC (ii_back ii - ii_next ii) (ii_next ii) (ii_arr ii) s) as (arr' & -> & _). destruct (for_n _ _ _ _ s) as [[a| | |] s1]; reflexivity.
Qed.
Print Assumptions C80_agrees_with_model.
(** Dropping an iterator over [false; true; false] (the second destructor panics) after one [next()]
    runs only the second destructor; [nth(2)] on the full iterator is undefined behaviour; so is
    collecting these three into a vector of four. *)
Example C80_ex : forall c : cfg,
  (exists st', run_history (ii_step c (Ety (fun _ s => s) false) 3) [Next] (into_iter 3 [false; true; false], [] : list bool) = (Ok [Item (Some false)], (st', [])) /\
     ii_drop_p bomb st' [] = (Panic, [true])) /\
  nth_then_drop bomb c 3 2 [false; true; false] [] = (Done UB, [false; true]) /\
  from_iter_p bomb c 4 (slice_iter [false; true; false]) [] = (Done UB, [false; true]).
Proof.
  intros c. assert (HW : 4 < W c) by (unfold W; pose proof (Nat.pow_le_mono_r 2 3 (wbits c) ltac:(lia) ltac:(pose proof (wbits_ok c); lia)); cbn [Nat.pow] in *; lia).
  split; [|split].
  - pose proof (C80_drop_partial (list bool) bool c bomb 3 [false; true; false] [Next] [] eq_refl ltac:(lia) I ltac:(repeat constructor)) as H.
    cbn [deque_run deque_step tl] in H. destruct H as (st & H1 & H2 & _). exists st. split; [exact H1|]. now rewrite H2.
  - now destruct (C80_nth_refuted (list bool) bool c bomb 3 [false; true; false] 2 [] [false; true] eq_refl ltac:(lia) ltac:(lia) eq_refl) as [-> _].
  - eapply C80_collect_short_refuted with (xs := [false; true; false]); [repeat (econstructor; [reflexivity|]); constructor|cbn; lia|reflexivity|reflexivity].
Qed.
