(** * CursorProofs.v - iterators that hold a window [front, back) into fixed storage. *)
From Coq Require Import List Arith Bool Lia.
From Verif Require Import Rust Iter Elem VectorM MatIterM MatrixM SpecCommon Harness IterProofs OwnProofs VecProofs MatProofs.
Import ListNotations.

Lemma nth_error_firstn_lt {A} (l : list A) n k : k < n -> nth_error (firstn n l) k = nth_error l k.
Proof. revert l k. induction n as [|n IH]; intros l k H; [lia|]. destruct l, k; cbn; auto. apply IH. lia. Qed.
Lemma nth_error_skipn_add {A} (l : list A) n k : nth_error (skipn n l) k = nth_error l (n + k).
Proof. revert l. induction n as [|n IH]; intros l; [reflexivity|]. destruct l; cbn; [now destruct k|apply IH]. Qed.
Lemma skipn_skipn_add {A} (l : list A) n k : skipn k (skipn n l) = skipn (n + k) l.
Proof. revert l. induction n as [|n IH]; intros l; [reflexivity|]. destruct l; cbn; [now destruct k|apply IH]. Qed.
Definition window {A} (items : list A) (f b : nat) : list A := firstn (b - f) (skipn f items).
Section Window.
Context {A : Type} (items : list A).
Notation win := (window items).
Lemma win_empty f b : b <= f -> win f b = [].
Proof. intros. unfold window. now replace (b - f) with 0 by lia. Qed.
Lemma win_length f b : b <= length items -> length (win f b) = b - f.
Proof. intros. unfold window. rewrite firstn_length, skipn_length. lia. Qed.
Lemma win_all : win 0 (length items) = items.
Proof. unfold window. cbn [skipn]. rewrite Nat.sub_0_r. apply firstn_all. Qed.
Lemma win_nth f b k : nth_error (win f b) k = if k <? b - f then nth_error items (f + k) else None.
Proof.
  unfold window. destruct (Nat.ltb_spec k (b - f)).
  - rewrite nth_error_firstn_lt by assumption. apply nth_error_skipn_add.
  - apply nth_error_None. rewrite firstn_length. lia.
Qed.
Lemma win_skip f b k : skipn k (win f b) = win (f + k) b.
Proof. unfold window. rewrite skipn_firstn_comm, skipn_skipn_add. now replace (b - f - k) with (b - (f + k)) by lia. Qed.
Lemma win_cons f b : f < b -> b <= length items -> exists x, nth_error items f = Some x /\ win f b = x :: win (f + 1) b.
Proof.
  intros H1 H2. destruct (nth_error items f) as [x|] eqn:E; [|apply nth_error_None in E; lia]. exists x. split; [reflexivity|].
  rewrite <- win_skip. pose proof (win_nth f b 0) as N. rewrite Nat.add_0_r, E in N.
  destruct (Nat.ltb_spec 0 (b - f)); [|lia]. destruct (win f b); [discriminate|]. cbn in *. congruence.
Qed.
Lemma win_snoc f b : f < b -> b <= length items -> exists x, nth_error items (b - 1) = Some x /\ win f b = win f (b - 1) ++ [x].
Proof.
  intros H1 H2. destruct (nth_error items (b - 1)) as [x|] eqn:E; [|apply nth_error_None in E; lia]. exists x. split; [reflexivity|].
  unfold window. replace (b - f) with (S (b - 1 - f)) by lia.
  assert (E' : nth_error (skipn f items) (b - 1 - f) = Some x).
  { rewrite nth_error_skipn_add. now replace (f + (b - 1 - f)) with (b - 1) by lia. }
  revert E'. generalize (skipn f items) (b - 1 - f). clear. intros l n. revert l. induction n as [|n IH]; intros [|y l] E; cbn in *; try discriminate.
  - now injection E as ->.
  - f_equal. now apply IH.
Qed.
End Window.

(** ** The generic simulation *)
Section Sim.
Context {X S A B : Type}.
Variable c : cfg.
Variable items : list A.
Variable get : A -> M S B.
Variable emb : nat -> nat -> X.
Variable step : qop -> M (X * S) (qout B).

(** Taking position [i], leaving the window [f, b). *)
Definition takes (op : qop) (x : X) (s : S) (i f b : nat) : Prop :=
  forall a, nth_error items i = Some a ->
  match get a s with
  | (Ok y, s') => step op (x, s) = (Ok (Item (Some y)), (emb f b, s'))
  | (Panic, s') => exists st', step op (x, s) = (Panic, (st', s'))
  | (UB, s') => exists st', step op (x, s) = (UB, (st', s'))
  | (Diverge, s') => exists st', step op (x, s) = (Diverge, (st', s'))
  end.
Definition cursor_ok : Prop := forall f b s, b <= length items ->
  (f < b -> takes Next (emb f b) s f (f + 1) b) /\
  (f < b -> takes NextBack (emb f b) s (b - 1) f (b - 1)) /\
  (b <= f -> step Next (emb f b, s) = (Ok (Item None), (emb f b, s))) /\
  (b <= f -> step NextBack (emb f b, s) = (Ok (Item None), (emb f b, s))) /\
  (forall w, step Last w = step NextBack w) /\
  (forall k, f + k < W c -> step (Nth k) (emb f b, s) = step Next (emb (f + k) b, s)).

(** One step other than [len]/[size_hint]. *)
Definition is_len (op : qop) : bool := match op with Len | SizeHint => true | _ => false end.
Definition adv (op : qop) : nat := match op with Nth k => k | _ => 0 end.
(** How far the front moves when [m] items remain. *)
Definition moves (op : qop) (m : nat) : nat := match op with Next => Nat.min 1 m | Nth k => Nat.min (k + 1) m | _ => 0 end.
Lemma step_item (HC : cursor_ok) op f b s : b <= length items -> is_len op = false -> f + adv op < W c ->
  let '(r, (q', s')) := lazy_deque get op (window items f b, s) in
  match r with
  | Ok o => exists f' b', step op (emb f b, s) = (Ok o, (emb f' b', s')) /\ q' = window items f' b' /\ b' <= length items /\
       f' <= Nat.max (f + adv op) (length items) /\ (f + adv op <= b -> f' <= b' /\ b' - f' = b - f - (adv op + 1) /\ f' = f + moves op (b - f))
  | Panic => exists st', step op (emb f b, s) = (Panic, (st', s'))
  | UB => exists st', step op (emb f b, s) = (UB, (st', s'))
  | Diverge => exists st', step op (emb f b, s) = (Diverge, (st', s'))
  end.
Proof.
  intros Hb HL HW.
  assert (HN : forall f, let yield := match nth_error (window items f b) 0 with
      | None => (Ok (Item None), (skipn 1 (window items f b), s))
      | Some x => match get x s with
                  | (Ok y, s') => (Ok (Item (Some y)), (skipn 1 (window items f b), s'))
                  | (Panic, s') => (Panic, (skipn 1 (window items f b), s'))
                  | (UB, s') => (UB, (skipn 1 (window items f b), s'))
                  | (Diverge, s') => (Diverge, (skipn 1 (window items f b), s'))
                  end
      end in let '(r, (q', s')) := yield in
    match r with
    | Ok o => exists f' b', step Next (emb f b, s) = (Ok o, (emb f' b', s')) /\ q' = window items f' b' /\ b' <= length items /\
         f' <= Nat.max f (length items) /\ (f <= b -> f' <= b' /\ b' - f' = b - f - 1 /\ f' = f + Nat.min 1 (b - f))
    | Panic => exists st', step Next (emb f b, s) = (Panic, (st', s'))
    | UB => exists st', step Next (emb f b, s) = (UB, (st', s'))
    | Diverge => exists st', step Next (emb f b, s) = (Diverge, (st', s'))
    end).
  { clear f HW. intros f. destruct (HC f b s Hb) as (H1 & _ & H3 & _). destruct (le_lt_dec b f) as [L|L].
    - rewrite win_empty by exact L. cbn -[Nat.min]. exists f, b. rewrite H3 by exact L. rewrite win_empty by exact L. repeat split; auto; lia.
    - destruct (win_cons items f b L Hb) as (x & Ex & Ew). rewrite Ew. cbn [nth_error skipn].
      specialize (H1 L x Ex). destruct (get x s) as [[y| | |] s']; auto. cbn -[Nat.min]. exists (f + 1), b. rewrite H1. repeat split; auto; lia. }
  destruct op; try discriminate; cbn [adv moves] in *; cbn [lazy_deque].
  - specialize (HN f). rewrite Nat.add_0_r. replace (hd_error (window items f b)) with (nth_error (window items f b) 0) by (now destruct (window items f b)).
    replace (tl (window items f b)) with (skipn 1 (window items f b)) by (now destruct (window items f b)). exact HN.
  - destruct (HC f b s Hb) as (_ & H2 & _ & H4 & _). destruct (le_lt_dec b f) as [L|L].
    + rewrite win_empty by exact L. cbn -[Nat.min]. exists f, b. rewrite H4 by exact L. rewrite win_empty by exact L. repeat split; auto; lia.
    + destruct (win_snoc items f b L Hb) as (x & Ex & Ew). rewrite Ew, rev_unit, removelast_last. cbn [hd_error].
      specialize (H2 L x Ex). destruct (get x s) as [[y| | |] s']; auto. cbn -[Nat.min]. exists f, (b - 1). rewrite H2. repeat split; auto; lia.
  - specialize (HN (f + k)). destruct (HC f b s Hb) as (_ & _ & _ & _ & _ & H6). rewrite H6 by exact HW.
    replace (nth_error (window items f b) k) with (nth_error (window items (f + k) b) 0).
    2:{ rewrite <- win_skip, nth_error_skipn_add. now rewrite Nat.add_0_r. }
    replace (skipn (k + 1) (window items f b)) with (skipn 1 (window items (f + k) b)) by (rewrite !win_skip; f_equal; lia).
    replace (b - f - (k + 1)) with (b - (f + k) - 1) by lia. destruct (match nth_error (window items (f + k) b) 0 with Some x => _ | None => _ end) as [[o| | |] [q' s']]; auto.
    destruct HN as (f' & b' & H1 & H2 & H3 & H4 & H5). exists f', b'. repeat split; auto; intros; try apply H5; auto; destruct (H5 ltac:(assumption)) as (_ & _ & ->); lia.
  - destruct (HC f b s Hb) as (_ & H2 & _ & H4 & H5 & _). rewrite !H5. destruct (le_lt_dec b f) as [L|L].
    + rewrite win_empty by exact L. cbn -[Nat.min]. exists f, b. rewrite H4 by exact L. rewrite win_empty by exact L. repeat split; auto; lia.
    + destruct (win_snoc items f b L Hb) as (x & Ex & Ew). rewrite Ew, rev_unit, removelast_last. cbn [hd_error].
      specialize (H2 L x Ex). destruct (get x s) as [[y| | |] s']; auto. cbn -[Nat.min]. exists f, (b - 1). rewrite H2. repeat split; auto; lia.
Qed.

(** Histories without [len]: any skips that do not overflow. *)
Lemma hist_items (HC : cursor_ok) ops : forall f b s, b <= length items -> no_len ops ->
  Nat.max f (length items) + skips ops < W c ->
  let '(r, (_, s')) := run_history (lazy_deque get) ops (window items f b, s) in
  exists st', run_history step ops (emb f b, s) = (r, (st', s')).
Proof.
  induction ops as [|op ops IH]; intros f b s Hb HN HW; cbn [run_history]; [cbn; eexists; reflexivity|].
  assert (HL : is_len op = false) by (destruct op; cbn in HN; tauto).
  assert (HN' : no_len ops) by (destruct op; cbn in HN; tauto).
  assert (HS : skips (op :: ops) = adv op + skips ops) by (destruct op; reflexivity).
  pose proof (step_item HC op f b s Hb HL ltac:(lia)) as H.
  unfold bind at 1. unfold bind at 2. destruct (lazy_deque get op (window items f b, s)) as [[o| | |] [q' s']].
  - destruct H as (f' & b' & -> & -> & Hb' & Hf' & _). specialize (IH f' b' s' Hb' HN' ltac:(lia)).
    unfold bind. destruct (run_history (lazy_deque get) ops (window items f' b', s')) as [r [q2 s2]].
    destruct IH as (st' & ->). destruct r; eexists; reflexivity.
  - destruct H as (st' & ->). eexists; reflexivity.
  - destruct H as (st' & ->). eexists; reflexivity.
  - destruct H as (st' & ->). eexists; reflexivity.
Qed.
(** The cursors after a history without [len] whose skips stay in range. *)
Fixpoint total_moves (ops : list qop) (m : nat) : nat :=
  match ops with [] => 0 | op :: ops' => moves op m + total_moves ops' (m - (adv op + 1)) end.
Lemma hist_moves (HC : cursor_ok) ops : forall f b s, f <= b -> b <= length items -> length items < W c ->
  no_len ops -> nth_in_range ops (b - f) ->
  let '(r, (q', s')) := run_history (lazy_deque get) ops (window items f b, s) in
  exists st', run_history step ops (emb f b, s) = (r, (st', s')) /\
    match r with
    | Ok _ => exists b', st' = emb (f + total_moves ops (b - f)) b' /\ f + total_moves ops (b - f) <= b' /\ b' <= b /\
                q' = window items (f + total_moves ops (b - f)) b'
    | _ => True
    end.
Proof.
  induction ops as [|op ops IH]; intros f b s Hf Hb HW HL HN; cbn [run_history];
    [cbn; eexists; split; [reflexivity|exists b; rewrite Nat.add_0_r; auto]|].
  assert (EL : is_len op = false) by (destruct op; cbn in HL; tauto).
  assert (HL' : no_len ops) by (destruct op; cbn in HL; tauto).
  assert (HA : adv op <= b - f) by (destruct op; cbn in *; lia).
  assert (HN' : nth_in_range ops (b - f - (adv op + 1))) by (destruct op; cbn in *; try discriminate; tauto).
  pose proof (step_item HC op f b s Hb EL ltac:(lia)) as H.
  assert (HB : forall o q' s', lazy_deque get op (window items f b, s) = (Ok o, (q', s')) -> length q' <= length (window items f b)).
  { intros o q' s' E. destruct op; try discriminate; cbn [lazy_deque] in E.
    - destruct (hd_error (window items f b)); [destruct (get a s) as [[]]|]; try discriminate; injection E as <- <- <-; destruct (window items f b); cbn; lia.
    - destruct (hd_error (rev (window items f b))); [destruct (get a s) as [[]]|]; try discriminate; injection E as <- <- <-;
        rewrite <- (firstn_all (window items f b)) at 1; (destruct (length (window items f b)) eqn:E'; [now rewrite firstn_O|rewrite removelast_firstn by lia; rewrite firstn_length; lia]).
    - destruct (nth_error (window items f b) k); [destruct (get a s) as [[]]|]; try discriminate; injection E as <- <- <-; rewrite skipn_length; lia.
    - destruct (hd_error (rev (window items f b))); [destruct (get a s) as [[]]|]; try discriminate; injection E as <- <- <-;
        rewrite <- (firstn_all (window items f b)) at 1; (destruct (length (window items f b)) eqn:E'; [now rewrite firstn_O|rewrite removelast_firstn by lia; rewrite firstn_length; lia]). }
  unfold bind at 1. unfold bind at 2. destruct (lazy_deque get op (window items f b, s)) as [[o| | |] [q' s']].
  - destruct H as (f' & b' & -> & -> & Hb' & _ & Ho). destruct (Ho ltac:(lia)) as [Ho1 [Ho2 Ho3]].
    rewrite <- Ho2 in HN'. specialize (IH f' b' s' Ho1 Hb' HW HL' HN').
    unfold bind. destruct (run_history (lazy_deque get) ops (window items f' b', s')) as [r [q2 s2]].
    destruct IH as (st' & -> & HF). destruct r; eexists; (split; [reflexivity|]); auto.
    destruct HF as (b2 & E1 & E2 & E3 & E4). exists b2. cbn [total_moves]. rewrite Ho2 in *. rewrite Nat.add_assoc, <- Ho3.
    assert (moves op (b - f) + (b' - f') <= b - f) by (rewrite Ho2; clear -HA; destruct op; cbn [moves adv] in *; lia).
    repeat split; auto; lia.
  - destruct H as (st' & ->). eexists; (split; [reflexivity|exact I]).
  - destruct H as (st' & ->). eexists; (split; [reflexivity|exact I]).
  - destruct H as (st' & ->). eexists; (split; [reflexivity|exact I]).
Qed.
(** Histories with [len] and [size_hint], when those report [back - front]. *)
Definition len_ok : Prop := forall f b s, b <= length items -> f <= b ->
  step Len (emb f b, s) = (Ok (Num (b - f)), (emb f b, s)) /\
  step SizeHint (emb f b, s) = (Ok (Hint (b - f) (Some (b - f))), (emb f b, s)).
Definition final {O} (r : res O) (q' : list A) (st' : X) : Prop :=
  match r with
  | Ok _ => exists f' b', st' = emb f' b' /\ q' = window items f' b' /\ f' <= b' /\ b' <= length items
  | _ => True
  end.
Lemma hist_all (HC : cursor_ok) (HL : len_ok) ops : forall f b s, f <= b -> b <= length items -> length items < W c ->
  nth_in_range ops (b - f) ->
  let '(r, (q', s')) := run_history (lazy_deque get) ops (window items f b, s) in
  exists st', run_history step ops (emb f b, s) = (r, (st', s')) /\ final r q' st'.
Proof.
  induction ops as [|op ops IH]; intros f b s Hf Hb HW HN; cbn [run_history]; [cbn; eexists; split; [reflexivity|exists f, b; auto]|].
  destruct (is_len op) eqn:EL.
  - destruct (HL f b s Hb Hf) as [E1 E2]. unfold bind at 1. unfold bind at 2.
    destruct op; try discriminate; rewrite ?E1, ?E2; cbn [lazy_deque]; rewrite (win_length items f b Hb);
    specialize (IH f b s Hf Hb HW HN); unfold bind;
    destruct (run_history (lazy_deque get) ops (window items f b, s)) as [r [q2 s2]];
    destruct IH as (st' & -> & HF); destruct r; eexists; (split; [reflexivity|exact HF || exact I]).
  - assert (HA : adv op <= b - f) by (destruct op; cbn in *; lia).
    assert (HN' : nth_in_range ops (b - f - (adv op + 1))) by (destruct op; cbn in *; try discriminate; tauto).
    pose proof (step_item HC op f b s Hb EL ltac:(lia)) as H.
    unfold bind at 1. unfold bind at 2. destruct (lazy_deque get op (window items f b, s)) as [[o| | |] [q' s']].
    + destruct H as (f' & b' & -> & -> & Hb' & _ & Ho). destruct (Ho ltac:(lia)) as [Ho1 [Ho2 _]].
      rewrite <- Ho2 in HN'. specialize (IH f' b' s' Ho1 Hb' HW HN').
      unfold bind. destruct (run_history (lazy_deque get) ops (window items f' b', s')) as [r [q2 s2]].
      destruct IH as (st' & -> & HF). destruct r; eexists; (split; [reflexivity|exact HF || exact I]).
    + destruct H as (st' & ->). eexists; (split; [reflexivity|exact I]).
    + destruct H as (st' & ->). eexists; (split; [reflexivity|exact I]).
    + destruct H as (st' & ->). eexists; (split; [reflexivity|exact I]).
Qed.
(** Histories with [len] and [size_hint] when those report [length - front]: nothing taken from the back. *)
Definition len_front_ok : Prop := forall f s, f <= length items ->
  step Len (emb f (length items), s) = (Ok (Num (length items - f)), (emb f (length items), s)) /\
  step SizeHint (emb f (length items), s) = (Ok (Hint (length items - f) (Some (length items - f))), (emb f (length items), s)).
Lemma hist_front (HC : cursor_ok) (HL : len_front_ok) ops : forall f s, f <= length items -> length items < W c ->
  front_only ops (length items - f) ->
  let '(r, (q', s')) := run_history (lazy_deque get) ops (window items f (length items), s) in
  exists st', run_history step ops (emb f (length items), s) = (r, (st', s')) /\
    match r with
    | Ok _ => exists f', st' = emb f' (length items) /\ q' = window items f' (length items) /\ f' <= length items
    | _ => True
    end.
Proof.
  set (b := length items). assert (Hb : b <= length items) by (unfold b; lia).
  induction ops as [|op ops IH]; intros f s Hf HW HN; cbn [run_history]; [cbn; eexists; split; [reflexivity|exists f; auto]|].
  destruct (is_len op) eqn:EL.
  - destruct (HL f s Hf) as [E1 E2]. fold b in E1, E2. unfold bind at 1. unfold bind at 2.
    destruct op; try discriminate; rewrite ?E1, ?E2; cbn [lazy_deque]; rewrite (win_length items f b Hb);
    specialize (IH f s Hf HW HN); unfold bind;
    destruct (run_history (lazy_deque get) ops (window items f b, s)) as [r [q2 s2]];
    destruct IH as (st' & -> & HF); destruct r; eexists; (split; [reflexivity|exact HF || exact I]).
  - assert (HA : adv op <= b - f) by (destruct op; cbn in *; lia).
    assert (HN' : front_only ops (b - f - (adv op + 1))) by (destruct op; cbn in *; try discriminate; tauto).
    assert (HNB : op = Next \/ exists k, op = Nth k) by (destruct op; cbn in *; try tauto; try discriminate; eauto).
    assert (HN1 : forall f s, let '(r, (q', s')) := lazy_deque get Next (window items f b, s) in
      match r with
      | Ok o => exists f', step Next (emb f b, s) = (Ok o, (emb f' b, s')) /\ q' = window items f' b /\ (f <= b -> f' <= b /\ b - f' = b - f - 1)
      | Panic => exists st', step Next (emb f b, s) = (Panic, (st', s'))
      | UB => exists st', step Next (emb f b, s) = (UB, (st', s'))
      | Diverge => exists st', step Next (emb f b, s) = (Diverge, (st', s'))
      end).
    { clear f s Hf HN HN' HA. intros f s. destruct (HC f b s Hb) as (H1 & _ & H3 & _). destruct (le_lt_dec b f) as [L|L].
      - rewrite win_empty by exact L. cbn. exists f. rewrite H3 by exact L. rewrite win_empty by exact L. repeat split; auto; lia.
      - destruct (win_cons items f b L Hb) as (x & Ex & Ew). rewrite Ew. cbn [lazy_deque hd_error tl].
        specialize (H1 L x Ex). destruct (get x s) as [[y| | |] s']; auto. cbn. exists (f + 1). rewrite H1. repeat split; auto; lia. }
    assert (HN2 : exists f0, f0 = f + adv op /\ step op (emb f b, s) = step Next (emb f0 b, s) /\ 
        lazy_deque get op (window items f b, s) = lazy_deque get Next (window items f0 b, s)).
    { destruct HNB as [->|[k ->]]; cbn [adv] in *.
      - exists f. rewrite Nat.add_0_r. auto.
      - exists (f + k). split; [reflexivity|]. destruct (HC f b s Hb) as (_ & _ & _ & _ & _ & H6). rewrite H6 by lia. split; [reflexivity|].
        cbn [lazy_deque]. replace (nth_error (window items f b) k) with (hd_error (window items (f + k) b)).
        2:{ pose proof (win_skip items f b k) as Ws. rewrite <- Ws. rewrite <- (Nat.add_0_r k) at 2. rewrite <- nth_error_skipn_add. now destruct (skipn k (window items f b)). }
        replace (skipn (k + 1) (window items f b)) with (tl (window items (f + k) b)); [reflexivity|].
        rewrite <- win_skip, <- (skipn_skipn_add _ k 1). now destruct (skipn k (window items f b)). }
    destruct HN2 as (f0 & Hf0 & Es & El). unfold bind at 1. unfold bind at 2. rewrite Es, El. specialize (HN1 f0 s).
    destruct (lazy_deque get Next (window items f0 b, s)) as [[o| | |] [q' s']].
    + destruct HN1 as (f' & -> & -> & Ho). destruct (Ho ltac:(lia)) as [Ho1 Ho2].
      replace (b - f - (adv op + 1)) with (b - f') in HN' by lia. specialize (IH f' s' Ho1 HW HN').
      unfold bind. destruct (run_history (lazy_deque get) ops (window items f' b, s')) as [r [q2 s2]].
      destruct IH as (st' & -> & HF). destruct r; eexists; (split; [reflexivity|exact HF || exact I]).
    + destruct HN1 as (st' & ->). eexists; (split; [reflexivity|exact I]).
    + destruct HN1 as (st' & ->). eexists; (split; [reflexivity|exact I]).
    + destruct HN1 as (st' & ->). eexists; (split; [reflexivity|exact I]).
Qed.
End Sim.

Lemma total_moves_spec ops : forall m, no_len ops -> total_moves ops m = taken_front ops m.
Proof. induction ops as [|op ops IH]; intros m H; [reflexivity|]. destruct op; cbn [no_len] in H; try contradiction; cbn [total_moves taken_front moves adv]; rewrite IH by exact H; reflexivity. Qed.
Lemma run_history_app {X S T} (step : qop -> M (X * S) (qout T)) a b :
  forall w, run_history step (a ++ b) w = (xs <- run_history step a ;; ys <- run_history step b ;; ret (xs ++ ys)) w.
Proof.
  induction a as [|op a IH]; intros w; cbn [app run_history].
  - unfold bind, ret. destruct (run_history step b w) as [[] w']; reflexivity.
  - unfold bind in *. destruct (step op w) as [[o| | |] w1]; try reflexivity.
    rewrite IH. destruct (run_history step a w1) as [[xs| | |] w2]; try reflexivity. cbn.
    destruct (run_history step b w2) as [[] w3]; reflexivity.
Qed.
