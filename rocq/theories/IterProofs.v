(** * IterProofs.v - what iterating / collecting / folding does, for iterators
    described by the list of actions their successive [next] calls perform. *)
From Coq Require Import List Arith Bool Lia.
From Verif Require Import Rust Iter Elem VectorM.
Import ListNotations.
Global Arguments Nat.ltb : simpl never.
Global Arguments Nat.leb : simpl never.
Global Arguments Nat.eqb : simpl never.
Global Arguments Nat.modulo : simpl never.
Global Arguments Nat.div : simpl never.
Global Arguments next : simpl never.
Global Arguments drop_iter : simpl never.

(** ** Runs of actions *)
Definition omap {A B} (f : A -> B) (r : res A) : res B :=
  match r with Ok a => Ok (f a) | Panic => Panic | UB => UB | Diverge => Diverge end.

Definition is_ok {A} (r : res A) : Prop := match r with Ok _ => True | _ => False end.

(** Run the actions in order and collect their results; if one panics, run
    [dr k] where [k] actions were still to come; at the end run [dr 0]. *)
Fixpoint seqm {S T} (l : list (M S T)) (dr : nat -> S -> S) (s : S) : res (list T) * S :=
  match l with
  | [] => (Ok [], dr 0 s)
  | m :: l' =>
      match m s with
      | (Ok a, s') =>
          match seqm l' dr s' with
          | (Ok xs, s'') => (Ok (a :: xs), s'')
          | (r, s'') => (r, s'')
          end
      | (Panic, s') => (Panic, dr (length l') s')
      | (UB, s') => (UB, s')
      | (Diverge, s') => (Diverge, s')
      end
  end.

(** The same folding the results. *)
Fixpoint foldm {S A B} (l : list (M S A)) (dr : nat -> S -> S) (st : B) (body : B -> A -> M S B) (s : S)
  : res B * S :=
  match l with
  | [] => (Ok st, dr 0 s)
  | m :: l' =>
      match m s with
      | (Ok a, s') =>
          match body st a s' with
          | (Ok st', s'') => foldm l' dr st' body s''
          | (Panic, s'') => (Panic, dr (length l') s'')
          | (UB, s'') => (UB, s'')
          | (Diverge, s'') => (Diverge, s'')
          end
      | (Panic, s') => (Panic, dr (length l') s')
      | (UB, s') => (UB, s')
      | (Diverge, s') => (Diverge, s')
      end
  end.

Fixpoint allm {S A} (stop : bool) (l : list (M S A)) (dr : nat -> S -> S) (p : A -> M S bool) (s : S)
  : res bool * S :=
  match l with
  | [] => (Ok (negb stop), dr 0 s)
  | m :: l' =>
      match m s with
      | (Ok a, s') =>
          match p a s' with
          | (Ok b, s'') => if Bool.eqb b stop then (Ok stop, dr (length l') s'')
                           else allm stop l' dr p s''
          | (Panic, s'') => (Panic, dr (length l') s'')
          | (UB, s'') => (UB, s'')
          | (Diverge, s'') => (Diverge, s'')
          end
      | (Panic, s') => (Panic, dr (length l') s')
      | (UB, s') => (UB, s')
      | (Diverge, s') => (Diverge, s')
      end
  end.

(** ** [gives it l dr]: [it] performs the actions [l] on successive calls of
    [next], then returns [None]; dropping it with [k] items to come is [dr k]. *)
Fixpoint gives {S T} (it : iter S T) (l : list (M S T)) (dr : nat -> S -> S) : Prop :=
  (forall s, drop_iter it s = (Ok tt, dr (length l) s)) /\
  match l with
  | [] => forall s, exists it', next (it, s) = (Ok None, (it', s)) /\
                                forall s1, drop_iter it' s1 = (Ok tt, dr 0 s1)
  | m :: l' => forall s, exists it',
      next (it, s) = (let (r, s') := m s in (omap Some r, (it', s'))) /\
      (forall s1, drop_iter it' s1 = (Ok tt, dr (length l') s1)) /\
      (is_ok (fst (m s)) -> gives it' l' dr)
  end.

Lemma gives_drop {S T} (it : iter S T) l dr : gives it l dr ->
  forall s, drop_iter it s = (Ok tt, dr (length l) s).
Proof. destruct l; intros [H _]; exact H. Qed.

Lemma oos_eq {S T A} (it : iter S T) (f : S -> S) (r : res A) s :
  (forall s, drop_iter it s = (Ok tt, f s)) -> out_of_scope it r s = (r, f s).
Proof. intros H. unfold out_of_scope, bind. now rewrite H. Qed.

(** Characterisation by states: a state type with an abstraction. *)
Lemma gives_intro {S T St} (nx : M (St * S) (option T)) (dp : St -> M S unit)
    (P : St -> list (M S T) -> Prop) (dr : nat -> S -> S) :
  (forall st l, P st l -> forall s, dp st s = (Ok tt, dr (length l) s)) ->
  (forall st, P st [] -> forall s, exists st', nx (st, s) = (Ok None, (st', s)) /\
      forall s1, dp st' s1 = (Ok tt, dr 0 s1)) ->
  (forall st m l, P st (m :: l) -> forall s, exists st',
      nx (st, s) = (let (r, s') := m s in (omap Some r, (st', s'))) /\
      (forall s1, dp st' s1 = (Ok tt, dr (length l) s1)) /\
      (is_ok (fst (m s)) -> P st' l)) ->
  forall l st, P st l -> gives (MkIter St st nx dp) l dr.
Proof.
  intros Hd Hn Hc. induction l as [|m l IH]; intros st HP.
  - split. { intros s. apply (Hd _ _ HP). }
    intros s. destruct (Hn _ HP s) as (st' & E & D).
    exists (MkIter St st' nx dp). unfold next; cbn. rewrite E. split; [reflexivity|exact D].
  - split. { intros s. apply (Hd _ _ HP). }
    intros s. destruct (Hc _ _ _ HP s) as (st' & E & D & K).
    exists (MkIter St st' nx dp). unfold next; cbn. rewrite E.
    destruct (m s) as [r s']. split; [reflexivity|]. split; [exact D|].
    intros Ho. apply IH. now apply K.
Qed.

Lemma gives_eta {S T} (it : iter S T) l dr :
  gives (MkIter (i_st it) (i_cur it) (i_next it) (i_drop it)) l dr <-> gives it l dr.
Proof. destruct it; reflexivity. Qed.

(** ** Basic sources *)
Definition nodrop {S} : nat -> S -> S := fun _ s => s.

Lemma slice_iter_gives {S T} (l : list T) : gives (@slice_iter S T l) (map ret l) nodrop.
Proof.
  unfold slice_iter.
  apply (gives_intro _ _ (fun st acts => acts = map ret st)); [reflexivity| | |reflexivity].
  - intros st H s. destruct st; [|discriminate]. exists []. split; reflexivity.
  - intros st m a H s. destruct st as [|x st]; [discriminate|]. injection H as -> ->.
    exists st. repeat split; reflexivity.
Qed.

Lemma range_gives {S} lo hi : gives (@range S lo hi) (map ret (seq lo (hi - lo))) nodrop.
Proof.
  unfold range.
  apply (gives_intro _ _ (fun st acts => acts = map ret (seq (fst st) (snd st - fst st))));
    [reflexivity| | |reflexivity].
  - intros [a b] H s. exists (a, b). cbn in *. unfold bind, self; cbn.
    destruct (a <? b) eqn:E; [|split; reflexivity].
    apply Nat.ltb_lt in E. replace (b - a) with (Datatypes.S (b - a - 1)) in H by lia. discriminate.
  - intros [a b] m l H s. cbn in *. unfold bind, self; cbn.
    destruct (a <? b) eqn:E.
    + apply Nat.ltb_lt in E. replace (b - a) with (Datatypes.S (b - (a + 1))) in H by lia.
      cbn in H. injection H as -> ->. exists (a + 1, b). cbn. replace (a + 1) with (Datatypes.S a) by lia.
      repeat split; reflexivity.
    + apply Nat.ltb_ge in E. replace (b - a) with 0 in H by lia. discriminate.
Qed.

(** ** Adapters *)
Lemma imap_gives {S A B} (f : A -> M S B) (it : iter S A) l dr :
  gives it l dr -> gives (imap f it) (map (fun m => a <- m ;; f a) l) dr.
Proof.
  revert it. induction l as [|m l IH]; intros it [Hd H].
  - split. { exact Hd. }
    intros s. destruct (H s) as (it' & E & D). exists (imap f it').
    unfold next in *; cbn in *. unfold bind.
    destruct (i_next it (i_cur it, s)) as [r [st' s']].
    injection E as -> <- ->. cbn. split; [reflexivity|exact D].
  - split. { cbn. rewrite map_length. exact Hd. }
    intros s. destruct (H s) as (it' & E & D & K). exists (imap f it').
    unfold next in *; cbn in *. unfold bind in *.
    destruct (i_next it (i_cur it, s)) as [r [st' s']].
    destruct (m s) as [r1 s1]. injection E as -> <- ->.
    destruct r1; cbn in *; try (rewrite map_length; repeat split; try exact D; tauto).
    unfold lift; cbn. destruct (f a s1) as [r2 s2]. cbn. rewrite map_length.
    destruct r2; cbn; repeat split; try exact D; try tauto.
    intros _. apply IH. now apply K.
Qed.

Lemma enumerate_gives_from {S T} (it : iter S T) l dr k :
  gives it l dr ->
  gives (MkIter (nat * i_st it) (k, i_cur it) (i_next (enumerate it)) (i_drop (enumerate it)))
    (map (fun p => a <- snd p ;; ret (fst p, a)) (combine (seq k (length l)) l)) dr.
Proof.
  revert it k. induction l as [|m l IH]; intros it k [Hd H].
  - split. { exact Hd. }
    intros s. destruct (H s) as (it' & E & D).
    exists (MkIter (nat * i_st it') (k, i_cur it') (i_next (enumerate it')) (i_drop (enumerate it'))).
    unfold next in *; cbn in *.
    destruct (i_next it (i_cur it, s)) as [r [st' s']].
    injection E as -> <- ->. cbn. split; [reflexivity|exact D].
  - cbn [length seq combine map]. split.
    { intros s; cbn. rewrite map_length, combine_length, seq_length, Nat.min_id. exact (Hd s). }
    intros s. destruct (H s) as (it' & E & D & K). cbn [fst snd].
    exists (MkIter (nat * i_st it')
       ((match fst (m s) with Ok _ => k + 1 | _ => k end), i_cur it') (i_next (enumerate it')) (i_drop (enumerate it'))).
    unfold next in *; cbn in *. unfold bind in *.
    destruct (i_next it (i_cur it, s)) as [r [st' s']].
    destruct (m s) as [r1 s1]. injection E as -> <- ->.
    rewrite map_length, combine_length, seq_length, Nat.min_id.
    destruct r1; cbn in *; repeat split; try exact D; try tauto.
    intros _. specialize (IH _ (k + 1) (K I)). replace (Datatypes.S k) with (k + 1) by lia. exact IH.
Qed.

Lemma enumerate_gives {S T} (it : iter S T) l dr :
  gives it l dr ->
  gives (enumerate it) (map (fun p => a <- snd p ;; ret (fst p, a)) (combine (seq 0 (length l)) l)) dr.
Proof. intros H. exact (enumerate_gives_from it l dr 0 H). Qed.

(** The action of one step of [zip]. *)
Definition pairm {S A B} (da : ety S A) (ma : M S A) (mb : M S B) : M S (A * B) :=
  fun s => match ma s with
           | (Ok a, s1) =>
               match mb s1 with
               | (Ok b, s2) => (Ok (a, b), s2)
               | (Panic, s2) => (Panic, e_drop da a s2)
               | (UB, s2) => (UB, s2)
               | (Diverge, s2) => (Diverge, s2)
               end
           | (Panic, s1) => (Panic, s1)
           | (UB, s1) => (UB, s1)
           | (Diverge, s1) => (Diverge, s1)
           end.

(** [zip] of iterators of equal length; either the left one is effect free, or
    dropping the right one is a no-op. *)
Lemma zip_gives {S A B} (da : ety S A) (ia : iter S A) (ib : iter S B) la lb dra drb :
  gives ia la dra -> gives ib lb drb -> length la = length lb ->
  (forall s, dra 0 s = s) ->
  ((forall m s, In m la -> is_ok (fst (m s))) \/ (forall k s, drb k s = s)) ->
  gives (zip da ia ib) (map (fun p => pairm da (fst p) (snd p)) (combine la lb))
    (fun k s => drb k (dra k s)).
Proof.
  intros Ha Hb HL H0 HO. revert ia ib lb Ha Hb HL HO. induction la as [|ma la IH];
    intros ia ib lb [Hda Ha] Hb HL HO; destruct lb as [|mb lb]; try discriminate.
  - split. { intros s. unfold drop_iter; cbn. unfold bind.
      unfold drop_iter in Hda; rewrite Hda. destruct Hb as [Hdb _]. unfold drop_iter in Hdb. apply Hdb. }
    intros s. destruct (Ha s) as (ia' & E & D). exists (zip da ia' ib).
    unfold next in *; cbn in *.
    destruct (i_next ia (i_cur ia, s)) as [r [st' s']]. injection E as -> <- ->. cbn.
    split; [reflexivity|]. intros s1. unfold drop_iter in *; cbn. unfold bind. cbn in D. rewrite D.
    destruct Hb as [Hdb _]. apply Hdb.
  - injection HL as HL. destruct Hb as [Hdb Hb]. split.
    { intros s. unfold drop_iter in *; cbn. unfold bind. rewrite Hda, Hdb.
      cbn. rewrite map_length, combine_length, HL, Nat.min_id. reflexivity. }
    intros s. destruct (Ha s) as (ia' & Ea & Da & Ka). cbn [fst snd combine map].
    rewrite map_length, combine_length, HL, Nat.min_id.
    unfold pairm at 1 2. unfold next in *; cbn in *.
    destruct (i_next ia (i_cur ia, s)) as [ra [sta s']].
    destruct (ma s) as [ra' s1] eqn:Ema. injection Ea as -> <- ->. rewrite HL in Da.
    assert (HN : ~ is_ok ra' -> forall k s, drb k s = s).
    { intros Hn. destruct HO as [HO|HO]; [|exact HO]. specialize (HO ma s (or_introl eq_refl)).
      rewrite Ema in HO. contradiction. }
    destruct ra' as [a| | |]; cbn.
    2-4: (eexists (MkIter (i_st ia * i_st ib) (sta, i_cur ib) (i_next (zip da ia ib)) (i_drop (zip da ia ib)));
          split; [reflexivity|]; split; [|tauto];
          intros s2; unfold drop_iter in *; cbn in *; unfold bind; rewrite Da, Hdb, !(HN (fun x => x)); reflexivity).
    destruct (Hb s1) as (ib' & Eb & Db & Kb).
    destruct (i_next ib (i_cur ib, s1)) as [rb [stb s2]].
    destruct (mb s1) as [rb' s2']. injection Eb as -> <- ->.
    exists (MkIter (i_st ia * i_st ib) (sta, stb) (i_next (zip da ia ib)) (i_drop (zip da ia ib))).
    destruct rb'; cbn; (split; [reflexivity|]);
      (split; [intros s3; unfold drop_iter in *; cbn in *; unfold bind; rewrite Da, Db; reflexivity|]); try tauto.
    intros _. specialize (IH (MkIter (i_st ia) sta (i_next ia) (i_drop ia)) (MkIter (i_st ib) stb (i_next ib) (i_drop ib)) lb (Ka I) (Kb I) HL).
    apply IH. destruct HO as [HO|HO]; [left|right; exact HO]. intros m s3 Hm. apply HO. now right.
Qed.

Lemma take_gives {S T} n (it : iter S T) l dr :
  gives it l dr -> n = length l -> gives (take n it) l dr.
Proof.
  intros H ->. revert it H. induction l as [|m l IH]; intros it [Hd H].
  - split; [exact Hd|]. intros s. exists (take 0 it). split; [reflexivity|exact Hd].
  - split; [exact Hd|]. intros s. destruct (H s) as (it' & E & D & K).
    exists (take (length l) it'). unfold next in *; cbn in *.
    destruct (i_next it (i_cur it, s)) as [r [st' s']].
    destruct (m s) as [r1 s1]. injection E as -> <- ->. cbn. split; [reflexivity|].
    split; [exact D|]. intros Ho. apply IH. now apply K.
Qed.

(** [filter] of an effect-free iterator with a no-op destructor. *)
Lemma filter_gives {S T} fuel (d : ety S T) p (it : iter S T) (l : list T) :
  gives it (map ret l) nodrop -> length l < fuel -> (forall x s, e_drop d x s = s) ->
  gives (filter fuel d p it) (map ret (List.filter p l)) nodrop.
Proof.
  intros H HF Hdr.
  set (P := fun (st : i_st it) (acts : list (M S T)) => exists l', length l' < fuel /\
     acts = map ret (List.filter p l') /\
     gives (MkIter (i_st it) st (i_next it) (i_drop it)) (map ret l') nodrop).
  assert (Hstep : forall f l' st s, length l' < f ->
    gives (MkIter (i_st it) st (i_next it) (i_drop it)) (map ret l') nodrop ->
    exists st', 
    match List.filter p l' with
    | [] => filter_next d p (i_next it) f (st, s) = (Ok None, (st', s)) /\
            forall s1, i_drop it st' s1 = (Ok tt, s1)
    | x :: r => filter_next d p (i_next it) f (st, s) = (Ok (Some x), (st', s)) /\
        exists l'', length l'' < length l' /\ r = List.filter p l'' /\
                 gives (MkIter (i_st it) st' (i_next it) (i_drop it)) (map ret l'') nodrop
    end).
  { induction f as [|f IHf]; intros l' st s Hlen G; [lia|].
    destruct l' as [|x l'].
    - destruct G as [Gd G]. destruct (G s) as (it' & E & D). unfold next in E; cbn in E.
      cbn. unfold bind. destruct (i_next it (st, s)) as [r [st' s']]. injection E as -> <- ->.
      exists st'. split; [reflexivity|exact D].
    - destruct G as [Gd G]. destruct (G s) as (it' & E & D & K). unfold next in E; cbn in E.
      cbn [filter_next]. unfold bind. destruct (i_next it (st, s)) as [r [st' s']]. injection E as -> <- ->.
      specialize (K I). cbn [List.filter]. destruct (p x).
      + exists st'. split; [reflexivity|]. exists l'. split; [cbn; lia|]. split; [reflexivity|exact K].
      + cbn [tick]. unfold tick; cbn. rewrite Hdr. cbn in Hlen.
        destruct (IHf l' st' s ltac:(lia) K) as (st2 & Q). exists st2.
        destruct (List.filter p l'); [exact Q|]. destruct Q as (Q1 & l'' & Q2 & Q3).
        split; [exact Q1|]. exists l''. split; [cbn; lia|exact Q3]. }
  unfold filter. apply (gives_intro _ _ P).
  - intros st acts (l' & _ & _ & G) s. exact (gives_drop _ _ _ G s).
  - intros st (l' & Hl & E & G) s. destruct (Hstep fuel l' st s Hl G) as (st' & Q).
    destruct (List.filter p l'); [|discriminate]. exists st'. exact Q.
  - intros st m acts (l' & Hl & E & G) s. destruct (Hstep fuel l' st s Hl G) as (st' & Q).
    destruct (List.filter p l') as [|x r]; [discriminate|]. cbn in E. injection E as -> ->.
    destruct Q as (Q1 & l'' & Q2 & Q3 & Q4). exists st'. split; [exact Q1|].
    split. { intros s1. apply (gives_drop _ _ _ Q4). }
    intros _. exists l''. split; [lia|]. split; [now rewrite Q3|exact Q4].
  - exists l. split; [exact HF|]. split; [reflexivity|]. now apply gives_eta.
Qed.

(** ** Consumers *)
Lemma for_each_gives {S A B} (body : B -> A -> M S B) : forall l fuel (it : iter S A) dr st s,
  gives it l dr -> length l < fuel -> for_each fuel it st body s = foldm l dr st body s.
Proof.
  induction l as [|m l IH]; intros fuel it dr st s [Hd H] HF; (destruct fuel as [|fuel]; [lia|]); cbn.
  - destruct (H s) as (it' & E & D). rewrite E. now rewrite (oos_eq _ _ _ _ D).
  - destruct (H s) as (it' & E & D & K). rewrite E. destruct (m s) as [r s1]. cbn in K.
    destruct r; cbn; try reflexivity.
    + destruct (body st a s1) as [r2 s2]. destruct r2; try reflexivity.
      * apply IH; [now apply K|cbn in HF; lia].
      * now rewrite (oos_eq _ _ _ _ D).
    + now rewrite (oos_eq _ _ _ _ D).
Qed.

Lemma iall_gives {S A} (p : A -> M S bool) : forall l fuel (it : iter S A) dr s,
  gives it l dr -> length l < fuel -> iall fuel it p s = allm false l dr p s.
Proof.
  induction l as [|m l IH]; intros fuel it dr s [Hd H] HF; (destruct fuel as [|fuel]; [lia|]); cbn.
  - destruct (H s) as (it' & E & D). rewrite E. now rewrite (oos_eq _ _ _ _ D).
  - destruct (H s) as (it' & E & D & K). rewrite E. destruct (m s) as [r s1]. cbn in K.
    destruct r; cbn; try reflexivity.
    + destruct (p a s1) as [r2 s2]. destruct r2 as [[]| | |]; cbn; try reflexivity;
        try (rewrite (oos_eq _ _ _ _ D); reflexivity).
      apply IH; [now apply K|cbn in HF; lia].
    + now rewrite (oos_eq _ _ _ _ D).
Qed.

Lemma iany_gives {S A} (p : A -> M S bool) : forall l fuel (it : iter S A) dr s,
  gives it l dr -> length l < fuel -> iany fuel it p s = allm true l dr p s.
Proof.
  induction l as [|m l IH]; intros fuel it dr s [Hd H] HF; (destruct fuel as [|fuel]; [lia|]); cbn.
  - destruct (H s) as (it' & E & D). rewrite E. now rewrite (oos_eq _ _ _ _ D).
  - destruct (H s) as (it' & E & D & K). rewrite E. destruct (m s) as [r s1]. cbn in K.
    destruct r; cbn; try reflexivity.
    + destruct (p a s1) as [r2 s2]. destruct r2 as [[]| | |]; cbn; try reflexivity;
        try (rewrite (oos_eq _ _ _ _ D); reflexivity).
      apply IH; [now apply K|cbn in HF; lia].
    + now rewrite (oos_eq _ _ _ _ D).
Qed.

(** ** Cells *)
Lemma list_set_app {A} (l1 : list A) y l2 x : list_set (l1 ++ y :: l2) (length l1) x = l1 ++ x :: l2.
Proof. induction l1; cbn; congruence. Qed.
Lemma list_set_length {A} (l : list A) i x : length (list_set l i x) = length l.
Proof. revert i; induction l; intros [|i]; cbn; auto. Qed.
Lemma nth_error_mid {A} (l1 : list A) y l2 : nth_error (l1 ++ y :: l2) (length l1) = Some y.
Proof. induction l1; cbn; auto. Qed.

Lemma assume_init_live {S T} (xs : list T) (s : S) : assume_init (map Live xs) s = (Ok xs, s).
Proof. induction xs; cbn; [reflexivity|]. unfold bind. now rewrite IHxs. Qed.

(** Dropping the live cells [lo, lo + length xs). *)
Lemma drop_cells_live {S T} (d : ety S T) (pre : list (cell T)) (xs : list T) (post : list (cell T)) s :
  drop_cells d (length pre) (length pre + length xs) (pre ++ map Live xs ++ post) s
  = (Ok (pre ++ map Moved xs ++ post), drop_all d xs s).
Proof.
  unfold drop_cells, for_range. replace (length pre + length xs - length pre) with (length xs) by lia.
  revert pre s. induction xs as [|x xs IH]; intros pre s; cbn; [reflexivity|].
  unfold bind at 1.
  assert (E : drop_in_place d (pre ++ Live x :: map Live xs ++ post) (length pre) s
              = (Ok ((pre ++ [Moved x]) ++ map Live xs ++ post), e_drop d x s)).
  { unfold drop_in_place. rewrite nth_error_mid. unfold bind, tick, ret. cbn.
    rewrite list_set_app, <- app_assoc. reflexivity. }
  rewrite E. specialize (IH (pre ++ [Moved x]) (e_drop d x s)).
  rewrite app_length in IH. cbn in IH. rewrite IH, <- app_assoc. reflexivity.
Qed.

(** ** Collecting *)
Lemma seqm_ok_length {S T} (l : list (M S T)) dr s xs s' :
  seqm l dr s = (Ok xs, s') -> length xs = length l.
Proof.
  revert s xs s'. induction l as [|m l IH]; cbn; intros s xs s' H; [now injection H as <- _|].
  destruct (m s) as [[a| | |] s1]; try discriminate.
  destruct (seqm l dr s1) as [[ys| | |] s2] eqn:E; try discriminate.
  injection H as <- <-. cbn. f_equal. eapply IH; eauto.
Qed.

Lemma from_iter_finish_exact {S T} c (d : ety S T) xs (it : iter S T) dr s :
  gives it [] dr ->
  from_iter_finish c d (map Live xs) it s = (Ok xs, dr 0 s).
Proof.
  intros [Hd H]. unfold from_iter_finish. destruct (debug c).
  - destruct (H s) as (it' & E & D). unfold bind.
    assert (EC : icount d (fuel_count c) it 0 s = (Ok 0, dr 0 s)).
    { destruct (fuel_count c); cbn; rewrite E; now rewrite (oos_eq _ _ _ _ D). }
    rewrite EC. change (0 =? 0) with true. cbn [assert]. unfold ret. now rewrite assume_init_live.
  - unfold bind. rewrite assume_init_live. now rewrite (oos_eq _ _ _ _ Hd).
Qed.

Lemma from_iter_loop_exact {S T} c (d : ety S T) : forall l (it : iter S T) dr xs s,
  gives it l dr ->
  from_iter_loop c d (length l) (length xs) (map Live xs ++ repeat Uninit (length l)) it s
  = match seqm l dr s with (Ok ys, s') => (Ok (xs ++ ys), s') | (r, s') => (r, s') end.
Proof.
  induction l as [|m l IH]; intros it dr xs s H.
  - cbn. rewrite !app_nil_r. now apply from_iter_finish_exact.
  - destruct H as [Hd H]. cbn [length from_iter_loop seqm repeat].
    destruct (H s) as (it' & E & D & K). rewrite E. destruct (m s) as [r s1]. cbn in K.
    destruct r; cbn [omap]; try reflexivity.
    + unfold bind, ptr_write. rewrite app_length, map_length. cbn [length].
      destruct (Nat.ltb_spec (length xs) (length xs + Datatypes.S (length (repeat (@Uninit T) (length l))))); [|lia].
      unfold ret. rewrite <- (map_length Live xs) at 2. rewrite list_set_app.
      specialize (IH it' dr (xs ++ [a]) s1 (K I)).
      rewrite app_length, map_app, <- app_assoc in IH. cbn in IH. rewrite IH.
      destruct (seqm l dr s1) as [[ys| | |] s2]; try reflexivity. now rewrite <- app_assoc.
    + now rewrite (oos_eq _ _ _ _ D).
Qed.

(** Collecting an iterator that performs exactly [n] actions. *)
Theorem from_iter_gives {S T} c (d : ety S T) n (it : iter S T) l dr s :
  gives it l dr -> length l = n -> from_iter c d n it s = seqm l dr s.
Proof.
  intros H <-. unfold from_iter. pose proof (from_iter_loop_exact c d l it dr [] s H) as E.
  cbn [length map app] in E. rewrite E.
  destruct (seqm l dr s) as [[]]; reflexivity.
Qed.

(** ** Owning iterator as a source *)
Definition after {T} (pre : list T) (rest : list T) : into_iter_t T :=
  IntoIter (map Moved pre ++ map Live rest) (length pre) (length pre + length rest).

Lemma ptr_read_mid {S T} (d : ety S T) pre x post i (s : S) : i = length pre ->
  ptr_read d (pre ++ Live x :: post) i s = (Ok (x, pre ++ Moved x :: post), s).
Proof. intros ->. unfold ptr_read. now rewrite nth_error_mid, list_set_app. Qed.

Lemma ii_next_some {S T} c (d : ety S T) pre x rest s :
  length pre + Datatypes.S (length rest) < W c ->
  ii_next_fn c d (length pre + Datatypes.S (length rest)) (after pre (x :: rest), s)
  = (Ok (Some x), (after (pre ++ [x]) rest, s)).
Proof.
  intros HW. unfold ii_next_fn, after. unfold bind, self. cbn -[Nat.leb Nat.ltb].
  unfold debug_assert. rewrite Nat.leb_refl, andb_false_r.
  destruct (Nat.ltb_spec (length pre) (length pre + Datatypes.S (length rest))); [|lia].
  unfold usz_add. destruct (Nat.ltb_spec (length pre + 1) (W c)); [|lia].
  cbn. unfold lift; cbn. rewrite ptr_read_mid by now rewrite map_length. cbn.
  rewrite app_length, map_app, <- app_assoc. cbn.
  replace (length pre + 1 + length rest) with (length pre + Datatypes.S (length rest)) by lia. reflexivity.
Qed.

Lemma ii_next_none {S T} c (d : ety S T) (pre : list T) s :
  ii_next_fn c d (length pre) (after pre [], s) = (Ok None, (after pre [], s)).
Proof.
  unfold ii_next_fn, after. unfold bind, self. cbn -[Nat.leb Nat.ltb]. rewrite Nat.add_0_r.
  unfold debug_assert. rewrite Nat.leb_refl, andb_false_r, Nat.ltb_irrefl. reflexivity.
Qed.

Lemma ii_drop_after {S T} (d : ety S T) pre rest s :
  ii_drop d (after pre rest) s = (Ok tt, drop_all d rest s).
Proof.
  unfold ii_drop, after, bind; cbn -[drop_cells].
  pose proof (drop_cells_live d (map Moved pre) rest [] s) as H.
  rewrite map_length, !app_nil_r in H. now rewrite H.
Qed.

Definition lastn {T} (k : nat) (l : list T) : list T := skipn (length l - k) l.
Lemma lastn_all {T} (l : list T) : lastn (length l) l = l.
Proof. unfold lastn. now rewrite Nat.sub_diag. Qed.
Lemma lastn_app {T} (a b : list T) : lastn (length b) (a ++ b) = b.
Proof.
  unfold lastn. rewrite app_length. replace (length a + length b - length b) with (length a) by lia.
  rewrite skipn_app, skipn_all, Nat.sub_diag. reflexivity.
Qed.
Lemma lastn_0 {T} (l : list T) : lastn 0 l = [].
Proof. unfold lastn. rewrite Nat.sub_0_r. apply skipn_all. Qed.

Lemma into_it_gives {S T} c (d : ety S T) n (v : list T) :
  length v = n -> n < W c ->
  gives (into_it c d n v) (map ret v) (fun k => drop_all d (lastn k v)).
Proof.
  intros <- HW. unfold into_it, ii_iter.
  apply (gives_intro _ _ (fun st acts => exists pre rest, st = after pre rest /\ acts = map ret rest /\
           v = pre ++ rest)).
  - intros st l (pre & rest & -> & -> & ->) s. rewrite ii_drop_after, map_length, lastn_app. reflexivity.
  - intros st (pre & rest & -> & E & ->) s. destruct rest; [|discriminate].
    exists (after pre []). rewrite app_nil_r. split; [apply ii_next_none|].
    intros s1. rewrite ii_drop_after, lastn_0. reflexivity.
  - intros st m l (pre & rest & -> & E & ->) s. destruct rest as [|x rest]; [discriminate|].
    injection E as -> ->. exists (after (pre ++ [x]) rest).
    rewrite app_length in *. cbn [length] in *. split; [now apply ii_next_some|]. split.
    + intros s1. rewrite ii_drop_after, map_length.
      replace (pre ++ x :: rest) with ((pre ++ [x]) ++ rest) by now rewrite <- app_assoc.
      now rewrite lastn_app.
    + intros _. exists (pre ++ [x]), rest. repeat split. now rewrite <- app_assoc.
  - exists [], v. unfold after, into_iter; cbn. repeat split.
Qed.

Lemma Forall2_length {A B} (R : A -> B -> Prop) l l' : Forall2 R l l' -> length l = length l'.
Proof. induction 1; cbn; congruence. Qed.

(** ** Pure runs *)
Lemma seqm_ret {S T} (l : list T) dr (s : S) : seqm (map ret l) dr s = (Ok l, dr 0 s).
Proof. induction l; cbn; [reflexivity|]. now rewrite IHl. Qed.
Lemma seqm_pure {S T U} (l : list U) (f : U -> M S T) (g : U -> T) dr (s : S) :
  (forall x s, In x l -> f x s = (Ok (g x), s)) -> seqm (map f l) dr s = (Ok (map g l), dr 0 s).
Proof.
  intros H. induction l as [|x l IH]; cbn; [reflexivity|]. rewrite H by now left.
  rewrite IH; [reflexivity|]. intros; apply H; now right.
Qed.
Lemma seqm_ext {S T} (l l' : list (M S T)) dr dr' s :
  Forall2 (fun a b => forall s, a s = b s) l l' -> (forall k s, dr k s = dr' k s) ->
  seqm l dr s = seqm l' dr' s.
Proof.
  intros H HD. revert s. induction H as [|a b l l' E H IH]; intros s; cbn; [now rewrite HD|].
  rewrite E. destruct (b s) as [[x| | |] s1]; try reflexivity.
  - now rewrite IH.
  - apply Forall2_length in H. unfold M in *. now rewrite H, HD.
Qed.
Lemma foldm_pure {S A B} (l : list A) dr (f : B -> A -> M S B) (g : B -> A -> B) st (s : S) :
  (forall b a s, In a l -> f b a s = (Ok (g b a), s)) ->
  foldm (map ret l) dr st f s = (Ok (fold_left g l st), dr 0 s).
Proof.
  revert st. induction l as [|a l IH]; intros st H; cbn; [reflexivity|].
  rewrite H by now left. apply IH. intros; apply H; now right.
Qed.
Lemma foldm_ext {S A B} (l l' : list (M S A)) dr dr' st (f : B -> A -> M S B) s :
  Forall2 (fun a b => forall s, a s = b s) l l' -> (forall k s, dr k s = dr' k s) ->
  foldm l dr st f s = foldm l' dr' st f s.
Proof.
  intros H HD. revert st s. induction H as [|a b l l' E H IH]; intros st s; cbn; [now rewrite HD|].
  rewrite E. apply Forall2_length in H. unfold M in *. destruct (b s) as [[x| | |] s1]; try reflexivity; rewrite ?H, ?HD; [|reflexivity].
  destruct (f st x s1) as [[y| | |] s2]; rewrite ?HD; auto.
Qed.
Lemma Forall2_map_map {A B C} (R : B -> C -> Prop) (f : A -> B) (g : A -> C) l :
  (forall x, In x l -> R (f x) (g x)) -> Forall2 R (map f l) (map g l).
Proof. induction l; cbn; constructor; auto. Qed.
