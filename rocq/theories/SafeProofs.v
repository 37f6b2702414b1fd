(** * SafeProofs.v - a logic for "never undefined behaviour, always well-shaped",
    for arbitrary element operations.  Used by PropsSafe.v. *)
From Coq Require Import List Arith Bool Lia.
From Verif Require Import Rust Iter Elem VectorM MatIterM MatrixM ArithM OpsM CmpM FmtM IterProofs MatProofs SpecCommon.
From Verif Require Import SpecSafe.
Import ListNotations.

(** [D]: divergence is allowed.  [I]: an invariant of the world that the code must keep, also
    when it panics. *)
Definition tri {S A} (D : Prop) (I : S -> Prop) (Q : A -> Prop) (m : M S A) : Prop :=
  forall s, I s ->
  match m s with
  | (Ok x, s') => I s' /\ Q x
  | (Panic, s') => I s'
  | (UB, _) => False
  | (Diverge, _) => D
  end.
Definition pI {X S} (J : X -> Prop) (I : S -> Prop) (xs : X * S) : Prop := J (fst xs) /\ I (snd xs).
Definition dsafe {S T} (I : S -> Prop) (d : ety S T) : Prop := forall x s, I s -> I (e_drop d x s).
Definition any {A} (_ : A) : Prop := True.
Definition opt {A} (Q : A -> Prop) (o : option A) : Prop := match o with Some x => Q x | None => True end.

Section Tri.
Context {S : Type} (D : Prop) (I : S -> Prop).
Notation "'T'" := (tri D I).

Lemma tri_ret {A} (Q : A -> Prop) x : Q x -> T Q (ret x).
Proof. intros H s HI. now split. Qed.
Lemma tri_panic {A} (Q : A -> Prop) : T Q panic.
Proof. intros s HI. exact HI. Qed.
Lemma tri_weak {A} (Q Q' : A -> Prop) m : T Q m -> (forall x, Q x -> Q' x) -> T Q' m.
Proof.
  intros H HQ s HI. specialize (H s HI). destruct (m s) as [[x| | |] s']; auto. destruct H. auto.
Qed.
Lemma tri_bind {A B} (Q : A -> Prop) (R : B -> Prop) m (k : A -> M S B) :
  T Q m -> (forall x, Q x -> T R (k x)) -> T R (bind m k).
Proof.
  intros H K s HI. unfold bind. specialize (H s HI). destruct (m s) as [[x| | |] s']; auto.
  destruct H as [HI' HQ]. exact (K x HQ s' HI').
Qed.
Lemma tri_seq {A B} (R : B -> Prop) (m : M S A) k : T any m -> T R k -> T R (m ;;; k).
Proof. intros H K. eapply tri_bind; [exact H|]. auto. Qed.
Lemma tri_assert b : T any (assert b).
Proof. destruct b; [now apply tri_ret|apply tri_panic]. Qed.
Lemma tri_dbg c b : T any (debug_assert c b).
Proof. unfold debug_assert. destruct (_ && _); [apply tri_panic|now apply tri_ret]. Qed.
Lemma tri_usz_add c a b : T any (usz_add c a b).
Proof.
  unfold usz_add. destruct (_ <? _); [now apply tri_ret|]. destruct (debug c); [apply tri_panic|now apply tri_ret].
Qed.
Lemma tri_usz_sub c a b : T any (usz_sub c a b).
Proof.
  unfold usz_sub. destruct (_ <=? _); [now apply tri_ret|]. destruct (debug c); [apply tri_panic|now apply tri_ret].
Qed.
Lemma tri_unwrap {A} (Q : A -> Prop) o : opt Q o -> T Q (unwrap o).
Proof. destruct o; cbn; intros H; [now apply tri_ret|apply tri_panic]. Qed.
Lemma tri_tick (f : S -> S) : (forall s, I s -> I (f s)) -> T any (tick f).
Proof. intros H s HI. cbn. split; [auto|exact Logic.I]. Qed.
Lemma tri_slice_index {A} (Q : A -> Prop) l i : Forall Q l -> T Q (slice_index l i).
Proof.
  intros H. unfold slice_index. destruct (nth_error l i) eqn:E; [|apply tri_panic].
  apply tri_ret. rewrite Forall_forall in H. eapply H, nth_error_In, E.
Qed.
Lemma tri_get_unchecked {A} (Q : A -> Prop) l i : Forall Q l -> i < length l -> T Q (slice_get_unchecked l i).
Proof.
  intros H HL. unfold slice_get_unchecked. destruct (nth_error l i) eqn:E.
  - apply tri_ret. rewrite Forall_forall in H. eapply H, nth_error_In, E.
  - apply nth_error_None in E. lia.
Qed.
Lemma list_set_vec {A} (Q : A -> Prop) n l i x : vec n Q l -> Q x -> vec n Q (list_set l i x).
Proof.
  intros [HL HF] Hx. split; [now rewrite list_set_length|]. clear HL.
  revert i. induction HF as [|y l Hy HF IH]; intros [|i]; cbn; auto.
Qed.
Lemma tri_slice_assign {A} (Q : A -> Prop) n l i x : vec n Q l -> Q x -> T (vec n Q) (slice_assign l i x).
Proof.
  intros H Hx. unfold slice_assign. destruct (_ <? _); [|apply tri_panic].
  apply tri_ret. now apply list_set_vec.
Qed.
Lemma tri_assign_unchecked {A} (Q : A -> Prop) n l i x :
  vec n Q l -> Q x -> i < n -> T (vec n Q) (slice_assign_unchecked l i x).
Proof.
  intros H Hx Hi. unfold slice_assign_unchecked. destruct H as [HL HF].
  destruct (Nat.ltb_spec i (length l)); [|lia]. apply tri_ret. now apply list_set_vec.
Qed.
Lemma tri_vget {A} (Q : A -> Prop) c n v i : vec n Q v -> i < n -> T Q (vget_unchecked c n v i).
Proof.
  intros [HL HF] Hi. apply tri_seq; [apply tri_dbg|]. apply tri_get_unchecked; [exact HF|].
  unfold as_slice. now rewrite HL.
Qed.
Lemma tri_vset {A} (Q : A -> Prop) c n v i x :
  vec n Q v -> Q x -> i < n -> T (vec n Q) (vset_unchecked c n v i x).
Proof. intros H Hx Hi. apply tri_seq; [apply tri_dbg|]. now apply tri_assign_unchecked. Qed.
Lemma tri_for_n {B} (R : B -> Prop) body : forall k i st,
  (forall j st, i <= j < i + k -> R st -> T R (body j st)) -> R st -> T R (for_n k i body st).
Proof.
  induction k as [|k IH]; intros i st H HR; cbn [for_n]; [now apply tri_ret|].
  eapply tri_bind; [apply H; [lia|exact HR]|]. intros st' HR'. apply IH; [|exact HR'].
  intros j st2 Hj. apply H. lia.
Qed.
Lemma tri_for_range {B} (R : B -> Prop) body lo hi st :
  (forall j st, lo <= j < hi -> R st -> T R (body j st)) -> R st -> T R (for_range lo hi body st).
Proof. intros H HR. apply tri_for_n; [|exact HR]. intros j st' Hj. apply H. lia. Qed.
Definition either {A B} (R : A -> Prop) (V : B -> Prop) (x : A + B) : Prop :=
  match x with inl a => R a | inr b => V b end.
Lemma tri_for_range_ret {B C} (R : B -> Prop) (V : C -> Prop) body lo hi st :
  (forall j st, lo <= j < hi -> R st -> T (either R V) (body j st)) -> R st ->
  T (either R V) (for_range_ret lo hi body st).
Proof.
  unfold for_range_ret. intros H HR.
  assert (H' : forall j st, lo <= j < lo + (hi - lo) -> R st -> T (either R V) (body j st))
    by (intros j st' Hj; apply H; lia).
  clear H. revert H'. generalize (hi - lo) as k. intros k. revert lo st HR. induction k as [|k IH]; intros lo st HR H; cbn [for_n_ret].
  - now apply tri_ret.
  - eapply tri_bind; [apply H; [lia|exact HR]|]. intros [st'|v] HR'.
    + apply IH; [exact HR'|]. intros j st2 Hj. apply H. lia.
    + now apply tri_ret.
Qed.

(** ** Iterators.  [k]: a bound on the number of items; [B]: the bound may be ignored. *)
Definition droppable {A} (dr : A -> M S unit) (st : A) : Prop := T any (dr st).
Definition steps {A St} (B : Prop) (Q : A -> Prop) (Inv : nat -> St -> Prop)
    (nx : M (St * S) (option A)) (dr : St -> M S unit) : Prop :=
  forall k st, Inv k st -> droppable dr st /\
  forall s, I s ->
  match nx (st, s) with
  | (Ok None, (st', s')) => I s' /\ droppable dr st'
  | (Ok (Some x), (st', s')) => I s' /\ Q x /\ exists k', (B \/ k = Datatypes.S k') /\ Inv k' st'
  | (Panic, (st', s')) => I s' /\ droppable dr st'
  | (UB, _) => False
  | (Diverge, _) => D
  end.
Definition isafe {A} (B : Prop) (Q : A -> Prop) (k : nat) (it : iter S A) : Prop :=
  exists Inv, Inv k (i_cur it) /\ steps B Q Inv (i_next it) (i_drop it).
Definition dropok {A} (it : iter S A) : Prop := T any (drop_iter it).

Lemma isafe_next {A} (B : Prop) (Q : A -> Prop) k it s : isafe B Q k it -> I s ->
  match next (it, s) with
  | (Ok None, (it', s')) => I s' /\ dropok it'
  | (Ok (Some x), (it', s')) => I s' /\ Q x /\ exists k', (B \/ k = Datatypes.S k') /\ isafe B Q k' it'
  | (Panic, (it', s')) => I s' /\ dropok it'
  | (UB, _) => False
  | (Diverge, _) => D
  end.
Proof.
  intros (Inv & H0 & H) HI. unfold next. destruct (H _ _ H0) as [_ H1]. specialize (H1 s HI).
  destruct (i_next it (i_cur it, s)) as [r [st' s']]. destruct r as [[x|]| | |]; auto.
  destruct H1 as (H1 & H2 & k' & Hk & H3). repeat split; auto. exists k'. split; [exact Hk|].
  exists Inv. now split.
Qed.
Lemma isafe_drop {A} (B : Prop) (Q : A -> Prop) k it : isafe B Q k it -> dropok it.
Proof. intros (Inv & H0 & H). exact (proj1 (H _ _ H0)). Qed.
Lemma isafe_weak {A} (B : Prop) (Q Q' : A -> Prop) k it : isafe B Q k it -> (forall x, Q x -> Q' x) -> isafe B Q' k it.
Proof.
  intros (Inv & H0 & H) HQ. exists Inv. split; [exact H0|]. intros k1 st Hk. destruct (H _ _ Hk) as [HD H1].
  split; [exact HD|]. intros s HI. specialize (H1 s HI).
  destruct (i_next it (st, s)) as [[[x|]| | |] [st' s']]; auto. intuition.
Qed.
Lemma tri_oos {A R} (Q : R -> Prop) (it : iter S A) (r : R) : dropok it -> Q r -> T Q (out_of_scope it (Ok r)).
Proof. intros H HQ. eapply tri_seq; [exact H|]. now apply tri_ret. Qed.
Lemma tri_oos_panic {A R} (Q : R -> Prop) (it : iter S A) : dropok it -> T Q (out_of_scope it Panic).
Proof. intros H. eapply tri_seq; [exact H|]. apply tri_panic. Qed.

(** *** Consumers *)
Lemma tri_for_each {A C} (B : Prop) (Q : A -> Prop) (R : C -> Prop) body : (B -> D) ->
  (forall st x, R st -> Q x -> T R (body st x)) ->
  forall fuel k it st, isafe B Q k it -> (D \/ k < fuel) -> R st -> T R (for_each fuel it st body).
Proof.
  intros HB HBody. induction fuel as [|fuel IH]; intros k it st Hit Hk HR s HI.
  - cbn. destruct Hk; [assumption|lia].
  - cbn [for_each]. pose proof (isafe_next _ _ _ _ s Hit HI) as N.
    destruct (next (it, s)) as [[[x|]| | |] [it' s']]; auto.
    + destruct N as (HI' & HQ & k' & Hk' & Hit').
      pose proof (HBody st x HR HQ s' HI') as Bd.
      destruct (body st x s') as [[st'| | |] s'']; auto.
      * apply (IH k' it' st' Hit'); [destruct Hk as [?|Hk]; [now left|]; destruct Hk' as [?| ->]; [left; auto|right; lia]|apply Bd|apply Bd].
      * apply (tri_oos_panic R it' (isafe_drop _ _ _ _ Hit') s'' Bd).
    + destruct N. now apply tri_oos.
    + destruct N. now apply tri_oos_panic.
Qed.
Lemma tri_iall {A} (B : Prop) (Q : A -> Prop) p : (B -> D) -> (forall x, Q x -> T any (p x)) ->
  forall fuel k it, isafe B Q k it -> (D \/ k < fuel) -> T any (iall fuel it p).
Proof.
  intros HB HP. induction fuel as [|fuel IH]; intros k it Hit Hk s HI.
  - cbn. destruct Hk; [assumption|lia].
  - cbn [iall]. pose proof (isafe_next _ _ _ _ s Hit HI) as N.
    destruct (next (it, s)) as [[[x|]| | |] [it' s']]; auto.
    + destruct N as (HI' & HQ & k' & Hk' & Hit').
      pose proof (HP x HQ s' HI') as Bd.
      destruct (p x s') as [[[]| | |] s'']; auto.
      * apply (IH k' it' Hit'); [destruct Hk as [?|Hk]; [now left|]; destruct Hk' as [?| ->]; [left; auto|right; lia]|apply Bd].
      * apply tri_oos; [apply (isafe_drop _ _ _ _ Hit')|exact Logic.I|apply Bd].
      * apply tri_oos_panic; [apply (isafe_drop _ _ _ _ Hit')|exact Bd].
    + destruct N. now apply tri_oos.
    + destruct N. now apply tri_oos_panic.
Qed.
Lemma tri_iany {A} (B : Prop) (Q : A -> Prop) p : (B -> D) -> (forall x, Q x -> T any (p x)) ->
  forall fuel k it, isafe B Q k it -> (D \/ k < fuel) -> T any (iany fuel it p).
Proof.
  intros HB HP. induction fuel as [|fuel IH]; intros k it Hit Hk s HI.
  - cbn. destruct Hk; [assumption|lia].
  - cbn [iany]. pose proof (isafe_next _ _ _ _ s Hit HI) as N.
    destruct (next (it, s)) as [[[x|]| | |] [it' s']]; auto.
    + destruct N as (HI' & HQ & k' & Hk' & Hit').
      pose proof (HP x HQ s' HI') as Bd.
      destruct (p x s') as [[[]| | |] s'']; auto.
      * apply tri_oos; [apply (isafe_drop _ _ _ _ Hit')|exact Logic.I|apply Bd].
      * apply (IH k' it' Hit'); [destruct Hk as [?|Hk]; [now left|]; destruct Hk' as [?| ->]; [left; auto|right; lia]|apply Bd].
      * apply tri_oos_panic; [apply (isafe_drop _ _ _ _ Hit')|exact Bd].
    + destruct N. now apply tri_oos.
    + destruct N. now apply tri_oos_panic.
Qed.
Lemma tri_icount {A} (B : Prop) (Q : A -> Prop) (d : ety S A) : (B -> D) -> dsafe I d ->
  forall fuel k it acc, isafe B Q k it -> (D \/ k <= fuel) -> T any (icount d fuel it acc).
Proof.
  intros HB Hd. induction fuel as [|fuel IH]; intros k it acc Hit Hk s HI; cbn [icount];
    pose proof (isafe_next _ _ _ _ s Hit HI) as N;
    destruct (next (it, s)) as [[[x|]| | |] [it' s']]; auto.
  - destruct N as (_ & _ & k' & Hk' & _). destruct Hk as [?|Hk]; [assumption|]. destruct Hk' as [?| ->]; [auto|lia].
  - destruct N. now apply tri_oos.
  - destruct N. now apply tri_oos_panic.
  - destruct N as (HI' & HQ & k' & Hk' & Hit'). apply (IH k'); [exact Hit'| |now apply Hd].
    destruct Hk as [?|Hk]; [now left|]. destruct Hk' as [?| ->]; [left; auto|right; lia].
  - destruct N. now apply tri_oos.
  - destruct N. now apply tri_oos_panic.
Qed.
Lemma dsafe_all {A} (d : ety S A) l s : dsafe I d -> I s -> I (drop_all d l s).
Proof. intros Hd. unfold drop_all. revert s. induction l; cbn; intros s HI; auto. Qed.
Lemma dsafe_vec {A} (d : ety S A) : dsafe I d -> dsafe I (vec_ety d).
Proof. intros Hd x s HI. now apply dsafe_all. Qed.
Lemma dsafe_ref {A} : dsafe I (@ref_ety S A).
Proof. intros x s HI. exact HI. Qed.

Lemma tri_from_iter_loop {A} (B : Prop) (Q : A -> Prop) c (d : ety S A) : (B -> D) -> dsafe I d ->
  forall k xs r it, isafe B Q r it -> (D \/ r <= k + fuel_count c) -> Forall Q xs ->
  T (vec (length xs + k) Q) (from_iter_loop c d k (length xs) (map Live xs ++ repeat Uninit k) it).
Proof.
  intros HB Hd. induction k as [|k IH]; intros xs r it Hit Hr HF; cbn [from_iter_loop repeat].
  - rewrite app_nil_r, Nat.add_0_r. unfold from_iter_finish. destruct (debug c).
    + eapply tri_bind; [apply (tri_icount B Q d HB Hd (fuel_count c) r it 0 Hit Hr)|]. intros cnt _.
      apply tri_seq; [apply tri_assert|]. intros s HI. rewrite assume_init_live. now split.
    + intros s HI. unfold bind. rewrite assume_init_live.
      apply (tri_oos (vec (length xs) Q)); [apply (isafe_drop _ _ _ _ Hit)|now split|exact HI].
  - intros s HI. pose proof (isafe_next _ _ _ _ s Hit HI) as N.
    destruct (next (it, s)) as [[[x|]| | |] [it' s']]; auto.
    + destruct N as (HI' & HQ & k' & Hk' & Hit').
      unfold bind, ptr_write. rewrite app_length, map_length. cbn [length].
      destruct (Nat.ltb_spec (length xs) (length xs + Datatypes.S (length (repeat (@Uninit A) k)))); [|lia].
      assert (EL : list_set (map Live xs ++ Uninit :: repeat Uninit k) (length xs) (Live x)
                   = map Live xs ++ Live x :: repeat Uninit k).
      { pose proof (list_set_app (map Live xs) Uninit (repeat Uninit k) (Live x)) as E0.
        rewrite map_length in E0. exact E0. }
      unfold ret. rewrite EL.
      assert (HF' : Forall Q (xs ++ [x])) by (apply Forall_app; auto).
      assert (Hr' : D \/ k' <= k + fuel_count c)
        by (destruct Hr as [?|Hr]; [now left|]; destruct Hk' as [?| ->]; [left; auto|right; lia]).
      pose proof (IH (xs ++ [x]) k' it' Hit' Hr' HF') as E.
      rewrite app_length, map_app, <- app_assoc in E. cbn [length map app] in E.
      replace (length xs + 1 + k) with (length xs + Datatypes.S k) in E by lia. exact (E s' HI').
    + destruct N as [HI' HD']. unfold bind.
      pose proof (drop_cells_live d [] xs (Uninit :: repeat Uninit k) s') as E. cbn [length app plus] in E.
      rewrite E. apply tri_oos_panic; [exact HD'|]. now apply dsafe_all.
    + destruct N. now apply tri_oos_panic.
Qed.
Lemma tri_from_iter {A} (B : Prop) (Q : A -> Prop) c (d : ety S A) n r it : (B -> D) -> dsafe I d ->
  isafe B Q r it -> (D \/ r <= n + fuel_count c) -> T (vec n Q) (from_iter c d n it).
Proof.
  intros HB Hd Hit Hr. exact (tri_from_iter_loop B Q c d HB Hd n [] r it Hit Hr (Forall_nil _)).
Qed.

(** *** Sources and adapters *)
Lemma isafe_slice {A} (B : Prop) (Q : A -> Prop) l : Forall Q l -> isafe B Q (length l) (slice_iter l).
Proof.
  intros HF. exists (fun k st => k = length st /\ Forall Q st). split; [now split|].
  intros k st [-> HS]. split; [now apply tri_ret|]. intros s HI. cbn.
  destruct HS as [|x l' Hx HS]; cbn.
  - split; [exact HI|now apply tri_ret].
  - repeat split; auto. exists (length l'). split; [now right|]. now split.
Qed.
Lemma isafe_range (B : Prop) lo hi : isafe B (fun i => lo <= i < hi) (hi - lo) (range lo hi).
Proof.
  exists (fun k st => exists a, st = (a, hi) /\ lo <= a /\ k = hi - a). split; [exists lo; cbn; repeat split; lia|].
  intros k st (a & -> & Ha & ->). split; [now apply tri_ret|]. intros s HI. cbn -[Nat.ltb].
  unfold bind, self, set_self, ret. cbn -[Nat.ltb]. destruct (Nat.ltb_spec a hi); cbn.
  - repeat split; auto; try lia. exists (hi - (a + 1)). split; [right; lia|]. exists (a + 1). repeat split; lia.
  - split; [exact HI|now apply tri_ret].
Qed.
Lemma isafe_imap {A C} (B : Prop) (Q : A -> Prop) (R : C -> Prop) f k it :
  isafe B Q k it -> (forall a, Q a -> T R (f a)) -> isafe B R k (imap f it).
Proof.
  intros (Inv & H0 & H) Hf. exists Inv. split; [exact H0|]. intros k1 st Hk. destruct (H _ _ Hk) as [HD H1].
  split; [exact HD|]. intros s HI. cbn [imap i_next]. unfold bind, lift. specialize (H1 s HI).
  cbn [i_drop imap i_st] in *.
  destruct (i_next it (st, s)) as [[[x|]| | |] [st' s']]; auto.
  destruct H1 as (HI' & HQ & k' & Hk' & Hi). cbn. specialize (Hf x HQ s' HI').
  destruct (f x s') as [[y| | |] s'']; cbn; auto.
  - destruct Hf. repeat split; auto. now exists k'.
  - split; [exact Hf|]. exact (proj1 (H _ _ Hi)).
Qed.
Lemma isafe_enumerate {A} (B : Prop) (Q : A -> Prop) k it :
  isafe B Q k it -> isafe B (fun p => (B \/ fst p < k) /\ Q (snd p)) k (enumerate it).
Proof.
  intros (Inv & H0 & H).
  exists (fun r st => Inv r (snd st) /\ (B \/ fst st + r <= k)). split; [split; [exact H0|right; cbn; lia]|].
  intros r [i st] [Hi Hr]. cbn [fst snd] in *. destruct (H _ _ Hi) as [HD H1].
  split; [exact HD|]. intros s HI. specialize (H1 s HI). cbn.
  destruct (i_next it (st, s)) as [[[x|]| | |] [st' s']]; auto.
  destruct H1 as (HI' & HQ & k' & Hk' & Hi'). cbn. repeat split; auto.
  - destruct Hr; [now left|]. destruct Hk' as [?| ->]; [now left|right; lia].
  - exists k'. repeat split; auto. destruct Hr; [now left|]. destruct Hk' as [?| ->]; [now left|right; lia].
Qed.
Lemma isafe_zip {A C} (B B' : Prop) (Q : A -> Prop) (R : C -> Prop) (da : ety S A) k k' ia ib :
  dsafe I da -> isafe B Q k ia -> isafe B' R k' ib ->
  isafe B (fun p => Q (fst p) /\ R (snd p)) k (zip da ia ib).
Proof.
  intros Hda (InvA & A0 & HA) (InvB & B0 & HB).
  exists (fun r st => InvA r (fst st) /\ exists q, InvB q (snd st)). split; [split; [exact A0|now exists k']|].
  intros r [sa sb] [Ha [q Hb]]. cbn [fst snd] in *.
  destruct (HA _ _ Ha) as [DA A1]. destruct (HB _ _ Hb) as [DB B1].
  assert (DD : forall sa sb, droppable (i_drop ia) sa -> droppable (i_drop ib) sb ->
             droppable (i_drop (zip da ia ib)) (sa, sb)).
  { intros a b H1 H2. unfold droppable. cbn. now apply tri_seq. }
  split; [now apply DD|]. intros s HI. specialize (A1 s HI). cbn.
  destruct (i_next ia (sa, s)) as [[[x|]| | |] [sa' s1]]; auto.
  - destruct A1 as (HI1 & HQ & r' & Hr' & Ha'). specialize (B1 s1 HI1).
    destruct (i_next ib (sb, s1)) as [[[y|]| | |] [sb' s2]]; auto.
    + destruct B1 as (HI2 & HR & q' & _ & Hb'). repeat split; auto. exists r'. repeat split; auto. now exists q'.
    + destruct B1. split; [now apply Hda|]. apply DD; [exact (proj1 (HA _ _ Ha'))|assumption].
    + destruct B1. split; [now apply Hda|]. apply DD; [exact (proj1 (HA _ _ Ha'))|assumption].
  - destruct A1. split; [assumption|]. now apply DD.
  - destruct A1. split; [assumption|]. now apply DD.
Qed.
Lemma isafe_take {A} (B B' : Prop) (Q : A -> Prop) k n it : isafe B' Q k it -> isafe B Q n (take n it).
Proof.
  intros (Inv & H0 & H). exists (fun r st => fst st = r /\ exists k, Inv k (snd st)).
  split; [split; [reflexivity|now exists k]|]. intros r [i st] [<- [k1 Hk]]. cbn [fst snd] in *.
  destruct (H _ _ Hk) as [HD H1]. split; [exact HD|]. intros s HI. cbn. destruct i as [|i]; cbn.
  - split; [exact HI|exact HD].
  - specialize (H1 s HI). destruct (i_next it (st, s)) as [[[x|]| | |] [st' s']]; auto.
    destruct H1 as (HI' & HQ & k' & _ & Hi'). repeat split; auto. exists i. split; [now right|].
    split; [reflexivity|now exists k'].
Qed.
Lemma isafe_filter {A} (B : Prop) (Q : A -> Prop) (d : ety S A) p k fuel it : (B -> D) -> dsafe I d ->
  isafe B Q k it -> (D \/ k < fuel) -> isafe B Q k (filter fuel d p it).
Proof.
  intros HB Hd (Inv & H0 & H) Hf. exists (fun r st => exists q, Inv q st /\ (B \/ q <= r) /\ (B \/ r <= k)).
  split; [exists k; repeat split; auto|].
  intros r st (q & Hq & Hqr & Hr). split; [exact (proj1 (H _ _ Hq))|]. cbn [filter i_next i_drop i_st] in *.
  assert (HF : D \/ q < fuel).
  { destruct Hf as [?|Hf]; [now left|]. destruct Hqr as [?|?]; [left; auto|]. destruct Hr as [?|?]; [left; auto|]. right; lia. }
  clear Hf. revert q st Hq Hqr HF. induction fuel as [|fuel IH]; intros q st Hq Hqr HF s HI.
  - cbn. destruct HF; [assumption|lia].
  - cbn [filter_next]. unfold bind. destruct (H _ _ Hq) as [_ H1]. specialize (H1 s HI).
    destruct (i_next it (st, s)) as [[[x|]| | |] [st' s']]; auto.
    destruct H1 as (HI' & HQ & q' & Hq' & Hi'). destruct (p x).
    + cbn. repeat split; auto.
      destruct r as [|r].
      * exists 0. split; [|exists q'; repeat split; auto].
        -- left. destruct Hq' as [?| ->]; [assumption|]. destruct Hqr; [assumption|lia].
        -- left. destruct Hq' as [?| ->]; [assumption|]. destruct Hqr; [assumption|lia].
      * exists r. split; [now right|]. exists q'. repeat split; auto.
        -- destruct Hqr; [now left|]. destruct Hq' as [?| ->]; [now left|right; lia].
        -- destruct Hr; [now left|right; lia].
    + cbn. apply (IH q' st' Hi').
      * destruct Hqr; [now left|]. destruct Hq' as [?| ->]; [now left|right; lia].
      * destruct HF; [now left|]. destruct Hq' as [?| ->]; [left; auto|right; lia].
      * now apply Hd.
Qed.
Lemma isafe_into {A} (B : Prop) (Q : A -> Prop) c (d : ety S A) n v : dsafe I d -> n < W c -> vec n Q v ->
  isafe B Q n (into_it c d n v).
Proof.
  intros Hd HW [HL HF].
  exists (fun r st => exists pre rest, st = after pre rest /\ length pre + length rest = n /\ r = length rest /\ Forall Q rest).
  split; [exists [], v; unfold after; cbn; rewrite HL; auto|].
  intros r st (pre & rest & -> & HN & -> & HR).
  assert (DD : forall pre rest, droppable (ii_drop d) (@after A pre rest)).
  { intros p q s HI. rewrite ii_drop_after. split; [now apply dsafe_all|exact Logic.I]. }
  split; [apply DD|]. intros s HI. cbn [into_it ii_iter i_next i_drop i_st] in *. destruct HR as [|x rest Hx HR].
  - cbn in HN. rewrite Nat.add_0_r in HN. rewrite <- HN, ii_next_none. split; [exact HI|apply DD].
  - cbn in HN. rewrite <- HN, ii_next_some by lia. repeat split; auto.
    exists (length rest). split; [now right|]. exists (pre ++ [x]), rest. rewrite app_length. cbn. repeat split; auto; lia.
Qed.
End Tri.

(** ** Iterators already characterised by [gives] *)
Section Gives.
Context {S : Type} (D : Prop) (I : S -> Prop).
Lemma isafe_gives {A} (B : Prop) (Q : A -> Prop) (it : iter S A) l dr :
  gives it l dr -> Forall (tri D I Q) l -> (forall k s, I s -> I (dr k s)) -> isafe D I B Q (length l) it.
Proof.
  intros G HF Hdr.
  exists (fun k st => exists l, gives (MkIter (i_st it) st (i_next it) (i_drop it)) l dr /\ length l = k /\ Forall (tri D I Q) l).
  split; [exists l; repeat split; auto; now apply gives_eta|].
  clear l G HF. intros k st (l & G & <- & HF).
  assert (DD : forall st k, (forall s, i_drop it st s = (Ok tt, dr k s)) -> droppable D I (i_drop it) st).
  { intros st1 k H s HI. rewrite H. split; [now apply Hdr|exact Logic.I]. }
  split; [apply (DD st (length l)); exact (gives_drop _ _ _ G)|].
  intros s HI. destruct l as [|m l]; destruct G as [_ G]; destruct (G s) as (it' & E & K); unfold next in E; cbn in E;
    destruct (i_next it (st, s)) as [r [st' s']].
  - injection E as -> <- <-. split; [exact HI|]. apply (DD st' 0). exact K.
  - destruct K as [K1 K2]. inversion HF as [|? ? Hm HF']; subst. specialize (Hm s HI).
    destruct (m s) as [r0 s0]. injection E as -> <- <-. cbn in K2.
    assert (DS : droppable D I (i_drop it) st') by (apply (DD st' (length l)); exact K1).
    destruct r0 as [x| | |]; cbn [omap]; auto. destruct Hm as [HI' HQ]. repeat split; auto.
    exists (length l). split; [now right|]. exists l. split; [apply K2; exact Logic.I|]. split; auto.
Qed.
Lemma tri_in_order {A C} (Q : C -> Prop) (f : A -> M S C) l :
  (forall x, In x l -> tri D I Q (f x)) -> tri D I (vec (length l) Q) (in_order f l).
Proof.
  induction l as [|x l IH]; intros H s HI; cbn [in_order].
  - repeat split; auto.
  - assert (H1 : tri D I Q (f x)) by (apply H; now left). specialize (H1 s HI).
    destruct (f x s) as [[y| | |] s1]; auto. destruct H1 as [HI1 Hy].
    assert (H2 : tri D I (vec (length l) Q) (in_order f l)) by (apply IH; intros z Hz; apply H; now right).
    specialize (H2 s1 HI1). destruct (in_order f l s1) as [[ys| | |] s2]; auto.
    destruct H2 as [HI2 [HL HF]]. split; [exact HI2|]. split; cbn; auto.
Qed.
Lemma mat_rect {T} (P : T -> Prop) row col m : mat row col P m -> rect row col m.
Proof. intros [HL HF]. split; [exact HL|]. eapply Forall_impl; [|exact HF]. intros r [H _]. exact H. Qed.
Lemma Forall_ret {A} (Q : A -> Prop) l : Forall Q l -> Forall (tri D I Q) (map ret l).
Proof. intros H. apply Forall_map. eapply Forall_impl; [|exact H]. intros x Hx. now apply tri_ret. Qed.
Lemma keep_nodrop : forall k s, I s -> I (@nodrop S k s).
Proof. intros k s HI. exact HI. Qed.
Lemma isafe_rr {T} (B : Prop) (Q : list T -> Prop) c row m : vec row Q m -> row < W c ->
  isafe D I B Q row (rows_iter_ref c row m).
Proof.
  intros [HL HF] HW. pose proof (isafe_gives B Q _ _ _ (rr_gives c row m HL HW) (Forall_ret Q m HF) keep_nodrop) as H.
  now rewrite map_length, HL in H.
Qed.
Definition colit (row col : nat) (p : nat * cursor) : Prop := fst p < col /\ snd p = Cursor 0 row.
Lemma isafe_cr (B : Prop) c row col : col < W c -> isafe D I B (colit row col) col (cols_iter_ref c row col).
Proof.
  intros HW.
  assert (HF : Forall (colit row col) (map (fun j => (j, Cursor 0 row)) (seq 0 col))).
  { apply Forall_map, Forall_forall. intros j Hj. apply in_seq in Hj. split; cbn; [lia|reflexivity]. }
  pose proof (isafe_gives B (colit row col) _ _ _ (cr_gives c row col HW) (Forall_ret _ _ HF) keep_nodrop) as H.
  now rewrite !map_length, seq_length in H.
Qed.
Lemma col_of_vec {T} (P : T -> Prop) row col (m : list (list T)) j : mat row col P m -> j < col -> vec row P (col_of m j).
Proof.
  intros [HL HF] Hj. revert row HL. induction HF as [|r m [Hr HP] HF IH]; intros row HL; cbn in *.
  - now split.
  - destruct row as [|row]; [discriminate|]. injection HL as HL. specialize (IH row HL).
    destruct (nth_error r j) as [x|] eqn:E.
    + destruct IH as [I1 I2]. unfold col_of in *. cbn. rewrite ?E. cbn. split; cbn; [now rewrite I1|].
      constructor; [|exact I2]. rewrite Forall_forall in HP. eapply HP, nth_error_In, E.
    + apply nth_error_None in E. lia.
Qed.
Lemma isafe_cin {T} (B : Prop) (P : T -> Prop) c row col m p : mat row col P m -> row < W c -> colit row col p ->
  isafe D I B P row (cin_iter c row col m p).
Proof.
  intros Hm HW [Hj Ep]. destruct p as [j cu]. cbn in Hj, Ep. subst cu.
  destruct (col_of_vec P row col m j Hm Hj) as [HL HF].
  pose proof (isafe_gives B P _ _ _ (cin_gives c row col m j (mat_rect P row col m Hm) Hj HW) (Forall_ret _ _ HF) keep_nodrop) as H.
  now rewrite map_length, HL in H.
Qed.
Lemma isafe_ci {T} (B : Prop) (P : T -> Prop) c row col (d : ety S T) clone m : mat row col P m -> col < W c ->
  (forall x, P x -> tri D I P (clone x)) -> isafe D I B (vec row P) col (cols_iter c row col d clone m).
Proof.
  intros Hm HW Hc.
  assert (HF : Forall (tri D I (vec row P)) (map (fun j => in_order clone (col_of m j)) (seq 0 col))).
  { apply Forall_map, Forall_forall. intros j Hj. apply in_seq in Hj.
    destruct (col_of_vec P row col m j Hm ltac:(lia)) as [HL HP]. rewrite <- HL. apply tri_in_order.
    intros x Hx. apply Hc. rewrite Forall_forall in HP. auto. }
  pose proof (isafe_gives B (vec row P) _ _ _ (ci_gives c row col d clone m (mat_rect P row col m Hm) HW) HF keep_nodrop) as H.
  now rewrite !map_length, seq_length in H.
Qed.
End Gives.

(** ** A receiver in the world *)
Section Recv.
Context {S X : Type} (D : Prop) (I : S -> Prop) (J : X -> Prop).
Lemma tri_lift {A} (Q : A -> Prop) m : tri D I Q m -> tri D (pI J I) Q (lift m).
Proof.
  intros H [x s] [HJ HI]. unfold lift. cbn in *. specialize (H s HI).
  destruct (m s) as [[y| | |] s']; cbn; auto; unfold pI; intuition.
Qed.
Lemma tri_self : tri D (pI J I) J self.
Proof. intros [x s] H. split; [exact H|apply H]. Qed.
Lemma tri_set x : J x -> tri D (pI J I) any (set_self x).
Proof. intros HJ [y s] [_ HI]. repeat split; auto. Qed.
Lemma dsafe_lift {T} (d : ety S T) : dsafe I d -> dsafe (pI J I) (lift_ety d).
Proof. intros Hd x [y s] [HJ HI]. split; cbn; auto. Qed.
Lemma tri_iter_mut n (body : M (X * S) unit) :
  tri D (pI J I) any body ->
  tri D (pI (vec n J) I) any (fun ls => iter_mut_for body (fst ls) (snd ls)).
Proof.
  intros H [l s] [[HL HF] HI]. cbn in *. revert n s HL HI. induction HF as [|x l Hx HF IH]; intros n s HL HI; cbn.
  - repeat split; cbn; auto.
  - specialize (H (x, s) (Logic.conj Hx HI)). destruct (body (x, s)) as [[u| | |] [x' s']]; auto.
    + destruct H as [[HJ' HI'] _]. destruct n as [|n]; [discriminate|]. injection HL as HL.
      cbn in HI'. specialize (IH n s' HL HI').
      destruct (iter_mut_for body l s') as [[v| | |] [l' s'']]; auto; cbn in *.
      * destruct IH as [[[E1 E2] E3] _]. repeat split; cbn; auto.
      * destruct IH as [[E1 E2] E3]. repeat split; cbn; auto.
    + destruct H as [HJ' HI']. repeat split; cbn; auto.
Qed.
Lemma tri_iter_mut_zip {U} (B : Prop) (Q : U -> Prop) n (body : U -> M (X * S) unit) :
  (forall u, Q u -> tri D (pI J I) any (body u)) ->
  forall k it, isafe D I B Q k it ->
  tri D (pI (vec n J) I) any (fun ls => iter_mut_zip_for it body (fst ls) (snd ls)).
Proof.
  intros H k it Hit [l s] [[HL HF] HI]. cbn in *. revert n s k it Hit HL HI.
  induction HF as [|x l Hx HF IH]; intros n s k it Hit HL HI; cbn [iter_mut_zip_for].
  - pose proof (tri_oos D I any it tt (isafe_drop _ _ _ _ _ _ Hit) Logic.I s HI) as E.
    destruct (out_of_scope it (Ok tt) s) as [[v| | |] s']; auto; unfold pI, vec; cbn; intuition.
  - pose proof (isafe_next _ _ _ _ _ _ s Hit HI) as N.
    destruct (next (it, s)) as [[[u|]| | |] [it' s']]; auto.
    + destruct N as (HI' & HQ & k' & _ & Hit'). specialize (H u HQ (x, s') (Logic.conj Hx HI')) as Hb.
      destruct (body u (x, s')) as [[w| | |] [x' s'']]; auto.
      * destruct Hb as [[HJ' HI2] _]. cbn in HI2. destruct n as [|n]; [discriminate|]. injection HL as HL.
        specialize (IH n s'' k' it' Hit' HL HI2).
        destruct (iter_mut_zip_for it' body l s'') as [[v| | |] [l' s3]]; auto; cbn in *.
        -- destruct IH as [[[E1 E2] E3] _]. repeat split; cbn; auto.
        -- destruct IH as [[E1 E2] E3]. repeat split; cbn; auto.
      * destruct Hb as [HJ' HI2]. cbn in HJ', HI2.
        pose proof (tri_oos_panic D I (@any unit) it' (isafe_drop _ _ _ _ _ _ Hit') s'' HI2) as E.
        destruct (out_of_scope it' Panic s'') as [[v| | |] s3]; auto; unfold pI, vec; cbn; intuition.
    + destruct N as [HI' Dr].
      pose proof (tri_oos D I any it' tt Dr Logic.I s' HI') as E.
      destruct (out_of_scope it' (Ok tt) s') as [[v| | |] s3]; auto; unfold pI, vec; cbn; intuition.
    + destruct N as [HI' Dr].
      pose proof (tri_oos_panic D I (@any unit) it' Dr s' HI') as E.
      destruct (out_of_scope it' Panic s') as [[v| | |] s3]; auto; unfold pI, vec; cbn; intuition.
Qed.
End Recv.
