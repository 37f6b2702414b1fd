(** * AccProofs.v - access, ordering, clamping, equality, diagonal matrices. *)
From Coq Require Import List Arith Bool Lia.
From Verif Require Import Rust Iter Elem VectorM MatIterM MatrixM ArithM SpecCommon Harness IterProofs OwnProofs VecProofs MatProofs.
Import ListNotations.

(** ** Slots *)
Lemma list_set_nth {A} (l : list A) i x j : i < length l ->
  nth_error (list_set l i x) j = if j =? i then Some x else nth_error l j.
Proof.
  revert i j. induction l as [|y l IH]; intros i j H; cbn in H; [lia|].
  destruct i, j; cbn; try reflexivity.
  change (S j =? S i) with (j =? i). apply IH. lia.
Qed.

Lemma vindex_in {S T} (v : list T) i x (s : S) : nth_error v i = Some x -> vindex v i s = (Ok x, s).
Proof. intros E. unfold vindex, slice_index, as_slice. now rewrite E. Qed.
Lemma vindex_out {S T} (v : list T) i (s : S) : length v <= i -> vindex v i s = (Panic, s).
Proof. intros E. unfold vindex, slice_index, as_slice. apply nth_error_None in E. now rewrite E. Qed.
Lemma slice_assign_in {S T} (v : list T) i x (s : S) : i < length v ->
  slice_assign v i x s = (Ok (list_set v i x), s).
Proof. intros H. unfold slice_assign. destruct (Nat.ltb_spec i (length v)); [reflexivity|lia]. Qed.
Lemma slice_assign_out {S T} (v : list T) i x (s : S) : length v <= i -> slice_assign v i x s = (Panic, s).
Proof. intros H. unfold slice_assign. destruct (Nat.ltb_spec i (length v)); [lia|reflexivity]. Qed.
Lemma vset_ok {S T} c n (v : list T) i x (s : S) : length v = n -> i < n ->
  vset_unchecked c n v i x s = (Ok (list_set v i x), s).
Proof.
  intros L H. unfold vset_unchecked, vlen, debug_assert, bind, slice_assign_unchecked.
  rewrite L. destruct (Nat.ltb_spec i n); [|lia]. rewrite andb_false_r. reflexivity.
Qed.
Lemma vget_out_debug {S T} c n (v : list T) i (s : S) : debug c = true -> n <= i ->
  vget_unchecked c n v i s = (Panic, s).
Proof.
  intros D H. unfold vget_unchecked, vlen, debug_assert, bind.
  destruct (Nat.ltb_spec i n); [lia|]. now rewrite D.
Qed.
Lemma vset_out_debug {S T} c n (v : list T) i x (s : S) : debug c = true -> n <= i ->
  vset_unchecked c n v i x s = (Panic, s).
Proof.
  intros D H. unfold vset_unchecked, vlen, debug_assert, bind.
  destruct (Nat.ltb_spec i n); [lia|]. now rewrite D.
Qed.

Lemma vstatic_ok {S T} c n (v : list T) i x (s : S) : length v = n -> nth_error v i = Some x ->
  vindex_static c n v i s = (Ok x, s).
Proof. intros L E. destruct i; now apply vget_ok. Qed.
Lemma vstatic_set_ok {S T} c n (v : list T) i x (s : S) : length v = n -> i < n ->
  vindex_static_set c n v i x s = (Ok (list_set v i x), s).
Proof. intros L E. destruct i; now apply vset_ok. Qed.

(** ** Matrix access *)
Lemma rect_set {T} row col (m : list (list T)) i r : rect row col m -> length r = col -> rect row col (list_set m i r).
Proof.
  intros [L F] H. split; [now rewrite list_set_length|]. clear L. revert i.
  induction F as [|r0 m L F IH]; intros [|i]; cbn; constructor; auto.
Qed.
(** The matrix with one entry replaced. *)
Definition mat_set {T} (m : list (list T)) (i j : nat) (x : T) : list (list T) :=
  match nth_error m i with Some r => list_set m i (list_set r j x) | None => m end.
Lemma mat_set_rect {T} row col (m : list (list T)) i j x : rect row col m -> rect row col (mat_set m i j x).
Proof.
  intros R. unfold mat_set. destruct (nth_error m i) eqn:E; [|exact R]. apply rect_set; [exact R|].
  rewrite list_set_length. apply nth_error_In in E. eapply rect_row; eauto.
Qed.
Lemma mat_set_entry {T} row col (m : list (list T)) i j x i' j' : rect row col m -> i < row -> j < col ->
  entry (mat_set m i j x) i' j' = if (i' =? i) && (j' =? j) then Some x else entry m i' j'.
Proof.
  intros R Hi Hj. destruct (entry_row _ _ _ _ R Hi) as (r & E & L). unfold mat_set, entry. rewrite E.
  rewrite list_set_nth by (destruct R; lia). destruct (Nat.eqb_spec i' i) as [->|Hne]; cbn; [|reflexivity].
  rewrite list_set_nth by lia. rewrite E. destruct (j' =? j); reflexivity.
Qed.
Lemma mindex_in {S T} (m : list (list T)) i j x (s : S) : entry m i j = Some x -> mindex m (i, j) s = (Ok x, s).
Proof.
  unfold entry. intros E. unfold mindex, bind. destruct (nth_error m i) as [r|] eqn:Er; [|discriminate].
  rewrite (vindex_in _ _ _ _ Er). now apply vindex_in.
Qed.
Lemma mindex_out {S T} (m : list (list T)) i j (s : S) : entry m i j = None -> mindex m (i, j) s = (Panic, s).
Proof.
  unfold entry. intros E. unfold mindex, bind, vindex, slice_index, as_slice.
  destruct (nth_error m i) as [r|] eqn:Er; [|reflexivity]. cbn. now rewrite E.
Qed.
Lemma mindex_set_in {S T} row col (m : list (list T)) i j x (s : S) : rect row col m -> i < row -> j < col ->
  mindex_set m (i, j) x s = (Ok (mat_set m i j x), s).
Proof.
  intros R Hi Hj. destruct (entry_row _ _ _ _ R Hi) as (r & E & L). unfold mindex_set, bind, mat_set.
  rewrite (vindex_in _ _ _ _ E), E, slice_assign_in by lia. apply slice_assign_in. destruct R; lia.
Qed.
Lemma mindex_set_out {S T} row col (m : list (list T)) i j x (s : S) : rect row col m -> row <= i \/ col <= j ->
  mindex_set m (i, j) x s = (Panic, s).
Proof.
  intros R H. unfold mindex_set, bind. destruct (nth_error m i) as [r|] eqn:E.
  - rewrite (vindex_in _ _ _ _ E). assert (i < length m) by (apply nth_error_Some; congruence).
    apply nth_error_In in E. apply (rect_row _ _ _ _ R) in E. destruct R. rewrite slice_assign_out by lia. reflexivity.
  - apply nth_error_None in E. now rewrite vindex_out.
Qed.
Lemma mget_in {S T} c row col (m : list (list T)) i j x (s : S) : rect row col m -> i < row -> j < col ->
  entry m i j = Some x -> mget_unchecked c row col m (i, j) s = (Ok x, s).
Proof.
  intros R Hi Hj E. unfold mget_unchecked, bind, debug_assert.
  destruct (Nat.ltb_spec i row); [|lia]. destruct (Nat.ltb_spec j col); [|lia]. rewrite andb_false_r. cbn.
  unfold entry in E. destruct (nth_error m i) as [r|] eqn:Er; [|discriminate].
  rewrite (vget_ok c row m i r) by (apply R || auto). apply vget_ok; auto.
  apply nth_error_In in Er. eapply rect_row; eauto.
Qed.
Lemma mset_in {S T} c row col (m : list (list T)) i j x (s : S) : rect row col m -> i < row -> j < col ->
  mset_unchecked c row col m (i, j) x s = (Ok (mat_set m i j x), s).
Proof.
  intros R Hi Hj. unfold mset_unchecked, bind, debug_assert.
  destruct (Nat.ltb_spec i row); [|lia]. destruct (Nat.ltb_spec j col); [|lia]. rewrite andb_false_r. cbn.
  destruct (entry_row _ _ _ _ R Hi) as (r & E & L). unfold mat_set. rewrite E.
  rewrite (vget_ok c row m i r) by (apply R || auto). rewrite vset_ok by auto. apply vset_ok; auto. apply R.
Qed.
Lemma mget_out_debug {S T} c row col (m : list (list T)) i j (s : S) : debug c = true -> row <= i \/ col <= j ->
  mget_unchecked c row col m (i, j) s = (Panic, s).
Proof.
  intros D H. unfold mget_unchecked, bind, debug_assert. rewrite D.
  destruct (Nat.ltb_spec i row); cbn; [|reflexivity]. destruct (Nat.ltb_spec j col); cbn; [lia|reflexivity].
Qed.
Lemma mset_out_debug {S T} c row col (m : list (list T)) i j x (s : S) : debug c = true -> row <= i \/ col <= j ->
  mset_unchecked c row col m (i, j) x s = (Panic, s).
Proof.
  intros D H. unfold mset_unchecked, bind, debug_assert. rewrite D.
  destruct (Nat.ltb_spec i row); cbn; [|reflexivity]. destruct (Nat.ltb_spec j col); cbn; [lia|reflexivity].
Qed.
Lemma mstatic_uu {S T} c row col (m : list (list T)) i j x (s : S) : rect row col m -> i < row -> j < col ->
  entry m i j = Some x -> mindex_uu c row col m i j s = (Ok x, s).
Proof.
  intros R Hi Hj E. unfold mindex_uu, bind.
  unfold entry in E. destruct (nth_error m i) as [r|] eqn:Er; [|discriminate].
  rewrite (vget_ok c row m i r) by (apply R || auto). apply vget_ok; auto.
  apply nth_error_In in Er. eapply rect_row; eauto.
Qed.
Lemma mstatic_in {S T} c row col (m : list (list T)) i j x (s : S) : rect row col m -> i < row -> j < col ->
  entry m i j = Some x -> mindex_static c row col m (i, j) s = (Ok x, s).
Proof. intros R Hi Hj E. destruct i, j; exact (mstatic_uu c row col m _ _ x s R Hi Hj E). Qed.
Lemma mstatic_set_in {S T} c row col (m : list (list T)) i j x (s : S) : rect row col m -> i < row -> j < col ->
  mindex_static_set c row col m (i, j) x s = (Ok (mat_set m i j x), s).
Proof.
  intros R Hi Hj.
  assert (E : mindex_uu_set c row col m i j x s = (Ok (mat_set m i j x), s)).
  { unfold mindex_uu_set, bind. destruct (entry_row _ _ _ _ R Hi) as (r & E & L). unfold mat_set. rewrite E.
    rewrite (vget_ok c row m i r) by (apply R || auto). rewrite vset_ok by auto. apply vset_ok; auto. apply R. }
  destruct i, j; exact E.
Qed.

(** ** Ordering *)
Section Order.
Context {T : Type} (cmp : T -> T -> comparison).
Hypothesis TP : total_preorder cmp.

Lemma cmp_refl x : cmp x x = Eq.
Proof. destruct TP as [A _]. specialize (A x x). destruct (cmp x x); cbn in A; congruence. Qed.
Lemma cmp_anti x y : cmp y x = CompOpp (cmp x y).
Proof. apply TP. Qed.
Lemma cmp_gt_lt x y : cmp x y = Gt <-> cmp y x = Lt.
Proof. rewrite (cmp_anti x y). destruct (cmp x y); cbn; split; congruence. Qed.
Lemma le_lt_trans x y z : cmp x y <> Gt -> cmp y z = Lt -> cmp x z = Lt.
Proof.
  intros H1 H2. destruct TP as [A Tr]. destruct (cmp x z) eqn:E; [|reflexivity|].
  - exfalso. apply (Tr z x y) in H1; [|rewrite cmp_anti, E; discriminate]. apply H1. now apply cmp_gt_lt.
  - exfalso. apply (Tr x y z H1); [rewrite H2; discriminate|exact E].
Qed.
Lemma lt_le_trans x y z : cmp x y = Lt -> cmp y z <> Gt -> cmp x z = Lt.
Proof.
  intros H1 H2. destruct TP as [A Tr]. destruct (cmp x z) eqn:E; [|reflexivity|].
  - exfalso. apply (Tr y z x H2); [rewrite cmp_anti, E; discriminate|]. now apply cmp_gt_lt.
  - exfalso. apply (Tr x y z); [rewrite H1; discriminate|exact H2|exact E].
Qed.

Lemma scan_last_max l : forall pre a post, last_max cmp pre a post ->
  exists pre' x post', pre ++ a :: post ++ l = pre' ++ x :: post' /\ last_max cmp pre' x post' /\
    fold_left (fun a x => match cmp a x with Gt => a | _ => x end) l a = x.
Proof.
  induction l as [|y l IH]; intros pre a post [H1 H2].
  - exists pre, a, post. rewrite app_nil_r. repeat split; auto.
  - cbn. destruct (cmp a y) eqn:E.
    3:{ destruct (IH pre a (post ++ [y])) as (p & x & q & E1 & E2 & E3).
        { split; auto. apply Forall_app. split; auto. constructor; auto. now apply cmp_gt_lt. }
        exists p, x, q. rewrite <- E1. now rewrite <- app_assoc. }
    all: destruct (IH (pre ++ a :: post) y []) as (p & x & q & E1 & E2 & E3);
      [split; [|constructor]; apply Forall_app; split;
       [eapply Forall_impl; [|exact H1]; intros z Hz; destruct TP as [_ Tr]; apply (Tr z a y Hz); congruence|
        constructor; [congruence|]; eapply Forall_impl; [|exact H2]; cbn; intros z Hz;
        destruct TP as [_ Tr]; apply (Tr z a y); congruence]|];
      exists p, x, q; rewrite <- E1; split; [now rewrite <- app_assoc|auto].
Qed.
Lemma scan_first_max l : forall pre a post, first_max cmp pre a post ->
  exists pre' x post', pre ++ a :: post ++ l = pre' ++ x :: post' /\ first_max cmp pre' x post' /\
    fold_left (fun a x => match cmp x a with Gt => x | _ => a end) l a = x.
Proof.
  induction l as [|y l IH]; intros pre a post [H1 H2].
  - exists pre, a, post. rewrite app_nil_r. repeat split; auto.
  - cbn. destruct (cmp y a) eqn:E.
    3:{ destruct (IH (pre ++ a :: post) y []) as (p & x & q & E1 & E2 & E3).
        { apply cmp_gt_lt in E. split; [|constructor]. apply Forall_app. split.
          - eapply Forall_impl; [|exact H1]. cbn. intros z Hz. apply (lt_le_trans z a y Hz). congruence.
          - constructor; [exact E|]. eapply Forall_impl; [|exact H2]. cbn. intros z Hz. now apply (le_lt_trans z a y). }
        exists p, x, q. rewrite <- E1. split; [now rewrite <- app_assoc|auto]. }
    all: destruct (IH pre a (post ++ [y])) as (p & x & q & E1 & E2 & E3);
      [split; auto; apply Forall_app; split; auto; constructor; auto; congruence|];
      exists p, x, q; rewrite <- E1; split; [now rewrite <- app_assoc|auto].
Qed.
Lemma scan_first_min l : forall pre a post, first_min cmp pre a post ->
  exists pre' x post', pre ++ a :: post ++ l = pre' ++ x :: post' /\ first_min cmp pre' x post' /\
    fold_left (fun a x => match cmp a x with Gt => x | _ => a end) l a = x.
Proof.
  induction l as [|y l IH]; intros pre a post [H1 H2].
  - exists pre, a, post. rewrite app_nil_r. repeat split; auto.
  - cbn. destruct (cmp a y) eqn:E.
    3:{ destruct (IH (pre ++ a :: post) y []) as (p & x & q & E1 & E2 & E3).
        { split; [|constructor]. apply cmp_gt_lt in E. apply Forall_app. split.
          - eapply Forall_impl; [|exact H1]. cbn. intros z Hz. apply cmp_gt_lt. apply cmp_gt_lt in Hz.
            apply (lt_le_trans y a z E). congruence.
          - constructor; [now apply cmp_gt_lt|]. eapply Forall_impl; [|exact H2]. cbn. intros z Hz. apply cmp_gt_lt.
            apply (lt_le_trans y a z E). intros Hg. apply Hz. now apply cmp_gt_lt. }
        exists p, x, q. rewrite <- E1. split; [now rewrite <- app_assoc|auto]. }
    all: destruct (IH pre a (post ++ [y])) as (p & x & q & E1 & E2 & E3);
      [split; auto; apply Forall_app; split; auto; constructor; auto; rewrite cmp_anti, E; discriminate|];
      exists p, x, q; rewrite <- E1; split; [now rewrite <- app_assoc|auto].
Qed.
End Order.

Lemma imax_slice {S T} (cmp : T -> T -> comparison) fuel (it : iter S T) x l s :
  gives it (map ret (x :: l)) nodrop -> Datatypes.S (length l) < fuel ->
  imax fuel cmp it s = (Ok (Some (fold_left (fun a x => match cmp a x with Gt => a | _ => x end) l x)), s).
Proof.
  intros G HF. unfold imax. rewrite (fold_gives_ret _ _ (x :: l)) by (auto; cbn; lia).
  cbn [fold_in_order]. clear. unfold ret at 1. revert x s. induction l as [|y l IH]; intros x s; [reflexivity|].
  cbn [fold_in_order fold_left]. unfold ret at 1. apply IH.
Qed.
Lemma imin_slice {S T} (cmp : T -> T -> comparison) fuel (it : iter S T) x l s :
  gives it (map ret (x :: l)) nodrop -> Datatypes.S (length l) < fuel ->
  imin fuel cmp it s = (Ok (Some (fold_left (fun a x => match cmp a x with Gt => x | _ => a end) l x)), s).
Proof.
  intros G HF. unfold imin. rewrite (fold_gives_ret _ _ (x :: l)) by (auto; cbn; lia).
  cbn [fold_in_order]. clear. unfold ret at 1. revert x s. induction l as [|y l IH]; intros x s; [reflexivity|].
  cbn [fold_in_order fold_left]. unfold ret at 1. apply IH.
Qed.

Lemma vmax_spec {S T} (clone : T -> M S T) cmp n v s : total_preorder cmp -> length v = n -> 0 < n ->
  exists pre x post, v = pre ++ x :: post /\ last_max cmp pre x post /\ vmax clone cmp n v s = clone x s.
Proof.
  intros TP L H. destruct v as [|x l]; [cbn in L; lia|].
  destruct (scan_last_max cmp TP l [] x []) as (pre & y & post & E1 & E2 & E3); [split; constructor|].
  exists pre, y, post. split; [exact E1|]. split; [exact E2|]. unfold vmax, bind.
  rewrite (imax_slice cmp _ _ x l s (slice_iter_gives (x :: l))) by (cbn in L; lia). rewrite E3.
  destruct (clone y s) as [[]]; reflexivity.
Qed.
Lemma vmin_spec {S T} (clone : T -> M S T) cmp n v s : total_preorder cmp -> length v = n -> 0 < n ->
  exists pre x post, v = pre ++ x :: post /\ first_min cmp pre x post /\ vmin clone cmp n v s = clone x s.
Proof.
  intros TP L H. destruct v as [|x l]; [cbn in L; lia|].
  destruct (scan_first_min cmp TP l [] x []) as (pre & y & post & E1 & E2 & E3); [split; constructor|].
  exists pre, y, post. split; [exact E1|]. split; [exact E2|]. unfold vmin, bind.
  rewrite (imin_slice cmp _ _ x l s (slice_iter_gives (x :: l))) by (cbn in L; lia). rewrite E3.
  destruct (clone y s) as [[]]; reflexivity.
Qed.

(** Row by row, then over the row results. *)
Lemma rows_select {T} (P : list T -> T -> list T -> Prop) (m : list (list T)) (sel : list T -> T) :
  (forall r, In r m -> exists pre post, r = pre ++ sel r :: post /\ P pre (sel r) post) ->
  forall pre x post, map sel m = pre ++ x :: post ->
  exists m1 r m2 p q, m = m1 ++ r :: m2 /\ r = p ++ x :: q /\ P p x q /\ map sel m1 = pre /\ map sel m2 = post /\ x = sel r.
Proof.
  revert sel. induction m as [|r m IH]; intros sel H pre x post E; [destruct pre; discriminate|].
  destruct pre as [|y pre]; cbn in E; injection E as E1 E2.
  - destruct (H r (or_introl eq_refl)) as (p & q & Er & HP). exists [], r, m, p, q. subst. repeat split; auto.
  - destruct (IH sel) with (pre := pre) (x := x) (post := post) as (m1 & r1 & m2 & p & q & A1 & A2 & A3 & A4 & A5 & A6); auto.
    { intros r' Hr. apply H. now right. }
    exists (r :: m1), r1, m2, p, q. cbn. subst. repeat split; auto.
Qed.
Lemma Forall_concat_rows {T} (Q : T -> Prop) (m : list (list T)) :
  (forall r, In r m -> Forall Q r) -> Forall Q (concat m).
Proof. induction m as [|r m IH]; intros H; cbn; [constructor|]. apply Forall_app. split; [apply H; now left|]. apply IH. intros; apply H; now right. Qed.

(** The pure selection of [vmax]/[vmin]. *)
Definition sel_max {T} (cmp : T -> T -> comparison) (dflt : T) (v : list T) : T :=
  match v with [] => dflt | x :: l => fold_left (fun a x => match cmp a x with Gt => a | _ => x end) l x end.
Definition sel_min {T} (cmp : T -> T -> comparison) (dflt : T) (v : list T) : T :=
  match v with [] => dflt | x :: l => fold_left (fun a x => match cmp a x with Gt => x | _ => a end) l x end.

Lemma vmax_sel {S T} (clone : T -> M S T) cmp n v dflt s : faithful clone -> length v = n -> 0 < n ->
  vmax clone cmp n v s = (Ok (sel_max cmp dflt v), s).
Proof.
  intros HC L H. destruct v as [|x l]; [cbn in L; lia|]. unfold vmax, bind.
  rewrite (imax_slice cmp _ _ x l s (slice_iter_gives (x :: l))) by (cbn in L; lia). now rewrite HC.
Qed.
Lemma vmin_sel {S T} (clone : T -> M S T) cmp n v dflt s : faithful clone -> length v = n -> 0 < n ->
  vmin clone cmp n v s = (Ok (sel_min cmp dflt v), s).
Proof.
  intros HC L H. destruct v as [|x l]; [cbn in L; lia|]. unfold vmin, bind.
  rewrite (imin_slice cmp _ _ x l s (slice_iter_gives (x :: l))) by (cbn in L; lia). now rewrite HC.
Qed.

Lemma mmax_spec {S T} (clone : T -> M S T) cmp n m s :
  faithful clone -> total_preorder cmp -> rect n n m -> 0 < n ->
  exists pre x post, concat m = pre ++ x :: post /\ last_max cmp pre x post /\ mmax clone cmp n m s = (Ok x, s).
Proof.
  intros HC TP R Hn. pose proof R as [L F].
  destruct m as [|r0 m]; [cbn in L; lia|].
  assert (Hr0 : length r0 = n) by (now inv F). destruct r0 as [|dflt r0'] eqn:Er0; [cbn in Hr0; lia|]. rewrite <- Er0 in *. clear Er0.
  set (sel := sel_max cmp dflt).
  assert (G : gives (imap (vmax clone cmp n) (viter (r0 :: m))) (map ret (map sel (r0 :: m))) nodrop).
  { rewrite map_map. refine (gives_ext _ _ _ _ _ (imap_ret_gives _ _ _ _ (slice_iter_gives (r0 :: m)))).
    apply Forall2_map_map. intros r Hr s0. apply vmax_sel; auto. eapply rect_row; eauto. }
  destruct (scan_last_max cmp TP (map sel m) [] (sel r0) []) as (pre & y & post & E1 & E2 & E3); [split; constructor|].
  cbn [app] in E1.
  assert (HS : forall r, In r (r0 :: m) -> exists p q, r = p ++ sel r :: q /\ last_max cmp p (sel r) q).
  { intros r Hr. apply (rect_row _ _ _ _ R) in Hr. destruct r as [|x l]; [cbn in Hr; lia|].
    destruct (scan_last_max cmp TP l [] x []) as (p & z & q & A1 & A2 & A3); [split; constructor|].
    exists p, q. unfold sel, sel_max. rewrite A3. auto. }
  destruct (rows_select (last_max cmp) (r0 :: m) sel HS _ _ _ E1) as (m1 & r & m2 & p & q & A1 & A2 & [A3 A3'] & A4 & A5 & A6).
  destruct E2 as [E2 E2']. exists (concat m1 ++ p), y, (q ++ concat m2). split; [|split; [split|]].
  - rewrite A1, concat_app. cbn. now rewrite A2, <- !app_assoc.
  - apply Forall_app. split; [|exact A3]. apply Forall_concat_rows. intros r' Hr'. rewrite Forall_forall. intros z Hz.
    assert (Hin : In r' (r0 :: m)) by (rewrite A1; apply in_or_app; now left).
    destruct (HS r' Hin) as (p' & q' & B1 & B2 & B3).
    assert (Hs : cmp (sel r') y <> Gt).
    { rewrite Forall_forall in E2. apply E2. rewrite <- A4. now apply in_map. }
    destruct TP as [TA TT]. apply (TT z (sel r') y); [|exact Hs].
    rewrite B1 in Hz. apply in_app_or in Hz. destruct Hz as [Hz|[Hz|Hz]].
    + rewrite Forall_forall in B2. now apply B2.
    + subst z. rewrite (cmp_refl cmp (Logic.conj TA TT)). discriminate.
    + rewrite Forall_forall in B3. rewrite B3 by assumption. discriminate.
  - apply Forall_app. split; [exact A3'|]. apply Forall_concat_rows. intros r' Hr'. rewrite Forall_forall. intros z Hz.
    assert (Hin : In r' (r0 :: m)) by (rewrite A1; apply in_or_app; right; now right).
    destruct (HS r' Hin) as (p' & q' & B1 & B2 & B3).
    assert (Hs : cmp (sel r') y = Lt).
    { rewrite Forall_forall in E2'. apply E2'. rewrite <- A5. now apply in_map. }
    apply (le_lt_trans cmp TP z (sel r') y); [|exact Hs].
    rewrite B1 in Hz. apply in_app_or in Hz. destruct Hz as [Hz|[Hz|Hz]].
    + rewrite Forall_forall in B2. now apply B2.
    + subst z. rewrite (cmp_refl cmp TP). discriminate.
    + rewrite Forall_forall in B3. rewrite B3 by assumption. discriminate.
  - unfold mmax, bind. rewrite (imax_slice cmp _ _ (sel r0) (map sel m) s G) by (rewrite map_length; cbn in L; lia).
    now rewrite E3.
Qed.
Lemma mmin_spec {S T} (clone : T -> M S T) cmp n m s :
  faithful clone -> total_preorder cmp -> rect n n m -> 0 < n ->
  exists pre x post, concat m = pre ++ x :: post /\ first_min cmp pre x post /\ mmin clone cmp n m s = (Ok x, s).
Proof.
  intros HC TP R Hn. pose proof R as [L F].
  destruct m as [|r0 m]; [cbn in L; lia|].
  assert (Hr0 : length r0 = n) by (now inv F). destruct r0 as [|dflt r0'] eqn:Er0; [cbn in Hr0; lia|]. rewrite <- Er0 in *. clear Er0.
  set (sel := sel_min cmp dflt).
  assert (G : gives (imap (vmin clone cmp n) (viter (r0 :: m))) (map ret (map sel (r0 :: m))) nodrop).
  { rewrite map_map. refine (gives_ext _ _ _ _ _ (imap_ret_gives _ _ _ _ (slice_iter_gives (r0 :: m)))).
    apply Forall2_map_map. intros r Hr s0. apply vmin_sel; auto. eapply rect_row; eauto. }
  destruct (scan_first_min cmp TP (map sel m) [] (sel r0) []) as (pre & y & post & E1 & E2 & E3); [split; constructor|].
  cbn [app] in E1.
  assert (HS : forall r, In r (r0 :: m) -> exists p q, r = p ++ sel r :: q /\ first_min cmp p (sel r) q).
  { intros r Hr. apply (rect_row _ _ _ _ R) in Hr. destruct r as [|x l]; [cbn in Hr; lia|].
    destruct (scan_first_min cmp TP l [] x []) as (p & z & q & A1 & A2 & A3); [split; constructor|].
    exists p, q. unfold sel, sel_min. rewrite A3. auto. }
  destruct (rows_select (first_min cmp) (r0 :: m) sel HS _ _ _ E1) as (m1 & r & m2 & p & q & A1 & A2 & [A3 A3'] & A4 & A5 & A6).
  destruct E2 as [E2 E2'].
  assert (HZ : forall r' z, In r' (r0 :: m) -> In z r' -> cmp (sel r') z <> Gt).
  { intros r' z Hin Hz. destruct (HS r' Hin) as (p' & q' & B1 & B2 & B3).
    rewrite B1 in Hz. apply in_app_or in Hz. destruct Hz as [Hz|[Hz|Hz]].
    + rewrite Forall_forall in B2. apply B2 in Hz. apply (cmp_gt_lt cmp TP) in Hz. congruence.
    + rewrite <- Hz. rewrite (cmp_refl cmp TP). discriminate.
    + rewrite Forall_forall in B3. apply B3 in Hz. intros Hg. apply Hz. now apply (cmp_gt_lt cmp TP). }
  exists (concat m1 ++ p), y, (q ++ concat m2). split; [|split; [split|]].
  - rewrite A1, concat_app. cbn. now rewrite A2, <- !app_assoc.
  - apply Forall_app. split; [|exact A3]. apply Forall_concat_rows. intros r' Hr'. rewrite Forall_forall. intros z Hz.
    assert (Hin : In r' (r0 :: m)) by (rewrite A1; apply in_or_app; now left).
    assert (Hs : cmp (sel r') y = Gt).
    { rewrite Forall_forall in E2. apply E2. rewrite <- A4. now apply in_map. }
    apply (cmp_gt_lt cmp TP) in Hs. apply (cmp_gt_lt cmp TP).
    exact (lt_le_trans cmp TP y (sel r') z Hs (HZ r' z Hin Hz)).
  - apply Forall_app. split; [exact A3'|]. apply Forall_concat_rows. intros r' Hr'. rewrite Forall_forall. intros z Hz.
    assert (Hin : In r' (r0 :: m)) by (rewrite A1; apply in_or_app; right; now right).
    assert (Hs : cmp (sel r') y <> Lt).
    { rewrite Forall_forall in E2'. apply E2'. rewrite <- A5. now apply in_map. }
    intros Hl. apply Hs. exact (le_lt_trans cmp TP _ _ _ (HZ r' z Hin Hz) Hl).
  - unfold mmin, bind. rewrite (imin_slice cmp _ _ (sel r0) (map sel m) s G) by (rewrite map_length; cbn in L; lia).
    now rewrite E3.
Qed.

(** ** max_by *)
Lemma vmax_by_fold {S T} (clone : T -> M S T) comp n x l s : Datatypes.S (length l) = n ->
  vmax_by clone comp n (x :: l) s
  = (r <- (fun s => fold_in_order (fun st y => o <- comp y st ;; ret (match o with Gt => y | _ => st end)) l x s) ;;
     clone r) s.
Proof.
  intros L. unfold vmax_by, viter, as_slice. change (next (slice_iter (x :: l), s)) with (@Ok (option T) (Some x), (@slice_iter S T l, s)).
  cbv beta iota. unfold bind at 1 3. rewrite (fold_gives_ret n _ l x _ s (slice_iter_gives l)) by lia.
  rewrite (fold_in_order_ext _ (fun st y => o <- comp y st ;; ret (match o with Gt => y | _ => st end))); [reflexivity|].
  intros b a s0 _. unfold bind. destruct (comp a b s0) as [[[]| | |] s1]; reflexivity.
Qed.

Lemma mmax_by_fold {S T} (clone : T -> M S T) comp n m x l s : rect n n m -> concat m = x :: l ->
  mmax_by clone comp n m s
  = (r <- (fun s => fold_in_order (fun st y => o <- comp y st ;; ret (match o with Gt => y | _ => st end)) l x s) ;;
     clone r) s.
Proof.
  intros R E. unfold mmax_by. unfold bind at 1.
  rewrite (fold_gives_ret _ _ m _ _ s (slice_iter_gives m)) by (destruct R; lia).
  set (body := fun (st : option T) (v : T) => match st with
            | Some st0 => o <- comp v st0 ;; match o with Gt => ret (Some v) | _ => ret (Some st0) end
            | None => ret (Some v) end).
  assert (E1 : forall m st s, Forall (fun r => length r = n) m ->
    fold_in_order (fun st r => for_each (Datatypes.S n) (viter r) st body) m st s = fold_in_order body (concat m) st s).
  { clear. induction m as [|r m IH]; intros st s F; cbn [fold_in_order concat]; [reflexivity|]. inv F.
    rewrite (fold_gives_ret _ _ r _ _ s (slice_iter_gives r)) by lia.
    assert (EA : forall l1 l2 st s, fold_in_order body (l1 ++ l2) st s =
      match fold_in_order body l1 st s with (Ok b, s') => fold_in_order body l2 b s' | (r, s') => (r, s') end).
    { clear. induction l1 as [|x l1 IH]; intros l2 st s; cbn [fold_in_order app]; [reflexivity|].
      destruct (body st x s) as [[b| | |] s1]; auto. }
    rewrite EA. destruct (fold_in_order body r st s) as [[b| | |] s1]; try reflexivity. now apply IH. }
  rewrite E1 by apply R. rewrite E.
  change (fold_in_order body (x :: l) None s) with (fold_in_order body l (Some x) s).
  assert (E2 : forall l x s, fold_in_order body l (Some x) s
     = let (r, s') := fold_in_order (fun st y => o <- comp y st ;; ret (match o with Gt => y | _ => st end)) l x s in (omap Some r, s')).
  { clear. induction l as [|y l IH]; intros x s; [reflexivity|]. cbn [fold_in_order]. unfold body at 1, bind.
    destruct (comp y x s) as [[[]| | |] s1]; try reflexivity; unfold ret; apply IH. }
  rewrite E2. set (g := fun st y => o <- comp y st ;; ret (match o with Gt => y | _ => st end)). clearbody g. unfold bind.
  destruct (fold_in_order g l x s) as [[b| | |] s1]; reflexivity.
Qed.

(** ** Clamping *)
Definition clampx {T} (cmp : T -> T -> comparison) (lo hi x : T) : T := cmp_min cmp hi (cmp_max cmp lo x).

Lemma mclamped_spec {S T} c (d : ety S T) clone cmp row col m lo hi s : rect row col m ->
  mclamped c d clone cmp row col m lo hi s = in_order (in_order (fun x => clone (clampx cmp lo hi x))) m s.
Proof.
  intros R. unfold mclamped. rewrite collect_map_ref by apply R. apply in_order_ext. intros r s0 Hin.
  apply collect_map_ref. eapply rect_row; eauto.
Qed.
Lemma slot0_clamp {S T} (clone : T -> M S T) cmp lo hi x s : slot0 (clamp_elem clone cmp lo hi) x s = clone (clampx cmp lo hi x) s.
Proof.
  unfold slot0, clamp_elem, bind, self, lift, set_self. cbn. unfold clampx.
  destruct (clone _ s) as [[]]; reflexivity.
Qed.
Lemma vclamp_ok {S T} (clone : T -> M S T) cmp lo hi v s w s' :
  in_order (fun x => clone (clampx cmp lo hi x)) v s = (Ok w, s') ->
  vclamp clone cmp lo hi (v, s) = (Ok tt, (w, s')).
Proof.
  intros H. unfold vclamp. cbn [fst snd]. apply iter_mut_ok. rewrite <- H. apply in_order_ext. intros; apply slot0_clamp.
Qed.
Lemma mclamp_ok {S T} (clone : T -> M S T) cmp lo hi m s w s' :
  in_order (in_order (fun x => clone (clampx cmp lo hi x))) m s = (Ok w, s') ->
  mclamp clone cmp lo hi (m, s) = (Ok tt, (w, s')).
Proof.
  intros H. unfold mclamp. cbn [fst snd]. apply iter_mut_ok. revert s w s' H.
  induction m as [|r m IH]; intros s w s' H; cbn in *; [exact H|].
  destruct (in_order (fun x => clone (clampx cmp lo hi x)) r s) as [[r'| | |] s1] eqn:E; try discriminate.
  unfold slot0 at 1. pose proof (vclamp_ok clone cmp lo hi r s r' s1 E) as V. unfold vclamp in V. rewrite V. cbn.
  destruct (in_order (in_order (fun x => clone (clampx cmp lo hi x))) m s1) as [[w'| | |] s2] eqn:E2; try discriminate.
  now rewrite (IH _ _ _ E2).
Qed.

(** ** Equality *)
Lemma slice_eq_forall2 {T U} (peq : T -> U -> bool) a b :
  slice_eq peq a b = true <-> Forall2 (fun x y => peq x y = true) a b.
Proof.
  revert b. induction a as [|x a IH]; intros [|y b]; cbn; split; intros H; try discriminate; try constructor; try (now inv H).
  - now apply andb_prop in H.
  - apply IH. now apply andb_prop in H.
  - inv H. rewrite H3. now apply IH.
Qed.

(** ** Diagonal matrices *)
Lemma diag_row {S T} c (d : ety S T) (o : ops S T) k i j0 len pre q (s : S) :
  k = length pre + length q -> k < W c ->
  (i < j0 \/ j0 + len <= i \/ exists x q', q = x :: q') ->
  in_order (fun j => if i =? j then x <- ii_next_fn c d k ;; unwrap x else ret (o_zero o)) (seq j0 len) (mid pre q [], s)
  = if (j0 <=? i) && (i <? j0 + len)
    then match q with
         | x :: q' => (Ok (repeat (o_zero o) (i - j0) ++ x :: repeat (o_zero o) (j0 + len - i - 1)), (mid (pre ++ [x]) q' [], s))
         | [] => (Panic, (mid pre [] [], s))
         end
    else (Ok (repeat (o_zero o) len), (mid pre q [], s)).
Proof.
  intros Hk HW. revert j0 pre q Hk. induction len as [|len IH]; intros j0 pre q Hk H; cbn [seq in_order].
  - destruct (Nat.leb_spec j0 i); cbn; [|reflexivity]. destruct (Nat.ltb_spec i (j0 + 0)); [lia|reflexivity].
  - destruct (Nat.eqb_spec i j0) as [->|Hne].
    + destruct H as [H|[H|(x & q' & ->)]]; [lia|lia|].
      unfold bind. rewrite mid_next by (cbn in *; lia). cbn.
      rewrite IH by (rewrite ?app_length; cbn in *; lia).
      destruct (Nat.leb_spec (Datatypes.S j0) j0); [lia|]. cbn [andb].
      destruct (Nat.leb_spec j0 j0); [|lia]. destruct (Nat.ltb_spec j0 (j0 + Datatypes.S len)); [|lia]. cbn.
      rewrite Nat.sub_diag. cbn. replace (j0 + Datatypes.S len - j0 - 1) with len by lia. reflexivity.
    + unfold ret at 1. rewrite IH; auto; [|destruct H as [H|[H|H]]; [left; lia|right; left; lia|auto]].
      destruct (Nat.leb_spec (Datatypes.S j0) i); destruct (Nat.leb_spec j0 i); try lia; cbn [andb]; try reflexivity.
      replace (Datatypes.S j0 + len) with (j0 + Datatypes.S len) by lia.
      destruct (Nat.ltb_spec i (j0 + Datatypes.S len)); [|reflexivity].
      destruct q; [reflexivity|]. replace (i - j0) with (Datatypes.S (i - Datatypes.S j0)) by lia. reflexivity.
Qed.

Definition diag_row_of {T} (z : T) (col i : nat) (x : T) : list T := repeat z i ++ x :: repeat z (col - i - 1).

Lemma diag_rows {S T} c (d : ety S T) (o : ops S T) k row0 len col pre q (s : S) :
  k = length pre + length q -> k < W c -> row0 = length pre \/ q = [] -> 
  (forall i, i < len -> row0 + i < col -> i < length q) -> (length q <= len) -> length pre + length q <= col ->
  row0 >= length pre ->
  exists m, in_order (fun i => in_order (fun j => if i =? j then x <- ii_next_fn c d k ;; unwrap x else ret (o_zero o)) (seq 0 col))
    (seq row0 len) (mid pre q [], s) = (Ok m, (mid (pre ++ q) [] [], s)) /\
  length m = len /\ forall i, i < len -> nth_error m i =
     Some (match nth_error q i with Some x => diag_row_of (o_zero o) col (row0 + i) x | None => repeat (o_zero o) col end).
Proof.
  revert row0 pre q. induction len as [|len IH]; intros row0 pre q Hk HW H1 H2 H3 H4 H5; cbn [seq in_order].
  - destruct q; [|cbn in H3; lia]. exists []. rewrite app_nil_r. repeat split. intros; lia.
  - destruct q as [|x q].
    + rewrite diag_row; auto.
      2:{ right; left. destruct (Nat.lt_ge_cases row0 col); [|lia]. specialize (H2 0 ltac:(lia) ltac:(lia)). cbn in H2; lia. }
      assert (HB : (0 <=? row0) && (row0 <? 0 + col) = false).
      { destruct (Nat.ltb_spec row0 (0 + col)); [|apply andb_false_r]. specialize (H2 0 ltac:(lia) ltac:(lia)). cbn in H2; lia. }
      rewrite HB. destruct (IH (Datatypes.S row0) pre []) as (m & E & L & N); auto; try (cbn; lia).
      { intros i Hi Hc. exfalso. specialize (H2 (Datatypes.S i) ltac:(lia) ltac:(lia)). cbn in H2. lia. }
      rewrite E. exists (repeat (o_zero o) col :: m). split; [reflexivity|]. split; [cbn; lia|].
      intros [|i] Hi; [reflexivity|]. cbn. rewrite N by lia. destruct i; reflexivity.
    + destruct H1 as [H1|H1]; [|discriminate]. rewrite diag_row; eauto.
      assert (HB : (0 <=? row0) && (row0 <? 0 + col) = true).
      { cbn in H4. destruct (Nat.leb_spec 0 row0); [|lia]. destruct (Nat.ltb_spec row0 (0 + col)); [reflexivity|lia]. }
      rewrite HB. destruct (IH (Datatypes.S row0) (pre ++ [x]) q) as (m & E & L & N); rewrite ?app_length; try (cbn in *; lia).
      { intros i Hi Hc. specialize (H2 (Datatypes.S i) ltac:(lia) ltac:(lia)). cbn in H2. lia. }
      rewrite E. rewrite <- app_assoc. cbn [app]. eexists. split; [reflexivity|]. split; [cbn; lia|].
      intros [|i] Hi; cbn [nth_error].
      * rewrite Nat.sub_0_r, Nat.add_0_r. cbn. reflexivity.
      * rewrite N by lia. now replace (Datatypes.S row0 + i) with (row0 + Datatypes.S i) by lia.
Qed.

Lemma diag_row_nth {T} (z : T) col i x j : i < col -> j < col ->
  nth_error (diag_row_of z col i x) j = Some (if i =? j then x else z).
Proof.
  intros Hi Hj. unfold diag_row_of. destruct (Nat.eqb_spec i j) as [<-|Hne].
  - rewrite nth_error_app2 by (rewrite repeat_length; lia). rewrite repeat_length, Nat.sub_diag. reflexivity.
  - destruct (Nat.lt_ge_cases j i).
    + rewrite nth_error_app1 by (rewrite repeat_length; lia). now apply nth_error_repeat.
    + rewrite nth_error_app2 by (rewrite repeat_length; lia). rewrite repeat_length.
      replace (j - i) with (Datatypes.S (j - i - 1)) by lia. cbn. apply nth_error_repeat. lia.
Qed.

Lemma mdiag_spec {S T} c (d : ety S T) (o : ops S T) row col elems (s : S) :
  length elems = Nat.min row col -> row < W c ->
  exists m, mdiag c d o row col (Nat.min row col) elems s = (Ok m, s) /\ rect row col m /\
    forall i j, i < row -> j < col -> entry m i j = if i =? j then nth_error elems i else Some (o_zero o).
Proof.
  intros L HW. unfold mdiag.
  rewrite mgenerate_nested. unfold vnew. rewrite (mid_init elems) by exact L.
  destruct (diag_rows c d o (Nat.min row col) 0 row col [] elems s) as (m & E & Lm & N); cbn; try lia.
  rewrite E. cbn [app]. unfold bind. rewrite mid_drop. cbn. exists m. split; [reflexivity|].
  assert (RC : rect row col m).
  { split; [exact Lm|]. rewrite Forall_forall. intros r Hin. apply In_nth_error in Hin. destruct Hin as (i & Ei).
    assert (i < row) by (rewrite <- Lm; apply nth_error_Some; congruence). rewrite N in Ei by assumption. injection Ei as <-.
    destruct (nth_error elems i) eqn:E2; [|apply repeat_length].
    assert (i < length elems) by (apply nth_error_Some; congruence).
    unfold diag_row_of. rewrite app_length. cbn. rewrite !repeat_length. lia. }
  split; [exact RC|]. intros i j Hi Hj. unfold entry. rewrite N by exact Hi.
  destruct (nth_error elems i) as [x|] eqn:E2.
  - assert (i < length elems) by (apply nth_error_Some; congruence).
    cbn [Nat.add]. rewrite diag_row_nth by lia. destruct (i =? j); reflexivity.
  - apply nth_error_None in E2. rewrite nth_error_repeat by exact Hj.
    destruct (Nat.eqb_spec i j); [lia|reflexivity].
Qed.
