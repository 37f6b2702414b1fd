(** * DetLoop.v - the loops of determinant / cofactor / inverse (OpsM.v) under exact
    arithmetic, with matrices written as functions of the indices. *)
From Coq Require Import List Arith Bool Lia.
From Verif Require Import Rust Iter Elem VectorM MatIterM MatrixM ArithM OpsM SpecCommon SpecAlg.
From Verif Require Import IterProofs OwnProofs ChunkProofs VecProofs MatProofs AccProofs Sim.
Import ListNotations.

(** ** Loop rules *)
Lemma for_n_pure {S St} (body : nat -> St -> M S St) (g : nat -> St) (s : S) : forall k lo,
  (forall i, lo <= i < lo + k -> body i (g i) s = (Ok (g (i + 1)), s)) ->
  for_n k lo body (g lo) s = (Ok (g (lo + k)), s).
Proof.
  induction k as [|k IH]; intros lo H; cbn [for_n].
  - now rewrite Nat.add_0_r.
  - unfold bind. rewrite H by lia. rewrite (IH (lo + 1)); [now replace (lo + Datatypes.S k) with (lo + 1 + k) by lia|]. intros; apply H; lia.
Qed.
Lemma for_range_pure {S St} (body : nat -> St -> M S St) (g : nat -> St) (s : S) lo hi : lo <= hi ->
  (forall i, lo <= i < hi -> body i (g i) s = (Ok (g (i + 1)), s)) ->
  for_range lo hi body (g lo) s = (Ok (g hi), s).
Proof.
  intros L H. unfold for_range. rewrite for_n_pure; [now replace (lo + (hi - lo)) with hi by lia|]. intros; apply H; lia.
Qed.
Lemma for_n_inv {S St} (body : nat -> St -> M S St) (I : nat -> St -> Prop) (s : S) : forall k lo st,
  I lo st ->
  (forall i st, lo <= i < lo + k -> I i st -> exists st', body i st s = (Ok st', s) /\ I (i + 1) st') ->
  exists st', for_n k lo body st s = (Ok st', s) /\ I (lo + k) st'.
Proof.
  induction k as [|k IH]; intros lo st H0 H; cbn [for_n].
  - exists st. rewrite Nat.add_0_r. auto.
  - destruct (H lo st) as (st1 & E1 & H1); [lia|exact H0|]. unfold bind. rewrite E1.
    destruct (IH (lo + 1) st1 H1) as (st2 & E2 & H2); [intros; apply H; [lia|assumption]|].
    exists st2. split; [exact E2|]. now replace (lo + Datatypes.S k) with (lo + 1 + k) by lia.
Qed.
Lemma for_range_inv {S St} (body : nat -> St -> M S St) (I : nat -> St -> Prop) (s : S) lo hi st : lo <= hi ->
  I lo st ->
  (forall i st, lo <= i < hi -> I i st -> exists st', body i st s = (Ok st', s) /\ I (i + 1) st') ->
  exists st', for_range lo hi body st s = (Ok st', s) /\ I hi st'.
Proof.
  intros L H0 H. destruct (for_n_inv body I s (hi - lo) lo st H0) as (st' & E & H').
  - intros; apply H; [lia|assumption].
  - exists st'. split; [exact E|]. now replace (lo + (hi - lo)) with hi in H' by lia.
Qed.
(** With early return: [Q] holds of the returned value. *)
Lemma for_n_ret_inv {S St R} (body : nat -> St -> M S (St + R)) (I : nat -> St -> Prop) (Q : R -> Prop) (s : S) : forall k lo st,
  I lo st ->
  (forall i st, lo <= i < lo + k -> I i st ->
     exists r, body i st s = (Ok r, s) /\ match r with inl st' => I (i + 1) st' | inr v => Q v end) ->
  exists r, for_n_ret k lo body st s = (Ok r, s) /\ match r with inl st' => I (lo + k) st' | inr v => Q v end.
Proof.
  induction k as [|k IH]; intros lo st H0 H; cbn [for_n_ret].
  - exists (inl st). rewrite Nat.add_0_r. auto.
  - destruct (H lo st) as (r & E1 & H1); [lia|exact H0|]. unfold bind. rewrite E1. destruct r as [st1|v].
    + destruct (IH (lo + 1) st1 H1) as (r & E2 & H2); [intros; apply H; [lia|assumption]|].
      exists r. split; [exact E2|]. now replace (lo + Datatypes.S k) with (lo + 1 + k) by lia.
    + exists (inr v). auto.
Qed.
Lemma for_range_ret_inv {S St R} (body : nat -> St -> M S (St + R)) (I : nat -> St -> Prop) (Q : R -> Prop) (s : S) lo hi st : lo <= hi ->
  I lo st ->
  (forall i st, lo <= i < hi -> I i st ->
     exists r, body i st s = (Ok r, s) /\ match r with inl st' => I (i + 1) st' | inr v => Q v end) ->
  exists r, for_range_ret lo hi body st s = (Ok r, s) /\ match r with inl st' => I hi st' | inr v => Q v end.
Proof.
  intros L H0 H. destruct (for_n_ret_inv body I Q s (hi - lo) lo st H0) as (r & E & H').
  - intros; apply H; [lia|assumption].
  - exists r. split; [exact E|]. now replace (lo + (hi - lo)) with hi in H' by lia.
Qed.

(** ** Matrices as functions *)
Section Fun.
Context {T : Type}.
Lemma entry_mat row col (f : nat -> nat -> T) i j : i < row -> j < col -> entry (mat row col f) i j = Some (f i j).
Proof.
  intros Hi Hj. unfold entry, mat. rewrite nth_error_map.
  rewrite (nth_error_nth' (seq 0 row) 0) by (now rewrite seq_length). rewrite seq_nth by exact Hi. cbn [option_map].
  rewrite nth_error_map. rewrite (nth_error_nth' (seq 0 col) 0) by (now rewrite seq_length). now rewrite seq_nth.
Qed.
Lemma mat_set_mat row col (f : nat -> nat -> T) i j x : i < row -> j < col ->
  mat_set (mat row col f) i j x = mat row col (fun a b => if (a =? i) && (b =? j) then x else f a b).
Proof.
  intros Hi Hj. apply (mat_ext row col).
  - apply mat_set_rect, mat_rect.
  - apply mat_rect.
  - intros a b Ha Hb. rewrite (mat_set_entry row col) by (auto; apply mat_rect). rewrite entry_mat by assumption.
    rewrite entry_mat by assumption. now destruct ((a =? i) && (b =? j)).
Qed.
Lemma mat_inj row col (f g : nat -> nat -> T) : mat row col f = mat row col g -> forall i j, i < row -> j < col -> f i j = g i j.
Proof.
  intros E i j Hi Hj. pose proof (entry_mat row col f i j Hi Hj) as E1. rewrite E, entry_mat in E1 by assumption.
  now injection E1.
Qed.
End Fun.

(** The index that skips [i]. *)
Definition skip (i a : nat) : nat := if a <? i then a else a + 1.

Lemma filter_map {A B} (p : B -> bool) (f : A -> B) l : List.filter p (map f l) = map f (List.filter (fun x => p (f x)) l).
Proof. induction l as [|x l IH]; cbn; [reflexivity|]. destruct (p (f x)); cbn; now rewrite IH. Qed.
Lemma filter_seq n i : i < n -> List.filter (fun k => negb (k =? i)) (seq 0 n) = map (skip i) (seq 0 (n - 1)).
Proof.
  intros Hi. replace n with (i + (1 + (n - 1 - i))) at 1 by lia. rewrite seq_app, filter_app.
  replace (n - 1) with (i + (n - 1 - i)) at 2 by lia. rewrite (seq_app i), map_app. f_equal.
  - cbn. assert (G : forall l, (forall k, In k l -> k < i) -> List.filter (fun k => negb (k =? i)) l = map (skip i) l).
    { induction l as [|k l IH]; intros H; cbn; [reflexivity|]. assert (k < i) by (apply H; now left).
      unfold skip at 1. destruct (Nat.eqb_spec k i); [lia|]. destruct (Nat.ltb_spec k i); [|lia]. cbn. f_equal.
      apply IH. intros; apply H. now right. }
    apply G. intros k Hk. apply in_seq in Hk. lia.
  - cbn [Nat.add seq List.filter]. rewrite Nat.eqb_refl. cbn [negb].
    assert (G : forall k a, i <= a -> List.filter (fun k => negb (k =? i)) (seq (Datatypes.S a) k) = map (skip i) (seq a k)).
    { induction k as [|k IH]; intros a Ha; cbn [seq List.filter map]; [reflexivity|].
      unfold skip at 1. destruct (Nat.eqb_spec (Datatypes.S a) i); [lia|]. destruct (Nat.ltb_spec a i); [lia|]. cbn [negb].
      f_equal; [lia|]. apply IH. lia. }
    apply G. lia.
Qed.
Lemma indexed_vec {T} n (f : nat -> T) : indexed (map f (seq 0 n)) = map (fun k => (k, f k)) (seq 0 n).
Proof.
  unfold indexed. rewrite map_length, seq_length. generalize (seq 0 n). induction l; cbn; congruence.
Qed.

Section Exact.
Context {S T : Type}.
Variable c : cfg.
Variable d : ety S T.
Variable o : ops S T.
Variable A : arith T.
Hypothesis HE : exact o A.
Let HC : faithful (o_clone o) := ex_clone _ _ (ex_semi _ _ HE).
Let HM : pure2 (o_mul o) (a_mul A) := ex_mul _ _ (ex_semi _ _ HE).
Let HA : pure2 (o_add o) (a_add A) := ex_add _ _ (ex_semi _ _ HE).
Let HS : pure2 (o_sub o) (a_sub A) := ex_sub _ _ HE.
Let HN : pure1 (o_neg o) (a_neg A) := ex_neg _ _ HE.

Lemma ix_mat row col f i j s : i < row -> j < col -> ix o (mat row col f) i j s = (Ok (f i j), s).
Proof.
  intros. unfold ix, bind. rewrite (mindex_in _ i j (f i j)) by (now apply entry_mat). apply HC.
Qed.
Lemma set_mat row col (f : nat -> nat -> T) i j x (s : S) : i < row -> j < col ->
  mindex_set (mat row col f) (i, j) x s = (Ok (mat row col (fun a b => if (a =? i) && (b =? j) then x else f a b)), s).
Proof.
  intros. rewrite (mindex_set_in row col) by (auto; apply mat_rect). now rewrite mat_set_mat.
Qed.

(** Row [j] minus [dd] times row [i]. *)
Definition f_elim (i j : nat) (dd : T) (f : nat -> nat -> T) : nat -> nat -> T :=
  fun a b => if a =? j then a_sub A (f a b) (a_mul A (f i b) dd) else f a b.
Definition f_scale (i : nat) (r : T) (f : nat -> nat -> T) : nat -> nat -> T :=
  fun a b => if a =? i then a_mul A (f a b) r else f a b.

Ltac step := unfold bind at 1.
Lemma elim_row_spec n i j dd f s : i < n -> j < n -> i <> j ->
  elim_row o n i j dd (mat n n f) s = (Ok (mat n n (f_elim i j dd f)), s).
Proof.
  intros Hi Hj Hij. unfold elim_row.
  set (g := fun k => mat n n (fun a b => if (a =? j) && (b <? k) then a_sub A (f a b) (a_mul A (f i b) dd) else f a b)).
  assert (E0 : mat n n f = g 0).
  { apply mat_ext'. intros a b _ _. destruct (Nat.ltb_spec b 0); [lia|]. now rewrite andb_false_r. }
  assert (E1 : g n = mat n n (f_elim i j dd f)).
  { apply mat_ext'. intros a b Ha Hb. unfold f_elim. destruct (Nat.ltb_spec b n); [|lia]. now rewrite andb_true_r. }
  rewrite E0, <- E1. apply for_range_pure; [lia|]. intros k Hk. unfold g at 1 2.
  step. rewrite ix_mat by lia. step. rewrite ix_mat by lia. step. rewrite HC. step. rewrite HM. step. rewrite HS.
  unfold g. rewrite set_mat by lia. do 2 f_equal. apply mat_ext'. intros a b Ha Hb.
  rewrite Nat.eqb_refl, Nat.ltb_irrefl. cbn [andb]. destruct (Nat.eqb_spec i j); [contradiction|]. cbn [andb].
  destruct (Nat.eqb_spec a j) as [->|]; cbn [andb]; [|reflexivity].
  destruct (Nat.eqb_spec b k) as [->|].
  - destruct (Nat.ltb_spec k (k + 1)); [reflexivity|lia].
  - destruct (Nat.ltb_spec b k), (Nat.ltb_spec b (k + 1)); try lia; reflexivity.
Qed.
Lemma elim_rows_spec n i j dd f g s : i < n -> j < n -> i <> j ->
  elim_rows o n i j dd (mat n n f, mat n n g) s = (Ok (mat n n (f_elim i j dd f), mat n n (f_elim i j dd g)), s).
Proof.
  intros Hi Hj Hij. unfold elim_rows.
  set (h := fun (f : nat -> nat -> T) k => mat n n (fun a b => if (a =? j) && (b <? k) then a_sub A (f a b) (a_mul A (f i b) dd) else f a b)).
  assert (E0 : forall f, mat n n f = h f 0).
  { intros f'. apply mat_ext'. intros a b _ _. destruct (Nat.ltb_spec b 0); [lia|]. now rewrite andb_false_r. }
  assert (E1 : forall f, h f n = mat n n (f_elim i j dd f)).
  { intros f'. apply mat_ext'. intros a b Ha Hb. unfold f_elim. destruct (Nat.ltb_spec b n); [|lia]. now rewrite andb_true_r. }
  assert (Es : forall f k, k < n -> mat n n (fun a b => if (a =? j) && (b =? k) then
      a_sub A (if (j =? j) && (k <? k) then a_sub A (f j k) (a_mul A (f i k) dd) else f j k)
        (a_mul A (if (i =? j) && (k <? k) then a_sub A (f i k) (a_mul A (f i k) dd) else f i k) dd)
      else if (a =? j) && (b <? k) then a_sub A (f a b) (a_mul A (f i b) dd) else f a b) = h f (k + 1)).
  { intros f' k Hk. apply mat_ext'. intros a b Ha Hb.
    rewrite Nat.eqb_refl, Nat.ltb_irrefl. cbn [andb]. destruct (Nat.eqb_spec i j); [contradiction|]. cbn [andb].
    destruct (Nat.eqb_spec a j) as [->|]; cbn [andb]; [|reflexivity].
    destruct (Nat.eqb_spec b k) as [->|].
    - destruct (Nat.ltb_spec k (k + 1)); [reflexivity|lia].
    - destruct (Nat.ltb_spec b k), (Nat.ltb_spec b (k + 1)); try lia; reflexivity. }
  rewrite (E0 f), (E0 g), <- !E1.
  apply (for_range_pure _ (fun k => (h f k, h g k))); [lia|]. intros k Hk. cbn [fst snd]. unfold h at 1 2 3 4.
  step. rewrite ix_mat by lia. step. rewrite ix_mat by lia. step. rewrite HC. step. rewrite HM. step. rewrite HS.
  unfold h at 1. step. rewrite set_mat by lia. rewrite (Es f k) by lia.
  step. unfold h at 1. rewrite ix_mat by lia. step. unfold h at 1. rewrite ix_mat by lia.
  step. rewrite HC. step. rewrite HM. step. rewrite HS.
  unfold h at 1. step. rewrite set_mat by lia. rewrite (Es g k) by lia. reflexivity.
Qed.
Lemma scale_rows_spec n i r f g s : i < n ->
  scale_rows o n i r (mat n n f, mat n n g) s = (Ok (mat n n (f_scale i r f), mat n n (f_scale i r g)), s).
Proof.
  intros Hi. unfold scale_rows.
  set (h := fun (f : nat -> nat -> T) k => mat n n (fun a b => if (a =? i) && (b <? k) then a_mul A (f a b) r else f a b)).
  assert (E0 : forall f, mat n n f = h f 0).
  { intros f'. apply mat_ext'. intros a b _ _. destruct (Nat.ltb_spec b 0); [lia|]. now rewrite andb_false_r. }
  assert (E1 : forall f, h f n = mat n n (f_scale i r f)).
  { intros f'. apply mat_ext'. intros a b Ha Hb. unfold f_scale. destruct (Nat.ltb_spec b n); [|lia]. now rewrite andb_true_r. }
  assert (Es : forall f k, k < n -> mat n n (fun a b => if (a =? i) && (b =? k) then
      a_mul A (if (i =? i) && (k <? k) then a_mul A (f i k) r else f i k) r
      else if (a =? i) && (b <? k) then a_mul A (f a b) r else f a b) = h f (k + 1)).
  { intros f' k Hk. apply mat_ext'. intros a b Ha Hb.
    rewrite Nat.eqb_refl, Nat.ltb_irrefl. cbn [andb].
    destruct (Nat.eqb_spec a i) as [->|]; cbn [andb]; [|reflexivity].
    destruct (Nat.eqb_spec b k) as [->|].
    - destruct (Nat.ltb_spec k (k + 1)); [reflexivity|lia].
    - destruct (Nat.ltb_spec b k), (Nat.ltb_spec b (k + 1)); try lia; reflexivity. }
  rewrite (E0 f), (E0 g), <- !E1.
  apply (for_range_pure _ (fun k => (h f k, h g k))); [lia|]. intros k Hk. cbn [fst snd]. unfold h at 1 2.
  step. rewrite ix_mat by lia. step. rewrite HC. step. rewrite HM. step. rewrite set_mat by lia. rewrite (Es f k) by lia.
  step. unfold h at 1. rewrite ix_mat by lia. step. rewrite HC. step. rewrite HM. unfold h at 1. step. rewrite set_mat by lia.
  rewrite (Es g k) by lia. reflexivity.
Qed.

(** The minor matrix. *)
Lemma filter_skip_gives {X} n (h : nat -> X) (it : iter S X) i : i < n ->
  gives it (map ret (map h (seq 0 n))) nodrop ->
  gives (filter (Datatypes.S n) ref_ety (fun '(ii, _) => negb (ii =? i)) (enumerate it))
    (map ret (map (fun a => (skip i a, h (skip i a))) (seq 0 (n - 1)))) nodrop.
Proof.
  intros Hi G. apply enumerate_ret_gives in G. rewrite indexed_vec in G.
  apply (filter_gives (Datatypes.S n) ref_ety (fun '(ii, _) => negb (ii =? i))) in G;
    [|rewrite map_length, seq_length; lia|reflexivity].
  rewrite filter_map, (filter_seq n i Hi), !map_map in G. rewrite map_map. exact G.
Qed.
Lemma submatrix_spec n f i j s : i < n -> j < n -> n < W c ->
  submatrix c d o n (mat n n f) i j s = (Ok (mat (n - 1) (n - 1) (fun a b => f (skip i a) (skip j b))), s).
Proof.
  intros Hi Hj HW. unfold submatrix.
  assert (Rm : rect n n (mat n n f)) by apply mat_rect.
  pose proof (filter_skip_gives n (fun k => map (fun b => f k b) (seq 0 n)) _ i Hi (rr_gives c n (mat n n f) (proj1 Rm) HW)) as G.
  rewrite (from_iter_gives _ _ (n - 1) _ _ _ s (imap_ret_gives _ _ _ _ G)) by (now rewrite !map_length, seq_length).
  rewrite map_map.
  rewrite (seqm_pure _ _ (fun a => map (fun b => f (skip i a) (skip j b)) (seq 0 (n - 1)))); [reflexivity|].
  intros a s0 _. cbv beta.
  pose proof (filter_skip_gives n (fun b => f (skip i a) b) _ j Hj (slice_iter_gives (map (fun b => f (skip i a) b) (seq 0 n)))) as G2.
  rewrite (from_iter_gives _ _ (n - 1) _ _ _ s0 (imap_ret_gives _ _ _ _ G2)) by (now rewrite !map_length, seq_length).
  rewrite map_map. rewrite (seqm_pure _ _ (fun b => f (skip i a) (skip j b))); [reflexivity|].
  intros b s1 _. apply HC.
Qed.

(** Sums and products over a range. *)
Lemma fold_range (h : nat -> M S T) (g : nat -> T) (op : T -> T -> M S T) (pop : T -> T -> T) n z s :
  pure2 op pop -> (forall i s, i < n -> h i s = (Ok (g i), s)) ->
  fold (Datatypes.S n) (imap h (range 0 n)) z op s = (Ok (fold_left (fun acc k => pop acc (g k)) (seq 0 n) z), s).
Proof.
  intros Hop Hh. unfold fold. pose proof (imap_ret_gives h _ _ _ (range_gives (S:=S) 0 n)) as G.
  rewrite (for_each_gives _ _ _ _ _ z s G) by (rewrite map_length, seq_length; lia).
  rewrite Nat.sub_0_r. rewrite foldm_in_order, fold_in_order_map.
  rewrite (fold_in_order_pure _ (fun acc k => pop acc (g k))); [reflexivity|].
  intros b a s0 Ha. apply in_seq in Ha. unfold bind. rewrite Hh by lia. apply Hop.
Qed.

Lemma idx_spec n m i j s : rect n n m -> i < n -> j < n -> idx c o n m i j s = (Ok (at2 A m i j), s).
Proof.
  intros Rm Hi Hj. exact (sim_eq _ _ (sim_idx false eq c o A (exact_sim o A HE) n m m i j (Forall2_eq2 m) Rm Hi Hj) s).
Qed.
Lemma mscale_pure row col op g m x s : rect row col m -> row < W c -> col < W c ->
  (forall e s, op e x s = (Ok (g e), s)) -> mscale c d row col op (o_clone o) m x s = (Ok (map (map g) m), s).
Proof.
  intros Rm H1 H2 Hop. rewrite mscale_spec by assumption.
  rewrite (unwind_pure _ _ (map g)); [reflexivity|]. intros r s0 _. unfold bind. rewrite HC.
  rewrite (unwind_pure _ _ g); [reflexivity|]. intros e s1 _. rewrite HC. apply Hop.
Qed.
Lemma ms_spec m i1 j1 i2 j2 i3 j3 i4 j4 s : rect 3 3 m ->
  i1 < 3 -> j1 < 3 -> i2 < 3 -> j2 < 3 -> i3 < 3 -> j3 < 3 -> i4 < 3 -> j4 < 3 ->
  ms c o m i1 j1 i2 j2 i3 j3 i4 j4 s =
  (Ok (a_sub A (a_mul A (at2 A m i1 j1) (at2 A m i2 j2)) (a_mul A (at2 A m i3 j3) (at2 A m i4 j4))), s).
Proof.
  intros. unfold ms, bind. rewrite !idx_spec by assumption. rewrite HM. rewrite !idx_spec by assumption. rewrite HM. apply HS.
Qed.
End Exact.
