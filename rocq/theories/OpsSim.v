(** * OpsSim.v - determinant and inverse of every size when the element operators are exact or
    panic (integers with overflow checks): the methods compute the pure functions of OpsPure.v, or
    panic. *)
From Coq Require Import List Arith Bool Lia.
From Verif Require Import Rust Iter Elem VectorM MatIterM MatrixM ArithM OpsM SpecCommon SpecAlg.
From Verif Require Import IterProofs OwnProofs ChunkProofs VecProofs MatProofs AccProofs Sim DetLoop OpsPure.
Import ListNotations.

Section Loops.
Context {S : Type}.
Variable pa : bool.
Notation simq m x := (sim (S := S) pa eq m x).
Lemma simq_bind {A B} (m : M S A) (k : A -> M S B) x y : simq m x -> simq (k x) y -> simq (bind m k) y.
Proof. intros H1 H2. eapply sim_bind; [exact H1|]. intros a ->. exact H2. Qed.
Lemma simq_ret {A} (a : A) : simq (ret a) a.
Proof. now apply sim_ret. Qed.
Lemma simq_run {A} (m : M S A) x : (forall s, m s = (Ok x, s)) -> simq m x.
Proof. intros H s. left. exists x. split; [apply H|reflexivity]. Qed.
Lemma simq_pure_loop {St} (body : nat -> St -> M S St) (g : nat -> St) lo hi : lo <= hi ->
  (forall k, lo <= k < hi -> simq (body k (g k)) (g (k + 1))) -> simq (for_range lo hi body (g lo)) (g hi).
Proof.
  intros Hl H. unfold for_range. assert (E : hi = lo + (hi - lo)) by lia. set (k := hi - lo) in *. clearbody k. subst hi. clear Hl.
  revert lo H. induction k as [|k IH]; intros lo H; cbn [for_n]; [rewrite Nat.add_0_r; apply simq_ret|].
  eapply simq_bind; [apply H; lia|]. replace (lo + Datatypes.S k) with (lo + 1 + k) by lia. replace (Datatypes.S lo) with (lo + 1) by lia. apply IH. intros; apply H; lia.
Qed.
Lemma simq_fold {St} (body : nat -> St -> M S St) (g : nat -> St -> St) (P : St -> Prop) lo hi st :
  P st -> (forall i st, lo <= i < hi -> P st -> simq (body i st) (g i st) /\ P (g i st)) ->
  simq (for_range lo hi body st) (fold_left (fun st i => g i st) (seq lo (hi - lo)) st).
Proof.
  unfold for_range. intros HP H. assert (H' : forall i st, lo <= i < lo + (hi - lo) -> P st -> simq (body i st) (g i st) /\ P (g i st))
    by (intros; apply H; [lia|assumption]). clear H.
  set (k := hi - lo) in *. clearbody k. clear hi. revert lo st HP H'. induction k as [|k IH]; intros lo st HP H; cbn [for_n seq fold_left]; [apply simq_ret|].
  destruct (H lo st) as [E1 P1]; [lia|exact HP|]. eapply simq_bind; [exact E1|]. rewrite Nat.add_1_r.
  apply IH; [exact P1|]. intros; apply H; [lia|assumption].
Qed.
Lemma simq_ret_fold {St R} (body : nat -> St -> M S (St + R)) (g : nat -> St -> St + R) (P : St -> Prop) lo hi st :
  P st -> (forall i st, lo <= i < hi -> P st -> simq (body i st) (g i st) /\ match g i st with inl st' => P st' | inr _ => True end) ->
  simq (for_range_ret lo hi body st) (ret_fold g (seq lo (hi - lo)) st) /\
  match ret_fold g (seq lo (hi - lo)) st with inl st' => P st' | inr _ => True end.
Proof.
  unfold for_range_ret. intros HP H.
  assert (H' : forall i st, lo <= i < lo + (hi - lo) -> P st -> simq (body i st) (g i st) /\ match g i st with inl st' => P st' | inr _ => True end)
    by (intros; apply H; [lia|assumption]). clear H.
  set (k := hi - lo) in *. clearbody k. clear hi. revert lo st HP H'. induction k as [|k IH]; intros lo st HP H; cbn [for_n_ret seq ret_fold].
  - split; [apply simq_ret|exact HP].
  - destruct (H lo st) as [E1 P1]; [lia|exact HP|]. rewrite <- (Nat.add_1_r lo).
    destruct (g lo st) as [st'|v].
    + destruct (IH (lo + 1) st' P1) as [E2 P2]; [intros; apply H; [lia|assumption]|]. split; [|exact P2]. eapply simq_bind; [exact E1|]. exact E2.
    + split; [|exact I]. eapply simq_bind; [exact E1|]. apply simq_ret.
Qed.
End Loops.

Section Checked.
Context {S T : Type}.
Variable A : arith T.
Variable dv : T -> T -> T.
Variable iz : T -> bool.
Variable pa : bool.
Variable c : cfg.
Variable d : ety S T.
Variable o : ops S T.
Hypothesis H : sim_ring pa eq o A.
Hypothesis HD : forall x y, iz y = false -> sim pa eq (o_div o x y) (dv x y).
Hypothesis HZ : forall x, o_is_zero o x = iz x.
Let HS := sm_semi _ _ _ _ H.
Let HC : faithful (o_clone o) := sm_clone _ _ _ _ HS.
Notation simq m x := (sim (S := S) pa eq m x).

Lemma s_ix row col f i j : i < row -> j < col -> simq (ix o (mat row col f) i j) (f i j).
Proof using HC.
  intros Hi Hj. apply simq_run. intros s. unfold ix, bind. rewrite (mindex_in _ i j (f i j)) by now apply entry_mat. apply HC.
Qed.
Lemma s_set row col (f : nat -> nat -> T) i j x : i < row -> j < col ->
  simq (mindex_set (mat row col f) (i, j) x) (mat row col (fun a b => if (a =? i) && (b =? j) then x else f a b)).
Proof using. intros Hi Hj. apply simq_run. intros s. now rewrite set_mat. Qed.
Lemma s_clone x : simq (o_clone o x) x.
Proof using HC. apply simq_run. apply HC. Qed.
Lemma s_mul x y : simq (o_mul o x y) (a_mul A x y).
Proof using HS. now apply (sm_mul _ _ _ _ HS). Qed.
Lemma s_add x y : simq (o_add o x y) (a_add A x y).
Proof using HS. now apply (sm_add _ _ _ _ HS). Qed.
Lemma s_sub x y : simq (o_sub o x y) (a_sub A x y).
Proof using H. now apply (sm_sub _ _ _ _ H). Qed.
Ltac st := eapply simq_bind; [first [apply s_ix; lia|apply s_clone|apply s_mul|apply s_sub|apply s_set; lia]|].

Lemma s_elim_row n i j dd f : i < n -> j < n -> i <> j ->
  simq (elim_row o n i j dd (mat n n f)) (mat n n (f_elim A i j dd f)).
Proof using H.
  intros Hi Hj Hij. unfold elim_row.
  set (g := fun k => mat n n (fun a b => if (a =? j) && (b <? k) then a_sub A (f a b) (a_mul A (f i b) dd) else f a b)).
  assert (E0 : mat n n f = g 0).
  { apply mat_ext'. intros a b _ _. destruct (Nat.ltb_spec b 0); [lia|]. now rewrite andb_false_r. }
  assert (E1 : g n = mat n n (f_elim A i j dd f)).
  { apply mat_ext'. intros a b Ha Hb. unfold f_elim. destruct (Nat.ltb_spec b n); [|lia]. now rewrite andb_true_r. }
  rewrite E0, <- E1. apply simq_pure_loop; [lia|]. intros k Hk. unfold g at 1 2 3. st. st. st. st. st.
  match goal with |- sim _ _ _ ?x => eenough (E : x = _); [rewrite E; apply s_set; lia|] end. apply mat_ext'. intros a b Ha Hb.
  rewrite Nat.eqb_refl, Nat.ltb_irrefl. cbn [andb]. destruct (Nat.eqb_spec i j); [contradiction|]. cbn [andb].
  destruct (Nat.eqb_spec a j) as [->|]; cbn [andb]; [|reflexivity].
  destruct (Nat.eqb_spec b k) as [->|].
  - destruct (Nat.ltb_spec k (k + 1)); [reflexivity|lia].
  - destruct (Nat.ltb_spec b k), (Nat.ltb_spec b (k + 1)); try lia; reflexivity.
Qed.
Lemma s_elim_rows n i j dd f g : i < n -> j < n -> i <> j ->
  simq (elim_rows o n i j dd (mat n n f, mat n n g)) (mat n n (f_elim A i j dd f), mat n n (f_elim A i j dd g)).
Proof using H.
  intros Hi Hj Hij. unfold elim_rows.
  set (h := fun (f : nat -> nat -> T) k => mat n n (fun a b => if (a =? j) && (b <? k) then a_sub A (f a b) (a_mul A (f i b) dd) else f a b)).
  assert (E0 : forall f, mat n n f = h f 0).
  { intros f'. apply mat_ext'. intros a b _ _. destruct (Nat.ltb_spec b 0); [lia|]. now rewrite andb_false_r. }
  assert (E1 : forall f, h f n = mat n n (f_elim A i j dd f)).
  { intros f'. apply mat_ext'. intros a b Ha Hb. unfold f_elim. destruct (Nat.ltb_spec b n); [|lia]. now rewrite andb_true_r. }
  assert (Es : forall f k, k < n -> mat n n (fun a b => if (a =? j) && (b =? k) then
      a_sub A (if (j =? j) && (k <? k) then a_sub A (f j k) (a_mul A (f i k) dd) else f j k)
        (a_mul A (if (i =? j) && (k <? k) then a_sub A (f i k) (a_mul A (f i k) dd) else f i k) dd)
      else if (a =? j) && (b <? k) then a_sub A (f a b) (a_mul A (f i b) dd) else f a b) = h f (k + 1)).
  { intros f' k Hk. apply mat_ext'. intros a b Ha Hb.
    rewrite Nat.eqb_refl, Nat.ltb_irrefl. cbn [andb]. destruct (Nat.eqb_spec i j); [contradiction|]. cbn [andb].
    destruct (Nat.eqb_spec a j) as [->|]; cbn [andb]; [|reflexivity].
    destruct (Nat.eqb_spec b k) as [->|].
    - destruct (Nat.ltb_spec k (k + 1)); [reflexivity|lia].
    - destruct (Nat.ltb_spec b k), (Nat.ltb_spec b (k + 1)); try lia; reflexivity. }
  rewrite (E0 f), (E0 g), <- !E1.
  apply (simq_pure_loop pa _ (fun k => (h f k, h g k))); [lia|]. intros k Hk. cbn [fst snd]. rewrite <- (Es f k), <- (Es g k) by lia. unfold h.
  do 12 st. apply simq_ret.
Qed.
Lemma s_scale_rows n i r f g : i < n ->
  simq (scale_rows o n i r (mat n n f, mat n n g)) (mat n n (f_scale A i r f), mat n n (f_scale A i r g)).
Proof using H.
  intros Hi. unfold scale_rows.
  set (h := fun (f : nat -> nat -> T) k => mat n n (fun a b => if (a =? i) && (b <? k) then a_mul A (f a b) r else f a b)).
  assert (E0 : forall f, mat n n f = h f 0).
  { intros f'. apply mat_ext'. intros a b _ _. destruct (Nat.ltb_spec b 0); [lia|]. now rewrite andb_false_r. }
  assert (E1 : forall f, h f n = mat n n (f_scale A i r f)).
  { intros f'. apply mat_ext'. intros a b Ha Hb. unfold f_scale. destruct (Nat.ltb_spec b n); [|lia]. now rewrite andb_true_r. }
  assert (Es : forall f k, k < n -> mat n n (fun a b => if (a =? i) && (b =? k) then
      a_mul A (if (i =? i) && (k <? k) then a_mul A (f i k) r else f i k) r
      else if (a =? i) && (b <? k) then a_mul A (f a b) r else f a b) = h f (k + 1)).
  { intros f' k Hk. apply mat_ext'. intros a b Ha Hb.
    rewrite Nat.eqb_refl, Nat.ltb_irrefl. cbn [andb].
    destruct (Nat.eqb_spec a i) as [->|]; cbn [andb]; [|reflexivity].
    destruct (Nat.eqb_spec b k) as [->|].
    - destruct (Nat.ltb_spec k (k + 1)); [reflexivity|lia].
    - destruct (Nat.ltb_spec b k), (Nat.ltb_spec b (k + 1)); try lia; reflexivity. }
  rewrite (E0 f), (E0 g), <- !E1.
  apply (simq_pure_loop pa _ (fun k => (h f k, h g k))); [lia|]. intros k Hk. cbn [fst snd]. rewrite <- (Es f k), <- (Es g k) by lia. unfold h.
  do 8 st. apply simq_ret.
Qed.
Lemma s_submatrix n m i j : rect n n m -> i < n -> j < n -> n < W c -> simq (submatrix c d o n m i j) (p_sub A n i j m).
Proof using HC.
  intros Rm' Hi Hj HW. apply simq_run. intros s. rewrite <- (mat_at2 A n n m Rm') at 1. set (f := at2 A m). unfold submatrix.
  assert (Rm : rect n n (mat n n f)) by apply mat_rect.
  pose proof (filter_skip_gives n (fun k => map (fun b => f k b) (seq 0 n)) _ i Hi (rr_gives (S := S) c n (mat n n f) (proj1 Rm) HW)) as G.
  rewrite (from_iter_gives _ _ (n - 1) _ _ _ s (imap_ret_gives _ _ _ _ G)) by (now rewrite !map_length, seq_length).
  rewrite map_map.
  rewrite (seqm_pure _ _ (fun a => map (fun b => f (skip i a) (skip j b)) (seq 0 (n - 1)))); [reflexivity|].
  intros a s0 _. cbv beta.
  pose proof (filter_skip_gives n (fun b => f (skip i a) b) _ j Hj (slice_iter_gives (S := S) (map (fun b => f (skip i a) b) (seq 0 n)))) as G2.
  rewrite (from_iter_gives _ _ (n - 1) _ _ _ s0 (imap_ret_gives _ _ _ _ G2)) by (now rewrite !map_length, seq_length).
  rewrite map_map. rewrite (seqm_pure _ _ (fun b => f (skip i a) (skip j b))); [reflexivity|].
  intros b s1 _. apply HC.
Qed.
Lemma s_cof_sign i j : i + j < W c -> simq (cof_sign c o i j) (p_sign A i j).
Proof using H.
  intros Hl. unfold cof_sign. eapply simq_bind; [apply (simq_run pa (usz_add c i j) (i + j)); intros s; unfold usz_add; destruct (Nat.ltb_spec (i + j) (W c)); [reflexivity|lia]|].
  unfold p_sign. rewrite <- (sm_one _ _ _ _ HS). destruct (_ =? 0); [apply simq_ret|]. now apply (sm_neg _ _ _ _ H).
Qed.
Lemma s_fold_range (h : nat -> M S T) (g : nat -> T) (op : T -> T -> M S T) (pop : T -> T -> T) n z :
  (forall x y, simq (op x y) (pop x y)) -> (forall i, i < n -> simq (h i) (g i)) ->
  simq (fold (Datatypes.S n) (imap h (range 0 n)) z op) (fold_left (fun acc k => pop acc (g k)) (seq 0 n) z).
Proof using.
  intros Hop Hh.
  apply (sim_ext pa eq _ (fun s => fold_in_order (fun b a => bind (h a) (fun x => op b x)) (seq 0 n) z s) _ (fold_left (fun acc k => pop acc (g k)) (seq 0 n) z)); [|reflexivity|].
  - intros s. unfold fold. pose proof (imap_ret_gives h _ _ _ (range_gives (S:=S) 0 n)) as G.
    rewrite (for_each_gives _ _ _ _ _ z s G) by (rewrite map_length, seq_length; lia).
    rewrite Nat.sub_0_r. now rewrite foldm_in_order, fold_in_order_map.
  - apply (sim_fold pa eq (fun a b : nat => a = b /\ a < n)); [|reflexivity|].
    + assert (G : forall l, (forall a, In a l -> a < n) -> Forall2 (fun a b : nat => a = b /\ a < n) l l).
      { induction l as [|a l IH]; intros Hl; constructor; [split; [reflexivity|apply Hl; now left]|apply IH; intros; apply Hl; now right]. }
      apply G. intros a Ha. apply in_seq in Ha. lia.
    + intros a a' x x' [-> Ha] ->. eapply simq_bind; [now apply Hh|]. apply Hop.
Qed.
Lemma s_ix' n m i j : rect n n m -> i < n -> j < n -> simq (ix o m i j) (at2 A m i j).
Proof using HC. intros R Hi Hj. rewrite <- (mat_at2 A n n m R) at 1. now apply s_ix. Qed.
Lemma det_big_s n m cof pcof : rect n n m -> 1 <= n -> (forall i, i < n -> simq (cof (i, 0)) (pcof (i, 0))) ->
  simq (det_big c d o n m cof) (p_det_big A dv iz n m pcof).
Proof using H HD HZ.
  intros R Hn Hcof. unfold det_big, p_det_big. eapply simq_bind; [apply simq_run; intros s; apply mclone_id; [exact R|exact HC]|].
  set (step := fun i mat => ret_fold _ (seq (i + 1) (n - (i + 1))) mat).
  match goal with |- sim _ _ (bind (for_range_ret 0 n ?b m) _) _ => destruct (simq_ret_fold pa b step (rect n n) 0 n m R) as [E P] end.
  - intros i st Hi Rst. unfold step. apply simq_ret_fold; [exact Rst|].
    intros j st' Hj Rst'. split; [|destruct (iz _); [exact I|apply mat_rect]].
    eapply simq_bind; [apply simq_run; intros s; apply (mindex_in _ i i (at2 A st' i i)); rewrite <- (mat_at2 A n n st' Rst') at 1; apply entry_mat; lia|].
    rewrite HZ. destruct (iz (at2 A st' i i)) eqn:Ez.
    + eapply simq_bind; [|apply simq_ret]. unfold expand_col0.
      rewrite <- (sm_zero _ _ _ _ HS). apply (s_fold_range _ (fun i => a_mul A (at2 A m i 0) (pcof (i, 0))) _ (a_add A)); [apply s_add|].
      intros k Hk. eapply simq_bind; [apply (s_ix' n); auto; lia|]. eapply simq_bind; [now apply Hcof|]. apply s_mul.
    + eapply simq_bind; [apply (s_ix' n); auto; lia|]. eapply simq_bind; [apply (s_ix' n); auto; lia|].
      eapply simq_bind; [now apply HD|]. eapply simq_bind; [|apply simq_ret].
      rewrite <- (mat_at2 A n n st' Rst') at 3. apply s_elim_row; lia.
  - eapply simq_bind; [exact E|]. destruct (ret_fold step (seq 0 (n - 0)) m) as [st|v]; [|apply simq_ret].
    rewrite <- (sm_one _ _ _ _ HS). apply (s_fold_range _ (fun i => at2 A st i i) _ (a_mul A)); [apply s_mul|].
    intros i Hi. now apply (s_ix' n).
Qed.
Lemma det_s n : forall m, 1 <= n -> n + n <= W c -> rect n n m -> simq (det c d o n m) (p_det A dv iz n m).
Proof using H HD HZ.
  induction n as [|n' IH]; intros m Hn HW R; [lia|].
  destruct n' as [|[|[|n']]]; [apply sim_det1; auto using Forall2_eq2|apply sim_det2; auto using Forall2_eq2|apply sim_det3; auto using Forall2_eq2|].
  set (k := Datatypes.S (Datatypes.S (Datatypes.S n'))) in *.
  change (simq (det_big c d o (Datatypes.S k) m (cof_big c d o (Datatypes.S k) (det c d o k) m))
    (p_det_big A dv iz (Datatypes.S k) m (fun ij => a_mul A (p_sign A (fst ij) (snd ij)) (p_det A dv iz k (p_sub A (Datatypes.S k) (fst ij) (snd ij) m))))).
  assert (3 <= k) by lia. clearbody k. apply det_big_s; [exact R|lia|]. intros i Hi. unfold cof_big. cbn [fst snd].
  eapply simq_bind; [apply (simq_run pa _ tt); intros s; rewrite (proj2 (Nat.ltb_lt i (Datatypes.S k))), (proj2 (Nat.ltb_lt 0 (Datatypes.S k))) by lia; reflexivity|].
  pose proof (W_big c) as HB. eapply simq_bind; [apply s_submatrix; auto; lia|]. eapply simq_bind; [apply s_cof_sign; lia|].
  eapply simq_bind; [|apply s_mul]. apply IH; [lia|lia|]. unfold p_sub. replace (Datatypes.S k - 1) with k by lia. apply mat_rect.
Qed.
Lemma inv_big_s n m : rect n n m -> simq (inv_big c d o n m) (p_inv_big A dv iz n m).
Proof using H HD HZ.
  intros R. unfold inv_big, p_inv_big. eapply simq_bind; [apply simq_run; intros s; apply mclone_id; [exact R|exact HC]|].
  eapply simq_bind; [eapply sim_weaken; [|apply (sim_midentity pa eq c d o A HS n)]; intros a Ha; now apply Forall2_eq2_inv|].
  match goal with |- sim _ _ (bind (for_range_ret 0 n ?b _) _) _ =>
    destruct (simq_ret_fold pa b (p_inv_step A dv iz n) (fun mi => rect n n (fst mi) /\ rect n n (snd mi)) 0 n (m, m_id A n)) as [E P] end.
  - split; [exact R|apply mat_rect].
  - intros i mi Hi [R1 R2]. unfold p_inv_step. split.
    2:{ destruct (iz _); [exact I|]. 
        assert (G : forall l mi, rect n n (fst mi) /\ rect n n (snd mi) -> let r := fold_left (fun mi j => if i =? j then mi
           else let a := at2 A (fst mi) j i in (p_elim A n i j a (fst mi), p_elim A n i j a (snd mi))) l mi in rect n n (fst r) /\ rect n n (snd r)).
        { induction l as [|j l IH]; intros mi0 H0; cbn [fold_left]; [exact H0|]. apply IH. destruct (i =? j); [exact H0|]. split; apply mat_rect. }
        apply G. split; apply mat_rect. }
    eapply simq_bind; [apply (s_ix' n); auto; lia|]. rewrite HZ.
    destruct (iz (at2 A (fst mi) i i)) eqn:Ez; [apply simq_ret|].
    rewrite (sm_one _ _ _ _ HS). eapply simq_bind; [now apply HD|].
    set (r := dv (a_one A) (at2 A (fst mi) i i)).
    apply (simq_bind pa _ _ (p_scale A n i r (fst mi), p_scale A n i r (snd mi))).
    { destruct mi as [m1 m2]. cbn [fst snd] in *. rewrite <- (mat_at2 A n n m1 R1), <- (mat_at2 A n n m2 R2) at 1. apply s_scale_rows. lia. }
    eapply simq_bind; [|apply simq_ret].
    apply (simq_fold pa _ (fun j mi => if i =? j then mi else let a := at2 A (fst mi) j i in (p_elim A n i j a (fst mi), p_elim A n i j a (snd mi)))
      (fun mi => rect n n (fst mi) /\ rect n n (snd mi))); [split; apply mat_rect|].
    intros j mj Hj [R3 R4]. destruct (Nat.eqb_spec i j) as [->|Hij]; [split; [apply simq_ret|auto]|]. split; [|split; apply mat_rect].
    eapply simq_bind; [apply (s_ix' n); auto; lia|]. destruct mj as [m1 m2]. cbn [fst snd] in *.
    set (a := at2 A m1 j i). rewrite <- (mat_at2 A n n m1 R3), <- (mat_at2 A n n m2 R4) at 1. apply s_elim_rows; lia.
  - eapply simq_bind; [exact E|]. destruct (ret_fold _ _ _); apply simq_ret.
Qed.
End Checked.
