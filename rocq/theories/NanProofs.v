(** * NanProofs.v - C91: sticky values through the pure forms of the operations (proofs only). *)
From Coq Require Import List Arith Bool Lia.
From Verif Require Import Rust Elem SpecCommon SpecAlg SpecNan.
From Verif Require Import Sim Algebra DetLoop OpsPure.
Import ListNotations.

Section Bad.
Context {T : Type} (A : arith T) (bad : T -> Prop).
Hypothesis HS : sticky A bad.
Lemma badd x y : bad x \/ bad y -> bad (a_add A x y). Proof. apply HS. Qed.
Lemma bsub x y : bad x \/ bad y -> bad (a_sub A x y). Proof. apply HS. Qed.
Lemma bmul x y : bad x \/ bad y -> bad (a_mul A x y). Proof. apply HS. Qed.
Lemma bneg x : bad x -> bad (a_neg A x). Proof. apply HS. Qed.
Lemma fold_bad (op : T -> T -> T) (f : nat -> T) : (forall x y, bad x \/ bad y -> bad (op x y)) ->
  forall l z, bad z \/ Exists (fun i => bad (f i)) l -> bad (fold_left (fun acc i => op acc (f i)) l z).
Proof.
  intros H l. induction l as [|i l IH]; intros z [Hz|He]; cbn; [exact Hz|inversion He| |].
  - apply IH. left. apply H. now left.
  - apply IH. inversion He; subst; [left; apply H; now right|now right].
Qed.
Lemma in_seq_ex (P : nat -> Prop) n i : i < n -> P i -> Exists P (seq 0 n).
Proof. intros Hi Hp. apply Exists_exists. exists i. split; [apply in_seq; lia|exact Hp]. Qed.
Lemma sum_bad n f i : i < n -> bad (f i) -> bad (sum A n f).
Proof. intros Hi Hb. apply fold_bad; [apply badd|]. right. now apply in_seq_ex with i. Qed.
Lemma bad_at1 v : some_bad bad v -> exists i, i < length v /\ bad (at1 A v i).
Proof. intros H. apply Exists_nth in H. destruct H as (i & d & Hi & Hb). exists i. split; [exact Hi|]. unfold at1. now rewrite (nth_indep _ _ d) by exact Hi. Qed.
Lemma bad_at2 row col m : rect row col m -> some_bad2 bad m -> exists i j, i < row /\ j < col /\ bad (at2 A m i j).
Proof.
  intros [L R] H. apply Exists_nth in H. destruct H as (i & d & Hi & Hb). rewrite (nth_indep _ _ []) in Hb by exact Hi. apply bad_at1 in Hb.
  destruct Hb as (j & Hj & Hb). rewrite (proj1 (Forall_forall _ _) R (nth i m [])) in Hj by (now apply nth_In).
  exists i, j. repeat split; [lia|exact Hj|exact Hb].
Qed.
Lemma at2_bad row col m i j : rect row col m -> i < row -> j < col -> bad (at2 A m i j) -> some_bad2 bad m.
Proof.
  intros [L R] Hi Hj Hb. apply Exists_exists. exists (nth i m []). assert (I : In (nth i m []) m) by (apply nth_In; lia). split; [exact I|].
  apply Exists_exists. exists (at2 A m i j). split; [|exact Hb]. apply nth_In. now rewrite (proj1 (Forall_forall _ _) R _ I).
Qed.

Lemma det_2_bad m i j : i < 2 -> j < 2 -> bad (at2 A m i j) -> bad (det_2 A m).
Proof.
  intros Hi Hj H. unfold det_2. destruct i as [|[|i]]; [| |lia]; (destruct j as [|[|j]]; [| |lia]); auto 8 using bsub, bmul.
Qed.
Lemma det_3_bad m i j : i < 3 -> j < 3 -> bad (at2 A m i j) -> bad (det_3 A m).
Proof.
  intros Hi Hj H. unfold det_3.
  assert (K : bad (a_mul A (a_mul A (at2 A m 0 0) (at2 A m 1 1)) (at2 A m 2 2)) \/ bad (a_mul A (a_mul A (at2 A m 0 1) (at2 A m 1 2)) (at2 A m 2 0)) \/
              bad (a_mul A (a_mul A (at2 A m 0 2) (at2 A m 1 0)) (at2 A m 2 1))).
  { destruct i as [|[|[|i]]]; [| | |lia]; (destruct j as [|[|[|j]]]; [| | |lia]); auto 8 using bmul. }
  apply bsub; left; apply bsub; left; apply bsub; left. destruct K as [K|[K|K]]; auto 8 using badd.
Qed.

Variables (dv : T -> T -> T) (iz : T -> bool).
Hypothesis HD : sticky_div dv iz bad.
Lemma bdiv x y : bad x \/ bad y -> bad (dv x y). Proof. apply HD. Qed.
Lemma bnz x : bad x -> iz x = false. Proof. apply HD. Qed.

Lemma ret_fold_seq {St R} (g : nat -> St -> St + R) (P : nat -> St -> Prop) (Q : R -> Prop) : forall k lo st,
  P lo st -> (forall i st, lo <= i < lo + k -> P i st -> match g i st with inl st' => P (i + 1) st' | inr r => Q r end) ->
  match ret_fold g (seq lo k) st with inl st' => P (lo + k) st' | inr r => Q r end.
Proof.
  induction k as [|k IH]; intros lo st H0 H; cbn; [now rewrite Nat.add_0_r|].
  pose proof (H lo st ltac:(lia) H0) as H1. destruct (g lo st) as [st'|r]; [|exact H1].
  specialize (IH (Datatypes.S lo) st'). rewrite <- plus_n_Sm. apply IH; [now rewrite <- Nat.add_1_r|]. intros. apply H; [lia|assumption].
Qed.
(** Before pivot [i]: a bad entry on the diagonal, or to the right of and below the finished part. *)
Definition dinv n i (m : list (list T)) : Prop :=
  rect n n m /\ exists p q, p < n /\ q < n /\ bad (at2 A m p q) /\ (p = q \/ (i <= p /\ i <= q)).
Lemma elim_at n i j dd m p q : p < n -> q < n ->
  at2 A (p_elim A n i j dd m) p q = if p =? j then a_sub A (at2 A m p q) (a_mul A (at2 A m i q) dd) else at2 A m p q.
Proof. intros. unfold p_elim. rewrite at2_mat by assumption. reflexivity. Qed.
(** Within pivot [i], before row [j]. *)
Definition dinv2 n i j (m : list (list T)) : Prop :=
  rect n n m /\ exists p q, p < n /\ q < n /\ bad (at2 A m p q) /\
  (p = q \/ (i + 1 <= p /\ i + 1 <= q) \/ (p = i /\ j <= q /\ i < q) \/ (j <= p /\ i < p /\ q = i)).
Lemma dinv2_step n i j m : i < j < n -> dinv2 n i j m -> dinv2 n i (j + 1) (p_elim A n i j (dv (at2 A m j i) (at2 A m i i)) m).
Proof.
  intros Hj (R & p & q & Hp & Hq & Hb & Hc). split; [apply mat_rect|]. set (dd := dv (at2 A m j i) (at2 A m i i)).
  assert (Keep : bad (at2 A (p_elim A n i j dd m) p q)).
  { rewrite elim_at by assumption. destruct (Nat.eqb_spec p j) as [->|]; [|exact Hb]. apply bsub. now left. }
  destruct Hc as [->|[Hc|[(-> & H1 & H2)|(H1 & H2 & ->)]]].
  - exists q, q. repeat split; auto.
  - exists p, q. repeat split; auto.
  - destruct (Nat.eq_dec q j) as [->|Ne].
    + exists j, j. repeat split; auto. rewrite elim_at, Nat.eqb_refl by assumption. apply bsub. right. apply bmul. now left.
    + exists i, q. repeat split; auto. right. right. left. repeat split; lia.
  - destruct (Nat.eq_dec p j) as [->|Ne].
    + exists j, j. repeat split; auto. rewrite elim_at, Nat.eqb_refl by assumption. apply bsub. right. apply bmul. right.
      apply bdiv. now left.
    + exists p, i. repeat split; auto. right. right. right. repeat split; lia.
Qed.
Lemma p_det_big_bad n m cof p q : 2 <= n -> rect n n m -> p < n -> q < n -> bad (at2 A m p q) ->
  (forall i, i < n -> i <> p -> q <> 0 -> bad (cof (i, 0))) -> bad (p_det_big A dv iz n m cof).
Proof.
  intros Hn R Hp Hq Hb Hcof. unfold p_det_big.
  match goal with |- context [ret_fold ?g (seq 0 (n - 0)) m] => set (step := g) end.
  assert (K : match ret_fold step (seq 0 (n - 0)) m with inl m' => dinv n (0 + (n - 0)) m' | inr v => bad v end).
  { apply ret_fold_seq.
    - split; [exact R|]. exists p, q. repeat split; auto. right. lia.
    - intros i st Hi (Rs & p1 & q1 & Hp1 & Hq1 & Hb1 & Hc1). unfold step.
      match goal with |- match ret_fold ?g _ _ with _ => _ end =>
        pose proof (ret_fold_seq g (dinv2 n i) bad (n - (i + 1)) (i + 1) st) as K2 end.
      assert (H0 : dinv2 n i (i + 1) st).
      { split; [exact Rs|]. exists p1, q1. repeat split; auto. destruct Hc1 as [->|[H1 H2]]; [now left|]. destruct (Nat.eq_dec p1 q1); [now left|]. lia. }
      specialize (K2 H0). match goal with |- match ?x with _ => _ end => destruct x as [m'|v] end.
      + destruct K2 as (R' & p' & q' & Hp' & Hq' & Hb' & Hc').
        * intros j st' Hj D. destruct (iz (at2 A st' i i)) eqn:Z; [|apply dinv2_step; [lia|exact D]].
          apply fold_bad; [apply badd|]. right. destruct (Nat.eq_dec q 0) as [->|Nq].
          -- apply in_seq_ex with p; [exact Hp|]. apply bmul. now left.
          -- destruct (Nat.eq_dec p 0) as [->|Np]; [apply in_seq_ex with 1|apply in_seq_ex with 0]; try lia; apply bmul; right; apply Hcof; lia.
        * split; [exact R'|]. exists p', q'. repeat split; auto. lia.
      + apply K2. intros j st' Hj D. destruct (iz (at2 A st' i i)) eqn:Z; [|apply dinv2_step; [lia|exact D]].
        apply fold_bad; [apply badd|]. right. destruct (Nat.eq_dec q 0) as [->|Nq].
        * apply in_seq_ex with p; [exact Hp|]. apply bmul. now left.
        * destruct (Nat.eq_dec p 0) as [->|Np]; [apply in_seq_ex with 1|apply in_seq_ex with 0]; try lia; apply bmul; right; apply Hcof; lia. }
  destruct (ret_fold step (seq 0 (n - 0)) m) as [m'|v]; [|exact K].
  destruct K as (R' & p' & q' & Hp' & Hq' & Hb' & Hc'). assert (p' = q') by lia. subst q'.
  apply fold_bad; [apply bmul|]. right. now apply in_seq_ex with p'.
Qed.
(** A row or column other than [i] is still there when [i] is left out. *)
Lemma skip_onto n i p : i < n -> p < n -> p <> i -> exists a, a < n - 1 /\ skip i a = p.
Proof.
  intros Hi Hp Ne. unfold skip. destruct (Nat.lt_ge_cases p i).
  - exists p. split; [lia|]. destruct (Nat.ltb_spec p i); [reflexivity|lia].
  - exists (p - 1). split; [lia|]. destruct (Nat.ltb_spec (p - 1) i); lia.
Qed.
Lemma p_sub_bad n m i j p q : i < n -> j < n -> p < n -> q < n -> p <> i -> q <> j -> bad (at2 A m p q) ->
  exists a b, a < n - 1 /\ b < n - 1 /\ bad (at2 A (p_sub A n i j m) a b).
Proof.
  intros Hi Hj Hp Hq Np Nq Hb. destruct (skip_onto n i p Hi Hp Np) as (a & Ha & Ea). destruct (skip_onto n j q Hj Hq Nq) as (b & Hb' & Eb).
  exists a, b. repeat split; auto. unfold p_sub. rewrite at2_mat by assumption. now rewrite Ea, Eb.
Qed.
Lemma p_det_bad n : forall m p q, rect n n m -> p < n -> q < n -> bad (at2 A m p q) -> bad (p_det A dv iz n m).
Proof.
  induction n as [|n IH]; intros m p q R Hp Hq Hb; [lia|].
  destruct n as [|[|[|n]]].
  - replace p with 0 in Hb by lia. replace q with 0 in Hb by lia. exact Hb.
  - now apply det_2_bad with p q.
  - now apply det_3_bad with p q.
  - change (bad (p_det_big A dv iz (4 + n) m (fun ij => a_mul A (p_sign A (fst ij) (snd ij)) (p_det A dv iz (3 + n) (p_sub A (4 + n) (fst ij) (snd ij) m))))).
    apply p_det_big_bad with p q; auto; [lia|]. intros i Hi Ne Nq. apply bmul. right. cbn [fst snd].
    destruct (p_sub_bad (4 + n) m i 0 p q) as (a & b & Ha & Hb' & HB); auto; [lia|].
    apply IH with a b; [apply mat_rect|exact Ha|exact Hb'|exact HB].
Qed.
Lemma p_cof_bad n m i j p q : 2 <= n -> rect n n m -> i < n -> j < n -> p < n -> q < n -> p <> i -> q <> j -> bad (at2 A m p q) -> bad (p_cof A dv iz n m i j).
Proof.
  intros Hn R Hi Hj Hp Hq Np Nq Hb. destruct n as [|[|[|n]]]; [lia|lia| |].
  - change (bad (a_mul A (p_sign A i j) (at2 A m (1 - i) (1 - j)))). apply bmul. right.
    replace (1 - i) with p by lia. replace (1 - j) with q by lia. exact Hb.
  - change (bad (a_mul A (p_sign A i j) (p_det A dv iz (2 + n) (p_sub A (3 + n) i j m)))). apply bmul. right.
    destruct (p_sub_bad (3 + n) m i j p q) as (a & b & Ha & Hb' & HB); auto. apply p_det_bad with a b; [apply mat_rect|exact Ha|exact Hb'|exact HB].
Qed.

(** Gauss-Jordan: a bad entry in the right half, or in a column of the left half not yet done. *)
Definition ginv n i (mi : list (list T) * list (list T)) : Prop :=
  (exists p q, p < n /\ q < n /\ bad (at2 A (snd mi) p q)) \/ (exists p q, p < n /\ i <= q < n /\ bad (at2 A (fst mi) p q)).
Lemma elim_keep n i j a m p q : p < n -> q < n -> bad (at2 A m p q) -> bad (at2 A (p_elim A n i j a m) p q).
Proof. intros Hp Hq Hb. rewrite elim_at by assumption. destruct (Nat.eqb_spec p j) as [->|]; [|exact Hb]. apply bsub. now left. Qed.
Lemma scale_at n i r m p q : p < n -> q < n -> at2 A (p_scale A n i r m) p q = if p =? i then a_mul A (at2 A m p q) r else at2 A m p q.
Proof. intros. unfold p_scale. rewrite at2_mat by assumption. reflexivity. Qed.
Lemma scale_keep n i a m p q : p < n -> q < n -> bad (at2 A m p q) -> bad (at2 A (p_scale A n i a m) p q).
Proof. intros Hp Hq Hb. rewrite scale_at by assumption. destruct (Nat.eqb_spec p i) as [->|]; [|exact Hb]. apply bmul. now left. Qed.
(** Within pivot [i], before row [j]. *)
Definition ginv2 n i j (mi : list (list T) * list (list T)) : Prop :=
  (exists p q, p < n /\ q < n /\ bad (at2 A (snd mi) p q)) \/
  (exists p q, p < n /\ i < q < n /\ bad (at2 A (fst mi) p q)) \/ (exists p, j <= p < n /\ p <> i /\ bad (at2 A (fst mi) p i)).
Lemma fold_seq {St} (g : St -> nat -> St) (P : nat -> St -> Prop) : forall k lo st,
  P lo st -> (forall i st, lo <= i < lo + k -> P i st -> P (i + 1) (g st i)) -> P (lo + k) (fold_left g (seq lo k) st).
Proof.
  induction k as [|k IH]; intros lo st H0 H; cbn; [now rewrite Nat.add_0_r|]. rewrite <- plus_n_Sm. apply (IH (Datatypes.S lo)).
  - rewrite <- Nat.add_1_r. apply H; [lia|exact H0].
  - intros. apply H; [lia|assumption].
Qed.
Lemma ginv_step n i mi : i < n -> ginv n i mi -> match p_inv_step A dv iz n i mi with inl mi' => ginv n (i + 1) mi' | inr _ => True end.
Proof.
  intros Hi H. unfold p_inv_step. destruct (iz (at2 A (fst mi) i i)) eqn:Z; [exact I|].
  set (r := dv (a_one A) (at2 A (fst mi) i i)).
  assert (H0 : ginv2 n i 0 (p_scale A n i r (fst mi), p_scale A n i r (snd mi))).
  { destruct H as [(p & q & Hp & Hq & Hb)|(p & q & Hp & Hq & Hb)].
    - left. exists p, q. repeat split; auto. now apply scale_keep.
    - destruct (Nat.eq_dec q i) as [->|Nq]; [|right; left; exists p, q; repeat split; auto; [lia|lia|apply scale_keep; auto; lia]].
      destruct (Nat.eq_dec p i) as [->|Np].
      + left. exists i, i. repeat split; auto. cbn [snd]. rewrite scale_at, Nat.eqb_refl by assumption. apply bmul. right. apply bdiv. now right.
      + right. right. exists p. repeat split; auto; [lia|]. now apply scale_keep. }
  match goal with |- ginv n (i + 1) (fold_left ?g _ _) => pose proof (fold_seq g (ginv2 n i) (n - 0) 0 _ H0) as K end.
  match type of K with ?P -> _ => assert (K1 : P) end.
  - intros j [m x] Hj [(p & q & Hp & Hq & Hb)|[(p & q & Hp & Hq & Hb)|(p & Hp & Np & Hb)]]; destruct (Nat.eqb_spec i j) as [Ej|Ej]; cbn [fst snd] in *.
    + left. now exists p, q.
    + left. exists p, q. repeat split; auto. now apply elim_keep.
    + right. left. now exists p, q.
    + right. left. exists p, q. repeat split; auto; [lia|lia|apply elim_keep; auto; lia].
    + right. right. exists p. repeat split; auto; lia.
    + destruct (Nat.eq_dec p j) as [->|Nj].
      * left. exists j, i. repeat split; auto; [lia|]. cbn [snd]. rewrite elim_at, Nat.eqb_refl by lia. apply bsub. right. apply bmul. now right.
      * right. right. exists p. repeat split; auto; [lia|lia|]. apply elim_keep; auto; lia.
  - specialize (K K1). destruct K as [K|[(p & q & Hp & Hq & Hb)|(p & Hp & _)]]; [now left| |lia].
    right. exists p, q. repeat split; auto; lia.
Qed.
Lemma p_inv_big_bad n m p q x : p < n -> q < n -> bad (at2 A m p q) -> p_inv_big A dv iz n m = Some x ->
  exists i j, i < n /\ j < n /\ bad (at2 A x i j).
Proof.
  intros Hp Hq Hb. unfold p_inv_big.
  pose proof (ret_fold_seq (p_inv_step A dv iz n) (ginv n) (fun _ => True) (n - 0) 0 (m, m_id A n)) as K.
  destruct (ret_fold _ _ _) as [mi|]; [|discriminate]. intros [= <-]. destruct K as [K|(p' & q' & Hp' & Hq' & _)].
  - right. exists p, q. repeat split; auto; lia.
  - intros i st Hi. apply ginv_step. lia.
  - exact K.
  - lia.
Qed.
Lemma p_inverse_small_bad n m p q : 1 <= n <= 3 -> p < n -> q < n -> bad (at2 A m p q) ->
  exists x, p_inverse A dv iz n m = Some x /\ all_bad2 bad x.
Proof.
  intros Hn Hp Hq Hb. destruct n as [|[|[|[|n]]]]; try lia; cbn [p_inverse].
  - replace p with 0 in Hb by lia. replace q with 0 in Hb by lia. rewrite (bnz _ Hb). eexists. split; [reflexivity|].
    repeat constructor. apply bdiv. now right.
  - pose proof (det_2_bad m p q Hp Hq Hb) as D. rewrite (bnz _ D). eexists. split; [reflexivity|]. repeat constructor; apply bdiv; now right.
  - pose proof (det_3_bad m p q Hp Hq Hb) as D. rewrite (bnz _ D). eexists. split; [reflexivity|]. repeat constructor; apply bdiv; now right.
Qed.
End Bad.
