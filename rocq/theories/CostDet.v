(** * CostDet.v - costs of determinant and inverse (lemmas for PropsCostDet). *)
From Coq Require Import List Arith Bool Lia.
From Verif Require Import Rust Iter Elem VectorM MatIterM MatrixM ArithM OpsM SpecCommon Harness IterProofs OwnProofs ChunkProofs VecProofs MatProofs AccProofs SpecAlg SpecCost Sim DetLoop OpsPure PropsOrder CostProofs.
Import ListNotations.

(** ** Loops *)
Lemma sp_for_range {St} (body : nat -> St -> M nat St) (g : nat -> St -> St) (P : St -> Prop) (w : nat -> nat) lo hi : forall st,
  P st -> (forall i st, lo <= i < hi -> P st -> spends (body i st) (g i st) (w i) /\ P (g i st)) ->
  spends (for_range lo hi body st) (fold_left (fun st i => g i st) (seq lo (hi - lo)) st) (list_sum (map w (seq lo (hi - lo)))) /\
  P (fold_left (fun st i => g i st) (seq lo (hi - lo)) st).
Proof.
  unfold for_range. intros st HP H. assert (H' : forall i st, lo <= i < lo + (hi - lo) -> P st -> spends (body i st) (g i st) (w i) /\ P (g i st))
    by (intros; apply H; [lia|assumption]). clear H.
  set (k := hi - lo) in *. clearbody k. clear hi. revert lo st HP H'. induction k as [|k IH]; intros lo st HP H; cbn [for_n seq fold_left map list_sum fold_right].
  - split; [apply sp_ret|exact HP].
  - destruct (H lo st) as [E1 P1]; [lia|exact HP|]. destruct (IH (lo + 1) (g lo st) P1) as [E2 P2]; [intros; apply H; [lia|assumption]|].
    rewrite Nat.add_1_r in E2 at 2 3. rewrite Nat.add_1_r in P2. split; [|exact P2]. eapply sp_bind; [exact E1|exact E2].
Qed.
(** A loop that may return early: the early return costs at least [F] and at most [F] plus the
    cost of the whole loop. *)
Definition within {St R} (F : nat) (w : nat) (P : St -> Prop) (r : St + R) (k : nat) : Prop :=
  match r with inl st => P st /\ k = w | inr _ => F <= k <= F + w end.
Lemma sp_for_ret {St R} (body : nat -> St -> M nat (St + R)) (g : nat -> St -> St + R) (P : St -> Prop) (w : nat -> nat) F lo hi : forall st,
  P st -> (forall i st, lo <= i < hi -> P st -> exists k, spends (body i st) (g i st) k /\ within F (w i) P (g i st) k) ->
  exists k, spends (for_range_ret lo hi body st) (ret_fold g (seq lo (hi - lo)) st) k /\
    within F (list_sum (map w (seq lo (hi - lo)))) P (ret_fold g (seq lo (hi - lo)) st) k.
Proof.
  unfold for_range_ret. intros st HP H.
  assert (H' : forall i st, lo <= i < lo + (hi - lo) -> P st -> exists k, spends (body i st) (g i st) k /\ within F (w i) P (g i st) k)
    by (intros; apply H; [lia|assumption]). clear H.
  set (k := hi - lo) in *. clearbody k. clear hi. revert lo st HP H'. induction k as [|k IH]; intros lo st HP H; cbn [for_n_ret seq ret_fold map list_sum fold_right].
  - exists 0. split; [apply sp_ret|]. split; [exact HP|reflexivity].
  - destruct (H lo st) as (k1 & E1 & P1); [lia|exact HP|]. destruct (g lo st) as [st'|r].
    + destruct P1 as [P1 ->]. destruct (IH (lo + 1) st' P1) as (k2 & E2 & P2); [intros; apply H; [lia|assumption]|].
      rewrite Nat.add_1_r in E2 at 2. rewrite Nat.add_1_r in P2. exists (w lo + k2). split; [eapply sp_bind; [exact E1|exact E2]|].
      unfold list_sum in *. destruct (ret_fold g (seq (Datatypes.S lo) k) st'); cbn [within] in *; [destruct P2 as [P2 ->]; auto|lia].
    + exists k1. split; [eapply sp_eq; [eapply sp_bind; [exact E1|apply sp_ret]|reflexivity|lia]|]. cbn [within] in *. lia.
Qed.
Lemma ret_fold_ind {St R} (g : nat -> St -> St + R) (I : nat -> St -> Prop) (Q : R -> Prop) k : forall lo st,
  I lo st -> (forall i st, lo <= i < lo + k -> I i st -> match g i st with inl st' => I (i + 1) st' | inr r => Q r end) ->
  match ret_fold g (seq lo k) st with inl st' => I (lo + k) st' | inr r => Q r end.
Proof.
  induction k as [|k IH]; intros lo st HI H; cbn [seq ret_fold]; [now rewrite Nat.add_0_r|].
  pose proof (H lo st ltac:(lia) HI) as H0. destruct (g lo st) as [st'|r]; [|exact H0].
  replace (lo + Datatypes.S k) with (Datatypes.S lo + k) by lia. apply IH; [now rewrite <- Nat.add_1_r|]. intros; apply H; [lia|assumption].
Qed.
Lemma list_sum_const {A} (l : list A) w : list_sum (map (fun _ => w) l) = length l * w.
Proof. induction l as [|x l IH]; [reflexivity|]. cbn [map list_sum fold_right length Nat.mul]. unfold list_sum in IH. lia. Qed.
Lemma spends_inj {T} (m : M nat T) v k v' k' : spends m v k -> spends m v' k' -> v = v' /\ k = k'.
Proof. intros H H'. specialize (H 0). rewrite (H' 0) in H. cbn in H. now injection H as -> ->. Qed.

Section Cost.
Context {T : Type} (A : arith T) (dv : T -> T -> T) (iz : T -> bool) (c : cfg) (d : ety nat T).
Definition free : weights := Weights 0 0 0 0 0 0.
Lemma free_exact : exact (counting A dv iz free) A /\ pure2 (o_div (counting A dv iz free)) dv.
Proof. repeat split; intros; cbn; try (intros ? ? ?); try (intros ? ?); cbn; now rewrite ?Nat.add_0_r. Qed.
Section Weights.
Variable w : weights.
Notation o := (counting A dv iz w).
Notation wc := (w_clone w).

Lemma sp_clone x : spends (o_clone o x) x wc.
Proof. intros s. reflexivity. Qed.
Lemma sp_mul x y : spends (o_mul o x y) (a_mul A x y) (w_mul w).
Proof. intros s. reflexivity. Qed.
Lemma sp_add x y : spends (o_add o x y) (a_add A x y) (w_add w).
Proof. intros s. reflexivity. Qed.
Lemma sp_sub x y : spends (o_sub o x y) (a_sub A x y) (w_sub w).
Proof. intros s. reflexivity. Qed.
Lemma sp_div x y : spends (o_div o x y) (dv x y) (w_div w).
Proof. intros s. reflexivity. Qed.
Lemma sp_neg x : spends (o_neg o x) (a_neg A x) (w_neg w).
Proof. intros s. reflexivity. Qed.
Lemma at_entry n m i j : rect n n m -> i < n -> j < n -> entry m i j = Some (at2 A m i j).
Proof. intros R Hi Hj. rewrite <- (mat_at2 A n n m R) at 1. now apply entry_mat. Qed.
Lemma sp_ix n m i j : rect n n m -> i < n -> j < n -> spends (ix o m i j) (at2 A m i j) wc.
Proof. intros R Hi Hj s. unfold ix, bind. rewrite (mindex_in m i j (at2 A m i j)) by (eapply at_entry; eauto). reflexivity. Qed.
Lemma sp_idx n m i j : rect n n m -> i < n -> j < n -> spends (idx c o n m i j) (at2 A m i j) wc.
Proof. intros R Hi Hj s. unfold idx, bind. rewrite (mstatic_in c n n m i j (at2 A m i j)) by (auto; eapply at_entry; eauto). reflexivity. Qed.
Lemma sp_set n (m : list (list T)) i j x : rect n n m -> i < n -> j < n -> spends (mindex_set m (i, j) x) (mat_set m i j x) 0.
Proof. intros R Hi Hj s. rewrite (mindex_set_in n n) by auto. now rewrite Nat.add_0_r. Qed.

Ltac sp1 := first [apply sp_clone | apply sp_mul | apply sp_add | apply sp_sub | apply sp_div | apply sp_neg | apply sp_ret
  | eapply sp_ix; [eassumption|lia|lia] | eapply sp_idx; [eassumption|lia|lia] | eapply sp_set; [eassumption|lia|lia]].
Ltac sps := repeat first [sp1 | eapply sp_bind].

Lemma sp_det1 m : rect 1 1 m -> spends (det1 c o m) (det_1 A m) wc.
Proof. intros R. unfold det1. eapply sp_eq; [sps|reflexivity|lia]. Qed.
Lemma sp_det2 m : rect 2 2 m -> spends (det2 c o m) (det_2 A m) (4 * wc + 2 * w_mul w + w_sub w).
Proof. intros R. unfold det2. eapply sp_eq; [sps|reflexivity|lia]. Qed.
Lemma sp_term3 m i1 j1 i2 j2 i3 j3 : rect 3 3 m -> i1 < 3 -> j1 < 3 -> i2 < 3 -> j2 < 3 -> i3 < 3 -> j3 < 3 ->
  spends (term3 c o m i1 j1 i2 j2 i3 j3) (a_mul A (a_mul A (at2 A m i1 j1) (at2 A m i2 j2)) (at2 A m i3 j3)) (3 * wc + 2 * w_mul w).
Proof. intros. unfold term3. eapply sp_eq; [sps|reflexivity|lia]. Qed.
Lemma sp_det3 m : rect 3 3 m -> spends (det3 c o m) (det_3 A m) (18 * wc + 12 * w_mul w + 2 * w_add w + 3 * w_sub w).
Proof. intros R. unfold det3. eapply sp_eq; [repeat first [apply sp_term3; [assumption|lia..]|sp1|eapply sp_bind]|reflexivity|lia]. Qed.

Definition g_elim (n i j : nat) (dd : T) (k : nat) (mat : list (list T)) : list (list T) :=
  mat_set mat j k (a_sub A (at2 A mat j k) (a_mul A (at2 A mat i k) dd)).
Lemma sp_elim_raw n i j dd m : rect n n m -> i < n -> j < n ->
  spends (elim_row o n i j dd m) (fold_left (fun st k => g_elim n i j dd k st) (seq 0 (n - 0)) m) (n * (3 * wc + w_mul w + w_sub w)).
Proof.
  intros R Hi Hj. unfold elim_row.
  match goal with |- spends (for_range 0 n ?b m) _ _ =>
    destruct (sp_for_range b (g_elim n i j dd) (rect n n) (fun _ => 3 * wc + w_mul w + w_sub w) 0 n m R) as [E _] end.
  - intros k st Hk Rst. split; [|now apply mat_set_rect]. eapply sp_eq; [sps|reflexivity|lia].
  - eapply sp_eq; [exact E|reflexivity|]. rewrite list_sum_const, seq_length. lia.
Qed.
End Weights.
Let HE0 := proj1 free_exact.
Let HD0 := proj2 free_exact.
Lemma free_spends {X} (m : M nat X) v v' k : spends m v k -> m 0 = (Ok v', 0) -> v = v'.
Proof using. intros H H'. specialize (H 0). rewrite H' in H. congruence. Qed.
Section Weights2.
Variable w : weights.
Notation o := (counting A dv iz w).
Notation wc := (w_clone w).
Ltac sp1 := first [apply sp_clone | apply sp_mul | apply sp_add | apply sp_sub | apply sp_div | apply sp_neg | apply sp_ret
  | eapply sp_ix; [eassumption|lia|lia] | eapply sp_idx; [eassumption|lia|lia] | eapply sp_set; [eassumption|lia|lia]].
Ltac sps := repeat first [sp1 | eapply sp_bind].
Lemma sp_elim n i j dd m : rect n n m -> i < n -> j < n -> i <> j ->
  spends (elim_row o n i j dd m) (p_elim A n i j dd m) (n * (3 * wc + w_mul w + w_sub w)).
Proof using HE0.
  intros R Hi Hj Hij. eapply sp_eq; [now apply sp_elim_raw| |reflexivity].
  eapply free_spends; [now apply (sp_elim_raw free)|]. now apply (elim_row_p A _ HE0).
Qed.
Lemma sp_submatrix n m i j : rect n n m -> i < n -> j < n -> n < W c ->
  spends (submatrix c d o n m i j) (p_sub A n i j m) ((n - 1) * ((n - 1) * wc)).
Proof.
  intros R Hi Hj HW. unfold submatrix, p_sub. rewrite <- (mat_at2 A n n m R) at 1. set (f := at2 A m).
  assert (Rm : rect n n (mat n n f)) by apply mat_rect.
  pose proof (filter_skip_gives n (fun k => map (fun b => f k b) (seq 0 n)) _ i Hi (rr_gives (S:=nat) c n (mat n n f) (proj1 Rm) HW)) as G.
  eapply sp_ext; [intros s; rewrite (from_iter_gives _ _ (n - 1) _ _ _ s (imap_ret_gives _ _ _ _ G)) by (now rewrite !map_length, seq_length); rewrite seqm_in_order, in_order_map; reflexivity|].
  match goal with |- spends (in_order ?F _) _ _ =>
    pose proof (sp_in_order F (fun a => map (fun b => f (skip i a) (skip j b)) (seq 0 (n - 1))) ((n - 1) * wc) (seq 0 (n - 1))) as G1 end.
  rewrite seq_length in G1. apply G1. intros a _. cbv beta iota.
  pose proof (filter_skip_gives n (fun b => f (skip i a) b) _ j Hj (slice_iter_gives (S:=nat) (map (fun b => f (skip i a) b) (seq 0 n)))) as G2.
  eapply sp_ext; [intros s; rewrite (from_iter_gives _ _ (n - 1) _ _ _ s (imap_ret_gives _ _ _ _ G2)) by (now rewrite !map_length, seq_length); rewrite seqm_in_order, in_order_map; reflexivity|].
  match goal with |- spends (in_order ?F _) _ _ =>
    pose proof (sp_in_order F (fun b => f (skip i a) (skip j b)) wc (seq 0 (n - 1))) as G3 end.
  rewrite seq_length in G3. apply G3. intros b _. apply sp_clone.
Qed.
Lemma sp_fold_range (h : nat -> M nat T) (g : nat -> T) (op : T -> T -> M nat T) (pop : T -> T -> T) (kh : nat -> nat) ko n z :
  (forall x y, spends (op x y) (pop x y) ko) -> (forall i, i < n -> spends (h i) (g i) (kh i)) ->
  spends (fold (Datatypes.S n) (imap h (range 0 n)) z op) (fold_left (fun acc k => pop acc (g k)) (seq 0 n) z)
    (list_sum (map (fun i => kh i + ko) (seq 0 n))).
Proof.
  intros Hop Hh. unfold fold. pose proof (imap_ret_gives h _ _ _ (range_gives (S:=nat) 0 n)) as G.
  eapply sp_ext; [intros s; rewrite (for_each_gives _ _ _ _ _ z s G) by (rewrite map_length, seq_length; lia);
    rewrite Nat.sub_0_r, foldm_in_order, fold_in_order_map; reflexivity|].
  assert (HL : forall i, In i (seq 0 n) -> i < n) by (intros i Hi; apply in_seq in Hi; lia). revert HL z.
  generalize (seq 0 n) as L. induction L as [|i L IH]; intros HL z s; cbn [fold_in_order fold_left map list_sum fold_right]; [now rewrite Nat.add_0_r|].
  unfold bind. rewrite (Hh i) by (apply HL; now left). rewrite Hop. rewrite IH by (intros; apply HL; now right). unfold list_sum. now rewrite !Nat.add_assoc.
Qed.

(** ** The determinant *)
(** Cost of the elimination proper; the product of the diagonal; the final elimination. *)
Definition elim_cost (n : nat) : nat :=
  list_sum (map (fun i => (n - (i + 1)) * (2 * wc + w_div w + n * (3 * wc + w_mul w + w_sub w))) (seq 0 n)).
Definition p_step (n : nat) (m : list (list T)) (cof : nat * nat -> T) (i : nat) (mat : list (list T)) :=
    ret_fold (fun j mat =>
      if iz (at2 A mat i i)
      then inr (fold_left (fun acc i => a_add A acc (a_mul A (at2 A m i 0) (cof (i, 0)))) (seq 0 n) (a_zero A))
      else inl (p_elim A n i j (dv (at2 A mat j i) (at2 A mat i i)) mat)) (seq (i + 1) (n - (i + 1))) mat.
Lemma sp_det_big n m cof pcof kcof : rect n n m -> 1 <= n ->
  (forall i, i < n -> spends (cof (i, 0)) (pcof (i, 0)) (kcof i)) ->
  exists k, spends (det_big c d o n m cof) (p_det_big A dv iz n m pcof) k /\
  match ret_fold (p_step n m pcof) (seq 0 n) m with
  | inl _ => k = n * (n * wc) + elim_cost n + n * (wc + w_mul w)
  | inr _ => let F := n * (n * wc) + list_sum (map (fun i => wc + kcof i + w_mul w + w_add w) (seq 0 n)) in F <= k <= F + elim_cost n
  end.
Proof using HE0.
  intros R Hn Hcof.
  set (F := list_sum (map (fun i => wc + kcof i + w_mul w + w_add w) (seq 0 n))).
  set (we := fun i => (n - (i + 1)) * (2 * wc + w_div w + n * (3 * wc + w_mul w + w_sub w))).
  assert (L : exists k, spends (for_range_ret 0 n (fun i mat =>
         for_range_ret (i + 1) n (fun j mat =>
           piv <- mindex mat (i, i) ;;
           if o_is_zero o piv then v <- expand_col0 o n m cof ;; ret (inr v)
           else
             a <- ix o mat j i ;; b <- ix o mat i i ;;
             dd <- o_div o a b ;;
             mat' <- elim_row o n i j dd mat ;;
             ret (inl mat')) mat) m) (ret_fold (p_step n m pcof) (seq 0 (n - 0)) m) k /\
     within F (list_sum (map we (seq 0 (n - 0)))) (rect n n) (ret_fold (p_step n m pcof) (seq 0 (n - 0)) m) k).
  { apply sp_for_ret; [exact R|]. intros i st Hi Rst. unfold p_step at 1 2.
    replace (we i) with (list_sum (map (fun _ => 2 * wc + w_div w + n * (3 * wc + w_mul w + w_sub w)) (seq (i + 1) (n - (i + 1))))).
    2:{ rewrite list_sum_const, seq_length. reflexivity. }
    apply sp_for_ret; [exact Rst|]. intros j st' Hj Rst'.
    assert (EP : spends (mindex st' (i, i)) (at2 A st' i i) 0).
    { intros s. rewrite Nat.add_0_r. apply mindex_in. eapply at_entry; eauto; lia. }
    change (o_is_zero o) with iz. destruct (iz (at2 A st' i i)) eqn:EZ.
    - exists F. split; [|cbn [within]; lia].
      eapply sp_eq; [eapply sp_bind; [exact EP|]; cbv beta; rewrite EZ; eapply sp_bind; [|apply sp_ret]|reflexivity|].
      + unfold expand_col0. apply (sp_fold_range _ (fun i => a_mul A (at2 A m i 0) (pcof (i, 0))) (o_add o) (a_add A) (fun i => wc + kcof i + w_mul w) (w_add w)).
        * apply sp_add.
        * intros k Hk. eapply sp_eq; [eapply sp_bind; [eapply sp_ix; eauto; lia|]; eapply sp_bind; [apply Hcof; exact Hk|apply sp_mul]|reflexivity|lia].
      + cbn [Nat.add]. rewrite Nat.add_0_r. reflexivity.
    - eexists. split; [eapply sp_bind; [exact EP|]; cbv beta; rewrite EZ; eapply sp_bind; [eapply sp_ix; eauto; lia|]; eapply sp_bind; [eapply sp_ix; eauto; lia|];
        eapply sp_bind; [apply sp_div|]; eapply sp_bind; [apply sp_elim; auto; lia|apply sp_ret]|].
      cbn [within]. split; [apply p_elim_rect|lia]. }
  destruct L as (k & E & HW). rewrite Nat.sub_0_r in E, HW.
  unfold det_big, p_det_big. fold (p_step n m pcof). rewrite Nat.sub_0_r.
  assert (EE : list_sum (map we (seq 0 n)) = elim_cost n) by reflexivity. rewrite EE in HW.
  destruct (ret_fold (p_step n m pcof) (seq 0 n) m) as [st|v]; cbn [within] in HW.
  - destruct HW as [Rst ->]. eexists. split.
    + eapply sp_bind; [now apply sp_mclone|]. eapply sp_bind; [exact E|]. cbv beta iota.
      apply (sp_fold_range _ (fun i => at2 A st i i) (o_mul o) (a_mul A) (fun _ => wc) (w_mul w)); [apply sp_mul|]. intros i Hi. eapply sp_ix; eauto.
    + rewrite list_sum_const, seq_length. lia.
  - eexists. split; [eapply sp_bind; [now apply sp_mclone|]; eapply sp_bind; [exact E|]; apply sp_ret|]. lia.
Qed.
Lemma sp_cof_sign i j : i + j < W c -> spends (cof_sign c o i j) (p_sign A i j) (if (i + j) mod 2 =? 0 then 0 else w_neg w).
Proof.
  intros HW. unfold cof_sign, p_sign. apply (sp_bind _ _ (i + j) _ 0).
  - intros s. unfold usz_add. destruct (Nat.ltb_spec (i + j) (W c)); [|lia]. unfold ret. now rewrite Nat.add_0_r.
  - destruct ((i + j) mod 2 =? 0) eqn:E; [apply sp_ret|apply sp_neg].
Qed.
Definition p_cofs (n : nat) (m : list (list T)) (ij : nat * nat) : T :=
  a_mul A (p_sign A (fst ij) (snd ij)) (p_det A dv iz (n - 1) (p_sub A n (fst ij) (snd ij) m)).
(** The elimination goes through. *)
Definition completes (n : nat) (m : list (list T)) : bool :=
  match ret_fold (p_step n m (p_cofs n m)) (seq 0 n) m with inl _ => true | inr _ => false end.
Lemma det_costs n : forall m, 1 <= n -> n + n <= W c -> rect n n m ->
  exists k, spends (det c d o n m) (p_det A dv iz n m) k /\ (w_mul w <= k \/ n = 1) /\
  (n = 3 -> k = 18 * wc + 12 * w_mul w + 2 * w_add w + 3 * w_sub w) /\
  (4 <= n -> if completes n m
    then k = n * (n * wc) + elim_cost n + n * (wc + w_mul w)
    else exists kd : nat -> nat, (forall i, i < n -> spends (det c d o (n - 1) (p_sub A n i 0 m)) (p_det A dv iz (n - 1) (p_sub A n i 0 m)) (kd i)) /\
      let F := n * (n * wc) + list_sum (map (fun i => wc + ((n - 1) * ((n - 1) * wc) + (if (i + 0) mod 2 =? 0 then 0 else w_neg w) + kd i + w_mul w) + w_mul w + w_add w) (seq 0 n)) in
      F <= k <= F + elim_cost n).
Proof using HE0.
  induction n as [|n' IH]; intros m Hn HW R; [lia|].
  destruct n' as [|[|[|n']]].
  - eexists. split; [now apply sp_det1|]. split; [now right|]. split; [discriminate|lia].
  - eexists. split; [now apply sp_det2|]. split; [left; lia|]. split; [discriminate|lia].
  - eexists. split; [now apply sp_det3|]. split; [left; lia|]. split; [reflexivity|lia].
  - set (k := Datatypes.S (Datatypes.S (Datatypes.S n'))) in *.
    change (p_det A dv iz (Datatypes.S k) m) with (p_det_big A dv iz (Datatypes.S k) m (fun ij => a_mul A (p_sign A (fst ij) (snd ij)) (p_det A dv iz k (p_sub A (Datatypes.S k) (fst ij) (snd ij) m)))).
    change (det c d o (Datatypes.S k) m) with (det_big c d o (Datatypes.S k) m (cof_big c d o (Datatypes.S k) (det c d o k) m)).
    assert (3 <= k) by lia. clearbody k. unfold completes, p_cofs. replace (Datatypes.S k - 1) with k by lia.
    assert (RS : forall i j, rect k k (p_sub A (Datatypes.S k) i j m)).
    { intros i j. unfold p_sub. replace (Datatypes.S k - 1) with k by lia. apply mat_rect. }
    assert (KD : exists kd : nat -> nat, forall i, i < Datatypes.S k -> spends (det c d o k (p_sub A (Datatypes.S k) i 0 m)) (p_det A dv iz k (p_sub A (Datatypes.S k) i 0 m)) (kd i)).
    { exists (fun i => snd (det c d o k (p_sub A (Datatypes.S k) i 0 m) 0)). intros i Hi.
      destruct (IH (p_sub A (Datatypes.S k) i 0 m)) as (k0 & S0 & _); [lia|lia|apply RS|]. rewrite (S0 0). exact S0. }
    destruct KD as (kd & HK). pose proof (W_big c) as HB.
    destruct (sp_det_big (Datatypes.S k) m (cof_big c d o (Datatypes.S k) (det c d o k) m)
      (fun ij => a_mul A (p_sign A (fst ij) (snd ij)) (p_det A dv iz k (p_sub A (Datatypes.S k) (fst ij) (snd ij) m)))
      (fun i => k * (k * wc) + (if (i + 0) mod 2 =? 0 then 0 else w_neg w) + kd i + w_mul w) R ltac:(lia)) as (K & S1 & B1).
    { intros i Hi. cbn [fst snd]. unfold cof_big.
      rewrite (proj2 (Nat.ltb_lt i (Datatypes.S k))), (proj2 (Nat.ltb_lt 0 (Datatypes.S k))) by lia. cbn [andb assert].
      pose proof (sp_submatrix (Datatypes.S k) m i 0 R ltac:(lia) ltac:(lia) ltac:(lia)) as S2. replace (Datatypes.S k - 1) with k in S2 by lia.
      eapply sp_eq; [eapply sp_bind; [apply sp_ret|]; eapply sp_bind; [exact S2|]; eapply sp_bind; [apply sp_cof_sign; lia|]; eapply sp_bind; [apply HK; exact Hi|apply sp_mul]|reflexivity|lia]. }
    exists K. split; [exact S1|].
    match goal with |- context [match ?X with inl _ => true | inr _ => false end] => change X with (ret_fold (p_step (Datatypes.S k) m (fun ij => a_mul A (p_sign A (fst ij) (snd ij)) (p_det A dv iz k (p_sub A (Datatypes.S k) (fst ij) (snd ij) m)))) (seq 0 (Datatypes.S k)) m) end.
    destruct (ret_fold _ (seq 0 (Datatypes.S k)) m) as [st|v].
    + split; [left; lia|]. split; [lia|]. intros _. exact B1.
    + split; [|split; [lia|]].
      * left. cbn [seq map list_sum fold_right] in B1. lia.
      * intros _. exists kd. split; [exact HK|]. exact B1.
Qed.
Lemma list_sum_le (f g : nat -> nat) l : (forall i, In i l -> f i <= g i) -> list_sum (map f l) <= list_sum (map g l).
Proof. induction l as [|x l IH]; intros H; [reflexivity|]. cbn [map list_sum fold_right]. pose proof (H x (or_introl eq_refl)). unfold list_sum in *. specialize (IH (fun i Hi => H i (or_intror Hi))). lia. Qed.
Lemma elim_cost_closed n : 2 * elim_cost n = n * (n - 1) * (2 * wc + w_div w + n * (3 * wc + w_mul w + w_sub w)).
Proof.
  unfold elim_cost. set (q := 2 * wc + w_div w + n * (3 * wc + w_mul w + w_sub w)). clearbody q.
  assert (G : forall k a, 2 * list_sum (map (fun i => (a + k - (i + 1)) * q) (seq a k)) = k * (k - 1) * q).
  { clear. induction k as [|k IH]; intros a; [reflexivity|]. cbn [seq map list_sum fold_right].
    specialize (IH (Datatypes.S a)). unfold list_sum in IH.
    replace (fold_right Init.Nat.add 0 (map (fun i => (a + Datatypes.S k - (i + 1)) * q) (seq (Datatypes.S a) k)))
      with (fold_right Init.Nat.add 0 (map (fun i => (Datatypes.S a + k - (i + 1)) * q) (seq (Datatypes.S a) k))).
    2:{ f_equal. apply map_ext. intros i. f_equal. lia. }
    rewrite Nat.mul_add_distr_l, IH. replace (a + Datatypes.S k - (a + 1)) with k by lia. destruct k; [lia|]. nia. }
  exact (G n 0).
Qed.
(** A family of matrices closed under deleting column 0 and a row, on which the elimination
    fails above size [K]. *)
Lemma det_blowup (Q : nat -> list (list T) -> Prop) K : 3 <= K ->
  (forall n m, rect n n m -> K < n -> Q n m -> completes n m = false /\ forall i, i < n -> Q (n - 1) (p_sub A n i 0 m)) ->
  forall n m v k, 2 <= n -> n + n <= W c -> rect n n m -> Q n m -> spends (det c d o n m) v k -> fact n * w_mul w <= fact K * k.
Proof using HE0.
  intros HK HQ. induction n as [|n IH]; intros m v k Hn HW R Hm HS; [lia|].
  destruct (det_costs (Datatypes.S n) m ltac:(lia) HW R) as (k' & S' & Hmul & _ & HB).
  destruct (spends_inj _ _ _ _ _ HS S') as [_ <-]. clear S'.
  destruct (Nat.le_gt_cases (Datatypes.S n) K) as [Hle|Hgt].
  - destruct Hmul as [Hmul|]; [|lia]. apply Nat.mul_le_mono; [now apply fact_le|exact Hmul].
  - destruct (HQ (Datatypes.S n) m R Hgt Hm) as [HC HQ']. specialize (HB ltac:(lia)). rewrite HC in HB. destruct HB as (kd & HKd & HB1 & _).
    replace (Datatypes.S n - 1) with n in * by lia.
    assert (G : list_sum (map (fun i => fact n * w_mul w) (seq 0 (Datatypes.S n))) <= list_sum (map (fun i => fact K * kd i) (seq 0 (Datatypes.S n)))).
    { apply list_sum_le. intros i Hi. apply in_seq in Hi. apply (IH (p_sub A (Datatypes.S n) i 0 m) _ (kd i)) with (5 := HKd i ltac:(lia)); [lia|lia| |apply HQ'; lia].
      unfold p_sub. replace (Datatypes.S n - 1) with n by lia. apply mat_rect. }
    rewrite list_sum_const, seq_length in G. cbn [fact]. rewrite <- Nat.mul_assoc in *.
    assert (G2 : list_sum (map (fun i => fact K * kd i) (seq 0 (Datatypes.S n))) = fact K * list_sum (map kd (seq 0 (Datatypes.S n)))).
    { clear. generalize (seq 0 (Datatypes.S n)). induction l as [|x l IH]; [cbn; lia|]. cbn [map list_sum fold_right]. unfold list_sum in *. rewrite IH. lia. }
    rewrite G2 in G.
    assert (G3 : list_sum (map kd (seq 0 (Datatypes.S n))) <= k).
    { etransitivity; [|exact HB1]. etransitivity; [|apply Nat.le_add_l]. apply list_sum_le. intros. lia. }
    apply (Nat.mul_le_mono_l _ _ (fact K)) in G3. lia.
Qed.
End Weights2.
Lemma det_upper_bound n : forall m v k, 3 <= n -> n + n <= W c -> rect n n m ->
  spends (det c d (counting A dv iz multiplications) n m) v k -> k + 2 * (n * n) <= 5 * fact n.
Proof using HE0.
  induction n as [|n IH]; intros m v k Hn HW R HS; [lia|].
  destruct (det_costs multiplications (Datatypes.S n) m ltac:(lia) HW R) as (k' & S' & _ & H3 & HB).
  destruct (spends_inj _ _ _ _ _ HS S') as [_ <-]. clear S'. cbn [multiplications w_clone w_mul w_add w_sub w_neg] in *.
  destruct (Nat.eq_dec n 2) as [->|Hne]; [rewrite H3 by reflexivity; cbn; lia|].
  specialize (HB ltac:(lia)). pose proof (elim_cost_closed multiplications (Datatypes.S n)) as HEC. cbn [multiplications w_clone w_mul w_add w_sub w_div] in HEC.
  assert (HF : forall a, 2 <= a -> a * (a - 1) <= fact a).
  { clear. intros a H. destruct a as [|[|a]]; [lia|lia|]. change (fact (Datatypes.S (Datatypes.S a))) with (Datatypes.S (Datatypes.S a) * fact (Datatypes.S a)).
    apply Nat.mul_le_mono_l. replace (Datatypes.S (Datatypes.S a) - 1) with (Datatypes.S a) by lia.
    change (fact (Datatypes.S a)) with (Datatypes.S a * fact a). pose proof (lt_O_fact a). nia. }
  pose proof (HF n ltac:(lia)) as HF1. replace (Datatypes.S n - 1) with n in * by lia.
  assert (3 <= n) by lia. change (fact (Datatypes.S n)) with (Datatypes.S n * fact n).
  destruct (completes (Datatypes.S n) m).
  - assert (E : 2 * elim_cost multiplications (Datatypes.S n) = Datatypes.S n * n * Datatypes.S n) by (rewrite HEC; ring). pose proof (Nat.mul_le_mono_l _ _ (Datatypes.S n) HF1) as HF2.
    set (X := Datatypes.S n * fact n) in *. clearbody X. clear -HB E HF2 H. destruct n as [|[|[|p]]]; try lia; replace (Datatypes.S (Datatypes.S (Datatypes.S p)) - 1) with (p + 2) in HF2 by lia; nia.
  - destruct HB as (kd & HKd & _ & HB2).
    assert (E : 2 * elim_cost multiplications (Datatypes.S n) = Datatypes.S n * n * Datatypes.S n) by (rewrite HEC; ring).
    assert (G : list_sum (map (fun i => 0 + (n * (n * 0) + (if (i + 0) mod 2 =? 0 then 0 else 0) + kd i + 1) + 1 + 0) (seq 0 (Datatypes.S n)))
       <= Datatypes.S n * (5 * fact n - 2 * (n * n) + 2)).
    { etransitivity; [apply (list_sum_le _ (fun _ => 5 * fact n - 2 * (n * n) + 2))|rewrite list_sum_const, seq_length; reflexivity].
      intros i Hi. apply in_seq in Hi.
      assert (R' : rect n n (p_sub A (Datatypes.S n) i 0 m)) by (unfold p_sub; replace (Datatypes.S n - 1) with n by lia; apply mat_rect).
      pose proof (IH (p_sub A (Datatypes.S n) i 0 m) _ (kd i) ltac:(lia) ltac:(lia) R' (HKd i ltac:(lia))) as B.
      destruct ((i + 0) mod 2 =? 0); lia. }
    assert (HB3 : k <= Datatypes.S n * (Datatypes.S n * 0) + Datatypes.S n * (5 * fact n - 2 * (n * n) + 2) + elim_cost multiplications (Datatypes.S n)).
    { etransitivity; [exact HB2|]. apply Nat.add_le_mono_r, Nat.add_le_mono_l. exact G. }
    assert (H5 : 2 * (n * n) <= 5 * fact n).
    { etransitivity; [|apply Nat.mul_le_mono_l; exact HF1]. clear -H. destruct n as [|[|[|p]]]; try lia; replace (Datatypes.S (Datatypes.S (Datatypes.S p)) - 1) with (p + 2) by lia; nia. }
    remember (5 * fact n - 2 * (n * n)) as Y eqn:EY. assert (EX : 5 * fact n = Y + 2 * (n * n)) by lia.
    replace (5 * (Datatypes.S n * fact n)) with (Datatypes.S n * (5 * fact n)) by lia. rewrite EX. clear -HB3 E H. nia.
Qed.

(** ** The inverse *)
Section Inverse.
Ltac sp1 := first [apply sp_clone | apply sp_mul | apply sp_add | apply sp_sub | apply sp_div | apply sp_neg | apply sp_ret
  | eapply sp_ix; [eassumption|lia|lia] | eapply sp_idx; [eassumption|lia|lia] | eapply sp_set; [eassumption|lia|lia]].
Ltac sps := repeat first [sp1 | eapply sp_bind].
Let P2 n (mi : list (list T) * list (list T)) : Prop := rect n n (fst mi) /\ rect n n (snd mi).
Definition g_scale (i : nat) (r : T) (j : nat) (mi : list (list T) * list (list T)) :=
  (mat_set (fst mi) i j (a_mul A (at2 A (fst mi) i j) r), mat_set (snd mi) i j (a_mul A (at2 A (snd mi) i j) r)).
Definition g_elims (n i j : nat) (a : T) (k : nat) (mi : list (list T) * list (list T)) :=
  (g_elim n i j a k (fst mi), g_elim n i j a k (snd mi)).
Lemma sp_scale_raw w n i r mi : P2 n mi -> i < n ->
  spends (scale_rows (counting A dv iz w) n i r mi) (fold_left (fun st k => g_scale i r k st) (seq 0 (n - 0)) mi) (n * (4 * w_clone w + 2 * w_mul w)).
Proof.
  intros R Hi. unfold scale_rows.
  match goal with |- spends (for_range 0 n ?b mi) _ _ =>
    destruct (sp_for_range b (g_scale i r) (P2 n) (fun _ => 4 * w_clone w + 2 * w_mul w) 0 n mi R) as [E _] end.
  - intros k st Hk [R1 R2]. split; [|split; now apply mat_set_rect]. eapply sp_eq; [sps|reflexivity|lia].
  - eapply sp_eq; [exact E|reflexivity|]. rewrite list_sum_const, seq_length. lia.
Qed.
Lemma sp_elims_raw w n i j a mi : P2 n mi -> i < n -> j < n ->
  spends (elim_rows (counting A dv iz w) n i j a mi) (fold_left (fun st k => g_elims n i j a k st) (seq 0 (n - 0)) mi) (n * (6 * w_clone w + 2 * w_mul w + 2 * w_sub w)).
Proof.
  intros R Hi Hj. unfold elim_rows.
  match goal with |- spends (for_range 0 n ?b mi) _ _ =>
    destruct (sp_for_range b (g_elims n i j a) (P2 n) (fun _ => 6 * w_clone w + 2 * w_mul w + 2 * w_sub w) 0 n mi R) as [E _] end.
  - intros k st Hk [R1 R2]. split; [|split; now apply mat_set_rect]. eapply sp_eq; [sps|reflexivity|lia].
  - eapply sp_eq; [exact E|reflexivity|]. rewrite list_sum_const, seq_length. lia.
Qed.
Variable w : weights.
Notation o := (counting A dv iz w).
Notation wc := (w_clone w).
Lemma sp_scale n i r mi : P2 n mi -> i < n ->
  spends (scale_rows o n i r mi) (p_scale A n i r (fst mi), p_scale A n i r (snd mi)) (n * (4 * wc + 2 * w_mul w)).
Proof using HE0.
  intros R Hi. eapply sp_eq; [now apply sp_scale_raw| |reflexivity].
  eapply free_spends; [now apply (sp_scale_raw free)|]. destruct mi as [m1 m2], R as [R1 R2]. cbn [fst snd] in *.
  unfold p_scale. rewrite <- (mat_at2 A n n m1 R1), <- (mat_at2 A n n m2 R2) at 1.
  now rewrite (scale_rows_spec _ A HE0) by lia.
Qed.
Lemma sp_elims n i j a mi : P2 n mi -> i < n -> j < n -> i <> j ->
  spends (elim_rows o n i j a mi) (p_elim A n i j a (fst mi), p_elim A n i j a (snd mi)) (n * (6 * wc + 2 * w_mul w + 2 * w_sub w)).
Proof using HE0.
  intros R Hi Hj Hij. eapply sp_eq; [now apply sp_elims_raw| |reflexivity].
  eapply free_spends; [now apply (sp_elims_raw free)|]. destruct mi as [m1 m2], R as [R1 R2]. cbn [fst snd] in *.
  unfold p_elim. rewrite <- (mat_at2 A n n m1 R1), <- (mat_at2 A n n m2 R2) at 1.
  now rewrite (elim_rows_spec _ A HE0) by lia.
Qed.
Lemma list_sum_but i n q : i < n -> list_sum (map (fun j => if i =? j then 0 else q) (seq 0 n)) = (n - 1) * q.
Proof.
  intros Hi. assert (G : forall k lo, list_sum (map (fun j => if i =? j then 0 else q) (seq lo k)) = if (lo <=? i) && (i <? lo + k) then (k - 1) * q else k * q).
  { clear. induction k as [|k IH]; intros lo; cbn [seq map list_sum fold_right].
    - destruct ((lo <=? i) && (i <? lo + 0)); reflexivity.
    - specialize (IH (Datatypes.S lo)). unfold list_sum in IH. rewrite IH.
      destruct (Nat.eqb_spec i lo), (Nat.leb_spec lo i), (Nat.leb_spec (Datatypes.S lo) i), (Nat.ltb_spec i (Datatypes.S lo + k)), (Nat.ltb_spec i (lo + Datatypes.S k)); cbn [andb]; try lia.
      destruct k; nia. }
  rewrite G. destruct (Nat.leb_spec 0 i), (Nat.ltb_spec i (0 + n)); cbn [andb]; lia.
Qed.
Lemma inv_cost_expand n p a b m e : n * (n * a) + n * (a + b + n * (4 * a + 2 * m) + p * (a + n * (6 * a + 2 * m + 2 * e)))
  = n * n * a + n * (a + b) + n * n * (4 * a + 2 * m) + n * p * a + n * n * p * (6 * a + 2 * m + 2 * e).
Proof. ring. Qed.
Lemma inv_costs n m : rect n n m ->
  let full := n * (n * wc) + n * (wc + w_div w + n * (4 * wc + 2 * w_mul w) + (n - 1) * (wc + n * (6 * wc + 2 * w_mul w + 2 * w_sub w))) in
  exists k, spends (inv_big c d o n m) (p_inv_big A dv iz n m) k /\
  match p_inv_big A dv iz n m with Some _ => k = full | None => k <= full end.
Proof using HE0.
  intros R full. unfold inv_big, p_inv_big.
  set (q := wc + n * (6 * wc + 2 * w_mul w + 2 * w_sub w)).
  match goal with |- context [for_range_ret 0 n ?b _] =>
    assert (L : exists k, spends (for_range_ret 0 n b (m, m_id A n)) (ret_fold (p_inv_step A dv iz n) (seq 0 (n - 0)) (m, m_id A n)) k /\
      within 0 (list_sum (map (fun _ => wc + w_div w + n * (4 * wc + 2 * w_mul w) + (n - 1) * q) (seq 0 (n - 0)))) (P2 n)
        (ret_fold (p_inv_step A dv iz n) (seq 0 (n - 0)) (m, m_id A n)) k) end.
  { apply sp_for_ret; [split; [exact R|apply mat_rect]|]. intros i mi Hi Rmi. unfold p_inv_step.
    assert (EP : spends (ix o (fst mi) i i) (at2 A (fst mi) i i) wc) by (eapply sp_ix; [apply Rmi|lia|lia]).
    change (o_is_zero o) with iz. change (o_one o) with (a_one A). destruct (iz (at2 A (fst mi) i i)) eqn:EZ.
    - eexists. split; [eapply sp_bind; [exact EP|]; cbv beta; rewrite EZ; apply sp_ret|]. cbn [within]. lia.
    - set (r := dv (a_one A) (at2 A (fst mi) i i)).
      destruct (sp_for_range (fun j mi => if i =? j then ret mi else a <- ix o (fst mi) j i ;; elim_rows o n i j a mi)
        (fun j mi => if i =? j then mi else let a := at2 A (fst mi) j i in (p_elim A n i j a (fst mi), p_elim A n i j a (snd mi)))
        (P2 n) (fun j => if i =? j then 0 else q) 0 n (p_scale A n i r (fst mi), p_scale A n i r (snd mi))) as [E P].
      + split; apply mat_rect.
      + intros j mj Hj Rj. destruct (Nat.eqb_spec i j) as [->|Hij]; [split; [apply sp_ret|exact Rj]|].
        split; [|split; apply mat_rect]. eapply sp_bind; [eapply sp_ix; [apply Rj|lia|lia]|]. apply sp_elims; auto; lia.
      + eexists. split; [eapply sp_bind; [exact EP|]; cbv beta; rewrite EZ; eapply sp_bind; [apply sp_div|]; eapply sp_bind; [apply sp_scale; [exact Rmi|lia]|]; eapply sp_bind; [exact E|apply sp_ret]|].
        cbn [within]. split; [exact P|]. rewrite Nat.sub_0_r, list_sum_but by lia. lia. }
  destruct L as (k & E & HB). rewrite list_sum_const, seq_length, Nat.sub_0_r in HB. rewrite Nat.sub_0_r in E. rewrite Nat.sub_0_r.
  destruct (ret_fold (p_inv_step A dv iz n) (seq 0 n) (m, m_id A n)) as [st|u]; cbn [within] in HB.
  - eexists. split; [eapply sp_bind; [now apply sp_mclone|]; eapply sp_bind; [apply sp_midentity|]; eapply sp_bind; [exact E|apply sp_ret]|].
    destruct HB as [_ ->]. unfold full, q. lia.
  - eexists. split; [eapply sp_bind; [now apply sp_mclone|]; eapply sp_bind; [apply sp_midentity|]; eapply sp_bind; [exact E|apply sp_ret]|].
    unfold full. fold q. lia.
Qed.
End Inverse.
End Cost.
