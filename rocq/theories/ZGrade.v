(** * ZGrade.v - relations graded by an integer (a power of two) that the operations respect: through
    determinants, cofactors and inverses of every size (proofs only). *)
From Coq Require Import List Arith Bool Lia ZArith.
From Verif Require Import Rust Elem SpecCommon SpecAlg SpecPow2.
From Verif Require Import Sim Algebra DetLoop OpsPure NanProofs ScaleProofs.
Import ListNotations.

(** A family of relations that the operations respect; [b] is the grade. *)
Record zgraded {T} (A : arith T) (dv : T -> T -> T) (iz : T -> bool) (R : Z -> T -> T -> Prop) : Prop := ZGraded {
  zg_zero : forall b, R b (a_zero A) (a_zero A);
  zg_one : R 0%Z (a_one A) (a_one A);
  zg_add : forall b x y x' y', R b x y -> R b x' y' -> R b (a_add A x x') (a_add A y y');
  zg_sub : forall b x y x' y', R b x y -> R b x' y' -> R b (a_sub A x x') (a_sub A y y');
  zg_mul : forall b b' x y x' y', R b x y -> R b' x' y' -> R (Z.add b b') (a_mul A x x') (a_mul A y y');
  zg_neg : forall b x y, R b x y -> R b (a_neg A x) (a_neg A y);
  zg_div : forall b b' x y x' y', R b x y -> R b' x' y' -> iz x' = false -> R (b - b')%Z (dv x x') (dv y y');
  zg_iz : forall b x y, R b x y -> iz x = iz y }.

Section Graded.
Context {T : Type} (A : arith T) (dv : T -> T -> T) (iz : T -> bool) (R : Z -> T -> T -> Prop).
Hypothesis G : zgraded A dv iz R.
Lemma zg_mul' b b1 b2 x y x' y' : b = Z.add b1 b2 -> R b1 x y -> R b2 x' y' -> R b (a_mul A x x') (a_mul A y y').
Proof using G. intros ->. apply G. Qed.
Lemma zg_div' b b1 b2 x y x' y' : b = (b1 - b2)%Z -> R b1 x y -> R b2 x' y' -> iz x' = false -> R b (dv x x') (dv y y').
Proof using G. intros ->. apply G. Qed.
Lemma zg_sum b n f g : (forall k, k < n -> R b (f k) (g k)) -> R b (sum A n f) (sum A n g).
Proof using G.
  intros H. unfold sum. assert (H' : forall k, In k (seq 0 n) -> R b (f k) (g k)) by (intros k Hk; apply in_seq in Hk; apply H; lia). clear H.
  assert (Z : R b (a_zero A) (a_zero A)) by apply G. revert Z. generalize (a_zero A) at 1 3 as x. generalize (a_zero A) as y. generalize dependent (seq 0 n).
  induction l as [|k l IH]; intros H' y x Z; cbn [fold_left]; [exact Z|]. apply IH; [intros; apply H'; now right|]. apply G; [exact Z|apply H'; now left].
Qed.
Lemma zg_prod (f g : nat -> T) (h : nat -> Z) n : (forall k, k < n -> R (h k) (f k) (g k)) ->
  R (ztotal n h) (fold_left (fun acc k => a_mul A acc (f k)) (seq 0 n) (a_one A)) (fold_left (fun acc k => a_mul A acc (g k)) (seq 0 n) (a_one A)).
Proof using G.
  intros H. induction n as [|n IH]; [exact (zg_one _ _ _ _ G)|]. rewrite seq_S, !fold_left_app. cbn [fold_left ztotal Nat.add].
  apply G; [apply IH; intros; apply H; lia|apply H; lia].
Qed.
Lemma ztot_ext n f g : (forall k, k < n -> f k = g k) -> ztotal n f = ztotal n g.
Proof using. induction n as [|n IH]; intros H; cbn; [reflexivity|]. rewrite IH, H by (auto; lia). reflexivity. Qed.
Lemma ztot_xor n f g : ztotal n (fun k => Z.add (f k) (g k)) = Z.add (ztotal n f) (ztotal n g).
Proof using. induction n as [|n IH]; cbn; [reflexivity|]. rewrite IH. lia. Qed.
Lemma ztot_skip n f i : i < S n -> ztotal n (fun a => f (skip i a)) = Z.sub (ztotal (S n) f) (f i).
Proof using.
  induction n as [|n IH]; intros Hi.
  - assert (i = 0) by lia. subst. cbn. lia.
  - cbn [ztotal]. destruct (Nat.eq_dec i (S n)) as [->|Ne].
    + assert (E : skip (S n) n = n) by (unfold skip; destruct (Nat.ltb_spec n (S n)); lia). rewrite E.
      rewrite (ztot_ext n (fun a => f (skip (S n) a)) f).
      * lia.
      * intros k Hk. f_equal. unfold skip. destruct (Nat.ltb_spec k (S n)); lia.
    + rewrite IH by lia. cbn [ztotal]. assert (E : skip i n = S n) by (unfold skip; destruct (Nat.ltb_spec n i); lia). rewrite E.
      lia.
Qed.
Lemma ret_fold_rel {St Rt} (g g' : nat -> St -> St + Rt) (P : nat -> St -> St -> Prop) (Q : Rt -> Rt -> Prop) : forall k lo st st',
  P lo st st' -> (forall i st st', lo <= i < lo + k -> P i st st' ->
    match g i st, g' i st' with inl x, inl y => P (i + 1) x y | inr x, inr y => Q x y | _, _ => False end) ->
  match ret_fold g (seq lo k) st, ret_fold g' (seq lo k) st' with inl x, inl y => P (lo + k) x y | inr x, inr y => Q x y | _, _ => False end.
Proof using.
  induction k as [|k IH]; intros lo st st' H0 H; cbn [seq ret_fold]; [now rewrite Nat.add_0_r|].
  pose proof (H lo st st' ltac:(lia) H0) as H1. destruct (g lo st) as [x|x], (g' lo st') as [y|y]; try contradiction; [|exact H1].
  rewrite <- plus_n_Sm. change (S (lo + k)) with (S lo + k). apply IH; [now rewrite <- Nat.add_1_r|]. intros. apply H; [lia|assumption].
Qed.
Definition mrel n (f g : nat -> Z) (m m' : list (list T)) : Prop :=
  forall a b, a < n -> b < n -> R (Z.add (f a) (g b)) (at2 A m a b) (at2 A m' a b).
Lemma elim_rel n f g e i j m m' x x' : mrel n f g m m' -> i < n -> R e x x' -> f j = Z.add (f i) e ->
  mrel n f g (p_elim A n i j x m) (p_elim A n i j x' m').
Proof using G.
  intros H Hi Hx E a b Ha Hb. rewrite !elim_at by assumption. destruct (Nat.eqb_spec a j) as [->|]; [|now apply H].
  apply G; [now apply H|]. apply (zg_mul' _ (Z.add (f i) (g b)) e); [|now apply H|exact Hx]. rewrite E. lia.
Qed.
Lemma sign_rel i j : R 0%Z (p_sign A i j) (p_sign A i j).
Proof using G. unfold p_sign. destruct (_ =? 0); [apply G|]. apply (zg_neg _ _ _ _ G). apply G. Qed.
Ltac bx := repeat match goal with |- context [?f _] => match type of f with nat -> Z => idtac end end.
Lemma zdet_rel n : forall f g m m', 1 <= n -> mrel n f g m m' -> R (Z.add (ztotal n f) (ztotal n g)) (p_det A dv iz n m) (p_det A dv iz n m').
Proof using G.
  induction n as [|n IH]; intros f g m m' Hn H; [lia|].
  destruct n as [|[|[|n]]].
  - cbn [p_det ztotal]. unfold det_1. rewrite !Z.add_0_l. apply H; lia.
  - cbn [p_det ztotal]. unfold det_2. rewrite !Z.add_0_l. apply G.
    + apply (zg_mul' _ (Z.add (f 0) (g 0)) (Z.add (f 1) (g 1))); [|apply H; lia|apply H; lia]. lia.
    + apply (zg_mul' _ (Z.add (f 1) (g 0)) (Z.add (f 0) (g 1))); [|apply H; lia|apply H; lia]. lia.
  - cbn [p_det ztotal]. unfold det_3. rewrite !Z.add_0_l.
    assert (K : forall i j k l p q, i < 3 -> j < 3 -> k < 3 -> l < 3 -> p < 3 -> q < 3 ->
      Z.add (Z.add (Z.add (f 0) (f 1)) (f 2)) (Z.add (Z.add (g 0) (g 1)) (g 2)) = Z.add (Z.add (Z.add (f i) (g j)) (Z.add (f k) (g l))) (Z.add (f p) (g q)) ->
      R (Z.add (Z.add (Z.add (f 0) (f 1)) (f 2)) (Z.add (Z.add (g 0) (g 1)) (g 2)))
        (a_mul A (a_mul A (at2 A m i j) (at2 A m k l)) (at2 A m p q)) (a_mul A (a_mul A (at2 A m' i j) (at2 A m' k l)) (at2 A m' p q))).
    { intros i j k l p q Hi Hj Hk Hl Hp Hq E. rewrite E. apply G; [apply G; now apply H|now apply H]. }
    repeat (apply (zg_sub _ _ _ _ G) || apply (zg_add _ _ _ _ G) || (apply K; [lia|lia|lia|lia|lia|lia|lia])).
  - set (N := S (S (S (S n)))) in *. set (N' := S (S (S n))) in *.
    change (p_det A dv iz N m) with (p_det_big A dv iz N m (fun ij => a_mul A (p_sign A (fst ij) (snd ij)) (p_det A dv iz N' (p_sub A N (fst ij) (snd ij) m)))).
    change (p_det A dv iz N m') with (p_det_big A dv iz N m' (fun ij => a_mul A (p_sign A (fst ij) (snd ij)) (p_det A dv iz N' (p_sub A N (fst ij) (snd ij) m')))).
    set (B := Z.add (ztotal N f) (ztotal N g)).
    assert (Hfall : R B
      (fold_left (fun acc i => a_add A acc (a_mul A (at2 A m i 0) (a_mul A (p_sign A (fst (i, 0)) (snd (i, 0))) (p_det A dv iz N' (p_sub A N (fst (i, 0)) (snd (i, 0)) m))))) (seq 0 N) (a_zero A))
      (fold_left (fun acc i => a_add A acc (a_mul A (at2 A m' i 0) (a_mul A (p_sign A (fst (i, 0)) (snd (i, 0))) (p_det A dv iz N' (p_sub A N (fst (i, 0)) (snd (i, 0)) m'))))) (seq 0 N) (a_zero A))).
    { apply (zg_sum B N (fun i => a_mul A (at2 A m i 0) (a_mul A (p_sign A i 0) (p_det A dv iz N' (p_sub A N i 0 m)))) (fun i => a_mul A (at2 A m' i 0) (a_mul A (p_sign A i 0) (p_det A dv iz N' (p_sub A N i 0 m'))))).
      intros i Hi.
      apply (zg_mul' _ (Z.add (f i) (g 0)) (Z.add (ztotal N' (fun a => f (skip i a))) (ztotal N' (fun a => g (skip 0 a))))).
      - rewrite !ztot_skip by (fold N; lia). fold N. unfold B. lia.
      - apply H; lia.
      - apply (zg_mul' _ 0%Z (Z.add (ztotal N' (fun a => f (skip i a))) (ztotal N' (fun a => g (skip 0 a))))); [lia|apply sign_rel|].
        apply IH; [lia|]. intros a b Ha Hb. unfold p_sub. rewrite !at2_mat by (unfold N, N' in *; lia). apply H; unfold skip, N, N' in *; [destruct (Nat.ltb_spec a i); lia|destruct (Nat.ltb_spec b 0); lia]. }
    unfold p_det_big.
    match goal with |- R _ (match ret_fold ?g1 _ m with _ => _ end) (match ret_fold ?g2 _ m' with _ => _ end) =>
      pose proof (ret_fold_rel g1 g2 (fun _ => mrel N f g) (R B) (N - 0) 0 m m' H) as K end.
    assert (K2 : R B = R B) by reflexivity.
    match type of K with ?hyp -> _ => assert (HK : hyp) end.
    { intros i st st' Hi Hst. rewrite Nat.add_0_l in Hi. cbv beta.
      match goal with |- match ret_fold ?g1 _ st with _ => _ end =>
        match goal with |- context [ret_fold ?g2 _ st'] => pose proof (ret_fold_rel g1 g2 (fun _ => mrel N f g) (R B) (N - (i + 1)) (i + 1) st st' Hst) as K3 end end.
      match type of K3 with ?hyp -> _ => assert (HK3 : hyp) end.
      { intros j s1 s2 Hj Hs. assert (Hii : R (Z.add (f i) (g i)) (at2 A s1 i i) (at2 A s2 i i)) by (apply Hs; lia). cbv beta.
        rewrite <- (zg_iz _ _ _ _ G _ _ _ Hii). destruct (iz (at2 A s1 i i)) eqn:Z; [exact Hfall|].
        apply elim_rel with (e := Z.sub (Z.add (f j) (g i)) (Z.add (f i) (g i))); [exact Hs|lia| |lia].
        apply G; [apply Hs; lia|exact Hii|exact Z]. }
      specialize (K3 HK3). exact K3. }
    specialize (K HK). clear HK K2.
    match type of K with match ?x with _ => _ end => destruct x as [r|r] end; match type of K with match ?x with _ => _ end => destruct x as [r'|r'] end; try contradiction; [|exact K].
    unfold B. rewrite <- ztot_xor. apply zg_prod. intros k Hk. now apply K.
Qed.
Lemma zcof_rel n f g m m' i j : 2 <= n -> i < n -> j < n -> mrel n f g m m' ->
  R (Z.add (Z.sub (ztotal n f) (f i)) (Z.sub (ztotal n g) (g j))) (p_cof A dv iz n m i j) (p_cof A dv iz n m' i j).
Proof using G.
  intros Hn Hi Hj H. destruct n as [|[|[|n]]]; [lia|lia| |].
  - cbn [p_cof]. apply (zg_mul' _ 0%Z (Z.add (f (1 - i)) (g (1 - j)))); [|apply sign_rel|apply H; lia].
    cbn [ztotal]. destruct i as [|[|i]]; try lia; destruct j as [|[|j]]; try lia; cbn [Nat.sub]; lia.
  - set (N := S (S (S n))). set (N' := S (S n)).
    change (R (Z.add (Z.sub (ztotal N f) (f i)) (Z.sub (ztotal N g) (g j))) (a_mul A (p_sign A i j) (p_det A dv iz N' (p_sub A N i j m))) (a_mul A (p_sign A i j) (p_det A dv iz N' (p_sub A N i j m')))).
    apply (zg_mul' _ 0%Z (Z.add (ztotal N' (fun a => f (skip i a))) (ztotal N' (fun a => g (skip j a))))); [|apply sign_rel|].
    + rewrite !ztot_skip by assumption. change (S N') with N. lia.
    + apply zdet_rel; [unfold N'; lia|]. intros a b Ha Hb. unfold p_sub. rewrite !at2_mat by (unfold N, N' in *; lia).
      apply H; unfold skip, N, N' in *; [destruct (Nat.ltb_spec a i); lia|destruct (Nat.ltb_spec b j); lia].
Qed.
Lemma ms_rel n f g m m' b i1 j1 i2 j2 i3 j3 i4 j4 : mrel n f g m m' -> i1 < n -> j1 < n -> i2 < n -> j2 < n -> i3 < n -> j3 < n -> i4 < n -> j4 < n ->
  b = Z.add (Z.add (f i1) (g j1)) (Z.add (f i2) (g j2)) -> b = Z.add (Z.add (f i3) (g j3)) (Z.add (f i4) (g j4)) ->
  R b (p_ms A m i1 j1 i2 j2 i3 j3 i4 j4) (p_ms A m' i1 j1 i2 j2 i3 j3 i4 j4).
Proof using G.
  intros H H1 H2 H3 H4 H5 H6 H7 H8 E1 E2. unfold p_ms. apply (zg_sub _ _ _ _ G).
  - apply (zg_mul' _ _ _ _ _ _ _ E1); now apply H.
  - apply (zg_mul' _ _ _ _ _ _ _ E2); now apply H.
Qed.
Lemma padj_rel n f g m m' i j : 1 <= n <= 3 -> i < n -> j < n -> mrel n f g m m' ->
  R (Z.add (Z.sub (ztotal n f) (f j)) (Z.sub (ztotal n g) (g i))) (padj A n m i j) (padj A n m' i j).
Proof using G.
  intros Hn Hi Hj H. destruct n as [|[|[|[|n]]]]; try lia; cbn [padj ztotal].
  - assert (i = 0) by lia. assert (j = 0) by lia. subst. replace (_ + _)%Z with 0%Z by lia. apply G.
  - destruct i as [|[|i]]; try lia; destruct j as [|[|j]]; try lia; unfold at2; cbn [nth]; try apply (zg_neg _ _ _ _ G);
      match goal with |- R ?b (nth ?q (nth ?p m _) _) _ => replace b with (Z.add (f p) (g q)) by (lia) end; apply H; lia.
  - destruct i as [|[|[|i]]]; try lia; destruct j as [|[|[|j]]]; try lia; unfold at2; cbn [nth]; apply (ms_rel 3 f g); try exact H; try lia; lia.
Qed.
Definition gr (f g : nat -> Z) (k a : nat) : Z := if a <? k then (- g a)%Z else f a.
Definition irel n f g k (mi mi' : list (list T) * list (list T)) : Prop :=
  mrel n (gr f g k) g (fst mi) (fst mi') /\ mrel n (gr f g k) (fun b => (- f b)%Z) (snd mi) (snd mi').
Lemma zinv_rel n f g m m' : 1 <= n -> mrel n f g m m' ->
  match p_inverse A dv iz n m, p_inverse A dv iz n m' with
  | Some y, Some y' => mrel n (fun i => (- g i)%Z) (fun j => (- f j)%Z) y y'
  | None, None => True
  | _, _ => False
  end.
Proof using G.
  intros Hn H. destruct (Nat.le_gt_cases n 3) as [L|L].
  - pose proof (zg_iz _ _ _ _ G _ _ _ (zdet_rel n f g m m' Hn H)) as Z.
    destruct (p_inverse A dv iz n m) as [y|] eqn:E1, (p_inverse A dv iz n m') as [y'|] eqn:E2.
    + intros a b Ha Hb. rewrite (s_some A dv iz n m y a b), (s_some A dv iz n m' y' a b) by (auto; lia).
      apply (zg_div' _ (Z.add (Z.sub (ztotal n f) (f b)) (Z.sub (ztotal n g) (g a))) (Z.add (ztotal n f) (ztotal n g))).
      * lia.
      * apply padj_rel; auto; lia.
      * now apply zdet_rel.
      * destruct (iz (p_det A dv iz n m)) eqn:E; [|reflexivity]. apply s_none_iff in E; [congruence|lia].
    + apply s_none_iff in E2; [|lia]. rewrite <- Z in E2. apply s_none_iff in E2; [congruence|lia].
    + apply s_none_iff in E1; [|lia]. rewrite Z in E1. apply s_none_iff in E1; [congruence|lia].
    + exact I.
  - assert (EB : forall x, p_inverse A dv iz n x = p_inv_big A dv iz n x) by (intros x; destruct n as [|[|[|[|n]]]]; try lia; reflexivity).
    rewrite !EB. unfold p_inv_big.
    pose proof (ret_fold_rel (p_inv_step A dv iz n) (p_inv_step A dv iz n) (irel n f g) (fun _ _ => True) (n - 0) 0 (m, m_id A n) (m', m_id A n)) as K.
    match type of K with ?h -> _ => assert (H0 : h) end.
    { split; cbn [fst snd]; [exact H|]. intros a b Ha Hb. unfold gr. cbn [Nat.ltb Nat.leb]. unfold m_id. rewrite !at2_mat by assumption.
      destruct (Nat.eqb_spec a b) as [->|]; [|apply G]. unfold gr. destruct (Nat.ltb_spec b 0); [lia|]. rewrite Z.add_opp_diag_r. apply G. }
    specialize (K H0). match type of K with ?h -> _ => assert (H1 : h) end.
    { intros i st st' Hi [Hm Hx]. unfold p_inv_step. assert (Hg : gr f g i i = f i) by (unfold gr; destruct (Nat.ltb_spec i i); [lia|reflexivity]).
      assert (Hii : R (Z.add (f i) (g i)) (at2 A (fst st) i i) (at2 A (fst st') i i)) by (rewrite <- Hg at 1; apply Hm; lia).
      rewrite <- (zg_iz _ _ _ _ G _ _ _ Hii). destruct (iz (at2 A (fst st) i i)) eqn:Z; [exact I|]. cbv zeta.
      assert (Hr : R (- Z.add (f i) (g i))%Z (dv (a_one A) (at2 A (fst st) i i)) (dv (a_one A) (at2 A (fst st') i i))).
      { apply (zg_div' _ 0%Z (Z.add (f i) (g i))); [lia|apply G|exact Hii|exact Z]. }
      revert Hr. generalize (dv (a_one A) (at2 A (fst st) i i)) (dv (a_one A) (at2 A (fst st') i i)). intros r r' Hr.
      assert (Hg1 : gr f g (i + 1) i = (- g i)%Z) by (unfold gr; destruct (Nat.ltb_spec i (i + 1)); [reflexivity|lia]).
      assert (Hgo : forall a, a <> i -> gr f g (i + 1) a = gr f g i a) by (intros a Na; unfold gr; destruct (Nat.ltb_spec a (i + 1)), (Nat.ltb_spec a i); reflexivity || lia).
      assert (Sc : forall h x x', mrel n (gr f g i) h x x' -> mrel n (gr f g (i + 1)) h (p_scale A n i r x) (p_scale A n i r' x')).
      { intros h x x' Hs a b Ha Hb. unfold p_scale. rewrite !at2_mat by assumption. unfold f_scale. destruct (Nat.eqb_spec a i) as [->|Na].
        - apply (zg_mul' _ (Z.add (gr f g i i) (h b)) (- Z.add (f i) (g i))%Z); [|now apply Hs|exact Hr]. rewrite Hg1, Hg. lia.
        - rewrite Hgo by exact Na. now apply Hs. }
      assert (Fo : forall l mi mi', (forall j, In j l -> j < n) -> irel n f g (i + 1) mi mi' -> irel n f g (i + 1)
        (fold_left (fun mi j => if i =? j then mi else let a := at2 A (fst mi) j i in (p_elim A n i j a (fst mi), p_elim A n i j a (snd mi))) l mi)
        (fold_left (fun mi j => if i =? j then mi else let a := at2 A (fst mi) j i in (p_elim A n i j a (fst mi), p_elim A n i j a (snd mi))) l mi')).
      { induction l as [|j l IH]; intros mi mi' Hl Hmi; cbn [fold_left]; [exact Hmi|]. apply IH; [intros; apply Hl; now right|].
        destruct (Nat.eqb_spec i j); [exact Hmi|]. destruct Hmi as [Q1 Q2]. assert (Hj : j < n) by (apply Hl; now left).
        assert (Qa : R (Z.add (gr f g (i + 1) j) (g i)) (at2 A (fst mi) j i) (at2 A (fst mi') j i)) by (apply Q1; lia).
        split; cbn [fst snd]; (eapply elim_rel; [eassumption|lia|exact Qa|rewrite Hg1; lia]). }
      apply Fo; [intros j Hj; apply in_seq in Hj; lia|]. split; cbn [fst snd]; now apply Sc. }
    specialize (K H1). destruct (ret_fold _ _ (m, _)) as [mi|], (ret_fold _ _ (m', _)) as [mi'|]; try contradiction; [|exact I].
    destruct K as [_ K]. intros a b Ha Hb. specialize (K a b Ha Hb). revert K. unfold gr. destruct (Nat.ltb_spec a (0 + (n - 0))); [exact (fun x => x)|lia].
Qed.
End Graded.

