(** * SignProofs.v - C94: signs through the operations (proofs only). *)
From Coq Require Import List Arith Bool Lia ZArith.
From Flocq Require Import Core BinarySingleNaN.
From Verif Require Import Rust Elem SpecCommon SpecAlg FloatM SpecSign.
From Verif Require Import Sim Algebra DetLoop OpsPure NanProofs ScaleProofs.
Import ListNotations.

(** A family of relations that the operations respect; [b] is the sign. *)
Record graded {T} (A : arith T) (dv : T -> T -> T) (iz : T -> bool) (R : bool -> T -> T -> Prop) : Prop := Graded {
  g_zero : forall b, R b (a_zero A) (a_zero A);
  g_one : R false (a_one A) (a_one A);
  g_add : forall b x y x' y', R b x y -> R b x' y' -> R b (a_add A x x') (a_add A y y');
  g_sub : forall b x y x' y', R b x y -> R b x' y' -> R b (a_sub A x x') (a_sub A y y');
  g_mul : forall b b' x y x' y', R b x y -> R b' x' y' -> R (xorb b b') (a_mul A x x') (a_mul A y y');
  g_neg : forall b x y, R b x y -> R b (a_neg A x) (a_neg A y);
  g_div : forall b b' x y x' y', R b x y -> R b' x' y' -> iz x' = false -> R (xorb b b') (dv x x') (dv y y');
  g_iz : forall b x y, R b x y -> iz x = iz y }.

Section Graded.
Context {T : Type} (A : arith T) (dv : T -> T -> T) (iz : T -> bool) (R : bool -> T -> T -> Prop).
Hypothesis G : graded A dv iz R.
Lemma g_mul' b b1 b2 x y x' y' : b = xorb b1 b2 -> R b1 x y -> R b2 x' y' -> R b (a_mul A x x') (a_mul A y y').
Proof using G. intros ->. apply G. Qed.
Lemma g_div' b b1 b2 x y x' y' : b = xorb b1 b2 -> R b1 x y -> R b2 x' y' -> iz x' = false -> R b (dv x x') (dv y y').
Proof using G. intros ->. apply G. Qed.
Lemma g_sum b n f g : (forall k, k < n -> R b (f k) (g k)) -> R b (sum A n f) (sum A n g).
Proof using G.
  intros H. unfold sum. assert (H' : forall k, In k (seq 0 n) -> R b (f k) (g k)) by (intros k Hk; apply in_seq in Hk; apply H; lia). clear H.
  assert (Z : R b (a_zero A) (a_zero A)) by apply G. revert Z. generalize (a_zero A) at 1 3 as x. generalize (a_zero A) as y. generalize dependent (seq 0 n).
  induction l as [|k l IH]; intros H' y x Z; cbn [fold_left]; [exact Z|]. apply IH; [intros; apply H'; now right|]. apply G; [exact Z|apply H'; now left].
Qed.
Lemma g_prod (f g : nat -> T) (h : nat -> bool) n : (forall k, k < n -> R (h k) (f k) (g k)) ->
  R (odd_many n h) (fold_left (fun acc k => a_mul A acc (f k)) (seq 0 n) (a_one A)) (fold_left (fun acc k => a_mul A acc (g k)) (seq 0 n) (a_one A)).
Proof using G.
  intros H. induction n as [|n IH]; [exact (g_one _ _ _ _ G)|]. rewrite seq_S, !fold_left_app. cbn [fold_left odd_many Nat.add].
  apply G; [apply IH; intros; apply H; lia|apply H; lia].
Qed.
Lemma odd_ext n f g : (forall k, k < n -> f k = g k) -> odd_many n f = odd_many n g.
Proof using. induction n as [|n IH]; intros H; cbn; [reflexivity|]. rewrite IH, H by (auto; lia). reflexivity. Qed.
Lemma odd_xor n f g : odd_many n (fun k => xorb (f k) (g k)) = xorb (odd_many n f) (odd_many n g).
Proof using. induction n as [|n IH]; cbn; [reflexivity|]. rewrite IH. destruct (odd_many n f), (odd_many n g), (f n), (g n); reflexivity. Qed.
Lemma odd_skip n f i : i < S n -> odd_many n (fun a => f (skip i a)) = xorb (odd_many (S n) f) (f i).
Proof using.
  induction n as [|n IH]; intros Hi.
  - assert (i = 0) by lia. subst. cbn. destruct (f 0); reflexivity.
  - cbn [odd_many]. destruct (Nat.eq_dec i (S n)) as [->|Ne].
    + assert (E : skip (S n) n = n) by (unfold skip; destruct (Nat.ltb_spec n (S n)); lia). rewrite E.
      rewrite (odd_ext n (fun a => f (skip (S n) a)) f).
      * destruct (odd_many n f), (f n), (f (S n)); reflexivity.
      * intros k Hk. f_equal. unfold skip. destruct (Nat.ltb_spec k (S n)); lia.
    + rewrite IH by lia. cbn [odd_many]. assert (E : skip i n = S n) by (unfold skip; destruct (Nat.ltb_spec n i); lia). rewrite E.
      destruct (odd_many n f), (f n), (f (S n)), (f i); reflexivity.
Qed.
Lemma ret_fold_rel {St Rt} (g g' : nat -> St -> St + Rt) (P : nat -> St -> St -> Prop) (Q : Rt -> Rt -> Prop) : forall k lo st st',
  P lo st st' -> (forall i st st', lo <= i < lo + k -> P i st st' ->
    match g i st, g' i st' with inl x, inl y => P (i + 1) x y | inr x, inr y => Q x y | _, _ => False end) ->
  match ret_fold g (seq lo k) st, ret_fold g' (seq lo k) st' with inl x, inl y => P (lo + k) x y | inr x, inr y => Q x y | _, _ => False end.
Proof using.
  induction k as [|k IH]; intros lo st st' H0 H; cbn [seq ret_fold]; [now rewrite Nat.add_0_r|].
  pose proof (H lo st st' ltac:(lia) H0) as H1. destruct (g lo st) as [x|x], (g' lo st') as [y|y]; try contradiction; [|exact H1].
  rewrite <- plus_n_Sm. change (S (lo + k)) with (S lo + k). apply IH; [now rewrite <- Nat.add_1_r|]. intros. apply H; [lia|assumption].
Qed.
Definition mrel n (f g : nat -> bool) (m m' : list (list T)) : Prop :=
  forall a b, a < n -> b < n -> R (xorb (f a) (g b)) (at2 A m a b) (at2 A m' a b).
Lemma elim_rel n f g e i j m m' x x' : mrel n f g m m' -> i < n -> R e x x' -> f j = xorb (f i) e ->
  mrel n f g (p_elim A n i j x m) (p_elim A n i j x' m').
Proof using G.
  intros H Hi Hx E a b Ha Hb. rewrite !elim_at by assumption. destruct (Nat.eqb_spec a j) as [->|]; [|now apply H].
  apply G; [now apply H|]. apply (g_mul' _ (xorb (f i) (g b)) e); [|now apply H|exact Hx]. rewrite E. destruct (f i), (g b), e; reflexivity.
Qed.
Lemma sign_rel i j : R false (p_sign A i j) (p_sign A i j).
Proof using G. unfold p_sign. destruct (_ =? 0); [apply G|]. apply (g_neg _ _ _ _ G). apply G. Qed.
Ltac bx := repeat match goal with |- context [?f _] => match type of f with nat -> bool => idtac end end.
Lemma det_rel n : forall f g m m', 1 <= n -> mrel n f g m m' -> R (xorb (odd_many n f) (odd_many n g)) (p_det A dv iz n m) (p_det A dv iz n m').
Proof using G.
  induction n as [|n IH]; intros f g m m' Hn H; [lia|].
  destruct n as [|[|[|n]]].
  - cbn [p_det odd_many]. unfold det_1. rewrite !xorb_false_l. apply H; lia.
  - cbn [p_det odd_many]. unfold det_2. rewrite !xorb_false_l. apply G.
    + apply (g_mul' _ (xorb (f 0) (g 0)) (xorb (f 1) (g 1))); [|apply H; lia|apply H; lia]. destruct (f 0), (f 1), (g 0), (g 1); reflexivity.
    + apply (g_mul' _ (xorb (f 1) (g 0)) (xorb (f 0) (g 1))); [|apply H; lia|apply H; lia]. destruct (f 0), (f 1), (g 0), (g 1); reflexivity.
  - cbn [p_det odd_many]. unfold det_3. rewrite !xorb_false_l.
    assert (K : forall i j k l p q, i < 3 -> j < 3 -> k < 3 -> l < 3 -> p < 3 -> q < 3 ->
      xorb (xorb (xorb (f 0) (f 1)) (f 2)) (xorb (xorb (g 0) (g 1)) (g 2)) = xorb (xorb (xorb (f i) (g j)) (xorb (f k) (g l))) (xorb (f p) (g q)) ->
      R (xorb (xorb (xorb (f 0) (f 1)) (f 2)) (xorb (xorb (g 0) (g 1)) (g 2)))
        (a_mul A (a_mul A (at2 A m i j) (at2 A m k l)) (at2 A m p q)) (a_mul A (a_mul A (at2 A m' i j) (at2 A m' k l)) (at2 A m' p q))).
    { intros i j k l p q Hi Hj Hk Hl Hp Hq E. rewrite E. apply G; [apply G; now apply H|now apply H]. }
    repeat (apply (g_sub _ _ _ _ G) || apply (g_add _ _ _ _ G) || (apply K; [lia|lia|lia|lia|lia|lia|destruct (f 0), (f 1), (f 2), (g 0), (g 1), (g 2); reflexivity])).
  - set (N := S (S (S (S n)))) in *. set (N' := S (S (S n))) in *.
    change (p_det A dv iz N m) with (p_det_big A dv iz N m (fun ij => a_mul A (p_sign A (fst ij) (snd ij)) (p_det A dv iz N' (p_sub A N (fst ij) (snd ij) m)))).
    change (p_det A dv iz N m') with (p_det_big A dv iz N m' (fun ij => a_mul A (p_sign A (fst ij) (snd ij)) (p_det A dv iz N' (p_sub A N (fst ij) (snd ij) m')))).
    set (B := xorb (odd_many N f) (odd_many N g)).
    assert (Hfall : R B
      (fold_left (fun acc i => a_add A acc (a_mul A (at2 A m i 0) (a_mul A (p_sign A (fst (i, 0)) (snd (i, 0))) (p_det A dv iz N' (p_sub A N (fst (i, 0)) (snd (i, 0)) m))))) (seq 0 N) (a_zero A))
      (fold_left (fun acc i => a_add A acc (a_mul A (at2 A m' i 0) (a_mul A (p_sign A (fst (i, 0)) (snd (i, 0))) (p_det A dv iz N' (p_sub A N (fst (i, 0)) (snd (i, 0)) m'))))) (seq 0 N) (a_zero A))).
    { apply (g_sum B N (fun i => a_mul A (at2 A m i 0) (a_mul A (p_sign A i 0) (p_det A dv iz N' (p_sub A N i 0 m)))) (fun i => a_mul A (at2 A m' i 0) (a_mul A (p_sign A i 0) (p_det A dv iz N' (p_sub A N i 0 m'))))).
      intros i Hi.
      apply (g_mul' _ (xorb (f i) (g 0)) (xorb (odd_many N' (fun a => f (skip i a))) (odd_many N' (fun a => g (skip 0 a))))).
      - rewrite !odd_skip by (fold N; lia). fold N. unfold B. destruct (odd_many N f), (odd_many N g), (f i), (g 0); reflexivity.
      - apply H; lia.
      - apply (g_mul' _ false (xorb (odd_many N' (fun a => f (skip i a))) (odd_many N' (fun a => g (skip 0 a))))); [now rewrite xorb_false_l|apply sign_rel|].
        apply IH; [lia|]. intros a b Ha Hb. unfold p_sub. rewrite !at2_mat by (unfold N, N' in *; lia). apply H; unfold skip, N, N' in *; [destruct (Nat.ltb_spec a i); lia|destruct (Nat.ltb_spec b 0); lia]. }
    unfold p_det_big.
    match goal with |- R _ (match ret_fold ?g1 _ m with _ => _ end) (match ret_fold ?g2 _ m' with _ => _ end) =>
      pose proof (ret_fold_rel g1 g2 (fun _ => mrel N f g) (R B) (N - 0) 0 m m' H) as K end.
    assert (K2 : R B = R B) by reflexivity.
    match type of K with ?hyp -> _ => assert (HK : hyp) end.
    { intros i st st' Hi Hst. rewrite Nat.add_0_l in Hi. cbv beta.
      match goal with |- match ret_fold ?g1 _ st with _ => _ end =>
        match goal with |- context [ret_fold ?g2 _ st'] => pose proof (ret_fold_rel g1 g2 (fun _ => mrel N f g) (R B) (N - (i + 1)) (i + 1) st st' Hst) as K3 end end.
      match type of K3 with ?hyp -> _ => assert (HK3 : hyp) end.
      { intros j s1 s2 Hj Hs. assert (Hii : R (xorb (f i) (g i)) (at2 A s1 i i) (at2 A s2 i i)) by (apply Hs; lia). cbv beta.
        rewrite <- (g_iz _ _ _ _ G _ _ _ Hii). destruct (iz (at2 A s1 i i)) eqn:Z; [exact Hfall|].
        apply elim_rel with (e := xorb (xorb (f j) (g i)) (xorb (f i) (g i))); [exact Hs|lia| |destruct (f i), (g i), (f j); reflexivity].
        apply G; [apply Hs; lia|exact Hii|exact Z]. }
      specialize (K3 HK3). exact K3. }
    specialize (K HK). clear HK K2.
    match type of K with match ?x with _ => _ end => destruct x as [r|r] end; match type of K with match ?x with _ => _ end => destruct x as [r'|r'] end; try contradiction; [|exact K].
    unfold B. rewrite <- odd_xor. apply g_prod. intros k Hk. now apply K.
Qed.
Lemma cof_rel n f g m m' i j : 2 <= n -> i < n -> j < n -> mrel n f g m m' ->
  R (xorb (xorb (odd_many n f) (f i)) (xorb (odd_many n g) (g j))) (p_cof A dv iz n m i j) (p_cof A dv iz n m' i j).
Proof using G.
  intros Hn Hi Hj H. destruct n as [|[|[|n]]]; [lia|lia| |].
  - cbn [p_cof]. apply (g_mul' _ false (xorb (f (1 - i)) (g (1 - j)))); [|apply sign_rel|apply H; lia].
    cbn [odd_many]. destruct i as [|[|i]]; try lia; destruct j as [|[|j]]; try lia; cbn [Nat.sub]; destruct (f 0), (f 1), (g 0), (g 1); reflexivity.
  - set (N := S (S (S n))). set (N' := S (S n)).
    change (R (xorb (xorb (odd_many N f) (f i)) (xorb (odd_many N g) (g j))) (a_mul A (p_sign A i j) (p_det A dv iz N' (p_sub A N i j m))) (a_mul A (p_sign A i j) (p_det A dv iz N' (p_sub A N i j m')))).
    apply (g_mul' _ false (xorb (odd_many N' (fun a => f (skip i a))) (odd_many N' (fun a => g (skip j a))))); [|apply sign_rel|].
    + rewrite !odd_skip by assumption. now rewrite xorb_false_l.
    + apply det_rel; [unfold N'; lia|]. intros a b Ha Hb. unfold p_sub. rewrite !at2_mat by (unfold N, N' in *; lia).
      apply H; unfold skip, N, N' in *; [destruct (Nat.ltb_spec a i); lia|destruct (Nat.ltb_spec b j); lia].
Qed.
Lemma ms_rel n f g m m' b i1 j1 i2 j2 i3 j3 i4 j4 : mrel n f g m m' -> i1 < n -> j1 < n -> i2 < n -> j2 < n -> i3 < n -> j3 < n -> i4 < n -> j4 < n ->
  b = xorb (xorb (f i1) (g j1)) (xorb (f i2) (g j2)) -> b = xorb (xorb (f i3) (g j3)) (xorb (f i4) (g j4)) ->
  R b (p_ms A m i1 j1 i2 j2 i3 j3 i4 j4) (p_ms A m' i1 j1 i2 j2 i3 j3 i4 j4).
Proof using G.
  intros H H1 H2 H3 H4 H5 H6 H7 H8 E1 E2. unfold p_ms. apply (g_sub _ _ _ _ G).
  - apply (g_mul' _ _ _ _ _ _ _ E1); now apply H.
  - apply (g_mul' _ _ _ _ _ _ _ E2); now apply H.
Qed.
Lemma padj_rel n f g m m' i j : 1 <= n <= 3 -> i < n -> j < n -> mrel n f g m m' ->
  R (xorb (xorb (odd_many n f) (f j)) (xorb (odd_many n g) (g i))) (padj A n m i j) (padj A n m' i j).
Proof using G.
  intros Hn Hi Hj H. destruct n as [|[|[|[|n]]]]; try lia; cbn [padj odd_many].
  - assert (i = 0) by lia. assert (j = 0) by lia. subst. rewrite !xorb_false_l, !xorb_nilpotent. apply G.
  - destruct i as [|[|i]]; try lia; destruct j as [|[|j]]; try lia; unfold at2; cbn [nth]; try apply (g_neg _ _ _ _ G);
      match goal with |- R ?b (nth ?q (nth ?p m _) _) _ => replace b with (xorb (f p) (g q)) by (destruct (f 0), (f 1), (g 0), (g 1); reflexivity) end; apply H; lia.
  - destruct i as [|[|[|i]]]; try lia; destruct j as [|[|[|j]]]; try lia; unfold at2; cbn [nth]; apply (ms_rel 3 f g); try exact H; try lia; destruct (f 0), (f 1), (f 2), (g 0), (g 1), (g 2); reflexivity.
Qed.
Definition gr (f g : nat -> bool) (k a : nat) : bool := if a <? k then g a else f a.
Definition irel n f g k (mi mi' : list (list T) * list (list T)) : Prop :=
  mrel n (gr f g k) g (fst mi) (fst mi') /\ mrel n (gr f g k) f (snd mi) (snd mi').
Lemma inv_rel n f g m m' : 1 <= n -> mrel n f g m m' ->
  match p_inverse A dv iz n m, p_inverse A dv iz n m' with
  | Some y, Some y' => mrel n g f y y'
  | None, None => True
  | _, _ => False
  end.
Proof using G.
  intros Hn H. destruct (Nat.le_gt_cases n 3) as [L|L].
  - pose proof (g_iz _ _ _ _ G _ _ _ (det_rel n f g m m' Hn H)) as Z.
    destruct (p_inverse A dv iz n m) as [y|] eqn:E1, (p_inverse A dv iz n m') as [y'|] eqn:E2.
    + intros a b Ha Hb. rewrite (s_some A dv iz n m y a b), (s_some A dv iz n m' y' a b) by (auto; lia).
      apply (g_div' _ (xorb (xorb (odd_many n f) (f b)) (xorb (odd_many n g) (g a))) (xorb (odd_many n f) (odd_many n g))).
      * destruct (odd_many n f), (odd_many n g), (f b), (g a); reflexivity.
      * apply padj_rel; auto; lia.
      * now apply det_rel.
      * destruct (iz (p_det A dv iz n m)) eqn:E; [|reflexivity]. apply s_none_iff in E; [congruence|lia].
    + apply s_none_iff in E2; [|lia]. rewrite <- Z in E2. apply s_none_iff in E2; [congruence|lia].
    + apply s_none_iff in E1; [|lia]. rewrite Z in E1. apply s_none_iff in E1; [congruence|lia].
    + exact I.
  - assert (EB : forall x, p_inverse A dv iz n x = p_inv_big A dv iz n x) by (intros x; destruct n as [|[|[|[|n]]]]; try lia; reflexivity).
    rewrite !EB. unfold p_inv_big.
    pose proof (ret_fold_rel (p_inv_step A dv iz n) (p_inv_step A dv iz n) (irel n f g) (fun _ _ => True) (n - 0) 0 (m, m_id A n) (m', m_id A n)) as K.
    match type of K with ?h -> _ => assert (H0 : h) end.
    { split; cbn [fst snd]; [exact H|]. intros a b Ha Hb. unfold gr. cbn [Nat.ltb Nat.leb]. unfold m_id. rewrite !at2_mat by assumption.
      destruct (Nat.eqb_spec a b) as [->|]; [|apply G]. unfold gr. destruct (Nat.ltb_spec b 0); [lia|]. rewrite xorb_nilpotent. apply G. }
    specialize (K H0). match type of K with ?h -> _ => assert (H1 : h) end.
    { intros i st st' Hi [Hm Hx]. unfold p_inv_step. assert (Hg : gr f g i i = f i) by (unfold gr; destruct (Nat.ltb_spec i i); [lia|reflexivity]).
      assert (Hii : R (xorb (f i) (g i)) (at2 A (fst st) i i) (at2 A (fst st') i i)) by (rewrite <- Hg at 1; apply Hm; lia).
      rewrite <- (g_iz _ _ _ _ G _ _ _ Hii). destruct (iz (at2 A (fst st) i i)) eqn:Z; [exact I|]. cbv zeta.
      assert (Hr : R (xorb (f i) (g i)) (dv (a_one A) (at2 A (fst st) i i)) (dv (a_one A) (at2 A (fst st') i i))).
      { apply (g_div' _ false (xorb (f i) (g i))); [now rewrite xorb_false_l|apply G|exact Hii|exact Z]. }
      revert Hr. generalize (dv (a_one A) (at2 A (fst st) i i)) (dv (a_one A) (at2 A (fst st') i i)). intros r r' Hr.
      assert (Hg1 : gr f g (i + 1) i = g i) by (unfold gr; destruct (Nat.ltb_spec i (i + 1)); [reflexivity|lia]).
      assert (Hgo : forall a, a <> i -> gr f g (i + 1) a = gr f g i a) by (intros a Na; unfold gr; destruct (Nat.ltb_spec a (i + 1)), (Nat.ltb_spec a i); reflexivity || lia).
      assert (Sc : forall h x x', mrel n (gr f g i) h x x' -> mrel n (gr f g (i + 1)) h (p_scale A n i r x) (p_scale A n i r' x')).
      { intros h x x' Hs a b Ha Hb. unfold p_scale. rewrite !at2_mat by assumption. unfold f_scale. destruct (Nat.eqb_spec a i) as [->|Na].
        - apply (g_mul' _ (xorb (gr f g i i) (h b)) (xorb (f i) (g i))); [|now apply Hs|exact Hr]. rewrite Hg1, Hg. destruct (f i), (g i), (h b); reflexivity.
        - rewrite Hgo by exact Na. now apply Hs. }
      assert (Fo : forall l mi mi', (forall j, In j l -> j < n) -> irel n f g (i + 1) mi mi' -> irel n f g (i + 1)
        (fold_left (fun mi j => if i =? j then mi else let a := at2 A (fst mi) j i in (p_elim A n i j a (fst mi), p_elim A n i j a (snd mi))) l mi)
        (fold_left (fun mi j => if i =? j then mi else let a := at2 A (fst mi) j i in (p_elim A n i j a (fst mi), p_elim A n i j a (snd mi))) l mi')).
      { induction l as [|j l IH]; intros mi mi' Hl Hmi; cbn [fold_left]; [exact Hmi|]. apply IH; [intros; apply Hl; now right|].
        destruct (Nat.eqb_spec i j); [exact Hmi|]. destruct Hmi as [Q1 Q2]. assert (Hj : j < n) by (apply Hl; now left).
        assert (Qa : R (xorb (gr f g (i + 1) j) (g i)) (at2 A (fst mi) j i) (at2 A (fst mi') j i)) by (apply Q1; lia).
        split; cbn [fst snd]; (eapply elim_rel; [eassumption|lia|exact Qa|rewrite Hg1; destruct (gr f g (i + 1) j), (g i); reflexivity]). }
      apply Fo; [intros j Hj; apply in_seq in Hj; lia|]. split; cbn [fst snd]; now apply Sc. }
    specialize (K H1). destruct (ret_fold _ _ (m, _)) as [mi|], (ret_fold _ _ (m', _)) as [mi'|]; try contradiction; [|exact I].
    destruct K as [_ K]. intros a b Ha Hb. specialize (K a b Ha Hb). revert K. unfold gr. destruct (Nat.ltb_spec a (0 + (n - 0))); [exact (fun x => x)|lia].
Qed.
End Graded.

(** ** f32 and f64 *)
Lemma p_inverse_rect {T} (A : arith T) dv iz n m x : 1 <= n -> rect n n m -> p_inverse A dv iz n m = Some x -> rect n n x.
Proof.
  intros Hn R Hx. destruct n as [|[|[|[|n]]]]; [lia| | | |]; cbn [p_inverse] in Hx; cbv zeta in Hx; [| | |now apply p_inv_rect in Hx];
    destruct (iz _); try discriminate; injection Hx as <-; (split; [reflexivity|repeat constructor]).
Qed.
Section Float.
Context {t : float_type}.
Local Notation FL := (float t).
Local Notation AR := (float_arith t).
Definition frel (b : bool) (x y : FL) : Prop := same y (flip b x).
Lemma aux_neg s m e l : binary_round_aux (fprec t) (femax t) mode_NE (negb s) m e l =
  SpecFloat.SFopp (binary_round_aux (fprec t) (femax t) mode_NE s m e l).
Proof.
  unfold binary_round_aux. destruct (SpecFloat.shr_fexp _ _ m e l) as [mrs' e']. cbn [choice_mode].
  destruct (SpecFloat.shr_fexp _ _ _ e' _) as [mrs'' e'']. destruct (SpecFloat.shr_m mrs'') as [|p|p]; [reflexivity| |reflexivity].
  unfold binary_fit_aux. destruct (Z.leb _ _); [reflexivity|]. reflexivity.
Qed.
Lemma sf_opp (x : FL) : B2SF (Bopp x) = SpecFloat.SFopp (B2SF x).
Proof. destruct x; reflexivity. Qed.
Lemma round_neg s p e : binary_round (fprec t) (femax t) mode_NE (negb s) p e = SpecFloat.SFopp (binary_round (fprec t) (femax t) mode_NE s p e).
Proof. unfold binary_round. destruct (shl_align_fexp _ _ p e). apply aux_neg. Qed.
Lemma norm_neg z e : z <> 0%Z -> binary_normalize (fprec t) (femax t) _ _ mode_NE (- z) e false = Bopp (binary_normalize (fprec t) (femax t) _ _ mode_NE z e false).
Proof.
  intros N. apply B2SF_inj. rewrite sf_opp. destruct z as [|p|p]; [now elim N| |]; cbn [Z.opp binary_normalize]; rewrite !B2SF_SF2B.
  - exact (round_neg false p e).
  - exact (round_neg true p e).
Qed.
Lemma same_refl (x : FL) : same x x. Proof. now left. Qed.
Lemma add_neg (x y : FL) : same (Bplus mode_NE (Bopp x) (Bopp y)) (Bopp (Bplus mode_NE x y)).
Proof.
  destruct x as [sx|sx| |sx mx ex hx], y as [sy|sy| |sy my ey hy]; try (now left);
    try (destruct sx, sy; (now left) || (right; do 2 eexists; split; reflexivity)).
  cbn [Bplus Bopp]. unfold Fplus_naive. set (a := fst _). set (b := fst _).
  replace (cond_Zopp (negb sx) (Z.pos a) + cond_Zopp (negb sy) (Z.pos b))%Z with (- (cond_Zopp sx (Z.pos a) + cond_Zopp sy (Z.pos b)))%Z by (destruct sx, sy; cbn [cond_Zopp negb]; lia).
  destruct (Z.eq_dec (cond_Zopp sx (Z.pos a) + cond_Zopp sy (Z.pos b)) 0) as [E|N].
  - rewrite E. right. do 2 eexists. split; reflexivity.
  - left. now apply norm_neg.
Qed.
Lemma mul_neg_l (x y : FL) : Bmult mode_NE (Bopp x) y = Bopp (Bmult mode_NE x y).
Proof.
  apply B2SF_inj. rewrite sf_opp.
  destruct x as [sx|sx| |sx mx ex hx], y as [sy|sy| |sy my ey hy]; try reflexivity; try (cbn; now rewrite negb_xorb_l).
  cbn [Bmult Bopp]. rewrite !B2SF_SF2B. rewrite <- negb_xorb_l. apply aux_neg.
Qed.
Lemma mul_comm_f (x y : FL) : Bmult mode_NE x y = Bmult mode_NE y x.
Proof.
  apply B2SF_inj. destruct x as [sx|sx| |sx mx ex hx], y as [sy|sy| |sy my ey hy]; try reflexivity; try (cbn; now rewrite xorb_comm).
  cbn [Bmult]. rewrite !B2SF_SF2B. now rewrite xorb_comm, Pos.mul_comm, Z.add_comm.
Qed.
Lemma add_comm_f (x y : FL) : Bplus mode_NE x y = Bplus mode_NE y x.
Proof.
  destruct x as [sx|sx| |sx mx ex hx], y as [sy|sy| |sy my ey hy]; try reflexivity; try (destruct sx, sy; reflexivity).
  cbn [Bplus]. unfold Fplus_naive. now rewrite Z.min_comm, Z.add_comm.
Qed.
Lemma mul_neg_r (x y : FL) : Bmult mode_NE x (Bopp y) = Bopp (Bmult mode_NE x y).
Proof. now rewrite mul_comm_f, mul_neg_l, mul_comm_f. Qed.
Lemma div_neg_l (x y : FL) : Bdiv mode_NE (Bopp x) y = Bopp (Bdiv mode_NE x y).
Proof.
  apply B2SF_inj. rewrite sf_opp.
  destruct x as [sx|sx| |sx mx ex hx], y as [sy|sy| |sy my ey hy]; try reflexivity; try (cbn; now rewrite negb_xorb_l).
  cbn [Bdiv Bopp]. rewrite !B2SF_SF2B. destruct (SpecFloat.SFdiv_core_binary _ _ _ _ _ _) as [[mz ez] lz]. rewrite <- negb_xorb_l. apply aux_neg.
Qed.
Lemma div_neg_r (x y : FL) : Bdiv mode_NE x (Bopp y) = Bopp (Bdiv mode_NE x y).
Proof.
  apply B2SF_inj. rewrite sf_opp.
  destruct x as [sx|sx| |sx mx ex hx], y as [sy|sy| |sy my ey hy]; try reflexivity; try (cbn; now rewrite negb_xorb_r).
  cbn [Bdiv Bopp]. rewrite !B2SF_SF2B. destruct (SpecFloat.SFdiv_core_binary _ _ _ _ _ _) as [[mz ez] lz]. rewrite <- negb_xorb_r. apply aux_neg.
Qed.
Lemma sub_add (x y : FL) : Bminus mode_NE x y = Bplus mode_NE x (Bopp y).
Proof. destruct x as [sx|sx| |sx mx ex hx], y as [sy|sy| |sy my ey hy]; reflexivity. Qed.
Lemma opp_opp (x : FL) : Bopp (Bopp x) = x. Proof. apply Bopp_involutive. Qed.
(** [same] is respected by everything but denominators. *)
Lemma same_sym (x y : FL) : same x y -> same y x.
Proof. intros [->|(a & b & -> & ->)]; [now left|right; eauto]. Qed.
Lemma same_trans (x y z : FL) : same x y -> same y z -> same x z.
Proof. intros [->|(a & b & -> & ->)]; [exact (fun H => H)|]. intros [<-|(a' & b' & H & ->)]; right; eauto. Qed.
Lemma same_opp (x y : FL) : same x y -> same (Bopp x) (Bopp y).
Proof. intros [->|(a & b & -> & ->)]; [now left|right; do 2 eexists; split; reflexivity]. Qed.
Lemma same_add_l (x y z : FL) : same x y -> same (Bplus mode_NE x z) (Bplus mode_NE y z).
Proof.
  intros [->|(a & b & -> & ->)]; [now left|]. destruct z as [s|s| |s m e h]; try (now left). destruct a, b, s; (now left) || (right; do 2 eexists; split; reflexivity).
Qed.
Lemma same_add (x y x' y' : FL) : same x y -> same x' y' -> same (Bplus mode_NE x x') (Bplus mode_NE y y').
Proof. intros H H'. apply same_trans with (Bplus mode_NE y x'); [now apply same_add_l|]. rewrite (add_comm_f y x'), (add_comm_f y y'). now apply same_add_l. Qed.
Lemma same_mul_l (x y z : FL) : same x y -> same (Bmult mode_NE x z) (Bmult mode_NE y z).
Proof. intros [->|(a & b & -> & ->)]; [now left|]. destruct z as [s|s| |s m e h]; (now left) || (right; do 2 eexists; split; reflexivity). Qed.
Lemma same_mul (x y x' y' : FL) : same x y -> same x' y' -> same (Bmult mode_NE x x') (Bmult mode_NE y y').
Proof. intros H H'. apply same_trans with (Bmult mode_NE y x'); [now apply same_mul_l|]. rewrite (mul_comm_f y x'), (mul_comm_f y y'). now apply same_mul_l. Qed.
Lemma same_div_l (x y z : FL) : same x y -> same (Bdiv mode_NE x z) (Bdiv mode_NE y z).
Proof. intros [->|(a & b & -> & ->)]; [now left|]. destruct z as [s|s| |s m e h]; (now left) || (right; do 2 eexists; split; reflexivity). Qed.
Lemma same_nz (x y : FL) : same x y -> fl_is_zero (fprec t) (femax t) x = false -> x = y.
Proof. intros [->|(a & b & -> & ->)]; [reflexivity|]. destruct a; discriminate. Qed.
Lemma iz_same (x y : FL) : same x y -> fl_is_zero (fprec t) (femax t) x = fl_is_zero (fprec t) (femax t) y.
Proof. intros [->|(a & b & -> & ->)]; [reflexivity|]. destruct a, b; reflexivity. Qed.
Lemma iz_opp (x : FL) : fl_is_zero (fprec t) (femax t) (Bopp x) = fl_is_zero (fprec t) (femax t) x.
Proof. destruct x as [s|s| |s m e h]; try reflexivity; destruct s; reflexivity. Qed.
Lemma iz_flip b (x : FL) : fl_is_zero (fprec t) (femax t) (flip b x) = fl_is_zero (fprec t) (femax t) x.
Proof. destruct b; [apply iz_opp|reflexivity]. Qed.
Lemma flip_xor b b' (x : FL) : flip b (flip b' x) = flip (xorb b b') x.
Proof. destruct b, b'; try reflexivity. apply opp_opp. Qed.
Lemma flip_mul b b' (x y : FL) : Bmult mode_NE (flip b x) (flip b' y) = flip (xorb b b') (Bmult mode_NE x y).
Proof. destruct b, b'; cbn [flip xorb]; rewrite ?mul_neg_l, ?mul_neg_r, ?opp_opp; reflexivity. Qed.
Lemma flip_div b b' (x y : FL) : Bdiv mode_NE (flip b x) (flip b' y) = flip (xorb b b') (Bdiv mode_NE x y).
Proof. destruct b, b'; cbn [flip xorb]; rewrite ?div_neg_l, ?div_neg_r, ?opp_opp; reflexivity. Qed.
Lemma flip_add b (x y : FL) : same (Bplus mode_NE (flip b x) (flip b y)) (flip b (Bplus mode_NE x y)).
Proof. destruct b; [apply add_neg|now left]. Qed.
Lemma flip_opp b (x : FL) : flip b (Bopp x) = Bopp (flip b x).
Proof. now destruct b. Qed.
Lemma f_add b x y x' y' : frel b x y -> frel b x' y' -> frel b (Bplus mode_NE x x') (Bplus mode_NE y y').
Proof. unfold frel. intros H1 H2. eapply same_trans; [apply (same_add _ _ _ _ H1 H2)|apply flip_add]. Qed.
Lemma f_neg b x y : frel b x y -> frel b (Bopp x) (Bopp y).
Proof. unfold frel. intros H. rewrite flip_opp. now apply same_opp. Qed.
Lemma float_graded : graded AR (Bdiv mode_NE) (fl_is_zero (fprec t) (femax t)) frel.
Proof.
  split.
  - intros []; [right; do 2 eexists; split; reflexivity|now left].
  - now left.
  - exact f_add.
  - intros b x y x' y' H1 H2. cbn [a_sub float_arith fl_arith]. rewrite !sub_add. apply f_add; [exact H1|now apply f_neg].
  - intros b b' x y x' y' H1 H2. unfold frel. cbn [a_mul float_arith fl_arith]. rewrite <- flip_mul. now apply same_mul.
  - exact f_neg.
  - intros b b' x y x' y' H1 H2 Z. unfold frel in *. rewrite <- flip_div. assert (E : flip b' x' = y').
    { apply same_nz; [now apply same_sym|]. now rewrite iz_flip. }
    rewrite E. now apply same_div_l.
  - intros b x y H. rewrite (iz_same _ _ H). now rewrite iz_flip.
Qed.
End Float.
