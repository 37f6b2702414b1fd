(** * Algebra.v - the algebra of the textbook operations of SpecAlg.v over a
    (not necessarily commutative) semiring, and exponentiation by squaring. *)
From Coq Require Import List Arith Bool Lia.
From Verif Require Import Rust Elem SpecCommon SpecAlg MatProofs Sim.
Import ListNotations.

Section Sums.
Context {T : Type}.
Variable A : arith T.
Notation "0" := (a_zero A).
Notation "1" := (a_one A).
Notation "x + y" := (a_add A x y).
Notation "x * y" := (a_mul A x y).
Hypothesis L : semiring A.

Lemma add_0_r x : x + 0 = x.
Proof. rewrite (sr_add_comm _ L). apply L. Qed.
Lemma add_swap x y z w : (x + y) + (z + w) = (x + z) + (y + w).
Proof.
  rewrite <- !(sr_add_assoc _ L). f_equal. rewrite !(sr_add_assoc _ L). f_equal. apply L.
Qed.
Lemma sum_0 f : sum A 0%nat f = 0.
Proof. reflexivity. Qed.
Lemma sum_S n f : sum A (S n) f = sum A n f + f n.
Proof. unfold sum. rewrite seq_S, fold_left_app. reflexivity. Qed.
Lemma sum_zero n : sum A n (fun _ => 0) = 0.
Proof. induction n; [reflexivity|]. rewrite sum_S, IHn. apply L. Qed.
Lemma sum_add n f g : sum A n (fun k => f k + g k) = sum A n f + sum A n g.
Proof.
  induction n; [symmetry; apply L|]. rewrite !sum_S, IHn. apply add_swap.
Qed.
Lemma sum_mul_l n x f : sum A n (fun k => x * f k) = x * sum A n f.
Proof. induction n; [symmetry; apply L|]. rewrite !sum_S, IHn. symmetry. apply L. Qed.
Lemma sum_mul_r n x f : sum A n (fun k => f k * x) = sum A n f * x.
Proof. induction n; [symmetry; apply L|]. rewrite !sum_S, IHn. symmetry. apply L. Qed.
Lemma sum_swap n p f : sum A n (fun i => sum A p (fun j => f i j)) = sum A p (fun j => sum A n (fun i => f i j)).
Proof.
  induction n; [symmetry; apply sum_zero|]. rewrite sum_S, IHn, <- sum_add. apply sum_ext. intros. now rewrite sum_S.
Qed.
Lemma sum_delta n i x : (i < n)%nat -> sum A n (fun k => if Nat.eqb i k then x k else 0) = x i.
Proof.
  intros Hi. induction n; [lia|]. rewrite sum_S. destruct (Nat.eq_dec i n) as [->|Hne].
  - rewrite (sum_ext A n _ (fun _ => 0)).
    + rewrite sum_zero, Nat.eqb_refl. apply L.
    + intros k Hk. destruct (Nat.eqb_spec n k); [lia|reflexivity].
  - destruct (Nat.eqb_spec i n); [contradiction|]. rewrite add_0_r. apply IHn. lia.
Qed.

(** ** Matrix product *)
Lemma m_mul_assoc l n p r a b c :
  m_mul A l p r (m_mul A l n p a b) c = m_mul A l n r a (m_mul A n p r b c).
Proof.
  apply mat_ext'. intros i j Hi Hj.
  rewrite (sum_ext A p _ (fun k => sum A n (fun q => at2 A a i q * (at2 A b q k * at2 A c k j)))).
  2:{ intros k Hk. unfold m_mul. rewrite at2_mat by assumption. rewrite <- sum_mul_r. apply sum_ext. intros. symmetry. apply L. }
  rewrite sum_swap. apply sum_ext. intros q Hq. rewrite sum_mul_l. f_equal. unfold m_mul. now rewrite at2_mat.
Qed.
Lemma m_mul_add_r l n r a b c : m_mul A l n r a (m_add A n r b c) = m_add A l r (m_mul A l n r a b) (m_mul A l n r a c).
Proof.
  apply mat_ext'. intros i j Hi Hj. unfold m_mul. rewrite !at2_mat by assumption. rewrite <- sum_add. apply sum_ext. intros k Hk.
  unfold m_add. rewrite at2_mat by assumption. apply L.
Qed.
Lemma m_mul_add_l l n r a b c : m_mul A l n r (m_add A l n a b) c = m_add A l r (m_mul A l n r a c) (m_mul A l n r b c).
Proof.
  apply mat_ext'. intros i j Hi Hj. unfold m_mul. rewrite !at2_mat by assumption. rewrite <- sum_add. apply sum_ext. intros k Hk.
  unfold m_add. rewrite at2_mat by assumption. apply L.
Qed.
Lemma m_mul_id_l n r a : rect n r a -> m_mul A n n r (m_id A n) a = a.
Proof.
  intros R. rewrite <- (mat_at2 A n r a R) at 2. apply mat_ext'. intros i j Hi Hj.
  rewrite (sum_ext A n _ (fun k => if Nat.eqb i k then at2 A a k j else 0)).
  - now apply (sum_delta n i (fun k => at2 A a k j)).
  - intros k Hk. unfold m_id. rewrite at2_mat by assumption. destruct (Nat.eqb i k); apply L.
Qed.
Lemma m_mul_id_r l n a : rect l n a -> m_mul A l n n a (m_id A n) = a.
Proof.
  intros R. rewrite <- (mat_at2 A l n a R) at 2. apply mat_ext'. intros i j Hi Hj.
  rewrite (sum_ext A n _ (fun k => if Nat.eqb j k then at2 A a i k else 0)).
  - now apply (sum_delta n j (fun k => at2 A a i k)).
  - intros k Hk. unfold m_id. rewrite at2_mat by assumption. rewrite Nat.eqb_sym. destruct (Nat.eqb j k); apply L.
Qed.
Lemma m_mul_zero_l l n r b : m_mul A l n r (m_zero A l n) b = m_zero A l r.
Proof.
  apply mat_ext'. intros i j Hi Hj. rewrite (sum_ext A n _ (fun _ => 0)); [apply sum_zero|].
  intros k Hk. unfold m_zero. rewrite at2_mat by assumption. apply L.
Qed.
Lemma m_mul_zero_r l n r a : m_mul A l n r a (m_zero A n r) = m_zero A l r.
Proof.
  apply mat_ext'. intros i j Hi Hj. rewrite (sum_ext A n _ (fun _ => 0)); [apply sum_zero|].
  intros k Hk. unfold m_zero. rewrite at2_mat by assumption. apply L.
Qed.
Lemma m_mul_scale_r l n r a b x : m_mul A l n r a (m_scale A n r b x) = m_scale A l r (m_mul A l n r a b) x.
Proof.
  apply mat_ext'. intros i j Hi Hj. unfold m_mul. rewrite !at2_mat by assumption. rewrite <- sum_mul_r. apply sum_ext. intros k Hk.
  unfold m_scale. rewrite at2_mat by assumption. apply L.
Qed.
Lemma m_mul_scale_l l n r a b x : mul_comm A -> m_mul A l n r (m_scale A l n a x) b = m_scale A l r (m_mul A l n r a b) x.
Proof.
  intros C. apply mat_ext'. intros i j Hi Hj. unfold m_mul. rewrite !at2_mat by assumption. rewrite <- sum_mul_r. apply sum_ext. intros k Hk.
  unfold m_scale. rewrite at2_mat by assumption. rewrite <- !(sr_mul_assoc _ L). f_equal. apply C.
Qed.
Lemma m_mulv_assoc l n p a b v : m_mulv A l p (m_mul A l n p a b) v = m_mulv A l n a (m_mulv A n p b v).
Proof.
  apply vec_ext. intros i Hi.
  rewrite (sum_ext A p _ (fun k => sum A n (fun q => at2 A a i q * (at2 A b q k * at1 A v k)))).
  2:{ intros k Hk. unfold m_mul. rewrite at2_mat by assumption. rewrite <- sum_mul_r. apply sum_ext. intros. symmetry. apply L. }
  rewrite sum_swap. apply sum_ext. intros q Hq. rewrite sum_mul_l. f_equal. unfold m_mulv. now rewrite at1_vec.
Qed.
Lemma m_mulv_id n v : length v = n -> m_mulv A n n (m_id A n) v = v.
Proof.
  intros Lv. rewrite <- (vec_at1 A n v Lv) at 2. apply vec_ext. intros i Hi.
  rewrite (sum_ext A n _ (fun k => if Nat.eqb i k then at1 A v k else 0)).
  - now apply (sum_delta n i (fun k => at1 A v k)).
  - intros k Hk. unfold m_id. rewrite at2_mat by assumption. destruct (Nat.eqb i k); apply L.
Qed.

(** ** Addition, transposition *)
Lemma m_add_comm row col a b : m_add A row col a b = m_add A row col b a.
Proof. apply mat_ext'. intros. apply L. Qed.
Lemma m_add_assoc row col a b c : m_add A row col a (m_add A row col b c) = m_add A row col (m_add A row col a b) c.
Proof. apply mat_ext'. intros. unfold m_add. rewrite !at2_mat by assumption. apply L. Qed.
Lemma m_add_zero_l row col a : rect row col a -> m_add A row col (m_zero A row col) a = a.
Proof.
  intros R. rewrite <- (mat_at2 A row col a R) at 2. apply mat_ext'. intros. unfold m_zero. rewrite at2_mat by assumption. apply L.
Qed.
Lemma m_tr_add row col a b : m_tr A row col (m_add A row col a b) = m_add A col row (m_tr A row col a) (m_tr A row col b).
Proof. apply mat_ext'. intros. unfold m_add, m_tr. now rewrite !at2_mat by assumption. Qed.
Lemma m_tr_mul l n r a b : mul_comm A -> m_tr A l r (m_mul A l n r a b) = m_mul A r n l (m_tr A n r b) (m_tr A l n a).
Proof.
  intros C. apply mat_ext'. intros i j Hi Hj. unfold m_mul. rewrite at2_mat by assumption. apply sum_ext. intros k Hk.
  unfold m_tr. rewrite !at2_mat by assumption. apply C.
Qed.
End Sums.
Lemma m_tr_tr {T} (A : arith T) row col a : rect row col a -> m_tr A col row (m_tr A row col a) = a.
Proof.
  intros R. rewrite <- (mat_at2 A row col a R) at 2. apply mat_ext'. intros. unfold m_tr. now rewrite at2_mat by assumption.
Qed.

(** ** Exponentiation by squaring *)
Section Pow.
Context {X : Type}.
Variable mul : X -> X -> X.
Variable one : X.
Variable P : X -> Prop.
Hypothesis Hassoc : forall x y z, mul (mul x y) z = mul x (mul y z).
Hypothesis Hone_l : forall x, P x -> mul one x = x.
Hypothesis Hone_r : forall x, P x -> mul x one = x.
Hypothesis HPone : P one.
Hypothesis HPmul : forall x y, P x -> P y -> P (mul x y).
Fixpoint npow (x : X) (e : nat) : X := match e with 0 => one | S e' => mul x (npow x e') end.
Lemma npow_P x e : P x -> P (npow x e).
Proof. intros. induction e; cbn; auto. Qed.
Lemma npow_add x e f : P x -> npow x (e + f) = mul (npow x e) (npow x f).
Proof. intros HP. induction e; cbn; [symmetry; apply Hone_l; now apply npow_P|]. now rewrite IHe, Hassoc. Qed.
Lemma npow_comm x e : P x -> mul (npow x e) x = mul x (npow x e).
Proof.
  intros HP. change (mul x (npow x e)) with (npow x (S e)). replace (S e) with (e + 1) by lia. rewrite npow_add by exact HP.
  cbn. now rewrite Hone_r.
Qed.
Lemma npow_sq x e : P x -> npow (mul x x) e = npow x (2 * e).
Proof.
  intros HP. induction e; [reflexivity|]. replace (2 * S e) with (S (S (2 * e))) by lia. cbn [npow]. now rewrite IHe, Hassoc.
Qed.
Lemma npow_mul x e f : P x -> npow x (e * f) = npow (npow x e) f.
Proof.
  intros HP. induction f; [now rewrite Nat.mul_0_r|]. replace (e * S f) with (e + e * f) by lia. rewrite npow_add by exact HP. cbn. now rewrite IHf.
Qed.
Lemma even_div2 e : Nat.even e = true -> e = 2 * Nat.div2 e.
Proof. intros E. apply Nat.even_spec in E. destruct E as (k & ->). now rewrite Nat.div2_double. Qed.
Lemma odd_div2 e : Nat.odd e = true -> e = S (2 * Nat.div2 e).
Proof. intros E. apply Nat.odd_spec in E. destruct E as (k & ->). rewrite Nat.add_1_r. now rewrite Nat.div2_succ_double. Qed.
Lemma ppow_loop1_spec fuel b e : P b -> 1 <= e -> e <= fuel ->
  let (b', e') := ppow_loop1 mul fuel b e in P b' /\ Nat.odd e' = true /\ npow b' e' = npow b e.
Proof.
  revert b e. induction fuel as [|fuel IH]; intros b e HP H1 H2; [lia|]. cbn.
  destruct (Nat.even e) eqn:E.
  - pose proof (div2_pos e H1 E). pose proof (div2_lt e H1).
    specialize (IH (mul b b) (Nat.div2 e) (HPmul _ _ HP HP)). destruct (ppow_loop1 mul fuel (mul b b) (Nat.div2 e)) as [b' e'].
    destruct IH as (I1 & I2 & I3); [lia|lia|]. split; [exact I1|]. split; [exact I2|]. rewrite I3, npow_sq by exact HP.
    f_equal. symmetry. now apply even_div2.
  - split; [exact HP|]. split; [|reflexivity]. unfold Nat.odd. now rewrite E.
Qed.
Lemma ppow_loop2_spec fuel b acc e : P b -> P acc -> 1 <= e -> e <= fuel ->
  ppow_loop2 mul fuel b acc e = mul acc (npow (mul b b) (Nat.div2 e)).
Proof.
  revert b acc e. induction fuel as [|fuel IH]; intros b acc e HP HA H1 H2; [lia|]. cbn.
  destruct (1 <? e) eqn:E.
  - apply Nat.ltb_lt in E. pose proof (div2_lt e H1).
    assert (1 <= Nat.div2 e) by (destruct e as [|[|e]]; cbn; lia).
    set (f := Nat.div2 e) in *. assert (HB := HPmul _ _ HP HP). set (b2 := mul b b) in *.
    destruct (Nat.odd f) eqn:O.
    + rewrite IH by (auto; lia). rewrite Hassoc. f_equal. rewrite npow_sq by exact HB.
      rewrite (odd_div2 f O) at 2. reflexivity.
    + rewrite IH by (auto; lia). f_equal. rewrite npow_sq by exact HB. f_equal. symmetry. apply even_div2.
      unfold Nat.odd in O. now destruct (Nat.even f).
  - apply Nat.ltb_ge in E. assert (e = 1) by lia. subst e. cbn. symmetry. now apply Hone_r.
Qed.
Lemma pnum_pow_spec b e : P b -> pnum_pow mul one b e = npow b e.
Proof.
  intros HP. unfold pnum_pow. destruct (Nat.eqb_spec e 0) as [->|Hne]; [reflexivity|].
  pose proof (ppow_loop1_spec e b e HP) as H1. destruct (ppow_loop1 mul e b e) as [b' e']. destruct H1 as (I1 & I2 & I3); [lia|lia|].
  rewrite <- I3. destruct (Nat.eqb_spec e' 1) as [->|Hne']; [cbn; symmetry; now apply Hone_r|].
  assert (1 <= e') by (destruct e'; [discriminate|lia]). rewrite ppow_loop2_spec by auto.
  rewrite npow_sq by exact I1. rewrite (odd_div2 e' I2) at 2. reflexivity.
Qed.
End Pow.

Section MPow.
Context {T : Type}.
Variable A : arith T.
Hypothesis L : semiring A.
Lemma m_pow_npow n a e : m_pow A n a e = npow (m_mul A n n n) (m_id A n) a e.
Proof. induction e; cbn; congruence. Qed.
Lemma pnum_pow_m n a e : rect n n a -> pnum_pow (m_mul A n n n) (m_id A n) a e = m_pow A n a e.
Proof.
  intros R. rewrite m_pow_npow. apply (pnum_pow_spec _ _ (rect n n)).
  - intros. now apply m_mul_assoc.
  - intros. now apply m_mul_id_r.
  - intros. apply mat_rect.
  - exact R.
Qed.
Lemma m_pow_rect n a e : rect n n (m_pow A n a e).
Proof. destruct e; apply mat_rect. Qed.
Lemma m_pow_add n a e f : rect n n a -> m_pow A n a (e + f) = m_mul A n n n (m_pow A n a e) (m_pow A n a f).
Proof.
  intros R. rewrite !m_pow_npow. apply (npow_add _ _ (rect n n)).
  - intros. now apply m_mul_assoc.
  - intros. now apply m_mul_id_l.
  - apply mat_rect.
  - intros. apply mat_rect.
  - exact R.
Qed.
Lemma m_pow_mul n a e f : rect n n a -> m_pow A n a (e * f) = m_pow A n (m_pow A n a e) f.
Proof.
  intros R. rewrite !m_pow_npow. apply (npow_mul _ _ (rect n n)).
  - intros. now apply m_mul_assoc.
  - intros. now apply m_mul_id_l.
  - apply mat_rect.
  - intros. apply mat_rect.
  - exact R.
Qed.
Lemma m_pow_1 n a : rect n n a -> m_pow A n a 1 = a.
Proof. intros R. cbn. now apply m_mul_id_r. Qed.
End MPow.
