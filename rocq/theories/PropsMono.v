(** * PropsMono.v - C95: what rounding leaves intact in f32 and f64: order. *)
From Coq Require Import List Arith Bool Lia ZArith Reals Lra.
From Flocq Require Import Core BinarySingleNaN.
From Verif Require Import Rust Iter Elem VectorM MatIterM MatrixM ArithM OpsM SpecCommon SpecAlg FloatM SpecNan SpecSign SpecMono.
From Verif Require Import Harness IterProofs OwnProofs VecProofs MatProofs Sim OpsSim OpsPure Algebra PropsAlg FloatErr PropsFloat PropsFloatErr NanProofs PropsNan SignProofs PropsSign MonoProofs.
Import ListNotations.

Section Bridge.
Context {t : float_type}.
Notation FL := (float t).
Notation AR := (float_arith t).
#[local] Instance fok : fmt_ok (fprec t) (femax t).
Proof. destruct t; constructor; cbn; lia. Qed.
Lemma l_add (x y x' y' : FL) : le zero_at x -> le zero_at y -> le x x' -> le y y' -> le zero_at (Bplus mode_NE x y) /\ le (Bplus mode_NE x y) (Bplus mode_NE x' y').
Proof. exact (add_mono x y x' y'). Qed.
Lemma l_mul (x y x' y' : FL) : le zero_at x -> le zero_at y -> is_finite x' = true -> is_finite y' = true -> le x x' -> le y y' ->
  le zero_at (Bmult mode_NE x y) /\ le (Bmult mode_NE x y) (Bmult mode_NE x' y').
Proof. exact (mul_mono x y x' y'). Qed.
Lemma l_sum n (f g : nat -> FL) : (forall k, k < n -> le zero_at (f k) /\ le (f k) (g k)) -> le zero_at (sum AR n f) /\ le (sum AR n f) (sum AR n g).
Proof. exact (sum_mono n f g). Qed.
Lemma l_sum_ge n (f : nat -> FL) i : i < n -> (forall k, k < n -> le zero_at (f k)) -> le (f i) (sum AR n f).
Proof. exact (sum_ge n f i). Qed.
Lemma l_refl (x : FL) : le zero_at x -> le x x.
Proof. exact (pos_refl x). Qed.
Lemma l_trans (x y z : FL) : le zero_at x -> le x y -> le y z -> le x z.
Proof. exact (le_trans x y z). Qed.
Lemma l_pos (x y : FL) : le zero_at x -> le x y -> le zero_at y.
Proof. exact (le_pos x y). Qed.
Lemma l_sqrt (x y : FL) : le zero_at x -> le x y -> le zero_at (Bsqrt mode_NE x) /\ le (Bsqrt mode_NE x) (Bsqrt mode_NE y).
Proof. exact (sqrt_mono x y). Qed.
Lemma sqr_abs (x : FL) : Bmult mode_NE (Babs x) (Babs x) = Bmult mode_NE x x.
Proof.
  destruct x as [s|s| |s m e H]; try (destruct s; reflexivity); [reflexivity|]. destruct s; [|reflexivity].
  change (Babs (B754_finite true m e H : FL)) with (Bopp (B754_finite true m e H : FL)). rewrite mul_neg_l. rewrite mul_neg_r. apply opp_opp.
Qed.
Lemma l_abs (x : FL) : is_finite x = true -> le zero_at (Babs x) /\ is_finite (Babs x) = true.
Proof. intros H. destruct (abs_pos x H) as (H1 & H2 & _). now split. Qed.
(** |x| <= sqrt (x * x), unless the square is too small. *)
Lemma l_root (x : FL) : is_finite x = true -> (bpow radix2 (1 - femax t / 2) <= Rabs (B2R x))%R -> le (Babs x) (Bsqrt mode_NE (Bmult mode_NE x x)).
Proof.
  intros F H. destruct (abs_pos x F) as (P & Fa & Ra). set (a := Babs x) in *. rewrite <- sqr_abs. fold a.
  destruct (mul_v a a P P Fa Fa) as [PM VM]. destruct (sqrt_v (Bmult mode_NE a a) PM) as (PQ & KQ & IQ).
  assert (Ha : (0 < B2R a)%R) by (rewrite Ra; apply Rlt_le_trans with (2 := H); apply bpow_gt_0).
  assert (E2 : (bpow radix2 (3 - femax t - fprec t + fprec t - 1) <= B2R a * B2R a)%R).
  { rewrite Ra. replace (3 - femax t - fprec t + fprec t - 1)%Z with ((1 - femax t / 2) + (1 - femax t / 2))%Z by (destruct t; reflexivity). rewrite bpow_plus.
    pose proof (bpow_gt_0 radix2 (1 - femax t / 2)). apply Rmult_le_compat; lra. }
  pose proof (sqrt_sqr (B2R a) a eq_refl Ha E2) as K.
  apply le_v; [exact P|exact PQ|]. destruct (pos_cases _ PM) as [E|(FM & EM & BM)].
  - rewrite (IQ E). apply (vR_pos a P).
  - destruct (KQ FM) as [FQ EQ]. rewrite (vR_fin a Fa). change ((B2R a <= vR (Bsqrt mode_NE (Bmult mode_NE a a)))%R). rewrite (vR_fin _ FQ). rewrite EQ.
    rewrite EM in VM. rewrite VM. rewrite Rmin_right; [exact K|]. destruct (Rle_lt_dec (bpow radix2 (femax t)) (B2R (Bmult mode_NE a a))) as [L|L]; [lra|].
    rewrite VM in L. unfold Rmin in L. destruct (Rle_dec _ _) in L; [lra|]. apply Rlt_le, Rnot_le_lt. assumption.
Qed.
End Bridge.

(** ** Sums *)
(** Of non-negative numbers (infinities included): not NaN, not negative, at least every summand;
    larger summands, larger sum. *)
Theorem C95_sum : forall (t : float_type) S n v v' (s : S), length v = n -> length v' = n -> nonneg_vec n v -> le_vec n v v' ->
  exists x y : float t, vsum (float_ops t) n v s = (Ok x, s) /\ vsum (float_ops t) n v' s = (Ok y, s) /\ le zero_at x /\ le x y /\ forall i, i < n -> le (nth i v zero_at) x.
Proof.
  intros t S n v v' s Lv Lv' P L. do 2 eexists. split; [exact (sumv _ _ fse n v s Lv)|]. split; [exact (sumv _ _ fse n v' s Lv')|].
  destruct (l_sum n (fun i => at1 (float_arith t) v i) (fun i => at1 (float_arith t) v' i)) as [H1 H2]; [intros k Hk; split; [now apply P|now apply L]|].
  split; [exact H1|]. split; [exact H2|]. intros i Hi. exact (l_sum_ge n (fun i => at1 (float_arith t) v i) i Hi P).
Qed.
Print Assumptions C95_sum.
(** ** Products *)
(** Of vectors and matrices of non-negative finite numbers: not NaN (an infinity at most), not
    negative; larger factors, larger products. *)
Theorem C95_products : forall (t : float_type) S (c : cfg) (d : ety S (float t)) (s : S),
  (forall n v v' w w', length v = n -> length v' = n -> length w = n -> length w' = n ->
     nonneg_vec n v -> nonneg_vec n w -> finite_vec n v' -> finite_vec n w' -> le_vec n v v' -> le_vec n w w' ->
     exists x y, vdot (float_ops t) n v w s = (Ok x, s) /\ vdot (float_ops t) n v' w' s = (Ok y, s) /\ le zero_at x /\ le x y) /\
  (forall l n r a a', rect l n a -> rect l n a' -> l < W c -> n < W c -> r < W c -> nonneg_mat l n a -> finite_mat l n a' -> le_mat l n a a' ->
     (forall v v', length v = n -> length v' = n -> nonneg_vec n v -> finite_vec n v' -> le_vec n v v' ->
        exists p q, mmulv c d (float_ops t) l n a v s = (Ok p, s) /\ mmulv c d (float_ops t) l n a' v' s = (Ok q, s) /\ nonneg_vec l p /\ le_vec l p q) /\
     (forall b b', rect n r b -> rect n r b' -> nonneg_mat n r b -> finite_mat n r b' -> le_mat n r b b' ->
        exists p q, mmul_vv c d (float_ops t) l n r a b s = (Ok p, s) /\ mmul_vv c d (float_ops t) l n r a' b' s = (Ok q, s) /\ nonneg_mat l r p /\ le_mat l r p q)).
Proof.
  intros t S c d s. split.
  - intros n v v' w w' Lv Lv' Lw Lw' Pv Pw Fv Fw L1 L2. do 2 eexists. split; [exact (dotv _ _ fse n v w s Lv Lw)|]. split; [exact (dotv _ _ fse n v' w' s Lv' Lw')|].
    apply l_sum. intros k Hk. apply l_mul; [now apply Pv|now apply Pw|now apply Fv|now apply Fw|now apply L1|now apply L2].
  - intros l n r a a' Ra Ra' Hl Hn Hr Pa Fa La. split.
    + intros v v' Lv Lv' Pv Fv L2. do 2 eexists. split; [exact (mulmv c d _ _ fse l n a v s Ra Lv Hl Hn)|]. split; [exact (mulmv c d _ _ fse l n a' v' s Ra' Lv' Hl Hn)|].
      assert (K : forall i, i < l -> le zero_at (at1 (float_arith t) (m_mulv (float_arith t) l n a v) i) /\ le (at1 (float_arith t) (m_mulv (float_arith t) l n a v) i) (at1 (float_arith t) (m_mulv (float_arith t) l n a' v') i)).
      { intros i Hi. unfold m_mulv. rewrite !at1_vec by assumption. apply l_sum. intros k Hk. apply l_mul; [now apply Pa|now apply Pv|now apply Fa|now apply Fv|now apply La|now apply L2]. }
      split; intros i Hi; apply (K i Hi).
    + intros b b' Rb Rb' Pb Fb L2. do 2 eexists. split; [exact (mulm c d _ _ fse l n r a b s Ra Rb Hl Hn Hr)|]. split; [exact (mulm c d _ _ fse l n r a' b' s Ra' Rb' Hl Hn Hr)|].
      assert (K : forall i j, i < l -> j < r -> le zero_at (at2 (float_arith t) (m_mul (float_arith t) l n r a b) i j) /\
        le (at2 (float_arith t) (m_mul (float_arith t) l n r a b) i j) (at2 (float_arith t) (m_mul (float_arith t) l n r a' b') i j)).
      { intros i j Hi Hj. unfold m_mul. rewrite !at2_mat by assumption. apply l_sum. intros k Hk. apply l_mul; [now apply Pa|now apply Pb|now apply Fa|now apply Fb|now apply La|now apply L2]. }
      split; intros i j Hi Hj; apply (K i j Hi Hj).
Qed.
Print Assumptions C95_products.
Lemma pow_ind {X} (mul : X -> X -> X) (one b : X) e (P : X -> Prop) : (forall x y, P x -> P y -> P (mul x y)) -> P one -> P b -> P (pnum_pow mul one b e).
Proof.
  intros Hm Ho Hb.
  assert (L1 : forall k b e, P b -> P (fst (ppow_loop1 mul k b e))).
  { induction k as [|k IH]; intros b0 e0 H0; [exact H0|]. cbn. destruct (Nat.even e0); [apply IH; now apply Hm|exact H0]. }
  assert (L2 : forall k b a e, P b -> P a -> P (ppow_loop2 mul k b a e)).
  { induction k as [|k IH]; intros b0 a0 e0 H0 Ha; [exact Ha|]. cbn [ppow_loop2]. destruct (1 <? e0); [|exact Ha]. apply IH; [now apply Hm|]. destruct (Nat.odd _); [apply Hm; [exact Ha|now apply Hm]|exact Ha]. }
  unfold pnum_pow. destruct (e =? 0); [exact Ho|]. specialize (L1 e b e Hb). destruct (ppow_loop1 mul e b e) as [b' e']. cbn [fst] in L1. destruct (e' =? 1); [exact L1|]. now apply L2.
Qed.
(** A power of a larger matrix is larger, if it did not overflow. *)
Theorem C95_pow : forall (t : float_type) S (c : cfg) (d : ety S (float t)) n m m' e (s : S),
  rect n n m -> rect n n m' -> n < W c -> nonneg_mat n n m -> le_mat n n m m' ->
  exists p q, mpow c d (float_ops t) n m e s = (Ok p, s) /\ mpow c d (float_ops t) n m' e s = (Ok q, s) /\
  (finite_mat n n q -> nonneg_mat n n p /\ le_mat n n p q).
Proof.
  intros t S c d n m m' e s R R' HW Pm Lm. destruct (C91_float t S) as (_ & _ & _ & _ & ST).
  set (mul := m_mul (float_arith t) n n n). set (one := m_id (float_arith t) n).
  assert (Run : forall (x : list (list (float t))) (s0 : S), rect n n x -> mpow c d (float_ops t) n x e s0 = (Ok (pnum_pow mul one x e), s0)).
  { intros x s0 Rx. set (Q := fun (x y : list (list (float t))) => x = y /\ rect n n x).
    assert (HC : forall x y, Q x y -> sim false Q (mclone (S:=S) c d (o_clone (float_ops t)) n n x) y).
    { intros u v [-> Hu] s1. left. exists v. split; [apply mclone_id; [exact Hu|apply (ex_clone _ _ fse)]|now split]. }
    assert (K : sim false Q (mpow c d (float_ops t) n x e) (pnum_pow mul one x e)).
    { unfold mpow. eapply sim_bind; [apply (HC x x); now split|]. intros u Hu. apply sim_num_pow; [|exact HC| |exact Hu].
      - intros x1 x2 y1 y2 [-> H1] [-> H2] s1. left. eexists. split; [exact (mulm c d _ _ fse n n n _ _ s1 H1 H2 HW HW HW)|]. split; [reflexivity|apply mat_rect].
      - intros s1. left. eexists. split; [exact (idm c d _ _ fse n s1)|]. split; [reflexivity|apply mat_rect]. }
    destruct (K s0) as [(p & E0 & -> & _)|(? & _)]; [exact E0|discriminate]. }
  do 2 eexists. split; [exact (Run m s R)|]. split; [exact (Run m' s R')|].
  set (pm := fun x y : list (list (float t)) * list (list (float t)) => (mul (fst x) (fst y), mul (snd x) (snd y))).
  set (G := fun x : list (list (float t)) * list (list (float t)) =>
    (exists i j, i < n /\ j < n /\ not_finite (at2 (float_arith t) (snd x) i j)) \/ (nonneg_mat n n (fst x) /\ finite_mat n n (snd x) /\ le_mat n n (fst x) (snd x))).
  assert (D : forall x : list (list (float t)), (exists i j, i < n /\ j < n /\ not_finite (at2 (float_arith t) x i j)) \/ finite_mat n n x).
  { intros x. assert (D1 : forall a b, (exists i j, i < a /\ j < b /\ not_finite (at2 (float_arith t) x i j)) \/ finite_mat a b x).
    { induction a as [|a IH]; intros b; [right; intros i j Hi; lia|]. destruct (IH b) as [(i & j & Hi & Hj & H)|H]; [left; exists i, j; repeat split; auto; lia|].
      assert (D2 : forall b, (exists j, j < b /\ not_finite (at2 (float_arith t) x a j)) \/ (forall j, j < b -> is_finite (at2 (float_arith t) x a j) = true)).
      { clear. induction b as [|b IH]; [right; intros; lia|]. destruct IH as [(j & Hj & H)|H]; [left; exists j; split; [lia|exact H]|].
        destruct (is_finite (at2 (float_arith t) x a b)) eqn:E; [right|left; exists b; split; [lia|exact E]]. intros j Hj. destruct (Nat.eq_dec j b) as [->|]; [exact E|apply H; lia]. }
      destruct (D2 b) as [(j & Hj & K)|K]; [left; exists a, j; repeat split; auto; lia|right]. intros i j Hi Hj. destruct (Nat.eq_dec i a) as [->|]; [now apply K|apply H; lia]. }
    apply D1. }
  assert (HG : G (pnum_pow pm (one, one) (m, m') e)).
  { apply pow_ind.
    - intros [x x'] [y y'] Gx Gy. unfold pm. cbn [fst snd]. unfold G in *. cbn [fst snd] in *. destruct Gx as [(i & j & Hi & Hj & B)|(Px & Fx & Lx)].
      { left. exists i, i. repeat split; auto. unfold mul, m_mul. rewrite at2_mat by assumption. apply sum_bad with j; [exact ST|exact Hj|]. apply ST. now left. }
      destruct Gy as [(i & j & Hi & Hj & B)|(Py & Fy & Ly)].
      { left. exists j, j. repeat split; auto. unfold mul, m_mul. rewrite at2_mat by assumption. apply sum_bad with i; [exact ST|exact Hi|]. apply ST. now right. }
      destruct (D (mul x' y')) as [B|B]; [now left|right].
      assert (K : forall i j, i < n -> j < n -> le zero_at (at2 (float_arith t) (mul x y) i j) /\ le (at2 (float_arith t) (mul x y) i j) (at2 (float_arith t) (mul x' y') i j)).
      { intros i j Hi Hj. unfold mul, m_mul. rewrite !at2_mat by assumption. apply l_sum. intros k Hk. apply l_mul; [now apply Px|now apply Py|now apply Fx|now apply Fy|now apply Lx|now apply Ly]. }
      split; [intros i j Hi Hj; apply (K i j Hi Hj)|]. split; [exact B|]. intros i j Hi Hj. apply (K i j Hi Hj).
    - right. cbn [fst snd]. assert (K : forall i j, i < n -> j < n -> le zero_at (at2 (float_arith t) one i j) /\ is_finite (at2 (float_arith t) one i j) = true).
      { intros i j Hi Hj. unfold one, m_id. rewrite at2_mat by assumption. destruct (i =? j); destruct t; split; reflexivity. }
      split; [intros i j Hi Hj; apply (K i j Hi Hj)|]. split; [intros i j Hi Hj; apply (K i j Hi Hj)|]. intros i j Hi Hj. apply l_refl. apply (K i j Hi Hj).
    - unfold G. cbn [fst snd]. destruct (D m') as [B|B]; [now left|right]. now repeat split. }
  pose proof (pow_hom fst pm mul (one, one) one (m, m') e (fun _ _ => eq_refl) eq_refl) as H1. cbn [fst] in H1.
  pose proof (pow_hom snd pm mul (one, one) one (m, m') e (fun _ _ => eq_refl) eq_refl) as H2. cbn [snd] in H2.
  unfold G in HG. rewrite H1, H2 in HG. intros FQ. destruct HG as [(i & j & Hi & Hj & B)|(K1 & _ & K2)]; [|now split].
  exfalso. specialize (FQ i j Hi Hj). unfold not_finite in B. revert B. change (is_finite (nth j (nth i (pnum_pow mul one m' e) []) zero_at) = false -> False). rewrite FQ. discriminate.
Qed.
Print Assumptions C95_pow.
(** ** Norms *)
(** Of finite components: not NaN, not negative; larger components (in absolute value), larger
    norm; at least every component whose square does not underflow. *)
Theorem C95_norm : forall (t : float_type) S n v v' (s : S), length v = n -> length v' = n -> finite_vec n v -> finite_vec n v' ->
  (forall i, i < n -> le (Babs (nth i v zero_at)) (Babs (nth i v' zero_at))) ->
  exists x y : float t, vnorm (float_fops t) n v s = (Ok x, s) /\ vnorm (float_fops t) n v' s = (Ok y, s) /\ le zero_at x /\ le x y /\
  forall i, i < n -> (bpow radix2 (1 - femax t / 2) <= Rabs (B2R (nth i v zero_at)))%R -> le (Babs (nth i v zero_at)) x.
Proof.
  intros t S n v v' s Lv Lv' Fv Fv' H.
  set (q := fun v : list (float t) => sum (float_arith t) n (fun i => a_mul (float_arith t) (at1 (float_arith t) v i) (at1 (float_arith t) v i))).
  assert (E : forall u (s : S), length u = n -> vnorm (float_fops t) n u s = (Ok (Bsqrt mode_NE (q u)), s)) by (intros u s0 Lu; exact (norm_run64 S n u s0 Lu)).
  assert (P : forall i, i < n -> le zero_at (Bmult mode_NE (at1 (float_arith t) v i) (at1 (float_arith t) v i)) /\
    le (Bmult mode_NE (at1 (float_arith t) v i) (at1 (float_arith t) v i)) (Bmult mode_NE (at1 (float_arith t) v' i) (at1 (float_arith t) v' i))).
  { intros i Hi. destruct (l_abs _ (Fv i Hi)) as [A1 A2]. destruct (l_abs _ (Fv' i Hi)) as [A3 A4].
    rewrite <- (sqr_abs (at1 (float_arith t) v i)), <- (sqr_abs (at1 (float_arith t) v' i)). apply l_mul; auto; now apply H. }
  assert (Q : le zero_at (q v) /\ le (q v) (q v')) by (apply l_sum; exact P).
  destruct (l_sqrt (q v) (q v') (proj1 Q) (proj2 Q)) as [S1 S2].
  exists (Bsqrt mode_NE (q v)), (Bsqrt mode_NE (q v')). split; [now apply E|]. split; [now apply E|]. split; [exact S1|]. split; [exact S2|].
  intros i Hi Hb. apply l_trans with (Bsqrt mode_NE (Bmult mode_NE (nth i v zero_at) (nth i v zero_at))); [apply l_abs; now apply Fv|apply l_root; [now apply Fv|exact Hb]|].
  apply l_sqrt; [apply (P i Hi)|]. apply (l_sum_ge n (fun i => Bmult mode_NE (at1 (float_arith t) v i) (at1 (float_arith t) v i)) i Hi). intros k Hk. apply (P k Hk).
Qed.
Print Assumptions C95_norm.
Lemma div_unit {t} (x y : float t) : is_finite x = true -> le zero_at y -> le (Babs x) y -> B2R x <> 0%R \/ fl_is_zero (fprec t) (femax t) y = false -> le (Babs (Bdiv mode_NE x y)) Bone.
Proof.
  intros F Py L NZ. destruct (abs_pos x F) as (Pa & Fa & Ra). destruct (pos_cases y Py) as [->|(Fy & Vy & By)].
  { destruct x as [s0|s0| |s0 m e B]; try discriminate F; destruct t; reflexivity. }
  assert (L' : (Rabs (B2R x) <= B2R y)%R). { apply le_v in L; [|exact Pa|exact Py]. rewrite (vR_fin _ Fa), Vy, Ra in L. exact L. }
  assert (Ny : (0 < B2R y)%R).
  { destruct NZ as [N|N]; [pose proof (Rabs_pos_lt _ N); lra|]. destruct (Rle_lt_or_eq_dec 0 (B2R y) (proj1 By)) as [K|K]; [exact K|]. exfalso. unfold fl_is_zero in N. rewrite Beqb_correct in N by (assumption || reflexivity).
    rewrite <- K in N. cbn in N. rewrite Req_bool_true in N by reflexivity. discriminate N. }
  assert (Q : (Rabs (B2R x / B2R y) <= 1)%R).
  { unfold Rdiv. rewrite Rabs_mult, Rabs_Rinv by lra. rewrite (Rabs_pos_eq (B2R y)) by lra. apply Rmult_le_reg_r with (B2R y); [exact Ny|]. rewrite Rmult_assoc, Rinv_l by lra. lra. }
  assert (RQ : (Rabs (round radix2 (SpecFloat.fexp (fprec t) (femax t)) (round_mode mode_NE) (B2R x / B2R y)) <= 1)%R).
  { apply abs_round_le_generic; [apply fexp_correct, fprec_gt|apply valid_rnd_round_mode| |exact Q]. change 1%R with (bpow radix2 0). apply generic_format_bpow. destruct t; cbn; lia. }
  pose proof (Bdiv_correct (fprec t) (femax t) _ _ mode_NE x y ltac:(lra)) as C.
  rewrite Rlt_bool_true in C. 2:{ apply Rle_lt_trans with (1 := RQ). change 1%R with (bpow radix2 0). apply bpow_lt. destruct t; reflexivity. }
  destruct C as (C1 & C2 & _). rewrite F in C2. destruct (abs_pos _ C2) as (Pd & Fd & Rd). unfold le. rewrite Bleb_correct; [|exact Fd|apply is_finite_Bone]. apply Rle_bool_true.
  rewrite Rd, C1. rewrite (Bone_correct (fprec t) (femax t)). exact RQ.
Qed.
(** A vector of finite components, one of which has a square that does not underflow, has a
    normalized() with all components between -1 and 1 (not just up to rounding). *)
Theorem C95_normalized : forall (t : float_type) S (c : cfg) (d : ety S (float t)) n (v : list (float t)) (s : S), length v = n -> n < W c -> finite_vec n v ->
  (exists j, j < n /\ (bpow radix2 (1 - femax t / 2) <= Rabs (B2R (nth j v zero_at)))%R) ->
  exists w, vnormalized c d (float_fops t) n v s = (Ok w, s) /\ length w = n /\ forall i, i < n -> le (Babs (nth i w zero_at)) Bone.
Proof.
  intros t S c d n v s Lv HW Fv (j & Hj & Hb).
  set (q := sum (float_arith t) n (fun i => a_mul (float_arith t) (at1 (float_arith t) v i) (at1 (float_arith t) v i))).
  assert (E : vnorm (float_fops t) n v s = (Ok (Bsqrt mode_NE q), s)) by exact (norm_run64 S n v s Lv).
  destruct (C95_norm t S n v v s Lv Lv Fv Fv) as (x & _ & Ex & _ & P1 & _ & P2); [intros i Hi; apply l_refl, l_abs; now apply Fv|].
  assert (x = Bsqrt mode_NE q) as -> by (rewrite E in Ex; congruence). set (z := Bsqrt mode_NE q) in *.
  exists (map (fun e => Bdiv mode_NE e z) v). split; [|split; [now rewrite map_length|]].
  - unfold vnormalized, bind. rewrite vclone_spec by assumption. rewrite (in_order_pure _ (fun e => e)) by reflexivity.
    rewrite map_id, E. rewrite vscale_spec by assumption. rewrite (unwind_pure _ _ (fun e => Bdiv mode_NE e z)); reflexivity.
  - intros i Hi. rewrite (nth_indep _ _ (Bdiv mode_NE (zero_at (t:=t)) z)) by (rewrite map_length; apply Nat.lt_le_trans with n; [exact Hi|apply Nat.eq_le_incl; symmetry; exact Lv]).
    pose proof (map_nth (fun e => Bdiv mode_NE e z) v (zero_at (t:=t)) i) as M. cbn beta in M. rewrite M. clear M.
    pose proof (P2 j Hj Hb) as Lj. assert (Aj : (0 < Rabs (B2R (nth j v (zero_at (t:=t)))))%R) by (apply Rlt_le_trans with (2 := Hb); apply bpow_gt_0).
    destruct (abs_pos _ (Fv i Hi)) as (Pi & Fi & Ri). destruct (abs_pos _ (Fv j Hj)) as (Pj & Fj & Rj).
    apply div_unit; [now apply Fv|exact P1| |].
    + destruct (Rle_lt_dec (Rabs (B2R (nth i v (zero_at (t:=t))))) (Rabs (B2R (nth j v (zero_at (t:=t)))))) as [K|K]; [|apply P2; [exact Hi|lra]].
      apply l_trans with (Babs (nth j v zero_at)); [exact Pi| |exact Lj]. apply le_v; [exact Pi|exact Pj|]. eapply Rle_trans; [apply Req_le; exact (eq_trans (vR_fin _ Fi) Ri)|]. eapply Rle_trans; [exact K|]. apply Req_le. symmetry. exact (eq_trans (vR_fin _ Fj) Rj).
    + right. destruct (pos_cases z P1) as [->|(Fz & Vz & Bz)]; [reflexivity|]. unfold fl_is_zero. rewrite Beqb_correct by (assumption || reflexivity). apply Req_bool_false.
      apply le_v in Lj; [|exact Pj|exact P1]. rewrite Vz in Lj. assert (KK : (0 < B2R z)%R) by (eapply Rlt_le_trans; [exact Aj|]; eapply Rle_trans; [apply Req_le; symmetry; exact (eq_trans (vR_fin _ Fj) Rj)|exact Lj]). apply Rgt_not_eq. exact KK.
Qed.
Print Assumptions C95_normalized.

(** 2 <= 3 in a 3 x 3 matrix; the vector (3, -4) in f32. *)
Definition two : float F64 := Bplus mode_NE Bone Bone.
Definition three : float F64 := Bplus mode_NE two Bone.
Definition m95 (x : float F64) : list (list (float F64)) := mat 3 3 (fun i j => if i =? j then x else Bone).
Definition v95 : list (float F32) := let one := Bone in let two := Bplus mode_NE one one in [Bplus mode_NE two one; Bopp (Bplus mode_NE two two)].
Example C95_ex : nonneg_mat 3 3 (m95 two) /\ le_mat 3 3 (m95 two) (m95 three) /\ ~ le_mat 3 3 (m95 three) (m95 two) /\
  (exists p q, mpow dbg (log_ety (T:=float F64)) (float_ops F64) 3 (m95 two) 5 [] = (Ok p, []) /\ mpow dbg (log_ety (T:=float F64)) (float_ops F64) 3 (m95 three) 5 [] = (Ok q, []) /\
     (finite_mat 3 3 q -> nonneg_mat 3 3 p /\ le_mat 3 3 p q)) /\
  (exists w, vnormalized dbg (log_ety (T:=float F32)) (float_fops F32) 2 v95 [] = (Ok w, []) /\ length w = 2 /\ forall i, i < 2 -> le (Babs (nth i w zero_at)) Bone).
Proof.
  assert (N : nonneg_mat 3 3 (m95 two)) by (intros i j Hi Hj; destruct i as [|[|[|i]]]; try lia; destruct j as [|[|[|j]]]; try lia; vm_compute; reflexivity).
  assert (L : le_mat 3 3 (m95 two) (m95 three)) by (intros i j Hi Hj; destruct i as [|[|[|i]]]; try lia; destruct j as [|[|[|j]]]; try lia; vm_compute; reflexivity).
  split; [exact N|]. split; [exact L|]. split; [intros H; specialize (H 0 0 ltac:(lia) ltac:(lia)); vm_compute in H; discriminate H|]. pose proof (W_big dbg) as HW. split.
  - apply C95_pow; auto; try apply mat_rect. lia.
  - apply C95_normalized; [reflexivity|lia| |].
    + intros i Hi. destruct i as [|[|i]]; try lia; reflexivity.
    + exists 0. split; [lia|]. cbn [nth v95]. rewrite Rabs_pos_eq.
      * assert (E : B2R (nth 0 v95 zero_at) = 3%R) by (vm_compute; lra). change ((bpow radix2 (1 - femax F32 / 2) <= B2R (nth 0 v95 zero_at))%R). rewrite E. apply Rle_trans with (bpow radix2 0); [apply bpow_le; cbn; lia|cbn; lra].
      * assert (E : B2R (nth 0 v95 zero_at) = 3%R) by (vm_compute; lra). change ((0 <= B2R (nth 0 v95 zero_at))%R). rewrite E. lra.
Qed.
