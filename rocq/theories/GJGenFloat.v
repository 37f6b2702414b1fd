(** * GJGenFloat.v - the n >= 4 inverse in floating point on matrices with well-conditioned leading
    blocks (proofs only). *)
From Coq Require Import List Arith Bool Lia ZArith Reals Lra.
From Flocq Require Import Core BinarySingleNaN Relative Plus_error.
From Verif Require Import Rust Iter Elem VectorM MatIterM MatrixM ArithM OpsM SpecCommon SpecAlg FloatM SpecReal.
From Verif Require Import AccProofs Sim DetLoop OpsPure FloatErr PropsFloat PropsFloatErr PropsFloatInv GJReal GJFloat GJGen.
Import ListNotations.
Local Open Scope R_scope.
Section Format.
Context {prec emax : Z} {Hgt : Prec_gt_0 prec} {Hlt : Prec_lt_emax prec emax} {OK : fmt_ok prec emax}.
Local Notation FL := (fl prec emax).
Local Notation AR := (fl_arith prec emax Hgt Hlt).
Local Notation OP := (fl_ops prec emax Hgt Hlt).
Local Notation u := (ur prec).
Ltac flia := pose proof (@ok_prec _ _ OK); pose proof (@ok_emax _ _ OK); lia.
Section Run.
Variable n : nat.
Variable m : list (list FL).
Variables H B : R.
Hypothesis Hn : (4 <= n)%nat.
Hypothesis Hr : rect n n m.
Hypothesis Hfin : forall i j, (i < n)%nat -> (j < n)%nat -> fin (at2 AR m i j).
Hypothesis HB : 1 <= B.
Hypothesis HH : 1 <= H.
Hypothesis Hsmall : 1440 * (INR n * INR n) * u * (H ^ 5 * B ^ 6) <= 1.
Let val (z : list (list FL)) (i j : nat) : R := B2R (at2 AR z i j).
Hypothesis Hrow : forall i, (i < n)%nat -> rsum n (fun j => Rabs (val m i j)) <= B.
Hypothesis Hlead : leading_inverses n H (val m).
Let e := 40 * u * (H ^ 2 * B ^ 3).
Let u0 : 0 < u := @u_pos prec.
Lemma gn1 : 4 <= INR n.
Proof. replace 4 with (INR 4) by (cbn; lra). now apply le_INR. Qed.
Lemma pw x k : 1 <= x -> 1 <= x ^ k.
Proof. intros X. induction k as [|k IH]; cbn [pow]; [lra|nra]. Qed.
Lemma ge0 : 0 <= e.
Proof. unfold e. pose proof u0. pose proof (pw H 2 HH). pose proof (pw B 3 HB). assert (1 <= H ^ 2 * B ^ 3) by nra. nra. Qed.
Lemma ge_small : 36 * (H ^ 3 * B ^ 3 * (INR n * INR n * e)) <= 1.
Proof. apply Rle_trans with (2 := Hsmall). right. unfold e. ring. Qed.
Lemma uHB : 1440 * (u * (H ^ 2 * B ^ 3)) <= 1.
Proof.
  pose proof gn1. pose proof u0. pose proof (pw H 2 HH). pose proof (pw B 3 HB). pose proof (pw H 3 HH).
  assert (1 <= H ^ 2 * B ^ 3) by nra. assert (1 <= H ^ 3 * B ^ 3) by nra.
  assert (X : 0 < u * (H ^ 2 * B ^ 3)) by (apply Rmult_lt_0_compat; lra). assert (1 <= INR n * INR n) by nra.
  assert (Y : 1 <= INR n * INR n * (H ^ 3 * B ^ 3)) by nra.
  apply Rle_trans with (2 := Hsmall). replace (1440 * (INR n * INR n) * u * (H ^ 5 * B ^ 6)) with (INR n * INR n * (H ^ 3 * B ^ 3) * (1440 * (u * (H ^ 2 * B ^ 3)))) by ring.
  nra.
Qed.
Lemma gu_inv : u * b2 prec = 1.
Proof. unfold ur. rewrite <- bpow_plus. now replace (- prec + prec)%Z with 0%Z by lia. Qed.
Lemma P_up : 1440 * (H ^ 2 * B ^ 3) <= b2 prec.
Proof. apply Rmult_le_reg_l with u; [exact u0|]. rewrite gu_inv. pose proof uHB. lra. Qed.
(** The products that occur below, against H^2 B^3. *)
Lemma mono : H <= H ^ 2 * B ^ 3 /\ H * B <= H ^ 2 * B ^ 3 /\ H * B * B <= H ^ 2 * B ^ 3 /\ H * H * B * B <= H ^ 2 * B ^ 3 /\ B * (H * H * B * B) = H ^ 2 * B ^ 3.
Proof.
  assert (H1 : 1 <= H * B) by nra. assert (H2 : 1 <= H * B * B) by nra. assert (H3 : 1 <= B * B) by nra.
  assert (E : H ^ 2 * B ^ 3 = B * (H * H * B * B)) by ring.
  assert (H4 : H * B * B <= H * H * B * B) by (replace (H * H * B * B) with (H * (H * B * B)) by ring; nra).
  assert (H5 : H * B <= H * B * B) by nra. assert (H6 : H <= H * B) by nra.
  assert (H7 : H * H * B * B <= B * (H * H * B * B)) by nra. rewrite E. repeat split; lra.
Qed.
Lemma geta_u : eta (prec := prec) (emax := emax) * b2 (prec + 1) <= u.
Proof. unfold eta, ur. rewrite <- bpow_plus. apply bpow_le. flia. Qed.
Lemma geta0 : 0 < eta (prec := prec) (emax := emax).
Proof. apply bpow_gt_0. Qed.
Lemma gbig k : (k <= prec + 3)%Z -> b2 k <= b2 (emax - 4).
Proof. intros L. apply bpow_le. flia. Qed.
Lemma up_any z : z <= 4 * (H ^ 2 * B ^ 3) -> z <= b2 (emax - 4).
Proof. intros L. apply Rle_trans with (b2 prec); [|apply gbig; lia]. pose proof P_up. pose proof mono. lra. Qed.
Lemma eta_any z : 0 <= z -> z <= 4 * (H ^ 2 * B ^ 3) -> z * eta (prec := prec) (emax := emax) <= u.
Proof.
  intros Z0 L. apply Rle_trans with (2 := geta_u). rewrite bpow_plus. change (b2 1) with 2. pose proof P_up. pose proof geta0.
  pose proof mono. assert (z <= b2 prec * 2) by lra. rewrite Rmult_comm. apply Rmult_le_compat_l; lra.
Qed.
Lemma geta_1 : eta (prec := prec) (emax := emax) <= u.
Proof. pose proof (eta_any 1 ltac:(lra)) as E. rewrite Rmult_1_l in E. apply E. pose proof mono. lra. Qed.

Record GGood (k : nat) (m1 m2 : list (list FL)) : Prop := {
  gg_fm : forall i j, (i < n)%nat -> (k <= j < n)%nat -> fin (at2 AR m1 i j);
  gg_fx : forall i j, (i < n)%nat -> (j < n)%nat -> fin (at2 AR m2 i j);
  gg_inv : GInv n (val m) B e k (val m1) (val m2) }.

Section One.
Variables (k : nat) (m1 m2 m1' m2' : list (list FL)).
Hypothesis Hk : (k < n)%nat.
Hypothesis G : GGood k m1 m2.
Let p := at2 AR m1 k k.
Let r := Bdiv mode_NE (a_one AR) p.
Hypothesis E' : forall a b, (a < n)%nat -> (b < n)%nat ->
  at2 AR m1' a b = gstep AR r (at2 AR m1) (at2 AR m1) k a b /\ at2 AR m2' a b = gstep AR r (at2 AR m1) (at2 AR m2) k a b.
Let I := gg_inv _ _ _ G.
Lemma g_piv : 3 / 4 * / H <= Rabs (B2R p) /\
  (forall j, (k <= j < n)%nat -> Rabs (B2R (at2 AR m1 k j) / B2R p) <= 5 / 3 * (H * B)) /\
  (forall j, (j < n)%nat -> Rabs (B2R (at2 AR m2 k j) / B2R p) <= 5 / 3 * H).
Proof.
  destruct (lead n (val m) H Hn Hlead k ltac:(lia)) as (V & HV & HVr).
  exact (piv_all n (val m) H B e Hn HB HH ge0 Hrow Hlead ge_small k _ _ V ltac:(lia) I HV HVr Hk).
Qed.
Lemma gp_nz : B2R p <> 0.
Proof. intros E. destruct g_piv as [P _]. rewrite E, Rabs_R0 in P. assert (0 < / H) by (apply Rinv_0_lt_compat; lra). lra. Qed.
Lemma gp_inv1 : Rabs (1 / B2R p) <= b2 (emax - 4).
Proof.
  apply up_any. destruct g_piv as [P _]. unfold Rdiv. rewrite Rmult_1_l, Rabs_Rinv by exact gp_nz.
  assert (0 < / H) by (apply Rinv_0_lt_compat; lra).
  apply Rle_trans with (/ (3 / 4 * / H)); [apply Rinv_le; lra|]. replace (/ (3 / 4 * / H)) with (4 / 3 * H) by (field; lra).
  pose proof mono. lra.
Qed.
Lemma gbm i j : (i < n)%nat -> (k <= j < n)%nat -> Rabs (B2R (at2 AR m1 i j)) <= 9 / 4 * (H * B * B).
Proof.
  destruct (lead n (val m) H Hn Hlead k ltac:(lia)) as (V & HV & HVr).
  exact (m_up n (val m) H B e Hn HB HH ge0 Hrow ge_small k _ _ V ltac:(lia) I HV HVr i j).
Qed.
Lemma gbx i j : (i < n)%nat -> (j < n)%nat -> Rabs (B2R (at2 AR m2 i j)) <= 9 / 4 * (H * B).
Proof.
  destruct (lead n (val m) H Hn Hlead k ltac:(lia)) as (V & HV & HVr).
  exact (x_up' n (val m) H B e Hn HB HH ge0 Hrow ge_small k _ _ V ltac:(lia) I HV HVr i j).
Qed.
Lemma gone_m i j : (i < n)%nat -> (k < j < n)%nat -> fin (at2 AR m1' i j) /\ Rabs (B2R (at2 AR m1' i j) - ex (val m1) (val m1) k i j) <= e.
Proof.
  intros Hi Hj. pose proof u0 as Hu0. pose proof geta_1 as He1. pose proof geta0 as He0. destruct mono as (M1 & M2 & M3 & M4 & M5).
  assert (HB1 : 1 <= H * B) by nra. assert (HB2 : 1 <= H * B * B) by nra.
  assert (EF : 9 / 4 * (H * B * B) * (5 / 3 * (H * B)) = 15 / 4 * (H ^ 2 * B ^ 3)) by field.
  destruct (elem_all p (at2 AR m1 k j) (at2 AR m1 i j) (at2 AR m1 i k) (5 / 3 * (H * B)) (9 / 4 * (H * B * B)) (9 / 4 * (H * B * B))) as ((X1 & X2) & (Y1 & Y2) & _).
  - apply (gg_fm _ _ _ G); lia.
  - apply (gg_fm _ _ _ G); lia.
  - apply (gg_fm _ _ _ G); lia.
  - apply gp_nz.
  - apply gp_inv1.
  - apply g_piv. lia.
  - apply gbm; lia.
  - apply gbm; lia.
  - assert (1 <= 5 / 3 * (H * B)) by lra. nra.
  - pose proof (gbm k j Hk ltac:(lia)) as L. assert (Z : Rabs (B2R (at2 AR m1 k j)) * eta (prec := prec) (emax := emax) <= u) by (apply eta_any; [apply Rabs_pos|lra]).
    assert (1 <= 5 / 3 * (H * B)) by lra. nra.
  - rewrite EF. assert (1 <= 15 / 4 * (H ^ 2 * B ^ 3)) by lra. nra.
  - apply up_any. lra.
  - rewrite EF. apply up_any. lra.
  - apply up_any. lra.
  - rewrite (proj1 (E' i j Hi ltac:(lia))). unfold gstep, ex. destruct (Nat.eqb_spec i k) as [->|Hik].
    + split; [exact X1|]. apply Rle_trans with (1 := X2). unfold e.
      replace (5 * u * (5 / 3 * (H * B))) with (u * (25 / 3 * (H * B))) by field. replace (40 * u * (H ^ 2 * B ^ 3)) with (u * (40 * (H ^ 2 * B ^ 3))) by ring.
      apply Rmult_le_compat_l; lra.
    + split; [exact Y1|]. apply Rle_trans with (1 := Y2). rewrite EF. unfold e. replace (40 * u * (H ^ 2 * B ^ 3)) with (u * (40 * (H ^ 2 * B ^ 3))) by ring.
      apply Rmult_le_compat_l; lra.
Qed.
Lemma gone_x i j : (i < n)%nat -> (j < n)%nat -> fin (at2 AR m2' i j) /\ Rabs (B2R (at2 AR m2' i j) - ex (val m1) (val m2) k i j) <= e / B /\
  ((k < j)%nat -> B2R (at2 AR m2' i j) = ex (val m1) (val m2) k i j).
Proof.
  intros Hi Hj. pose proof u0 as Hu0. pose proof geta_1 as He1. pose proof geta0 as He0. destruct mono as (M1 & M2 & M3 & M4 & M5).
  assert (HB1 : 1 <= H * B) by nra. assert (HB2 : 1 <= H * B * B) by nra. assert (HB3 : H * B <= H * H * B * B) by nra.
  assert (HB4 : H <= H * H * B * B) by nra.
  assert (EF : 9 / 4 * (H * B * B) * (5 / 3 * H) = 15 / 4 * (H * H * B * B)) by field.
  assert (EE : e / B = u * (40 * (H * H * B * B))) by (unfold e; field; lra).
  destruct (elem_all p (at2 AR m2 k j) (at2 AR m2 i j) (at2 AR m1 i k) (5 / 3 * H) (9 / 4 * (H * B * B)) (9 / 4 * (H * B))) as ((X1 & X2) & (Y1 & Y2) & Z).
  - apply (gg_fx _ _ _ G); lia.
  - apply (gg_fx _ _ _ G); lia.
  - apply (gg_fm _ _ _ G); lia.
  - apply gp_nz.
  - apply gp_inv1.
  - now apply g_piv.
  - apply gbm; lia.
  - now apply gbx.
  - nra.
  - pose proof (gbx k j Hk Hj) as L. assert (Z : Rabs (B2R (at2 AR m2 k j)) * eta (prec := prec) (emax := emax) <= u) by (apply eta_any; [apply Rabs_pos|lra]).
    assert (1 <= 5 / 3 * H) by lra. nra.
  - rewrite EF. assert (1 <= 15 / 4 * (H * H * B * B)) by lra. nra.
  - apply up_any. lra.
  - rewrite EF. apply up_any. lra.
  - apply up_any. lra.
  - rewrite EE, (proj2 (E' i j Hi ltac:(lia))). unfold gstep, ex. destruct (Nat.eqb_spec i k) as [->|Hik].
    + split; [exact X1|]. split.
      * apply Rle_trans with (1 := X2). replace (5 * u * (5 / 3 * H)) with (u * (25 / 3 * H)) by field. apply Rmult_le_compat_l; lra.
      * intros Hkj. pose proof (gi_x _ _ _ _ _ _ _ I k j Hk ltac:(lia)) as E. rewrite dl_ne in E by lia.
        rewrite E. unfold val in E. destruct (Z E) as [Z1 _]. fold r. unfold Rdiv. rewrite Rmult_0_l. exact Z1.
    + split; [exact Y1|]. split.
      * apply Rle_trans with (1 := Y2). rewrite EF. apply Rmult_le_compat_l; lra.
      * intros Hkj. pose proof (gi_x _ _ _ _ _ _ _ I k j Hk ltac:(lia)) as E. rewrite dl_ne in E by lia.
        rewrite E. unfold val in E. destruct (Z E) as [_ Z2]. fold r. unfold Rdiv. rewrite Rmult_0_l, Rmult_0_r, Rminus_0_r. exact Z2.
Qed.
Lemma ggood_next : GGood (k + 1) m1' m2'.
Proof.
  split.
  - intros i j Hi Hj. apply gone_m; lia.
  - intros i j Hi Hj. now apply gone_x.
  - apply (ginv_next n (val m) H B e Hn HB HH ge0 Hrow Hlead ge_small k _ _ _ _ I Hk). split.
    + intros i j Hi Hj. now apply gone_m.
    + intros i j Hi Hj. apply gone_x; lia.
    + intros i j Hi Hj. apply gone_x; lia.
Qed.
End One.

Lemma grun_ok : forall k, (k <= n)%nat -> exists m1 m2,
  ret_fold (p_inv_step AR (Bdiv mode_NE) (fl_is_zero prec emax) n) (seq 0 k) (m, m_id AR n) = inl (m1, m2) /\ rect n n m2 /\ GGood k m1 m2.
Proof.
  induction k as [|k IH]; intros Hk.
  - exists m, (m_id AR n). split; [reflexivity|]. split; [apply mat_rect|].
    assert (Ei : forall i j, (i < n)%nat -> (j < n)%nat -> at2 AR (m_id AR n) i j = if (i =? j)%nat then a_one AR else a_zero AR).
    { intros i j Hi Hj. unfold m_id. now rewrite at2_mat. }
    split.
    + intros i j Hi Hj. apply Hfin; lia.
    + intros i j Hi Hj. rewrite Ei by assumption. destruct (i =? j)%nat; [apply fone|reflexivity].
    + pose proof (ginv_start n (val m) B e Hn) as I0. destruct I0 as [I1 I5].
      assert (Ed : forall i j, (i < n)%nat -> (j < n)%nat -> val (m_id AR n) i j = dl i j).
      { intros i j Hi Hj. unfold val. rewrite Ei by assumption. unfold dl. destruct (i =? j)%nat; [apply fone|reflexivity]. }
      split.
      * intros i j Hi Hj. apply Ed; lia.
      * destruct I5 as (T & T0 & T1 & T2 & T3). exists T. split; [exact T0|]. split; [exact T1|]. split; [exact T2|].
        intros i j Hi Hj. rewrite (rsum_ext n _ (fun l => T i l * dl l j)); [now apply T3|]. intros l Hl. now rewrite Ed.
  - destruct (IH ltac:(lia)) as (m1 & m2 & E & R2 & G). rewrite seq_S, ret_fold_snoc, E. cbn [Nat.add].
    assert (Hz : fl_is_zero prec emax (at2 AR m1 k k) = false).
    { apply is_zero_false; [apply (gg_fm _ _ _ G); lia|]. apply (gp_nz k m1 m2 ltac:(lia) G). }
    destruct (inv_step_fun AR (Bdiv mode_NE) (fl_is_zero prec emax) n k m1 m2 ltac:(lia) Hz) as (m1' & m2' & E1 & R1' & R2' & E2).
    exists m1', m2'. split; [exact E1|]. split; [exact R2'|]. rewrite <- Nat.add_1_r. apply (ggood_next k m1 m2 m1' m2'); [lia|exact G|exact E2].
Qed.
Lemma ginv_ok : exists y V, p_inv_big AR (Bdiv mode_NE) (fl_is_zero prec emax) n m = Some y /\ rect n n y /\ real_inverse n (val m) V /\
  forall i j, (i < n)%nat -> (j < n)%nat -> fin (at2 AR y i j) /\ Rabs (val y i j) <= 5 / 4 * H /\
  Rabs (rsum n (fun l => val m i l * val y l j) - dl i j) <= 180 * (INR n * INR n) * u * (H ^ 3 * B ^ 4) /\
  Rabs (val y i j - V i j) <= 180 * (INR n * INR n) * u * (H ^ 4 * B ^ 4).
Proof.
  destruct (grun_ok n ltac:(lia)) as (m1 & m2 & E & R2 & G).
  destruct (g_result n (val m) H B e Hn HB HH ge0 Hlead ge_small _ _ (gg_inv _ _ _ G)) as (V & HV & HX).
  exists m2, V. unfold p_inv_big. rewrite Nat.sub_0_r, E.
  split; [reflexivity|]. split; [exact R2|]. split; [exact HV|]. intros i j Hi Hj. destruct (HX i j Hi Hj) as (X1 & X2 & X3).
  split; [now apply (gg_fx _ _ _ G)|]. split; [exact X1|]. split.
  - apply Rle_trans with (1 := X2). right. unfold e. field.
  - apply Rle_trans with (1 := X3). right. unfold e. field.
Qed.
End Run.
End Format.
