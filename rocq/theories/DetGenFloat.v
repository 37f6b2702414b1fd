(** * DetGenFloat.v - determinant() of size n >= 4 in floating point on matrices with
    well-conditioned leading blocks (proofs only). *)
From Coq Require Import List Arith Bool Lia ZArith Reals Lra.
From Flocq Require Import Core BinarySingleNaN Relative Plus_error.
From Verif Require Import Rust Iter Elem VectorM MatIterM MatrixM ArithM OpsM SpecCommon SpecAlg FloatM SpecReal.
From Verif Require Import AccProofs Sim DetLoop OpsPure FloatErr PropsFloat PropsFloatErr PropsFloatInv GJReal GJFloat GJGen GJGenFloat RDet DetReal DetFloat DetGen.
Import ListNotations.
Local Open Scope R_scope.
Section Format.
Context {prec emax : Z} {Hgt : Prec_gt_0 prec} {Hlt : Prec_lt_emax prec emax} {OK : fmt_ok prec emax}.
Local Notation FL := (fl prec emax).
Local Notation AR := (fl_arith prec emax Hgt Hlt).
Local Notation u := (ur prec).
Local Notation et := (@eta prec emax).
Ltac flia := pose proof (@ok_prec _ _ OK); pose proof (@ok_emax _ _ OK); lia.
Section Run.
Variable n : nat.
Variable m : list (list FL).
Variables H B : R.
Hypothesis Hn : (4 <= n)%nat.
Hypothesis Hr : rect n n m.
Hypothesis Hfin : forall i j, (i < n)%nat -> (j < n)%nat -> fin (at2 AR m i j).
Hypothesis HB : 1 <= B.
Hypothesis HH : 1 <= H.
Hypothesis Hsmall : 600 * INR n ^ 3 * u * (H ^ 5 * B ^ 6) <= 1.
Let val (z : list (list FL)) (i j : nat) : R := B2R (at2 AR z i j).
Hypothesis Hrow : forall i, (i < n)%nat -> rsum n (fun j => Rabs (val m i j)) <= B.
Hypothesis Hlead : leading_inverses n H (val m).
Let e := 30 * u * (H ^ 2 * B ^ 3).
Let u0 : 0 < u := @u_pos prec.
Lemma HP : 1 <= H ^ 5 * B ^ 6.
Proof. pose proof (pw H 5 HH). pose proof (pw B 6 HB). nra. Qed.
Lemma hs : 1440 * (INR n * INR n) * u * (H ^ 5 * B ^ 6) <= 1.
Proof.
  apply Rle_trans with (2 := Hsmall). pose proof (gn1 n Hn). pose proof u0. pose proof HP.
  assert (0 < u * (H ^ 5 * B ^ 6)) by (apply Rmult_lt_0_compat; lra).
  replace (1440 * (INR n * INR n) * u * (H ^ 5 * B ^ 6)) with (1440 * INR n ^ 2 * (u * (H ^ 5 * B ^ 6))) by ring.
  replace (600 * INR n ^ 3 * u * (H ^ 5 * B ^ 6)) with (600 * INR n ^ 3 * (u * (H ^ 5 * B ^ 6))) by ring.
  apply Rmult_le_compat_r; [lra|]. replace (INR n ^ 3) with (INR n * INR n ^ 2) by ring. assert (0 <= INR n ^ 2) by nra. nra.
Qed.
Lemma le0 : 0 <= e.
Proof. unfold e. pose proof u0. pose proof (pw H 2 HH). pose proof (pw B 3 HB). assert (1 <= H ^ 2 * B ^ 3) by nra. nra. Qed.
Lemma le_small : 36 * (H ^ 3 * B ^ 3 * (INR n * INR n * e)) <= 1.
Proof.
  apply Rle_trans with (2 := hs). unfold e. pose proof (gn1 n Hn). pose proof u0. pose proof HP.
  replace (36 * (H ^ 3 * B ^ 3 * (INR n * INR n * (30 * u * (H ^ 2 * B ^ 3))))) with (1080 * (INR n * INR n * u * (H ^ 5 * B ^ 6))) by ring.
  replace (1440 * (INR n * INR n) * u * (H ^ 5 * B ^ 6)) with (1440 * (INR n * INR n * u * (H ^ 5 * B ^ 6))) by ring.
  apply Rmult_le_compat_r; [|lra]. repeat apply Rmult_le_pos; lra.
Qed.
Record LGood (k : nat) (z : list (list FL)) : Prop := {
  lg_rect : rect n n z;
  lg_fin : forall i j, (i < n)%nat -> (j < n)%nat -> (Nat.min i k <= j)%nat -> fin (at2 AR z i j);
  lg_inv : LInv n (val m) H B e k (val z) }.
Lemma l_nz k z : (k < n)%nat -> LGood k z -> val z k k <> 0.
Proof.
  intros Hk [_ _ [D _]] Z. destruct (dinv_bounds n (val m) H B e Hn HB HH le0 Hrow Hlead le_small k _ Hk D) as (P & _).
  rewrite Z, Rabs_R0 in P. assert (0 < / H) by (apply Rinv_0_lt_compat; lra). lra.
Qed.
Lemma l_step k z z' : (k < n)%nat -> LGood k z -> rect n n z' ->
  (forall a b, (a < n)%nat -> (b < n)%nat -> at2 AR z' a b = estep AR (Bdiv mode_NE) (at2 AR z) k a b) -> LGood (k + 1) z'.
Proof.
  intros Hk G Rz' E'. pose proof (l_nz k z Hk G) as Pn. destruct G as [Rz Fz I].
  destruct (dinv_bounds n (val m) H B e Hn HB HH le0 Hrow Hlead le_small k _ Hk (li_d _ _ _ _ _ _ _ I)) as (P1 & P2 & P3).
  destruct (mono H B HB HH) as (M1 & M2 & M3 & M4 & M5).
  assert (HB1 : 1 <= H * B) by nra.
  assert (Step1 : forall i j, (k < i < n)%nat -> (k < j < n)%nat ->
    fin (at2 AR z' i j) /\ Rabs (val z' i j - (val z i j - val z i k / val z k k * val z k j)) <= e).
  { intros i j Hi Hj. unfold val at 1. rewrite (E' i j) by lia. unfold estep. rewrite (proj2 (Nat.ltb_lt k i)) by lia.
    destruct (elim_ok (at2 AR z k k) (at2 AR z k j) (at2 AR z i j) (at2 AR z i k) (15 / 4 * (H ^ 2 * B ^ 3))) as [Y1 Y2].
    - apply Fz; lia.
    - apply Fz; lia.
    - apply Fz; lia.
    - exact Pn.
    - lra.
    - replace (B2R (at2 AR z i k) / B2R (at2 AR z k k) * B2R (at2 AR z k j)) with (val z i k * (val z k j / val z k k)) by (unfold val; field; exact Pn).
      rewrite Rabs_mult. replace (15 / 4 * (H ^ 2 * B ^ 3)) with (9 / 4 * (H * B * B) * (5 / 3 * (H * B))) by field.
      apply Rmult_le_compat; auto using Rabs_pos; [apply P3; lia|apply P2; lia].
    - apply (up_any n H B Hn HB HH hs). unfold Rdiv. rewrite Rabs_mult, Rabs_Rinv by exact Pn. change (Rabs (val z i k) * / Rabs (val z k k) <= 4 * (H ^ 2 * B ^ 3)).
      assert (0 < / H) by (apply Rinv_0_lt_compat; lra).
      apply Rle_trans with (9 / 4 * (H * B * B) * / (3 / 4 * / H)).
      + apply Rmult_le_compat; [apply Rabs_pos|left; apply Rinv_0_lt_compat; lra|apply P3; lia|apply Rinv_le; lra].
      + replace (9 / 4 * (H * B * B) * / (3 / 4 * / H)) with (3 * (H * H * B * B)) by (field; lra). lra.
    - change (Rabs (val z k j) <= 15 / 4 * (H ^ 2 * B ^ 3)). pose proof (P3 k j ltac:(lia) ltac:(lia)). lra.
    - change (Rabs (val z i j) <= 15 / 4 * (H ^ 2 * B ^ 3)). pose proof (P3 i j ltac:(lia) ltac:(lia)). lra.
    - apply (eta_any n H B Hn HB HH hs); lra.
    - apply (up_any n H B Hn HB HH hs). lra.
    - split; [exact Y1|]. apply Rle_trans with (1 := Y2). unfold e. assert (0 < u * (H ^ 2 * B ^ 3)) by (apply Rmult_lt_0_compat; [exact u0|lra]). lra. }
  assert (Top : forall i j, (i <= k)%nat -> (j < n)%nat -> at2 AR z' i j = at2 AR z i j).
  { intros i j Hi Hj. rewrite E' by lia. unfold estep. now rewrite (proj2 (Nat.ltb_ge k i)) by lia. }
  split; [exact Rz'| |].
  - intros i j Hi Hj Hij. destruct (Nat.le_gt_cases i k) as [L|L].
    + rewrite Top by lia. apply Fz; lia.
    + apply Step1; lia.
  - rewrite Nat.add_1_r. apply (linv_next n (val m) H B e Hn HB HH le0 Hrow Hlead le_small k (val z) (val z') Hk I). split.
    + intros i j Hi Hj. now apply Step1.
    + intros i j Hi Hj. unfold val. now rewrite Top.
Qed.
Lemma l_run {V} (v : V) : forall k, (k <= n)%nat -> exists z,
  ret_fold (p_det_step AR (Bdiv mode_NE) (fl_is_zero prec emax) n v) (seq 0 k) m = inl z /\ LGood k z.
Proof.
  induction k as [|k IH]; intros Hk.
  - exists m. split; [reflexivity|]. split; [exact Hr| |].
    + intros i j Hi Hj _. now apply Hfin.
    + exact (linv_start n (val m) H B e Hn).
  - destruct (IH ltac:(lia)) as (z & E & G). rewrite seq_S, ret_fold_snoc, E. cbn [Nat.add].
    assert (Hz : fl_is_zero prec emax (at2 AR z k k) = false).
    { apply is_zero_false; [apply (lg_fin _ _ G); lia|]. apply (l_nz k z ltac:(lia) G). }
    destruct (det_step_fun AR (Bdiv mode_NE) (fl_is_zero prec emax) n v k z ltac:(lia) (lg_rect _ _ G) Hz) as (z' & E1 & R1 & E2).
    exists z'. split; [exact E1|]. rewrite <- Nat.add_1_r. exact (l_step k z z' ltac:(lia) G R1 E2).
Qed.
Variable h : Z.
Hypothesis Hh : (0 <= h)%Z.
Hypothesis Hhi : 3 * H * B ^ 2 <= b2 h.
Hypothesis Hnh : (Z.of_nat n * h <= emax - 2)%Z.
Lemma h_lo : b2 (- h) <= 3 / 4 * / H.
Proof.
  rewrite bpow_opp. replace (3 / 4 * / H) with (/ (4 / 3 * H)) by (field; lra). apply Rinv_le; [lra|]. apply Rle_trans with (2 := Hhi).
  assert (1 <= B ^ 2) by (apply pw; exact HB). nra.
Qed.
Lemma ldet_ok cof : let x := p_det_big AR (Bdiv mode_NE) (fl_is_zero prec emax) n m cof in
  fin x /\ rdet n (val m) <> 0 /\ Rabs (B2R x - rdet n (val m)) <= 542 * INR n ^ 3 * u * (H ^ 5 * B ^ 6) * Rabs (rdet n (val m)).
Proof.
  unfold p_det_big. cbv zeta.
  set (v := fold_left (fun acc i => a_add AR acc (a_mul AR (at2 AR m i 0) (cof (i, 0%nat)))) (seq 0 n) (a_zero AR)).
  destruct (l_run v n ltac:(lia)) as (z & E & G). unfold p_det_step in E. rewrite Nat.sub_0_r, E.
  pose proof (lg_inv _ _ G) as I.
  destruct (d_prod n Hn h Hh Hnh (fun i => at2 AR z i i)) with (k := n) as (F1 & _ & Q1); [|lia|].
  - intros i Hi. split; [apply (lg_fin _ _ G); lia|]. right. destruct (li_p _ _ _ _ _ _ _ I i Hi) as (_ & L1 & L2). unfold val in L1, L2.
    pose proof h_lo. split; [lra|]. apply Rle_trans with (1 := L2). apply Rle_trans with (2 := Hhi).
    replace (9 / 4 * (H * B * B)) with (9 / 4 * (H * B ^ 2)) by ring. assert (0 < H * B ^ 2) by (apply Rmult_lt_0_compat; [lra|apply pow_lt; lra]). lra.
  - split; [exact F1|]. destruct (linv_end n (val m) H B e Hn HB HH le0 Hrow Hlead (val z) I) as [Q0 Dn]. split; [exact Dn|].
    set (q := INR n ^ 3 * u * (H ^ 5 * B ^ 6)). pose proof (gn1 n Hn) as H4. pose proof u0 as Hu. pose proof HP as P0.
    assert (Hq : 600 * q <= 1) by (unfold q; lra).
    set (y := 9 * (H ^ 3 * B ^ 3 * (INR n * INR n * e))) in *.
    assert (Ey : INR n * y = 270 * q) by (unfold y, q, e; ring).
    assert (Hy : 0 <= y). { unfold y. pose proof le0. assert (0 <= H ^ 3 * B ^ 3 * (INR n * INR n * e)); [|lra]. repeat apply Rmult_le_pos; try apply pow_le; try apply pos_INR; lra. }
    assert (Hnq : 16 * (INR n * u) <= q).
    { unfold q. assert (0 < INR n ^ 3 * u) by (apply Rmult_lt_0_compat; [apply pow_lt; lra|exact Hu]). apply Rle_trans with (INR n ^ 3 * u * 1); [|apply Rmult_le_compat_l; lra].
      rewrite Rmult_1_r, <- Rmult_assoc. apply Rmult_le_compat_r; [lra|]. assert (16 <= INR n ^ 2) by nra. cbn [pow] in *. nra. }
    set (x := fold_left (fun acc i => a_mul AR acc (at2 AR z i i)) _ _) in *.
    assert (Q : rel ((1 + y) ^ n * (1 + u) ^ n) (rdet n (val m)) (B2R x)).
    { apply rel_trans with (rprod n (fun i => val z i i)); [|exact Q0|exact Q1]. apply pow_R1_Rle. lra. }
    unfold rel in Q. apply Rle_trans with (1 := Q). apply Rmult_le_compat_r; [apply Rabs_pos|].
    assert (P1 : (1 + y) ^ n <= 1 + 540 * q) by (pose proof (pow_up y n Hy ltac:(lra)); lra).
    assert (P2 : (1 + u) ^ n <= 1 + q / 8) by (pose proof (pow_up u n ltac:(lra) ltac:(lra)); lra).
    assert (P3 : 1 <= (1 + u) ^ n) by (apply pow_R1_Rle; lra).
    assert (P4 : (1 + y) ^ n * (1 + u) ^ n <= (1 + 540 * q) * (1 + q / 8)).
    { apply Rmult_le_compat; try lra. apply pow_le. lra. }
    replace (542 * INR n ^ 3 * u * (H ^ 5 * B ^ 6)) with (542 * q) by (unfold q; ring). assert (0 <= q) by nra. nra.
Qed.
End Run.
End Format.
