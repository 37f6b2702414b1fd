(** * DetFloat.v - determinant() of size n >= 4 in floating point (proofs only): the link from its
    loops to matrices as functions, and the rounding errors. *)
From Coq Require Import List Arith Bool Lia ZArith Reals Lra.
From Flocq Require Import Core BinarySingleNaN Relative Plus_error.
From Verif Require Import Rust Iter Elem VectorM MatIterM MatrixM ArithM OpsM SpecCommon SpecAlg FloatM SpecReal.
From Verif Require Import AccProofs Sim DetLoop OpsPure FloatErr PropsFloat PropsFloatErr PropsFloatInv GJReal GJFloat RDet DetReal.
Import ListNotations.

Section Link.
Context {T : Type} (A : arith T) (dv : T -> T -> T) (iz : T -> bool).
(** Entry (a,b) after the elimination below pivot [i]. *)
Definition estep (m : nat -> nat -> T) (i a b : nat) : T :=
  if i <? a then a_sub A (m a b) (a_mul A (m i b) (dv (m a i) (m i i))) else m a b.
Definition p_det_step {R} (n : nat) (v : R) (i : nat) (mat : list (list T)) : list (list T) + R :=
  ret_fold (fun j mat => if iz (at2 A mat i i) then inr v
    else inl (p_elim A n i j (dv (at2 A mat j i) (at2 A mat i i)) mat)) (seq (i + 1) (n - (i + 1))) mat.
Lemma det_step_fun {R} n (v : R) i m : i < n -> rect n n m -> iz (at2 A m i i) = false ->
  exists m', p_det_step n v i m = inl m' /\ rect n n m' /\ forall a b, a < n -> b < n -> at2 A m' a b = estep (at2 A m) i a b.
Proof.
  intros Hi Hr Hz. unfold p_det_step.
  assert (G : forall t, i + 1 + t <= n -> exists m', ret_fold (fun j mat => if iz (at2 A mat i i) then inr v
    else inl (p_elim A n i j (dv (at2 A mat j i) (at2 A mat i i)) mat)) (seq (i + 1) t) m = inl m' /\ rect n n m' /\
    forall a b, a < n -> b < n -> at2 A m' a b = if a <? i + 1 + t then estep (at2 A m) i a b else at2 A m a b).
  { induction t as [|t IH]; intros Ht.
    - exists m. split; [reflexivity|]. split; [exact Hr|]. intros a b Ha Hb. unfold estep. destruct (Nat.ltb_spec a (i + 1 + 0)); [|reflexivity].
      now rewrite (proj2 (Nat.ltb_ge i a)) by lia.
    - destruct (IH ltac:(lia)) as (m1 & E & R1 & H). rewrite seq_S, ret_fold_snoc, E.
      assert (Ei : forall b, b < n -> at2 A m1 i b = at2 A m i b).
      { intros b Hb. rewrite H by lia. unfold estep. rewrite (proj2 (Nat.ltb_ge i i)) by lia. now destruct (i <? i + 1 + t). }
      rewrite Ei, Hz by lia. eexists. split; [reflexivity|]. split; [apply mat_rect|]. intros a b Ha Hb. unfold p_elim. rewrite at2_mat by assumption.
      unfold f_elim. rewrite !Ei by lia. rewrite (H (i + 1 + t) i) by lia. rewrite (proj2 (Nat.ltb_ge (i + 1 + t) (i + 1 + t))) by lia.
      rewrite (H a b) by lia. unfold estep. destruct (Nat.eqb_spec a (i + 1 + t)) as [->|N].
      + rewrite (proj2 (Nat.ltb_ge (i + 1 + t) (i + 1 + t))), (proj2 (Nat.ltb_lt (i + 1 + t) (i + 1 + Datatypes.S t))), (proj2 (Nat.ltb_lt i (i + 1 + t))) by lia. reflexivity.
      + destruct (Nat.ltb_spec a (i + 1 + t)), (Nat.ltb_spec a (i + 1 + Datatypes.S t)); try lia; reflexivity. }
  destruct (G (n - (i + 1)) ltac:(lia)) as (m' & E & R' & H). exists m'. split; [exact E|]. split; [exact R'|].
  intros a b Ha Hb. rewrite H by assumption. now rewrite (proj2 (Nat.ltb_lt a (i + 1 + (n - (i + 1))))) by lia.
Qed.
End Link.

Local Open Scope R_scope.
Lemma pow_up x N : 0 <= x -> 2 * (INR N * x) <= 1 -> (1 + x) ^ N <= 1 + 2 * (INR N * x).
Proof.
  intros Hx H. assert (G : forall j, (j <= N)%nat -> (1 + x) ^ j <= 1 + 2 * (INR j * x)).
  { induction j as [|j IH]; intros Hj; [cbn; lra|]. cbn [pow]. rewrite S_INR. specialize (IH ltac:(lia)).
    assert (INR j <= INR N) by (apply le_INR; lia). assert (0 <= INR j) by apply pos_INR. assert (2 * INR j * x <= 1) by nra. nra. }
  now apply G.
Qed.
Lemma rel_mul q d x p : rel q d x -> rel q (d * p) (x * p).
Proof.
  unfold rel. intros H. replace (x * p - d * p) with ((x - d) * p) by ring. rewrite !Rabs_mult, <- Rmult_assoc.
  apply Rmult_le_compat_r; [apply Rabs_pos|exact H].
Qed.

Section Format.
Context {prec emax : Z} {Hgt : Prec_gt_0 prec} {Hlt : Prec_lt_emax prec emax} {OK : fmt_ok prec emax}.
Local Notation FL := (fl prec emax).
Local Notation AR := (fl_arith prec emax Hgt Hlt).
Local Notation u := (ur prec).
Local Notation fexp := (SpecFloat.fexp prec emax).
Local Notation rnd := (round radix2 fexp (round_mode mode_NE)).
Local Notation et := (@eta prec emax).
Ltac flia := pose proof (@ok_prec _ _ OK); pose proof (@ok_emax _ _ OK); lia.

(** One entry of an elimination step. *)
Section Elem.
Variables (p x y f : FL) (F : R).
Hypothesis Fx : fin x.
Hypothesis Fy : fin y.
Hypothesis Ff : fin f.
Hypothesis P0 : B2R p <> 0.
Hypothesis F1 : 1 <= F.
Hypothesis HQ : Rabs (B2R f / B2R p * B2R x) <= F.
Hypothesis HD : Rabs (B2R f / B2R p) <= b2 (emax - 4).
Hypothesis HX : Rabs (B2R x) <= F.
Hypothesis HY : Rabs (B2R y) <= F.
Hypothesis E1 : F * et <= u.
Hypothesis O1 : F <= b2 (emax - 4).
Let dd := Bdiv mode_NE f p.
Let yh := a_sub AR y (a_mul AR x dd).
Lemma elim_ok : fin yh /\ Rabs (B2R yh - (B2R y - B2R f / B2R p * B2R x)) <= 7 * u * F.
Proof.
  pose proof (@u_small prec emax OK) as Hu. pose proof (@u_pos prec) as Hu0. assert (He0 : 0 < et) by apply bpow_gt_0.
  assert (He1 : et <= u) by nra.
  assert (UF : u * F <= F / 1024) by nra. assert (UF1 : u <= u * F) by nra.
  destruct (fdiv_any f p (emax - 4) Ff P0 ltac:(flia) HD) as [D1 D2]. fold dd in D1, D2.
  set (r := B2R f / B2R p * B2R x).
  assert (Hr : Rabs r <= F) by exact HQ.
  assert (H1 : Rabs (B2R x * B2R dd - r) <= u * F + u).
  { rewrite D2. destruct (rnd_any (B2R f / B2R p)) as (e & h & He & Hh & ->).
    replace (B2R x * (B2R f / B2R p * (1 + e) + h) - r) with (r * e + B2R x * h) by (unfold r; ring).
    apply Rle_trans with (1 := Rabs_triang _ _). rewrite !Rabs_mult.
    assert (Rabs r * Rabs e <= F * u) by (apply Rmult_le_compat; auto using Rabs_pos).
    assert (Rabs (B2R x) * Rabs h <= F * et) by (apply Rmult_le_compat; auto using Rabs_pos). lra. }
  assert (H2 : Rabs (B2R x * B2R dd) <= 9 / 8 * F) by (pose proof (abs_tri _ _ _ _ H1 Hr); lra).
  destruct (fmul_any x dd (emax - 3)) as [M1 M2]; [exact Fx|exact D1|flia|apply up2; pose proof (bpow_ge_0 radix2 (emax - 4)); lra|].
  set (q := a_mul AR x dd) in *.
  pose proof (rnd_close _ _ _ H2 He1) as H3. rewrite <- M2 in H3. pose proof (abs_tri3 _ _ _ _ _ H3 H1) as H4.
  assert (H5 : Rabs (B2R q) <= 5 / 4 * F) by (pose proof (abs_tri _ _ _ _ H4 Hr); lra).
  destruct (fsub_spec y q (emax - 3)) as (G1 & _ & (e & He & G2) & _); [exact Fy|exact M1| | |flia|].
  - apply up2. pose proof (bpow_ge_0 radix2 (emax - 4)). lra.
  - apply up2. pose proof (bpow_ge_0 radix2 (emax - 4)). lra.
  - split; [exact G1|]. unfold yh. fold q. rewrite G2.
    assert (H6 : Rabs (B2R y - B2R q) <= 9 / 4 * F).
    { pose proof (Rabs_triang (B2R y) (- B2R q)) as H. rewrite Rabs_Ropp in H. unfold Rminus. lra. }
    assert (H7 : Rabs ((B2R y - B2R q) * (1 + e) - (B2R y - B2R q)) <= u * (9 / 4 * F)).
    { replace ((B2R y - B2R q) * (1 + e) - (B2R y - B2R q)) with (e * (B2R y - B2R q)) by ring. rewrite Rabs_mult.
      apply Rmult_le_compat; auto using Rabs_pos. }
    assert (H8 : Rabs ((B2R y - B2R q) - (B2R y - r)) <= u * (9 / 8 * F) + u + (u * F + u)).
    { rewrite Rabs_minus_sym. now replace (B2R y - r - (B2R y - B2R q)) with (B2R q - r) by ring. }
    pose proof (abs_tri3 _ _ _ _ _ H7 H8) as H9. apply Rle_trans with (1 := H9). lra.
Qed.
End Elem.

Section Run.
Variable n : nat.
Variable m : list (list FL).
Variables del B : R.
Hypothesis Hn : (4 <= n)%nat.
Hypothesis Hr : rect n n m.
Hypothesis Hfin : forall i j, (i < n)%nat -> (j < n)%nat -> fin (at2 AR m i j).
Hypothesis Hdel : 0 < del <= 1.
Hypothesis HB : 1 <= B.
Hypothesis Hsmall : 32 * INR n ^ 3 * u * B <= del.
Let val (z : list (list FL)) (i j : nat) : R := B2R (at2 AR z i j).
Hypothesis Hrow : forall i, (i < n)%nat -> rsum n (fun j => Rabs (val m i j)) <= B.
Hypothesis Hdom : forall i, (i < n)%nat -> rsum n (fun j => Rabs (val m i j)) + del <= 2 * Rabs (val m i i).
Let e := 10 * u * B.
Let u0 : 0 < u := @u_pos prec.
Lemma fourn : 4 <= INR n.
Proof. replace 4 with (INR 4) by (cbn; lra). now apply le_INR. Qed.
Lemma de0 : 0 <= e.
Proof. unfold e. pose proof u0. nra. Qed.
Lemma duB : 48 * (INR n * INR n) * u * B <= del.
Proof.
  apply Rle_trans with (2 := Hsmall). pose proof fourn. pose proof u0. assert (0 < u * B) by (apply Rmult_lt_0_compat; lra).
  replace (48 * (INR n * INR n) * u * B) with (48 * INR n ^ 2 * (u * B)) by ring. replace (32 * INR n ^ 3 * u * B) with (32 * INR n ^ 3 * (u * B)) by ring.
  apply Rmult_le_compat_r; [lra|]. nra.
Qed.
Lemma de_small : 3 * (INR n * INR n * e) <= del.
Proof.
  apply Rle_trans with (2 := duB). unfold e. pose proof fourn. pose proof u0. assert (0 < u * B) by (apply Rmult_lt_0_compat; lra). nra.
Qed.
Lemma n1 : (1 <= n)%nat.
Proof. lia. Qed.

Record DGood (k : nat) (z : list (list FL)) : Prop := {
  dg_rect : rect n n z;
  dg_fin : forall i j, (i < n)%nat -> (j < n)%nat -> (Nat.min i k <= j)%nat -> fin (at2 AR z i j);
  dg_inv : EInv n (val m) del B e k (val z) }.

Lemma d_step k z z' : (k < n)%nat -> DGood k z -> rect n n z' ->
  (forall a b, (a < n)%nat -> (b < n)%nat -> at2 AR z' a b = estep AR (Bdiv mode_NE) (at2 AR z) k a b) -> DGood (k + 1) z'.
Proof.
  intros Hk [Rz Fz I] Rz' E'. pose proof (proj1 Hdel) as Hd0.
  pose proof (e_pivot n (val m) del B e de0 de_small k (val z) I ltac:(lia) k Hk) as Pl.
  pose proof (e_nz n (val m) del B e Hd0 de0 de_small k (val z) I ltac:(lia) k Hk) as Pn.
  assert (Hb : forall i j, (i < n)%nat -> (j < n)%nat -> (Nat.min i k <= j)%nat -> Rabs (B2R (at2 AR z i j)) <= 4 / 3 * B).
  { intros i j Hi Hj Hij. pose proof (e_bound n (val m) del B e de0 de_small k (val z) I ltac:(lia) i j Hi Hj Hij) as H. unfold val in H. lra. }
  assert (Step1 : forall i j, (k < i < n)%nat -> (k < j < n)%nat ->
    fin (at2 AR z' i j) /\ Rabs (val z' i j - (val z i j - val z i k / val z k k * val z k j)) <= e).
  { intros i j Hi Hj. unfold val at 1. rewrite (E' i j) by lia. unfold estep. rewrite (proj2 (Nat.ltb_lt k i)) by lia.
    destruct (elim_ok (at2 AR z k k) (at2 AR z k j) (at2 AR z i j) (at2 AR z i k) (4 / 3 * B)) as [Y1 Y2].
    - apply Fz; lia.
    - apply Fz; lia.
    - apply Fz; lia.
    - exact Pn.
    - lra.
    - pose proof (e_big n (val m) del B e Hd0 de0 de_small k (val z) I ltac:(lia) k j Hk ltac:(lia) ltac:(lia)) as H. unfold val in H, Pn.
      replace (B2R (at2 AR z i k) / B2R (at2 AR z k k) * B2R (at2 AR z k j)) with (B2R (at2 AR z i k) * (B2R (at2 AR z k j) / B2R (at2 AR z k k))) by (field; exact Pn).
      rewrite Rabs_mult, <- (Rmult_1_r (4 / 3 * B)). apply Rmult_le_compat; auto using Rabs_pos; [apply Hb; lia|].
      unfold Rdiv. rewrite Rabs_mult, Rabs_Rinv by exact Pn. apply Rmult_le_reg_r with (Rabs (B2R (at2 AR z k k))); [now apply Rabs_pos_lt|].
      rewrite Rmult_assoc, Rinv_l by (now apply Rabs_no_R0). lra.
    - unfold val in Pn, Pl. unfold Rdiv. rewrite Rabs_mult, Rabs_Rinv by exact Pn.
      apply Rle_trans with (b2 (prec + 2)); [|apply bpow_le; flia]. replace (prec + 2)%Z with (prec + 1 + 1)%Z by lia. rewrite bpow_plus. change (b2 1) with 2.
      pose proof (Bd_up n del B n1 Hdel HB duB). pose proof (bpow_gt_0 radix2 (prec + 1)).
      apply Rle_trans with (4 / 3 * B * / (2 / 3 * del)).
      + apply Rmult_le_compat; [apply Rabs_pos|left; apply Rinv_0_lt_compat; now apply Rabs_pos_lt|apply Hb; lia|apply Rinv_le; lra].
      + replace (4 / 3 * B * / (2 / 3 * del)) with (B * (2 / del)) by (field; lra). lra.
    - apply Hb; lia.
    - apply Hb; lia.
    - exact (eta_B n del B n1 Hdel HB duB).
    - apply Rle_trans with (b2 (prec + 1)); [|apply bpow_le; flia]. rewrite bpow_plus. change (b2 1) with 2.
      pose proof (B_up n del B n1 Hdel HB duB). lra.
    - split; [exact Y1|]. apply Rle_trans with (1 := Y2). unfold e. assert (0 < u * B) by (apply Rmult_lt_0_compat; [exact u0|lra]). lra. }
  assert (Top : forall i j, (i <= k)%nat -> (j < n)%nat -> at2 AR z' i j = at2 AR z i j).
  { intros i j Hi Hj. rewrite E' by lia. unfold estep. now rewrite (proj2 (Nat.ltb_ge k i)) by lia. }
  split; [exact Rz'| |].
  - intros i j Hi Hj Hij. destruct (Nat.le_gt_cases i k) as [L|L].
    + rewrite Top by lia. apply Fz; lia.
    + apply Step1; lia.
  - rewrite Nat.add_1_r. apply (einv_next n (val m) del B e Hd0 de0 de_small k (val z) (val z') I Hk). split.
    + intros i j Hi Hj. now apply Step1.
    + intros i j Hi Hj. unfold val. now rewrite Top.
Qed.
Lemma d_run {V} (v : V) : forall k, (k <= n)%nat -> exists z,
  ret_fold (p_det_step AR (Bdiv mode_NE) (fl_is_zero prec emax) n v) (seq 0 k) m = inl z /\ DGood k z.
Proof.
  induction k as [|k IH]; intros Hk.
  - exists m. split; [reflexivity|]. split; [exact Hr| |].
    + intros i j Hi Hj _. now apply Hfin.
    + exact (einv_start n (val m) del B e Hrow Hdom).
  - destruct (IH ltac:(lia)) as (z & E & G). rewrite seq_S, ret_fold_snoc, E. cbn [Nat.add].
    assert (Hz : fl_is_zero prec emax (at2 AR z k k) = false).
    { apply is_zero_false; [apply (dg_fin _ _ G); lia|].
      exact (e_nz n (val m) del B e (proj1 Hdel) de0 de_small k (val z) (dg_inv _ _ G) ltac:(lia) k ltac:(lia)). }
    destruct (det_step_fun AR (Bdiv mode_NE) (fl_is_zero prec emax) n v k z ltac:(lia) (dg_rect _ _ G) Hz) as (z' & E1 & R1 & E2).
    exists z'. split; [exact E1|]. rewrite <- Nat.add_1_r. exact (d_step k z z' ltac:(lia) G R1 E2).
Qed.

(** ** The product of the pivots *)
Variable h : Z.
Hypothesis Hh : (0 <= h)%Z.
Hypothesis Hlo : b2 (- h) <= del / 2.
Hypothesis Hhi : 2 * B <= b2 h.
Hypothesis Hnh : (Z.of_nat n * h <= emax - 2)%Z.
Lemma d_prod (p : nat -> FL) : (forall i, (i < n)%nat -> fin (p i) /\ rng (- h) h (B2R (p i))) -> forall k, (k <= n)%nat ->
  let x := fold_left (fun acc i => a_mul AR acc (p i)) (seq 0 k) (a_one AR) in
  fin x /\ rng (- (Z.of_nat k * h)) (Z.of_nat k * h) (B2R x) /\ rel ((1 + u) ^ k) (rprod k (fun i => B2R (p i))) (B2R x).
Proof.
  intros Hp. induction k as [|k IH]; intros Hk.
  - cbn [seq fold_left rprod pow]. destruct (@fone prec emax Hgt Hlt) as [F1 F2]. split; [exact F1|]. rewrite F2. split; [|apply rel_refl].
    right. rewrite Rabs_R1. cbn [Z.of_nat Z.mul Z.opp]. change (b2 0) with 1. lra.
  - destruct (IH ltac:(lia)) as (F1 & R1 & Q1). rewrite seq_S, fold_left_app. cbn [fold_left Nat.add].
    set (x := fold_left _ (seq 0 k) _) in *. destruct (Hp k ltac:(lia)) as [F2 R2].
    destruct (fmul_spec x (p k) _ _ _ _ F1 F2 R1 R2) as (G1 & G2 & (ee & He & G3)); [nia|nia|nia|].
    split; [exact G1|]. split.
    + apply (rng_weaken _ _ _ _ _ G2); lia.
    + cbn [rprod pow]. rewrite Rmult_comm. apply rel_trans with (B2R x * B2R (p k)); [pose proof u0; lra|now apply rel_mul|].
      unfold rel. rewrite G3. replace (B2R x * B2R (p k) * (1 + ee) - B2R x * B2R (p k)) with (ee * (B2R x * B2R (p k))) by ring.
      rewrite Rabs_mult. apply Rmult_le_compat_r; [apply Rabs_pos|lra].
Qed.
Lemma det_ok cof : let x := p_det_big AR (Bdiv mode_NE) (fl_is_zero prec emax) n m cof in
  fin x /\ rdet n (val m) <> 0 /\ Rabs (B2R x - rdet n (val m)) <= 31 * INR n ^ 3 * u * (B / del) * Rabs (rdet n (val m)).
Proof.
  unfold p_det_big. cbv zeta.
  set (v := fold_left (fun acc i => a_add AR acc (a_mul AR (at2 AR m i 0) (cof (i, 0%nat)))) (seq 0 n) (a_zero AR)).
  destruct (d_run v n ltac:(lia)) as (z & E & G). unfold p_det_step in E. rewrite Nat.sub_0_r, E.
  pose proof (dg_inv _ _ G) as I.
  destruct (d_prod (fun i => at2 AR z i i)) with (k := n) as (F1 & _ & Q1); [|lia|].
  - intros i Hi. split; [apply (dg_fin _ _ G); lia|]. right.
    pose proof (e_pivot n (val m) del B e de0 de_small n (val z) I ltac:(lia) i Hi) as Pl.
    pose proof (e_bound n (val m) del B e de0 de_small n (val z) I ltac:(lia) i i Hi Hi ltac:(lia)) as Pu. unfold val in Pl, Pu. lra.
  - split; [exact F1|]. pose proof (einv_end n (val m) del B e (val z) I) as Q0.
    set (g := grow n del e) in *. set (x := fold_left (fun acc i => a_mul AR acc (at2 AR z i i)) _ _) in *.
    assert (Q : rel (g ^ (n * n) * (1 + u) ^ n) (rdet n (val m)) (B2R x)).
    { apply rel_trans with (rprod n (fun i => val z i i)); [|exact Q0|exact Q1]. apply pow_R1_Rle. pose proof u0. lra. }
    split.
    { intros Z. pose proof (rel_abs _ _ _ Q0) as H. rewrite Z, Rabs_R0, Rmult_0_r in H.
      assert (Hp : forall k, (k <= n)%nat -> rprod k (fun i => val z i i) <> 0).
      { induction k as [|k IH]; intros Hk; cbn [rprod]; [lra|]. apply Rmult_integral_contrapositive_currified; [apply IH; lia|].
        exact (e_nz n (val m) del B e (proj1 Hdel) de0 de_small n (val z) I ltac:(lia) k ltac:(lia)). }
      pose proof (Rabs_pos_lt _ (Hp n ltac:(lia))). lra. }
    unfold rel in Q. apply Rle_trans with (1 := Q). apply Rmult_le_compat_r; [apply Rabs_pos|].
    pose proof fourn as H4. pose proof u0 as Hu. set (q := INR n ^ 3 * u * (B / del)).
    assert (D1 : 1 <= B / del). { apply Rmult_le_reg_r with del; [lra|]. replace (B / del * del) with B by (field; lra). lra. }
    assert (Hq : 32 * q <= 1).
    { unfold q. apply Rmult_le_reg_r with del; [lra|]. replace (32 * (INR n ^ 3 * u * (B / del)) * del) with (32 * INR n ^ 3 * u * B) by (field; lra). lra. }
    assert (Hnq : 16 * (INR n * u) <= q).
    { unfold q. assert (0 < INR n ^ 3 * u) by (apply Rmult_lt_0_compat; [apply pow_lt; lra|exact Hu]). apply Rle_trans with (INR n ^ 3 * u * 1); [|apply Rmult_le_compat_l; lra].
      rewrite Rmult_1_r, <- Rmult_assoc. apply Rmult_le_compat_r; [lra|]. assert (16 <= INR n ^ 2) by nra. cbn [pow] in *. nra. }
    assert (P1 : g ^ (n * n) <= 1 + 30 * q).
    { unfold g, grow. set (y := INR n * e / (2 / 3 * del)).
      assert (Ey : INR (n * n) * y = 15 * q). { rewrite mult_INR. unfold y, q, e. field. lra. }
      assert (0 <= y). { unfold y. apply Rmult_le_pos; [apply Rmult_le_pos; [lra|apply de0]|]. left. apply Rinv_0_lt_compat. lra. }
      pose proof (pow_up y (n * n) H ltac:(lra)). lra. }
    assert (P2 : (1 + u) ^ n <= 1 + q / 8).
    { pose proof (pow_up u n ltac:(lra) ltac:(lra)). lra. }
    assert (P3 : 1 <= (1 + u) ^ n) by (apply pow_R1_Rle; lra).
    assert (P4 : g ^ (n * n) * (1 + u) ^ n <= (1 + 30 * q) * (1 + q / 8)).
    { apply Rmult_le_compat; try lra. apply pow_le. unfold g, grow. pose proof (grow_1 n del e (proj1 Hdel) de0). unfold grow in *. lra. }
    replace (31 * INR n ^ 3 * u * (B / del)) with (31 * q) by (unfold q; ring). nra.
Qed.
End Run.
End Format.
