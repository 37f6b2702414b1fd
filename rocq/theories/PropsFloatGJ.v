(** * PropsFloatGJ.v - C75: floating-point inverses of size four and more.  The matrix is
    diagonally dominant by rows; no pivoting is then needed, and the computed inverse is close
    to the exact one. *)
From Coq Require Import List Arith Bool Lia ZArith Reals Lra.
From Flocq Require Import Core BinarySingleNaN Relative Plus_error.
From Verif Require Import Rust Iter Elem VectorM MatIterM MatrixM ArithM OpsM SpecCommon SpecAlg FloatM SpecReal.
From Verif Require Import Harness AccProofs Sim PropsAlg DetLoop OpsPure FloatErr PropsFloat PropsFloatErr PropsFloatInv GJReal GJFloat.
Import ListNotations.
Local Open Scope R_scope.

Lemma p_inverse_big {T} (A : arith T) dv iz n m : (4 <= n)%nat -> p_inverse A dv iz n m = p_inv_big A dv iz n m.
Proof. intros H. destruct n as [|[|[|[|k]]]]; try lia; reflexivity. Qed.
Lemma dominant_sum n del A : dominant n del A -> forall i, (i < n)%nat -> rsum n (fun j => Rabs (A i j)) + del <= 2 * Rabs (A i i).
Proof.
  intros H i Hi. specialize (H i Hi). rewrite rsum_upd in H by exact Hi. lra.
Qed.

Section Format.
Context {prec emax : Z} {Hgt : Prec_gt_0 prec} {Hlt : Prec_lt_emax prec emax} {OK : fmt_ok prec emax}.
Local Notation FL := (fl prec emax).
Local Notation AR := (fl_arith prec emax Hgt Hlt).
Local Notation OP := (fl_ops prec emax Hgt Hlt).
Local Notation u := (ur prec).
Local Notation ep := (b2 (1 - prec)).
Ltac flia := pose proof (@ok_prec _ _ OK); pose proof (@ok_emax _ _ OK); lia.

(** A floating-point inner product, underflow included. *)
Lemma prod_any (x y : FL) hi : fin x -> fin y -> (0 <= hi <= emax - 2)%Z -> Rabs (B2R x * B2R y) <= b2 hi ->
  let z := a_mul AR x y in
  fin z /\ Rabs (B2R z) <= b2 hi /\ apr prec 1 (Rabs (B2R x * B2R y) + b2 (2 - emax)) (B2R x * B2R y) (B2R z).
Proof.
  intros Fx Fy Hh H z. destruct (fmul_any x y hi Fx Fy ltac:(lia) H) as [Fz Ez]. split; [exact Fz|]. unfold z. rewrite Ez. split.
  - apply rnd_le; [flia|exact H].
  - pose proof (bpow_gt_0 radix2 (2 - emax)). split; [|lra].
    apply Rle_trans with (1 := rnd_close _ _ _ (Rle_refl _) (Rle_refl (@eta prec emax))). right. unfold Pr. rewrite pow_1.
    unfold eta, ur. replace (2 - emax - prec)%Z with (- prec + (2 - emax))%Z by lia. rewrite bpow_plus. ring.
Qed.
Lemma dot_any n (f g : nat -> FL) hi : (Z.of_nat n <= 2 ^ (prec - 3))%Z -> (0 <= hi /\ hi + prec <= emax)%Z ->
  (forall k, (k < n)%nat -> fin (f k) /\ fin (g k) /\ Rabs (B2R (f k) * B2R (g k)) <= b2 hi) ->
  let z := sum AR n (fun k => a_mul AR (f k) (g k)) in
  fin z /\ Rabs (B2R z - rsum n (fun k => B2R (f k) * B2R (g k))) <=
    INR (n + 1) * ep * (rsum n (fun k => Rabs (B2R (f k) * B2R (g k))) + INR n * b2 (2 - emax)).
Proof.
  intros Hn Hh H z.
  destruct (fsum_ap n (fun k => a_mul AR (f k) (g k)) (fun k => B2R (f k) * B2R (g k)) (fun k => Rabs (B2R (f k) * B2R (g k)) + b2 (2 - emax)) 1 hi Hn) as (F & A & _).
  - flia.
  - intros i Hi. destruct (H i Hi) as (Hf & Hg & Hb). apply prod_any; auto. flia.
  - split; [exact F|]. rewrite rsum_plus, rsum_const in A. apply ap_err; [exact Hn|lia|]. replace (n + 1)%nat with (1 + n)%nat by lia. exact A.
Qed.

Section Dominant.
Variables (n : nat) (m : list (list FL)) (del B : R).
Hypothesis Hn : (4 <= n)%nat.
Hypothesis Hr : rect n n m.
Hypothesis Hf : Forall (Forall (fun x => is_finite x = true)) m.
Hypothesis Hdel : 0 < del <= 1.
Hypothesis HB : 1 <= B.
Hypothesis Hrow : forall i, (i < n)%nat -> rsum n (fun j => Rabs (rat2 m i j)) <= B.
Hypothesis Hdom : dominant n del (rat2 m).
Hypothesis Hsmall : 24 * INR n ^ 2 * ep * B <= del.
Lemma n4 : 4 <= INR n.
Proof. replace 4 with (INR 4) by (cbn; lra). now apply le_INR. Qed.
Lemma g_inverse : exists y, p_inverse AR (Bdiv mode_NE) (fl_is_zero prec emax) n m = Some y /\ rect n n y /\
  (forall i j, (i < n)%nat -> (j < n)%nat -> fin (at2 AR y i j) /\ Rabs (rat2 y i j) <= 3 / del) /\
  forall i j, (i < n)%nat -> (j < n)%nat ->
    Rabs (rsum n (fun k => rat2 m i k * rat2 y k j) - dl i j) <= 80 * INR n ^ 2 * ep * (B ^ 2 / del).
Proof.
  assert (Hs : 48 * (INR n * INR n) * u * B <= del).
  { apply Rle_trans with (2 := Hsmall). right. rewrite u_double. ring. }
  destruct (inv_ok n m del B ltac:(lia) (fun i j Hi Hj => at2_P _ n n m i j Hr Hf Hi Hj) Hdel HB Hs Hrow (dominant_sum n del _ Hdom))
    as (y & E & Ry & H).
  exists y. split; [|split; [exact Ry|split]].
  - now rewrite p_inverse_big by exact Hn.
  - intros i j Hi Hj. destruct (H i j Hi Hj) as (F1 & F2 & _). split; [exact F1|exact F2].
  - intros i j Hi Hj. destruct (H i j Hi Hj) as (_ & _ & F3). apply Rle_trans with (1 := F3). rewrite u_double. pose proof n4.
    pose proof (@u_pos prec). assert (0 < / del) by (apply Rinv_0_lt_compat; lra).
    replace ((9 * INR n + 6) * (INR n * (B * (15 * u * B))) / del) with (15 * (9 * INR n + 6) * INR n * (u * (B ^ 2 / del))) by (field; lra).
    replace (80 * INR n ^ 2 * (2 * u) * (B ^ 2 / del)) with (160 * INR n ^ 2 * (u * (B ^ 2 / del))) by ring.
    apply Rmult_le_compat_r; [|nra]. unfold Rdiv. repeat apply Rmult_le_pos; lra.
Qed.
Lemma n_small : (Z.of_nat n <= 2 ^ (prec - 3))%Z.
Proof.
  pose proof n4 as H4. pose proof (bpow_gt_0 radix2 (1 - prec)) as He.
  assert (H : INR n * ep <= / 24).
  { assert (24 * INR n ^ 2 * ep <= 1) by (pose proof (Rmult_le_compat_l (24 * INR n ^ 2 * ep) 1 B ltac:(nra) HB); lra). nra. }
  apply le_IZR. rewrite <- INR_IZR_INZ. change 2%Z with (radix_val radix2). rewrite IZR_Zpower by flia.
  apply Rmult_le_reg_r with ep; [exact He|]. rewrite <- bpow_plus. replace (prec - 3 + (1 - prec))%Z with (-2)%Z by lia.
  replace (b2 (-2)) with (/ 4) by (cbn; lra). lra.
Qed.
Lemma Bdel : 24 * (B / del) <= b2 (prec - 1).
Proof.
  pose proof (bpow_gt_0 radix2 (1 - prec)) as He. apply Rmult_le_reg_r with (ep * del); [nra|].
  replace (b2 (prec - 1) * (ep * del)) with (b2 (prec - 1) * ep * del) by ring.
  rewrite <- bpow_plus. replace (prec - 1 + (1 - prec))%Z with 0%Z by lia. change (b2 0) with 1.
  replace (24 * (B / del) * (ep * del)) with (24 * (ep * B)) by (field; lra). pose proof n4. assert (1 <= INR n ^ 2) by nra.
  pose proof (Rmult_lt_0_compat _ _ He (Rlt_le_trans 0 1 B ltac:(lra) HB)). nra.
Qed.
Lemma g_product (y : list (list FL)) : (forall i j, (i < n)%nat -> (j < n)%nat -> fin (at2 AR y i j) /\ Rabs (rat2 y i j) <= 3 / del) ->
  forall i j, (i < n)%nat -> (j < n)%nat ->
  let z := sum AR n (fun k => a_mul AR (at2 AR m i k) (at2 AR y k j)) in
  fin z /\ Rabs (B2R z - rsum n (fun k => rat2 m i k * rat2 y k j)) <= 2 * INR n ^ 2 * ep * (B ^ 2 / del).
Proof.
  intros Hy i j Hi Hj z.
  assert (D1 : 1 <= B / del).
  { apply Rmult_le_reg_r with del; [lra|]. replace (B / del * del) with B by (field; lra). lra. }
  assert (Hb : forall k, (k < n)%nat -> Rabs (rat2 m i k * rat2 y k j) <= Rabs (rat2 m i k) * (3 / del)).
  { intros k Hk. rewrite Rabs_mult. apply Rmult_le_compat_l; [apply Rabs_pos|]. now apply Hy. }
  destruct (dot_any n (fun k => at2 AR m i k) (fun k => at2 AR y k j) prec n_small) as [F1 F2].
  - flia.
  - intros k Hk. split; [exact (at2_P _ n n m i k Hr Hf Hi Hk)|]. split; [now apply Hy|].
    apply Rle_trans with (1 := Hb k Hk). apply Rle_trans with (b2 (prec - 1)); [|apply bpow_le; lia].
    apply Rle_trans with (B * (3 / del)).
    + apply Rmult_le_compat_r; [left; apply Rdiv_lt_0_compat; lra|]. apply Rle_trans with (2 := Hrow i Hi).
      apply (rsum_term n (fun j => Rabs (rat2 m i j))); [intros; apply Rabs_pos|exact Hk].
    + pose proof Bdel. replace (B * (3 / del)) with (3 * (B / del)) by (field; lra). lra.
  - split; [exact F1|]. apply Rle_trans with (1 := F2). pose proof n4 as H4. pose proof (bpow_gt_0 radix2 (1 - prec)) as He.
    change (rsum n (fun k => Rabs (B2R (at2 AR m i k) * B2R (at2 AR y k j)))) with (rsum n (fun k => Rabs (rat2 m i k * rat2 y k j))).
    assert (S1 : rsum n (fun k => Rabs (rat2 m i k * rat2 y k j)) <= 3 * (B / del)).
    { apply Rle_trans with (rsum n (fun k => Rabs (rat2 m i k) * (3 / del))); [now apply rsum_le|]. rewrite rsum_scal_r.
      replace (3 * (B / del)) with (B * (3 / del)) by (field; lra). apply Rmult_le_compat_r; [left; apply Rdiv_lt_0_compat; lra|now apply Hrow]. }
    assert (S2 : INR n * b2 (2 - emax) <= 1).
    { apply Rle_trans with (b2 (prec - 3) * b2 (2 - emax)).
      - apply Rmult_le_compat_r; [apply bpow_ge_0|]. rewrite INR_IZR_INZ. rewrite <- IZR_Zpower by flia. apply IZR_le, n_small.
      - rewrite <- bpow_plus. apply (bpow_le radix2 _ 0). flia. }
    assert (D2 : B / del <= B ^ 2 / del).
    { unfold Rdiv. apply Rmult_le_compat_r; [left; apply Rinv_0_lt_compat; lra|]. nra. }
    apply Rle_trans with (INR (n + 1) * ep * (4 * (B ^ 2 / del))).
    + apply Rmult_le_compat_l; [apply Rmult_le_pos; [apply pos_INR|lra]|]. lra.
    + rewrite plus_INR. cbn [INR]. replace ((INR n + 1) * ep * (4 * (B ^ 2 / del))) with (4 * (INR n + 1) * (ep * (B ^ 2 / del))) by ring.
      replace (2 * INR n ^ 2 * ep * (B ^ 2 / del)) with (2 * INR n ^ 2 * (ep * (B ^ 2 / del))) by ring.
      apply Rmult_le_compat_r; [|nra]. apply Rmult_le_pos; lra.
Qed.
Lemma g_exact (y : list (list FL)) : (forall i j, (i < n)%nat -> (j < n)%nat ->
    Rabs (rsum n (fun k => rat2 m i k * rat2 y k j) - dl i j) <= 80 * INR n ^ 2 * ep * (B ^ 2 / del)) ->
  exists X, real_inverse n (rat2 m) X /\
  forall i j, (i < n)%nat -> (j < n)%nat -> Rabs (rat2 y i j - X i j) <= 80 * INR n ^ 2 * ep * (B / del) ^ 2.
Proof.
  intros H. pose proof (dom_inverse_1 n (rat2 m) del (proj1 Hdel) (dominant_sum _ _ _ Hdom) B (proj2 Hdel) HB Hrow) as I.
  eexists. split; [exact I|]. set (X := snd _) in *. intros i j Hi Hj.
  replace (80 * INR n ^ 2 * ep * (B / del) ^ 2) with (80 * INR n ^ 2 * ep * (B ^ 2 / del) / del) by (field; lra).
  refine (dom_bound n (rat2 m) del (proj1 Hdel) (dominant_sum _ _ _ Hdom) (fun i => rat2 y i j - X i j) _ _ i Hi).
  intros a Ha. rewrite (rsum_ext n _ (fun k => rat2 m a k * rat2 y k j - rat2 m a k * X k j)) by (intros; ring).
  rewrite rsum_minus. rewrite (proj1 (I a j Ha Hj)). now apply H.
Qed.
End Dominant.
End Format.

(** ** C75 *)
(** [inverse()] of a float matrix of size n >= 4 that is diagonally dominant by rows with margin
    [del], with row sums of absolute values at most [B]: it returns [Some y], no entry of [y]
    overflows, the matrix is invertible over the reals, and [y] is within
    80 n^2 epsilon (B/del)^2 of the exact inverse.  Required: 24 n^2 epsilon B <= del. *)
Theorem C75_inverse : forall (t : float_type) S (c : cfg) (d : ety S (float t)) (n : nat) m (s : S) (del B : R),
  (4 <= n)%nat -> rect n n m -> Forall (Forall (fun x => is_finite x = true)) m ->
  0 < del <= 1 -> 1 <= B -> (forall i, (i < n)%nat -> rsum n (fun j => Rabs (rat2 m i j)) <= B) -> dominant n del (rat2 m) ->
  24 * INR n ^ 2 * epsilon t * B <= del ->
  exists y X, inverse c d (float_ops t) n m s = (Ok (Some y), s) /\ rect n n y /\ real_inverse n (rat2 m) X /\
  forall i j, (i < n)%nat -> (j < n)%nat ->
  is_finite (at2 (float_arith t) y i j) = true /\ Rabs (rat2 y i j - X i j) <= 80 * INR n ^ 2 * epsilon t * (B / del) ^ 2.
Proof.
  intros t S c d n m s del B Hn R Hf Hd HB Hrow Hdom Hs.
  destruct (g_inverse n m del B Hn R Hf Hd HB Hrow Hdom Hs) as (y & E & Ry & Hy & Hres).
  destruct (g_exact n m del B Hd HB Hrow Hdom y Hres) as (X & HX & Herr).
  exists y, X. split; [|split; [exact Ry|split; [exact HX|]]].
  - refine (eq_trans (inverse_p (float_arith t) (Bdiv mode_NE) (fl_is_zero (fprec t) (femax t)) c d (float_ops t)
      (proj1 (fl_exact (fprec t) (femax t) _ _)) (proj2 (fl_exact (fprec t) (femax t) _ _)) (fun _ => eq_refl) n m s _ R) (f_equal (fun o => (Ok o, s)) E)). lia.
  - intros i j Hi Hj. split; [now apply Hy|now apply Herr].
Qed.
Print Assumptions C75_inverse.

(** The residual, over the reals and as computed with the crate's product. *)
Theorem C75_residual : forall (t : float_type) S (c : cfg) (d : ety S (float t)) (n : nat) m (s : S) (del B : R),
  (4 <= n < W c)%nat -> rect n n m -> Forall (Forall (fun x => is_finite x = true)) m ->
  0 < del <= 1 -> 1 <= B -> (forall i, (i < n)%nat -> rsum n (fun j => Rabs (rat2 m i j)) <= B) -> dominant n del (rat2 m) ->
  24 * INR n ^ 2 * epsilon t * B <= del ->
  exists y p, inverse c d (float_ops t) n m s = (Ok (Some y), s) /\ mmul_rr c d (float_ops t) n n n m y s = (Ok p, s) /\
  forall i j, (i < n)%nat -> (j < n)%nat ->
  is_finite (at2 (float_arith t) p i j) = true /\
  Rabs (rsum n (fun k => rat2 m i k * rat2 y k j) - (if (i =? j)%nat then 1 else 0)) <= 80 * INR n ^ 2 * epsilon t * (B ^ 2 / del) /\
  Rabs (rat2 p i j - (if (i =? j)%nat then 1 else 0)) <= 82 * INR n ^ 2 * epsilon t * (B ^ 2 / del).
Proof.
  intros t S c d n m s del B [Hn HW] R Hf Hd HB Hrow Hdom Hs.
  destruct (g_inverse n m del B Hn R Hf Hd HB Hrow Hdom Hs) as (y & E & Ry & Hy & Hres).
  exists y, (m_mul (float_arith t) n n n m y). split; [|split].
  - refine (eq_trans (inverse_p (float_arith t) (Bdiv mode_NE) (fl_is_zero (fprec t) (femax t)) c d (float_ops t)
      (proj1 (fl_exact (fprec t) (femax t) _ _)) (proj2 (fl_exact (fprec t) (femax t) _ _)) (fun _ => eq_refl) n m s _ R) (f_equal (fun o => (Ok o, s)) E)). lia.
  - exact (sim_eqm _ _ (sim_mmul_rr false eq c d (float_ops t) (float_arith t) (exact_sim_semi _ _ (ex_semi _ _ (proj1 (fl_exact (fprec t) (femax t) _ _)))) n n n m y m y
      (Forall2_eq2 _) (Forall2_eq2 _) R Ry ltac:(lia) ltac:(lia) ltac:(lia)) s).
  - intros i j Hi Hj. pose proof (Hres i j Hi Hj) as H1. unfold dl in H1.
    destruct (g_product n m del B Hn R Hf Hd HB Hrow Hs y Hy i j Hi Hj) as [F H2]. cbv zeta in F, H2.
    assert (E2 : at2 (float_arith t) (m_mul (float_arith t) n n n m y) i j =
      sum (float_arith t) n (fun k => a_mul (float_arith t) (at2 (float_arith t) m i k) (at2 (float_arith t) y k j))).
    { unfold m_mul. assert (G : forall a b f i j, (i < a)%nat -> (j < b)%nat -> at2 (float_arith t) (mat a b f) i j = f i j).
      { intros a b f i0 j0 Ha Hb. pose proof (entry_mat a b f i0 j0 Ha Hb) as E0. unfold entry in E0. unfold at2.
        destruct (nth_error (mat a b f) i0) as [r|] eqn:Er; [|discriminate]. rewrite (nth_error_nth _ _ _ Er). now apply nth_error_nth. }
      now rewrite G. }
    change (rat2 (m_mul (float_arith t) n n n m y) i j) with (B2R (at2 (float_arith t) (m_mul (float_arith t) n n n m y) i j)).
    rewrite E2. split; [exact F|]. split; [exact H1|].
    pose proof (abs_tri3 _ _ _ _ _ H2 H1) as H3. apply Rle_trans with (1 := H3). right. unfold epsilon. ring.
Qed.
Print Assumptions C75_residual.

(** C66 for every size n >= 4, on dominant matrices: the computed product with the computed
    inverse is within 82 n^2 epsilon B^2/del of the identity. *)
Corollary C66_dominant_partial : forall (t : float_type) S (c : cfg) (d : ety S (float t)) (n : nat) m (s : S) (del B : R),
  (4 <= n < W c)%nat -> rect n n m -> Forall (Forall (fun x => is_finite x = true)) m ->
  0 < del <= 1 -> 1 <= B -> (forall i, (i < n)%nat -> rsum n (fun j => Rabs (rat2 m i j)) <= B) -> dominant n del (rat2 m) ->
  24 * INR n ^ 2 * epsilon t * B <= del ->
  exists y p, inverse c d (float_ops t) n m s = (Ok (Some y), s) /\ mmul_rr c d (float_ops t) n n n m y s = (Ok p, s) /\
  forall i j, (i < n)%nat -> (j < n)%nat ->
  is_finite (at2 (float_arith t) p i j) = true /\
  Rabs (rat2 p i j - (if (i =? j)%nat then 1 else 0)) <= 82 * INR n ^ 2 * epsilon t * (B ^ 2 / del).
Proof.
  intros t S c d n m s del B Hn R Hf Hd HB Hrow Hdom Hs.
  destruct (C75_residual t S c d n m s del B Hn R Hf Hd HB Hrow Hdom Hs) as (y & p & H1 & H2 & H3).
  exists y, p. split; [exact H1|]. split; [exact H2|]. intros i j Hi Hj. destruct (H3 i j Hi Hj) as (F & _ & H). auto.
Qed.
Print Assumptions C66_dominant_partial.

(** ** A concrete instance *)
(** The 4 x 4 matrix with 2 on the diagonal and 1 just above it; f64. *)
Definition f0 : f64 := B754_zero false.
Definition ex75 : list (list f64) := [[f2; f1; f0; f0]; [f0; f2; f1; f0]; [f0; f0; f2; f1]; [f1; f0; f0; f2]].
Ltac eqbs := repeat match goal with |- context [(?a =? ?b)%nat] => let v := eval vm_compute in (a =? b)%nat in change (a =? b)%nat with v end; cbv iota.
Lemma ex75_rows : (forall i, (i < 4)%nat -> rsum 4 (fun j => Rabs (rat2 ex75 i j)) <= 3) /\ dominant 4 1 (rat2 ex75).
Proof.
  assert (A0 : Rabs (B2R f0) = 0) by apply Rabs_R0. assert (A1 : Rabs (B2R f1) = 1) by (rewrite f1_val; apply Rabs_R1).
  assert (A2 : Rabs (B2R f2) = 2) by (rewrite f2_val; apply Rabs_pos_eq; lra).
  split; intros i Hi; do 4 (destruct i as [|i]; [unfold rsum, rat2; cbn [seq fold_left nth ex75 Nat.eqb]; rewrite ?A0, ?A1, ?A2; eqbs; lra|]); lia.
Qed.
Example C75_ex : forall S (c : cfg) (d : ety S f64) (s : S), exists y X, inverse c d f64_ops 4 ex75 s = (Ok (Some y), s) /\
  real_inverse 4 (rat2 ex75) X /\ forall i j, (i < 4)%nat -> (j < 4)%nat -> Rabs (rat2 y i j - X i j) <= b2 (-38).
Proof.
  intros S c d s. destruct ex75_rows as [H1 H2].
  destruct (C75_inverse F64 S c d 4 ex75 s 1 3) as (y & X & E1 & E2 & E3 & E4);
    [lia|split; [reflexivity|repeat constructor]|repeat constructor|lra|lra|exact H1|exact H2| |].
  - unfold epsilon. cbn. lra.
  - exists y, X. split; [exact E1|]. split; [exact E3|]. intros i j Hi Hj. apply Rle_trans with (1 := proj2 (E4 i j Hi Hj)). unfold epsilon. cbn. lra.
Qed.
