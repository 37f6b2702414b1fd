(** * PropsFloatLead.v - C81: floating-point inverses of size four and more, on matrices whose
    leading principal blocks are all well conditioned (the elimination does not pivot, so it needs
    all of them); and the corresponding part of C66. *)
From Coq Require Import List Arith Bool Lia ZArith Reals Lra.
From Flocq Require Import Core BinarySingleNaN Relative Plus_error.
From Verif Require Import Rust Iter Elem VectorM MatIterM MatrixM ArithM OpsM SpecCommon SpecAlg FloatM SpecReal.
From Verif Require Import Harness AccProofs Sim PropsAlg DetLoop OpsPure FloatErr PropsFloat PropsFloatErr PropsFloatInv GJReal GJFloat GJGen GJGenFloat PropsFloatGJ.
Import ListNotations.
Local Open Scope R_scope.

Section Format.
Context {prec emax : Z} {Hgt : Prec_gt_0 prec} {Hlt : Prec_lt_emax prec emax} {OK : fmt_ok prec emax}.
Local Notation FL := (fl prec emax).
Local Notation AR := (fl_arith prec emax Hgt Hlt).
Local Notation u := (ur prec).
Local Notation ep := (b2 (1 - prec)).
Ltac flia := pose proof (@ok_prec _ _ OK); pose proof (@ok_emax _ _ OK); lia.
Section Lead.
Variables (n : nat) (m : list (list FL)) (H B : R).
Hypothesis Hn : (4 <= n)%nat.
Hypothesis Hr : rect n n m.
Hypothesis Hf : Forall (Forall (fun x => is_finite x = true)) m.
Hypothesis HB : 1 <= B.
Hypothesis HH : 1 <= H.
Hypothesis Hrow : forall i, (i < n)%nat -> rsum n (fun j => Rabs (rat2 m i j)) <= B.
Hypothesis Hlead : leading_inverses n H (rat2 m).
Hypothesis Hsmall : 720 * INR n ^ 2 * ep * (H ^ 5 * B ^ 6) <= 1.
Lemma l_small : 1440 * (INR n * INR n) * u * (H ^ 5 * B ^ 6) <= 1.
Proof. apply Rle_trans with (2 := Hsmall). right. rewrite u_double. ring. Qed.
Lemma l_inverse : exists y V, p_inverse AR (Bdiv mode_NE) (fl_is_zero prec emax) n m = Some y /\ rect n n y /\ real_inverse n (rat2 m) V /\
  (forall i j, (i < n)%nat -> (j < n)%nat -> fin (at2 AR y i j) /\ Rabs (rat2 y i j) <= 5 / 4 * H) /\
  forall i j, (i < n)%nat -> (j < n)%nat ->
    Rabs (rsum n (fun k => rat2 m i k * rat2 y k j) - dl i j) <= 90 * INR n ^ 2 * ep * (H ^ 3 * B ^ 4) /\
    Rabs (rat2 y i j - V i j) <= 90 * INR n ^ 2 * ep * (H ^ 4 * B ^ 4).
Proof.
  destruct (ginv_ok n m H B Hn (fun i j Hi Hj => at2_P _ n n m i j Hr Hf Hi Hj) HB HH l_small Hrow Hlead) as (y & V & E & Ry & HV & HX).
  exists y, V. split; [|split; [exact Ry|split; [exact HV|split]]].
  - now rewrite p_inverse_big by exact Hn.
  - intros i j Hi Hj. destruct (HX i j Hi Hj) as (F1 & F2 & _). split; [exact F1|exact F2].
  - intros i j Hi Hj. destruct (HX i j Hi Hj) as (_ & _ & F3 & F4). rewrite u_double. split.
    + apply Rle_trans with (1 := F3). right. ring.
    + apply Rle_trans with (1 := F4). right. ring.
Qed.
Lemma l_n4 : 4 <= INR n.
Proof. replace 4 with (INR 4) by (cbn; lra). now apply le_INR. Qed.
Lemma l_prod : H * B <= H ^ 3 * B ^ 4 /\ H * B <= H ^ 5 * B ^ 6 /\ 1 <= H * B.
Proof.
  pose proof (pw H 2 HH). pose proof (pw H 4 HH). pose proof (pw B 3 HB). pose proof (pw B 5 HB). assert (1 <= H * B) by nra.
  assert (1 <= H ^ 2 * B ^ 3) by nra. assert (1 <= H ^ 4 * B ^ 5) by nra.
  replace (H ^ 3 * B ^ 4) with (H * B * (H ^ 2 * B ^ 3)) by ring. replace (H ^ 5 * B ^ 6) with (H * B * (H ^ 4 * B ^ 5)) by ring. repeat split; nra.
Qed.
Lemma l_nHB : 720 * (INR n ^ 2 * ep * (H * B)) <= 1.
Proof.
  apply Rle_trans with (2 := Hsmall). replace (720 * INR n ^ 2 * ep * (H ^ 5 * B ^ 6)) with (720 * (INR n ^ 2 * ep * (H ^ 5 * B ^ 6))) by ring.
  apply Rmult_le_compat_l; [lra|]. apply Rmult_le_compat_l; [|apply l_prod]. apply Rmult_le_pos; [apply pow_le, pos_INR|apply bpow_ge_0].
Qed.
Lemma l_nsmall : (Z.of_nat n <= 2 ^ (prec - 3))%Z.
Proof.
  pose proof l_n4 as H4. pose proof (bpow_gt_0 radix2 (1 - prec)) as He. pose proof l_nHB as L. destruct l_prod as (_ & _ & P).
  assert (X : INR n * ep <= / 4).
  { assert (0 <= INR n ^ 2 * ep) by (apply Rmult_le_pos; [nra|lra]). assert (720 * (INR n ^ 2 * ep) <= 1) by nra. nra. }
  apply le_IZR. rewrite <- INR_IZR_INZ. change 2%Z with (radix_val radix2). rewrite IZR_Zpower by flia.
  apply Rmult_le_reg_r with ep; [exact He|]. rewrite <- bpow_plus. replace (prec - 3 + (1 - prec))%Z with (-2)%Z by lia.
  replace (b2 (-2)) with (/ 4) by (cbn; lra). exact X.
Qed.
Lemma l_HB : H * (5 / 4) * B <= b2 (prec - 1).
Proof.
  pose proof (bpow_gt_0 radix2 (1 - prec)) as He. apply Rmult_le_reg_r with ep; [exact He|].
  rewrite <- bpow_plus. replace (prec - 1 + (1 - prec))%Z with 0%Z by lia. change (b2 0) with 1.
  pose proof l_nHB. pose proof l_n4. destruct l_prod as (_ & _ & P). assert (0 < ep * (H * B)) by (apply Rmult_lt_0_compat; lra). nra.
Qed.
Lemma l_product (y : list (list FL)) : (forall i j, (i < n)%nat -> (j < n)%nat -> fin (at2 AR y i j) /\ Rabs (rat2 y i j) <= 5 / 4 * H) ->
  forall i j, (i < n)%nat -> (j < n)%nat ->
  let z := sum AR n (fun k => a_mul AR (at2 AR m i k) (at2 AR y k j)) in
  fin z /\ Rabs (B2R z - rsum n (fun k => rat2 m i k * rat2 y k j)) <= 1 * INR n ^ 2 * ep * (H ^ 3 * B ^ 4).
Proof.
  intros Hy i j Hi Hj z. destruct l_prod as (P1 & P2 & P3).
  assert (Hb : forall k, (k < n)%nat -> Rabs (rat2 m i k * rat2 y k j) <= Rabs (rat2 m i k) * (5 / 4 * H)).
  { intros k Hk. rewrite Rabs_mult. apply Rmult_le_compat_l; [apply Rabs_pos|]. now apply Hy. }
  destruct (dot_any n (fun k => at2 AR m i k) (fun k => at2 AR y k j) prec l_nsmall) as [F1 F2].
  - flia.
  - intros k Hk. split; [exact (at2_P _ n n m i k Hr Hf Hi Hk)|]. split; [now apply Hy|].
    apply Rle_trans with (1 := Hb k Hk). apply Rle_trans with (b2 (prec - 1)); [|apply bpow_le; lia].
    apply Rle_trans with (2 := l_HB). apply Rle_trans with (B * (5 / 4 * H)); [|right; ring].
    apply Rmult_le_compat_r; [lra|]. apply Rle_trans with (2 := Hrow i Hi).
    apply (rsum_term n (fun j => Rabs (rat2 m i j))); [intros; apply Rabs_pos|exact Hk].
  - split; [exact F1|]. apply Rle_trans with (1 := F2). pose proof l_n4 as H4. pose proof (bpow_gt_0 radix2 (1 - prec)) as He.
    change (rsum n (fun k => Rabs (B2R (at2 AR m i k) * B2R (at2 AR y k j)))) with (rsum n (fun k => Rabs (rat2 m i k * rat2 y k j))).
    assert (S1 : rsum n (fun k => Rabs (rat2 m i k * rat2 y k j)) <= 5 / 4 * (H * B)).
    { apply Rle_trans with (rsum n (fun k => Rabs (rat2 m i k) * (5 / 4 * H))); [now apply rsum_le|]. rewrite rsum_scal_r.
      replace (5 / 4 * (H * B)) with (B * (5 / 4 * H)) by field. apply Rmult_le_compat_r; [lra|now apply Hrow]. }
    assert (S2 : INR n * b2 (2 - emax) <= 1).
    { apply Rle_trans with (b2 (prec - 3) * b2 (2 - emax)).
      - apply Rmult_le_compat_r; [apply bpow_ge_0|]. rewrite INR_IZR_INZ. rewrite <- IZR_Zpower by flia. apply IZR_le, l_nsmall.
      - rewrite <- bpow_plus. apply (bpow_le radix2 _ 0). flia. }
    apply Rle_trans with (INR (n + 1) * ep * (9 / 4 * (H ^ 3 * B ^ 4))).
    + apply Rmult_le_compat_l; [apply Rmult_le_pos; [apply pos_INR|lra]|]. lra.
    + rewrite plus_INR. cbn [INR]. replace ((INR n + 1) * ep * (9 / 4 * (H ^ 3 * B ^ 4))) with (9 / 4 * (INR n + 1) * (ep * (H ^ 3 * B ^ 4))) by field.
      replace (1 * INR n ^ 2 * ep * (H ^ 3 * B ^ 4)) with (INR n ^ 2 * (ep * (H ^ 3 * B ^ 4))) by ring.
      apply Rmult_le_compat_r; [|nra]. apply Rmult_le_pos; lra.
Qed.
End Lead.
End Format.

(** ** C81 *)
(** [inverse()] of a float matrix of size n >= 4 with row sums of absolute values at most [B], all
    of whose leading principal blocks have real inverses with row sums at most [H]: it returns
    [Some y], no entry of [y] overflows, and [y] is within 90 n^2 epsilon H^4 B^4 of the exact
    inverse.  Required: 720 n^2 epsilon H^5 B^6 <= 1. *)
Theorem C81_inverse : forall (t : float_type) S (c : cfg) (d : ety S (float t)) (n : nat) m (s : S) (H B : R),
  (4 <= n)%nat -> rect n n m -> Forall (Forall (fun x => is_finite x = true)) m ->
  1 <= H -> 1 <= B -> (forall i, (i < n)%nat -> rsum n (fun j => Rabs (rat2 m i j)) <= B) -> leading_inverses n H (rat2 m) ->
  720 * INR n ^ 2 * epsilon t * (H ^ 5 * B ^ 6) <= 1 ->
  exists y X, inverse c d (float_ops t) n m s = (Ok (Some y), s) /\ rect n n y /\ real_inverse n (rat2 m) X /\
  forall i j, (i < n)%nat -> (j < n)%nat ->
  is_finite (at2 (float_arith t) y i j) = true /\ Rabs (rat2 y i j - X i j) <= 90 * INR n ^ 2 * epsilon t * (H ^ 4 * B ^ 4).
Proof.
  intros t S c d n m s H B Hn R Hf HH HB Hrow Hlead Hs.
  destruct (l_inverse n m H B Hn R Hf HB HH Hrow Hlead Hs) as (y & V & E & Ry & HV & Hy & Hres).
  exists y, V. split; [|split; [exact Ry|split; [exact HV|]]].
  - refine (eq_trans (inverse_p (float_arith t) (Bdiv mode_NE) (fl_is_zero (fprec t) (femax t)) c d (float_ops t)
      (proj1 (fl_exact (fprec t) (femax t) _ _)) (proj2 (fl_exact (fprec t) (femax t) _ _)) (fun _ => eq_refl) n m s _ R) (f_equal (fun o => (Ok o, s)) E)). lia.
  - intros i j Hi Hj. split; [now apply Hy|now apply Hres].
Qed.
Print Assumptions C81_inverse.

(** The residual, over the reals and as computed with the crate's product. *)
Theorem C81_residual : forall (t : float_type) S (c : cfg) (d : ety S (float t)) (n : nat) m (s : S) (H B : R),
  (4 <= n < W c)%nat -> rect n n m -> Forall (Forall (fun x => is_finite x = true)) m ->
  1 <= H -> 1 <= B -> (forall i, (i < n)%nat -> rsum n (fun j => Rabs (rat2 m i j)) <= B) -> leading_inverses n H (rat2 m) ->
  720 * INR n ^ 2 * epsilon t * (H ^ 5 * B ^ 6) <= 1 ->
  exists y p, inverse c d (float_ops t) n m s = (Ok (Some y), s) /\ mmul_rr c d (float_ops t) n n n m y s = (Ok p, s) /\
  forall i j, (i < n)%nat -> (j < n)%nat ->
  is_finite (at2 (float_arith t) p i j) = true /\
  Rabs (rsum n (fun k => rat2 m i k * rat2 y k j) - (if (i =? j)%nat then 1 else 0)) <= 90 * INR n ^ 2 * epsilon t * (H ^ 3 * B ^ 4) /\
  Rabs (rat2 p i j - (if (i =? j)%nat then 1 else 0)) <= 91 * INR n ^ 2 * epsilon t * (H ^ 3 * B ^ 4).
Proof.
  intros t S c d n m s H B [Hn HW] R Hf HH HB Hrow Hlead Hs.
  destruct (l_inverse n m H B Hn R Hf HB HH Hrow Hlead Hs) as (y & V & E & Ry & HV & Hy & Hres).
  exists y, (m_mul (float_arith t) n n n m y). split; [|split].
  - refine (eq_trans (inverse_p (float_arith t) (Bdiv mode_NE) (fl_is_zero (fprec t) (femax t)) c d (float_ops t)
      (proj1 (fl_exact (fprec t) (femax t) _ _)) (proj2 (fl_exact (fprec t) (femax t) _ _)) (fun _ => eq_refl) n m s _ R) (f_equal (fun o => (Ok o, s)) E)). lia.
  - exact (sim_eqm _ _ (sim_mmul_rr false eq c d (float_ops t) (float_arith t) (exact_sim_semi _ _ (ex_semi _ _ (proj1 (fl_exact (fprec t) (femax t) _ _)))) n n n m y m y
      (Forall2_eq2 _) (Forall2_eq2 _) R Ry ltac:(lia) ltac:(lia) ltac:(lia)) s).
  - intros i j Hi Hj. pose proof (proj1 (Hres i j Hi Hj)) as H1. unfold dl in H1.
    destruct (l_product n m H B Hn R Hf HB HH Hrow Hs y Hy i j Hi Hj) as [F H2]. cbv zeta in F, H2.
    assert (E2 : at2 (float_arith t) (m_mul (float_arith t) n n n m y) i j =
      sum (float_arith t) n (fun k => a_mul (float_arith t) (at2 (float_arith t) m i k) (at2 (float_arith t) y k j))).
    { unfold m_mul. now rewrite at2_mat. }
    change (rat2 (m_mul (float_arith t) n n n m y) i j) with (B2R (at2 (float_arith t) (m_mul (float_arith t) n n n m y) i j)).
    rewrite E2. split; [exact F|]. split; [exact H1|].
    pose proof (abs_tri3 _ _ _ _ _ H2 H1) as H3. apply Rle_trans with (1 := H3). right. unfold epsilon. ring.
Qed.
Print Assumptions C81_residual.

(** C66 for every size n >= 4, when all leading principal blocks (and not only the matrix itself)
    are well conditioned: the computed product with the computed inverse is close to the identity. *)
Corollary C66_leading_blocks_partial : forall (t : float_type) S (c : cfg) (d : ety S (float t)) (n : nat) m (s : S) (H B : R),
  (4 <= n < W c)%nat -> rect n n m -> Forall (Forall (fun x => is_finite x = true)) m ->
  1 <= H -> 1 <= B -> (forall i, (i < n)%nat -> rsum n (fun j => Rabs (rat2 m i j)) <= B) -> leading_inverses n H (rat2 m) ->
  720 * INR n ^ 2 * epsilon t * (H ^ 5 * B ^ 6) <= 1 ->
  exists y p, inverse c d (float_ops t) n m s = (Ok (Some y), s) /\ mmul_rr c d (float_ops t) n n n m y s = (Ok p, s) /\
  forall i j, (i < n)%nat -> (j < n)%nat ->
  is_finite (at2 (float_arith t) p i j) = true /\
  Rabs (rat2 p i j - (if (i =? j)%nat then 1 else 0)) <= 91 * INR n ^ 2 * epsilon t * (H ^ 3 * B ^ 4).
Proof.
  intros t S c d n m s H B Hn R Hf HH HB Hrow Hlead Hs.
  destruct (C81_residual t S c d n m s H B Hn R Hf HH HB Hrow Hlead Hs) as (y & p & H1 & H2 & H3).
  exists y, p. split; [exact H1|]. split; [exact H2|]. intros i j Hi Hj. destruct (H3 i j Hi Hj) as (F & _ & X). auto.
Qed.
Print Assumptions C66_leading_blocks_partial.

(** ** A concrete instance *)
(** A 4 x 4 tridiagonal f64 matrix that is not diagonally dominant. *)
Definition ex81 : list (list f64) := [[f1; f1; f0; f0]; [f1; f2; f1; f0]; [f0; f1; f2; f1]; [f0; f0; f1; f2]].
Definition ex81_inv (k i j : nat) : R := (if Nat.even (i + j) then 1 else -1) * INR (k - Nat.max i j).
Lemma ex81_rows : forall i, (i < 4)%nat -> rsum 4 (fun j => Rabs (rat2 ex81 i j)) <= 4.
Proof.
  assert (A0 : Rabs (B2R f0) = 0) by apply Rabs_R0. assert (A1 : Rabs (B2R f1) = 1) by (rewrite f1_val; apply Rabs_R1).
  assert (A2 : Rabs (B2R f2) = 2) by (rewrite f2_val; apply Rabs_pos_eq; lra).
  intros i Hi; do 4 (destruct i as [|i]; [unfold rsum, rat2; cbn [seq fold_left nth ex81 Nat.eqb]; rewrite ?A0, ?A1, ?A2; lra|]); lia.
Qed.
Lemma ex81_lead : leading_inverses 4 10 (rat2 ex81).
Proof.
  assert (A0 : B2R f0 = 0) by reflexivity. pose proof f1_val as A1. pose proof f2_val as A2.
  assert (P : forall i j, rat2 ex81 i j = B2R (nth j (nth i ex81 []) f0)) by reflexivity.
  intros k Hk. exists (ex81_inv k). split.
  - intros i j Hi Hj. 
    do 4 (destruct k as [|k]; [first [lia|
      do 4 (destruct i as [|i]; [first [lia|do 4 (destruct j as [|j]; [first [lia|
        unfold rsum, ex81_inv; cbn [seq fold_left]; rewrite !P; cbn [nth ex81]; rewrite ?A0, ?A1, ?A2; cbn [Nat.even Nat.add Nat.max Nat.sub INR]; eqbs; split; lra]|]); lia]|]); lia]|]).
    destruct k as [|k]; [|lia].
    do 4 (destruct i as [|i]; [do 4 (destruct j as [|j]; [
        unfold rsum, ex81_inv; cbn [seq fold_left]; rewrite !P; cbn [nth ex81]; rewrite ?A0, ?A1, ?A2; cbn [Nat.even Nat.add Nat.max Nat.sub INR]; eqbs; split; lra|]); lia|]); lia.
  - intros i Hi.
    apply Rle_trans with (rsum k (fun j => INR (k - Nat.max i j))).
    + right. apply rsum_ext. intros j Hj. unfold ex81_inv. rewrite Rabs_mult, (Rabs_pos_eq (INR _)) by apply pos_INR.
      destruct (Nat.even (i + j)); [rewrite Rabs_R1|replace (-1) with (- (1)) by lra; rewrite Rabs_Ropp, Rabs_R1]; ring.
    + do 5 (destruct k as [|k]; [do 4 (destruct i as [|i]; [try lia; unfold rsum; cbn [seq fold_left Nat.max Nat.sub INR]; lra|]); lia|]). lia.
Qed.
Example C81_ex : forall S (c : cfg) (d : ety S f64) (s : S), exists y X, inverse c d f64_ops 4 ex81 s = (Ok (Some y), s) /\
  real_inverse 4 (rat2 ex81) X /\ (forall i j, (i < 4)%nat -> (j < 4)%nat -> Rabs (rat2 y i j - X i j) <= b2 (-19)) /\
  ~ (exists del, 0 < del /\ dominant 4 del (rat2 ex81)).
Proof.
  intros S c d s.
  destruct (C81_inverse F64 S c d 4 ex81 s 10 4) as (y & X & E1 & E2 & E3 & E4);
    [lia|split; [reflexivity|repeat constructor]|repeat constructor|lra|lra|exact ex81_rows|exact ex81_lead| |].
  - unfold epsilon. cbn. lra.
  - exists y, X. split; [exact E1|]. split; [exact E3|]. split.
    + intros i j Hi Hj. apply Rle_trans with (1 := proj2 (E4 i j Hi Hj)). unfold epsilon. cbn. lra.
    + intros (del & D & Dom). pose proof (Dom 0%nat ltac:(lia)) as Z. unfold rsum, rat2 in Z. cbn [seq fold_left nth ex81] in Z.
      change (0 =? 0)%nat with true in Z. change (1 =? 0)%nat with false in Z. change (2 =? 0)%nat with false in Z. change (3 =? 0)%nat with false in Z. cbv iota in Z.
      rewrite f1_val, Rabs_R1 in Z. pose proof (Rabs_pos (B2R f0)). lra.
Qed.
