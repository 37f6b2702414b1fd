(** * FloatErr.v - rounding-error calculus for binary floating-point formats (proofs only). *)
From Coq Require Import ZArith Reals Lra Lia List Arith.
From Flocq Require Import Core BinarySingleNaN Relative Plus_error.
From Verif Require Import Rust Elem SpecCommon SpecAlg FloatM SpecReal.
Import ListNotations.
Local Open Scope R_scope.

Notation b2 := (bpow radix2).
(** Unit roundoff; (1+u)^k. *)
Definition ur (prec : Z) : R := b2 (- prec).
Definition Pr (prec : Z) (k : nat) : R := (1 + ur prec) ^ k.
Definition fin {prec emax} (x : fl prec emax) : Prop := is_finite x = true.
(** The computed [r] approximates [v] within ((1+u)^k - 1) s, where [s] bounds the sum of
    absolute values behind [v]. *)
Definition apr (prec : Z) (k : nat) (s v r : R) : Prop := Rabs (r - v) <= (Pr prec k - 1) * s /\ Rabs v <= s.
Class fmt_ok (prec emax : Z) : Prop := { ok_prec : (20 <= prec)%Z; ok_emax : (4 * prec <= emax)%Z }.

Definition rng (lo hi : Z) (r : R) : Prop := r = 0 \/ b2 lo <= Rabs r <= b2 hi.
Lemma rng_weaken lo hi lo' hi' r : rng lo hi r -> (lo' <= lo)%Z -> (hi <= hi')%Z -> rng lo' hi' r.
Proof.
  intros [H|[H1 H2]] L1 L2; [now left|right]. split.
  - apply Rle_trans with (2 := H1). now apply bpow_le.
  - apply Rle_trans with (1 := H2). now apply bpow_le.
Qed.
Lemma rng_up lo hi r : rng lo hi r -> Rabs r <= b2 hi.
Proof. intros [->|[_ H]]; [rewrite Rabs_R0; apply bpow_ge_0|exact H]. Qed.
Lemma rng_mul lo hi lo' hi' r q : rng lo hi r -> rng lo' hi' q -> rng (lo + lo') (hi + hi') (r * q).
Proof.
  intros [->|[H1 H2]]; [left; lra|]. intros [->|[H3 H4]]; [left; lra|]. right. rewrite Rabs_mult, !bpow_plus.
  pose proof (bpow_ge_0 radix2 lo). pose proof (bpow_ge_0 radix2 lo'). split; apply Rmult_le_compat; auto; apply Rabs_pos.
Qed.
Lemma rng_div lo hi lo' hi' r q : rng lo hi r -> rng lo' hi' q -> q <> 0 -> rng (lo - hi') (hi - lo') (r / q).
Proof.
  intros [->|[H1 H2]]; [left; unfold Rdiv; ring|]. intros [->|[H3 H4]] Hq; [contradiction|]. right.
  unfold Rdiv. rewrite Rabs_mult, Rabs_Rinv by exact Hq. unfold Zminus. rewrite !bpow_plus, !bpow_opp.
  pose proof (bpow_gt_0 radix2 lo). pose proof (bpow_gt_0 radix2 lo'). pose proof (bpow_gt_0 radix2 hi').
  assert (0 < / Rabs q) by (apply Rinv_0_lt_compat; lra). assert (0 < / b2 hi') by (now apply Rinv_0_lt_compat).
  pose proof (Rabs_pos r).
  split; apply Rmult_le_compat; try lra; apply Rinv_le; lra.
Qed.
Lemma rng_opp lo hi r : rng lo hi r -> rng lo hi (- r).
Proof. intros [->|H]; [left; lra|right]. now rewrite Rabs_Ropp. Qed.

Section Format.
Context {prec emax : Z} {Hg : Prec_gt_0 prec} {Hm : Prec_lt_emax prec emax} {OK : fmt_ok prec emax}.
Local Notation F := (fl prec emax).
Local Notation A := (fl_arith prec emax Hg Hm).
Local Notation u := (ur prec).
Local Notation P := (Pr prec).
Local Notation ap := (apr prec).
Local Notation fexp := (SpecFloat.fexp prec emax).
Local Notation rnd := (round radix2 fexp (round_mode mode_NE)).
Local Notation emin := (3 - emax - prec)%Z.
Ltac flia := pose proof (@ok_prec _ _ OK); pose proof (@ok_emax _ _ OK); lia.
Lemma u_pos : 0 < u. Proof. apply bpow_gt_0. Qed.
Lemma u_small : u <= / 1024.
Proof. unfold ur. replace (/ 1024) with (b2 (-10)) by (cbn; lra). apply bpow_le. flia. Qed.
Lemma u_double : b2 (1 - prec) = 2 * u.
Proof. unfold ur. unfold Zminus. rewrite bpow_plus. reflexivity. Qed.

Lemma fmt_b2 e : (emin <= e)%Z -> generic_format radix2 fexp (b2 e).
Proof. intros H. apply generic_format_bpow. unfold SpecFloat.fexp, SpecFloat.emin. flia. Qed.
Lemma rnd_le r hi : (emin <= hi)%Z -> Rabs r <= b2 hi -> Rabs (rnd r) <= b2 hi.
Proof. intros H Hr. apply abs_round_le_generic; auto with typeclass_instances; [apply fexp_correct; exact Hg|now apply fmt_b2]. Qed.
Lemma rnd_ge r lo : (emin <= lo)%Z -> b2 lo <= Rabs r -> b2 lo <= Rabs (rnd r).
Proof. intros H Hr. apply abs_round_ge_generic; auto with typeclass_instances; [apply fexp_correct; exact Hg|now apply fmt_b2]. Qed.
Lemma rnd_rng lo hi r : (2 - emax <= lo)%Z -> (lo <= hi)%Z -> rng lo hi r ->
  rng lo hi (rnd r) /\ exists e, Rabs e <= u /\ rnd r = r * (1 + e).
Proof.
  intros Hlo Hl [->|[H1 H2]].
  - rewrite round_0 by auto with typeclass_instances. split; [now left|]. exists 0. rewrite Rabs_R0. split; [left; apply u_pos|lra].
  - split.
    + right. split; [apply rnd_ge|apply rnd_le]; auto; flia.
    + destruct (relative_error_N_FLT_ex radix2 emin prec Hg (fun x => negb (Z.even x)) r) as (e & He & Er).
      * apply Rle_trans with (2 := H1). apply bpow_le. flia.
      * exists e. split; [|exact Er]. apply Rle_trans with (1 := He). right. unfold ur.
        rewrite bpow_plus. change (b2 1) with 2. lra.
Qed.
Lemma big_lt hi : (hi <= emax - 1)%Z -> b2 hi < b2 emax.
Proof. intros. apply bpow_lt. flia. Qed.

Lemma fmul_spec x y lo1 hi1 lo2 hi2 : fin x -> fin y -> rng lo1 hi1 (B2R x) -> rng lo2 hi2 (B2R y) ->
  (2 - emax <= lo1 + lo2)%Z -> (lo1 + lo2 <= hi1 + hi2)%Z -> (hi1 + hi2 <= emax - 1)%Z ->
  let z := a_mul A x y in
  fin z /\ rng (lo1 + lo2) (hi1 + hi2) (B2R z) /\ exists e, Rabs e <= u /\ B2R z = B2R x * B2R y * (1 + e).
Proof.
  intros Fx Fy Rx Ry H1 H2 H3 z. pose proof (rnd_rng _ _ _ H1 H2 (rng_mul _ _ _ _ _ _ Rx Ry)) as [G E].
  pose proof (Bmult_correct prec emax _ _ mode_NE x y) as C. rewrite Rlt_bool_true in C.
  2:{ apply Rle_lt_trans with (2 := big_lt _ H3). now apply rng_up with (1 := G). }
  destruct C as (C1 & C2 & _). unfold fin in *. rewrite Fx, Fy in C2. unfold z. cbn [a_mul fl_arith]. rewrite C1.
  split; [exact C2|]. split; [exact G|exact E].
Qed.
Lemma fdiv_spec x y lo1 hi1 lo2 hi2 : fin x -> fin y -> rng lo1 hi1 (B2R x) -> rng lo2 hi2 (B2R y) -> B2R y <> 0 ->
  (2 - emax <= lo1 - hi2)%Z -> (lo1 - hi2 <= hi1 - lo2)%Z -> (hi1 - lo2 <= emax - 1)%Z ->
  let z := Bdiv mode_NE x y in
  fin z /\ rng (lo1 - hi2) (hi1 - lo2) (B2R z) /\ exists e, Rabs e <= u /\ B2R z = B2R x / B2R y * (1 + e).
Proof.
  intros Fx Fy Rx Ry Hy H1 H2 H3 z. pose proof (rnd_rng _ _ _ H1 H2 (rng_div _ _ _ _ _ _ Rx Ry Hy)) as [G E].
  pose proof (Bdiv_correct prec emax _ _ mode_NE x y Hy) as C. rewrite Rlt_bool_true in C.
  2:{ apply Rle_lt_trans with (2 := big_lt _ H3). now apply rng_up with (1 := G). }
  destruct C as (C1 & C2 & _). unfold fin in *. rewrite Fx in C2. unfold z. rewrite C1.
  split; [exact C2|]. split; [exact G|exact E].
Qed.
Lemma plus_up r q hi : Rabs r <= b2 hi -> Rabs q <= b2 hi -> Rabs (r + q) <= b2 (hi + 1).
Proof. intros H1 H2. rewrite bpow_plus. change (b2 1) with 2. pose proof (Rabs_triang r q). lra. Qed.
Lemma plus_err r q : generic_format radix2 fexp r -> generic_format radix2 fexp q ->
  exists e, Rabs e <= u /\ rnd (r + q) = (r + q) * (1 + e).
Proof.
  intros Fr Fq. destruct (FLT_plus_error_N_ex radix2 emin prec (fun x => negb (Z.even x)) r q Fr Fq) as (e & He & E).
  exists e. split; [|exact E]. apply Rle_trans with (1 := He). apply Rle_trans with (1 := u_rod1pu_ro_le_u_ro radix2 prec).
  right. unfold u_ro, ur. rewrite bpow_plus. change (b2 1) with 2. lra.
Qed.
Lemma fadd_spec x y hi : fin x -> fin y -> Rabs (B2R x) <= b2 hi -> Rabs (B2R y) <= b2 hi -> (emin <= hi <= emax - 2)%Z ->
  let z := a_add A x y in
  fin z /\ Rabs (B2R z) <= b2 (hi + 1) /\ (exists e, Rabs e <= u /\ B2R z = (B2R x + B2R y) * (1 + e)) /\ B2R z = rnd (B2R x + B2R y).
Proof.
  intros Fx Fy Rx Ry Hh z. pose proof (rnd_le _ (hi + 1) ltac:(flia) (plus_up _ _ _ Rx Ry)) as G.
  pose proof (Bplus_correct prec emax _ _ mode_NE x y Fx Fy) as C. rewrite Rlt_bool_true in C.
  2:{ apply Rle_lt_trans with (1 := G). apply big_lt. flia. }
  destruct C as (C1 & C2 & _). unfold z, fin. cbn [a_add fl_arith]. rewrite C1. split; [exact C2|]. split; [exact G|].
  split; [|reflexivity]. apply plus_err; apply generic_format_B2R.
Qed.
Lemma fsub_spec x y hi : fin x -> fin y -> Rabs (B2R x) <= b2 hi -> Rabs (B2R y) <= b2 hi -> (emin <= hi <= emax - 2)%Z ->
  let z := a_sub A x y in
  fin z /\ Rabs (B2R z) <= b2 (hi + 1) /\ (exists e, Rabs e <= u /\ B2R z = (B2R x - B2R y) * (1 + e)) /\ B2R z = rnd (B2R x - B2R y).
Proof.
  intros Fx Fy Rx Ry Hh z. rewrite <- (Rabs_Ropp (B2R y)) in Ry. pose proof (rnd_le _ (hi + 1) ltac:(flia) (plus_up _ _ _ Rx Ry)) as G.
  pose proof (Bminus_correct prec emax _ _ mode_NE x y Fx Fy) as C. rewrite Rlt_bool_true in C.
  2:{ apply Rle_lt_trans with (1 := G). apply big_lt. flia. }
  destruct C as (C1 & C2 & _). unfold z, fin. cbn [a_sub fl_arith]. rewrite C1. split; [exact C2|]. split; [exact G|].
  split; [|reflexivity]. apply plus_err; [apply generic_format_B2R|]. apply generic_format_opp, generic_format_B2R.
Qed.
(** Sums of two numbers that are not tiny are not tiny. *)
Lemma multiple r lo : generic_format radix2 fexp r -> r = 0 \/ b2 lo <= Rabs r -> exists n, r = IZR n * b2 (lo - (prec - 1)).
Proof.
  intros F [->|H]; [exists 0%Z; now rewrite Rmult_0_l|].
  assert (Hc : (lo - (prec - 1) <= cexp radix2 fexp r)%Z).
  { unfold cexp. assert (lo + 1 <= mag radix2 r)%Z by (apply mag_ge_bpow; now replace (lo + 1 - 1)%Z with lo by flia).
    unfold SpecFloat.fexp. flia. }
  exists (Ztrunc (scaled_mantissa radix2 fexp r) * 2 ^ (cexp radix2 fexp r - (lo - (prec - 1))))%Z.
  rewrite F at 1. unfold F2R. cbn [Fnum Fexp]. rewrite mult_IZR, Rmult_assoc. f_equal.
  change 2%Z with (radix_val radix2). rewrite IZR_Zpower by flia. rewrite <- bpow_plus. f_equal. flia.
Qed.
Lemma sum_rng r q lo hi : generic_format radix2 fexp r -> generic_format radix2 fexp q ->
  rng lo hi r -> rng lo hi q -> rng (lo - (prec - 1)) (hi + 1) (r + q).
Proof.
  intros Fr Fq Rr Rq. pose proof (plus_up _ _ _ (rng_up _ _ _ Rr) (rng_up _ _ _ Rq)) as Hup.
  destruct (multiple r lo Fr) as (n & En); [destruct Rr as [?|[? ?]]; auto|].
  destruct (multiple q lo Fq) as (k & Ek); [destruct Rq as [?|[? ?]]; auto|].
  assert (E : r + q = IZR (n + k) * b2 (lo - (prec - 1))) by (rewrite plus_IZR; lra).
  destruct (Z.eq_dec (n + k) 0) as [E0|N0]; [left; rewrite E, E0; lra|]. right. split; [|exact Hup].
  rewrite E, Rabs_mult. rewrite (Rabs_pos_eq (b2 _)) by apply bpow_ge_0. rewrite <- abs_IZR.
  rewrite <- (Rmult_1_l (b2 (lo - (prec - 1)))) at 1. apply Rmult_le_compat_r; [apply bpow_ge_0|]. apply IZR_le. flia.
Qed.
Lemma fsub_rng x y lo hi : fin x -> fin y -> rng lo hi (B2R x) -> rng lo hi (B2R y) -> (emin + 2 * prec <= lo)%Z -> (lo <= hi)%Z -> (hi <= emax - 2)%Z ->
  rng (lo - (prec - 1)) (hi + 1) (B2R (a_sub A x y)).
Proof.
  intros Fx Fy Rx Ry H1 H2 H3.
  destruct (fsub_spec x y hi Fx Fy (rng_up _ _ _ Rx) (rng_up _ _ _ Ry)) as (_ & _ & _ & ->); [flia|].
  apply rnd_rng; [flia|flia|]. apply sum_rng; try apply generic_format_opp; try apply generic_format_B2R; auto. now apply rng_opp.
Qed.

(** ** Accumulated relative error *)
Lemma P_ge1 k : 1 <= P k.
Proof. apply pow_R1_Rle. pose proof u_pos. lra. Qed.
Lemma P_plus k l : P (k + l) = P k * P l.
Proof. apply pow_add. Qed.
Lemma P_S k : P (S k) = P k * (1 + u).
Proof. unfold Pr. cbn [pow]. ring. Qed.
Lemma P_mono k l : (k <= l)%nat -> P k <= P l.
Proof. intros H. apply Rle_pow; [pose proof u_pos; lra|exact H]. Qed.
Lemma ap_exact s v : Rabs v <= s -> ap 0 s v v.
Proof. intros H. split; [|exact H]. unfold Pr. cbn. rewrite Rminus_diag_eq by reflexivity. rewrite Rabs_R0. lra. Qed.
Lemma ap_pos k s v r : ap k s v r -> 0 <= s.
Proof. intros [_ H]. pose proof (Rabs_pos v). lra. Qed.
Lemma ap_abs k s v r : ap k s v r -> Rabs r <= P k * s.
Proof.
  intros [H1 H2]. replace r with ((r - v) + v) by ring. pose proof (Rabs_triang (r - v) v). nra.
Qed.
Lemma ap_weaken k l s v r : ap k s v r -> (k <= l)%nat -> ap l s v r.
Proof.
  intros H L. pose proof (ap_pos _ _ _ _ H). destruct H as [H1 H2]. split; [|exact H2]. apply Rle_trans with (1 := H1).
  apply Rmult_le_compat_r; [assumption|]. pose proof (P_mono _ _ L). lra.
Qed.
Lemma ap_weaken_s k s t v r : ap k s v r -> s <= t -> ap k t v r.
Proof.
  intros [H1 H2] L. split; [|lra]. apply Rle_trans with (1 := H1). apply Rmult_le_compat_l; [pose proof (P_ge1 k); lra|exact L].
Qed.
Lemma ap_rnd k s v r e : ap k s v r -> Rabs e <= u -> ap (S k) s v (r * (1 + e)).
Proof.
  intros H He. pose proof (ap_abs _ _ _ _ H) as Ha. pose proof (ap_pos _ _ _ _ H) as Hs. destruct H as [H1 H2]. split; [|exact H2].
  replace (r * (1 + e) - v) with ((r - v) + r * e) by ring. rewrite P_S.
  pose proof (Rabs_triang (r - v) (r * e)) as T. rewrite Rabs_mult in T.
  assert (Rabs r * Rabs e <= P k * s * u) by (apply Rmult_le_compat; auto using Rabs_pos). lra.
Qed.
Lemma ap_mul0 k l s t v w r q : ap k s v r -> ap l t w q -> ap (k + l) (s * t) (v * w) (r * q).
Proof.
  intros Hr Hq. pose proof (ap_abs _ _ _ _ Hr) as Ar. pose proof (ap_abs _ _ _ _ Hq) as Aq.
  pose proof (ap_pos _ _ _ _ Hr) as Ps. pose proof (ap_pos _ _ _ _ Hq) as Pt.
  destruct Hr as [Hr1 Hr2], Hq as [Hq1 Hq2]. split.
  - replace (r * q - v * w) with ((r - v) * q + v * (q - w)) by ring. rewrite P_plus.
    pose proof (Rabs_triang ((r - v) * q) (v * (q - w))) as T. rewrite !Rabs_mult in T.
    assert (Rabs (r - v) * Rabs q <= ((P k - 1) * s) * (P l * t)) by (apply Rmult_le_compat; auto using Rabs_pos).
    assert (Rabs v * Rabs (q - w) <= s * ((P l - 1) * t)) by (apply Rmult_le_compat; auto using Rabs_pos). lra.
  - rewrite Rabs_mult. apply Rmult_le_compat; auto using Rabs_pos.
Qed.
Lemma ap_add0 k s t v w r q : ap k s v r -> ap k t w q -> ap k (s + t) (v + w) (r + q).
Proof.
  intros [Hr1 Hr2] [Hq1 Hq2]. split.
  - replace (r + q - (v + w)) with ((r - v) + (q - w)) by ring. pose proof (Rabs_triang (r - v) (q - w)). lra.
  - pose proof (Rabs_triang v w). lra.
Qed.
Lemma ap_opp k s v r : ap k s v r -> ap k s (- v) (- r).
Proof.
  intros [H1 H2]. split; [|now rewrite Rabs_Ropp]. replace (- r - - v) with (- (r - v)) by ring. now rewrite Rabs_Ropp.
Qed.
Lemma ap_mul k l s t v w r q e : ap k s v r -> ap l t w q -> Rabs e <= u -> ap (S (k + l)) (s * t) (v * w) (r * q * (1 + e)).
Proof. intros. apply ap_rnd; auto. now apply ap_mul0. Qed.
Lemma ap_add k l s t v w r q e : ap k s v r -> ap l t w q -> Rabs e <= u -> ap (S (Nat.max k l)) (s + t) (v + w) ((r + q) * (1 + e)).
Proof.
  intros. apply ap_rnd; auto. apply ap_add0; [apply ap_weaken with k|apply ap_weaken with l]; auto; flia.
Qed.
Lemma ap_sub k l s t v w r q e : ap k s v r -> ap l t w q -> Rabs e <= u -> ap (S (Nat.max k l)) (s + t) (v - w) ((r - q) * (1 + e)).
Proof. intros. apply ap_add; auto. now apply ap_opp. Qed.
(** (1+u)^k - 1 <= 2 k u while k u <= 1/2. *)
Lemma P_bound k : INR k * u <= / 2 -> P k - 1 <= 2 * INR k * u.
Proof.
  intros H. pose proof u_pos as Hu.
  assert (G : forall j, (j <= k)%nat -> P j - 1 <= 2 * INR j * u).
  { induction j as [|j IH]; intros Hj; [unfold Pr; cbn; lra|]. rewrite P_S, S_INR. specialize (IH ltac:(flia)).
    assert (INR j <= INR k) by (apply le_INR; lia).
    assert (0 <= INR j) by apply pos_INR. assert (2 * INR j * u <= 1) by nra. nra. }
  now apply G.
Qed.
Lemma INR_pow n : (Z.of_nat n <= 2 ^ (prec - 3))%Z -> INR n <= b2 (prec - 3).
Proof.
  intros H. rewrite INR_IZR_INZ. apply IZR_le in H. change 2%Z with (radix_val radix2) in H. rewrite IZR_Zpower in H by flia. exact H.
Qed.
Lemma small_nu n : (Z.of_nat n <= 2 ^ (prec - 3))%Z -> INR n * u <= / 8.
Proof.
  intros H. pose proof (INR_pow n H). pose proof u_pos. apply Rle_trans with (b2 (prec - 3) * u); [apply Rmult_le_compat_r; lra|].
  unfold ur. rewrite <- bpow_plus. replace (prec - 3 + - prec)%Z with (-3)%Z by lia. cbn. lra.
Qed.
Lemma P_le n j : (Z.of_nat n <= 2 ^ (prec - 3))%Z -> (j <= 8)%nat -> P (n + j) - 1 <= INR (n + j) * b2 (1 - prec) /\ P (n + j) <= 2.
Proof.
  intros H Hj. pose proof (small_nu n H). pose proof u_small. pose proof u_pos.
  assert (INR j <= 8) by (replace 8 with (INR 8) by (cbn; lra); apply le_INR; lia). pose proof (pos_INR j). pose proof (pos_INR n).
  assert (Hu : INR (n + j) * u <= / 2) by (rewrite plus_INR; nra).
  pose proof (P_bound _ Hu) as HB. split; [|lra]. apply Rle_trans with (1 := HB). right. rewrite u_double. ring.
Qed.

(** ** Sums *)
Lemma rsum_S n f : rsum (S n) f = rsum n f + f n.
Proof. unfold rsum. rewrite seq_S, fold_left_app. reflexivity. Qed.
Lemma fsum_S n (f : nat -> F) : sum A (S n) f = a_add A (sum A n f) (f n).
Proof. unfold sum. rewrite seq_S, fold_left_app. reflexivity. Qed.
Lemma rsum_ext n f g : (forall i, (i < n)%nat -> f i = g i) -> rsum n f = rsum n g.
Proof. intros H. induction n as [|n IH]; [reflexivity|]. rewrite !rsum_S, IH, H by (try (intros; apply H); lia). reflexivity. Qed.
Lemma fsum_ap n (f : nat -> F) (v s : nat -> R) k hi : (Z.of_nat n <= 2 ^ (prec - 3))%Z -> (emin <= hi /\ hi + prec <= emax)%Z ->
  (forall i, (i < n)%nat -> fin (f i) /\ Rabs (B2R (f i)) <= b2 hi /\ ap k (s i) (v i) (B2R (f i))) ->
  fin (sum A n f) /\ ap (k + n) (rsum n s) (rsum n v) (B2R (sum A n f)) /\
  Rabs (B2R (sum A n f)) <= P n * (INR n * b2 hi).
Proof.
  intros Hn Hh. induction n as [|n IH]; intros H.
  - split; [reflexivity|]. split; [|unfold Pr; cbn; rewrite Rabs_R0; lra]. cbn. replace (k + 0)%nat with k by flia.
    split; [rewrite Rminus_diag_eq by reflexivity|]; rewrite Rabs_R0; lra.
  - destruct IH as (Fs & As & Bs); [flia|intros; apply H; flia|]. destruct (H n ltac:(flia)) as (Fx & Bx & Ax).
    rewrite fsum_S.
    pose proof (P_le n 0 ltac:(flia) ltac:(flia)) as [_ HP]. rewrite Nat.add_0_r in HP.
    pose proof (P_ge1 n) as HP1.
    assert (HN : INR n <= b2 (prec - 3)) by (apply INR_pow; lia).
    pose proof (bpow_gt_0 radix2 hi) as Hp. pose proof (pos_INR n) as Hn0.
    assert (Bs' : Rabs (B2R (sum A n f)) <= b2 (hi + (prec - 2))).
    { apply Rle_trans with (1 := Bs). replace (hi + (prec - 2))%Z with (1 + (prec - 3 + hi))%Z by flia. rewrite !bpow_plus. change (b2 1) with 2.
      apply Rmult_le_compat; try lra; [nra|]. apply Rmult_le_compat_r; lra. }
    assert (Bx' : Rabs (B2R (f n)) <= b2 (hi + (prec - 2))).
    { apply Rle_trans with (1 := Bx). apply bpow_le. flia. }
    destruct (fadd_spec _ _ (hi + (prec - 2)) Fs Fx Bs' Bx') as (Fz & _ & (e & He & Ez) & _); [flia|].
    split; [exact Fz|]. rewrite Ez. split.
    + rewrite !rsum_S. replace (k + S n)%nat with (S (k + n)) by flia. apply ap_rnd; [|exact He].
      apply ap_add0; [exact As|]. apply ap_weaken with k; [exact Ax|flia].
    + rewrite Rabs_mult, P_S, S_INR.
      assert (Rabs (1 + e) <= 1 + u) by (pose proof (Rabs_triang 1 e) as T; rewrite Rabs_R1 in T; lra).
      pose proof (Rabs_triang (B2R (sum A n f)) (B2R (f n))) as T.
      assert (Rabs (B2R (sum A n f) + B2R (f n)) <= P n * ((INR n + 1) * b2 hi)) by nra.
      apply Rle_trans with (P n * ((INR n + 1) * b2 hi) * (1 + u)); [apply Rmult_le_compat; auto using Rabs_pos|]. right. ring.
Qed.
End Format.
