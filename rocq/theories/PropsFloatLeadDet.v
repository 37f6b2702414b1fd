(** * PropsFloatLeadDet.v - C82: floating-point determinants of size four and more, on matrices
    whose leading principal blocks are all well conditioned. *)
From Coq Require Import List Arith Bool Lia ZArith Reals Lra.
From Flocq Require Import Core BinarySingleNaN Relative Plus_error.
From Verif Require Import Rust Iter Elem VectorM MatIterM MatrixM ArithM OpsM SpecCommon SpecAlg FloatM SpecReal.
From Verif Require Import Harness AccProofs Sim PropsAlg DetLoop OpsPure FloatErr PropsFloat PropsFloatErr PropsFloatInv GJReal GJFloat GJGen GJGenFloat RDet DetReal DetFloat DetGen DetGenFloat PropsFloatGJ PropsFloatDet PropsFloatLead.
Import ListNotations.
Local Open Scope R_scope.

(** ** C82 *)
(** [determinant()] of a float matrix of size n >= 4 with row sums of absolute values at most [B],
    all of whose leading principal blocks have real inverses with row sums at most [H]: the exact
    determinant is not zero, the computed one is finite, has the same sign, and its relative error
    is at most 300 n^3 epsilon H^5 B^6.  Required: 300 n^3 epsilon H^5 B^6 <= 1, and that n-fold
    products of numbers between 1/(3 H B^2) and 3 H B^2 neither overflow nor underflow. *)
Theorem C82_determinant : forall (t : float_type) S (c : cfg) (d : ety S (float t)) (n : nat) m (s : S) (H B : R) (h : Z),
  (4 <= n)%nat -> (n + n <= W c)%nat -> rect n n m -> Forall (Forall (fun x => is_finite x = true)) m ->
  1 <= H -> 1 <= B -> (forall i, (i < n)%nat -> rsum n (fun j => Rabs (rat2 m i j)) <= B) -> leading_inverses n H (rat2 m) ->
  300 * INR n ^ 3 * epsilon t * (H ^ 5 * B ^ 6) <= 1 ->
  (0 <= h)%Z -> 3 * H * B ^ 2 <= bpow radix2 h -> (Z.of_nat n * h <= femax t - 2)%Z ->
  exists x, det c d (float_ops t) n m s = (Ok x, s) /\ is_finite x = true /\ 0 < B2R x * rdet n (rat2 m) /\
  Rabs (B2R x - rdet n (rat2 m)) <= 300 * INR n ^ 3 * epsilon t * (H ^ 5 * B ^ 6) * Rabs (rdet n (rat2 m)).
Proof.
  intros t S c d n m s H B h Hn HW R Hf HH HB Hrow Hlead Hs Hh Hhi Hnh.
  assert (Ee : epsilon t = 2 * ur (fprec t)) by apply u_double.
  destruct (p_det_is_big (float_arith t) (Bdiv mode_NE) (fl_is_zero (fprec t) (femax t)) n m Hn) as [cof E].
  exists (p_det_big (float_arith t) (Bdiv mode_NE) (fl_is_zero (fprec t) (femax t)) n m cof). split.
  - refine (eq_trans (det_p (float_arith t) (Bdiv mode_NE) (fl_is_zero (fprec t) (femax t)) c d (float_ops t)
      (proj1 (fl_exact (fprec t) (femax t) _ _)) (proj2 (fl_exact (fprec t) (femax t) _ _)) (fun _ => eq_refl) n m s _ HW R) (f_equal (fun o => (Ok o, s)) E)). lia.
  - assert (Hs' : 600 * INR n ^ 3 * ur (fprec t) * (H ^ 5 * B ^ 6) <= 1) by (rewrite Ee in Hs; lra).
    set (x := p_det_big (float_arith t) _ _ n m cof).
    assert (K : is_finite x = true /\ rdet n (rat2 m) <> 0 /\ Rabs (B2R x - rdet n (rat2 m)) <= 542 * INR n ^ 3 * ur (fprec t) * (H ^ 5 * B ^ 6) * Rabs (rdet n (rat2 m)))
      by exact (ldet_ok n m H B Hn R (fun i j Hi Hj => at2_P _ n n m i j R Hf Hi Hj) HB HH Hs' Hrow Hlead h Hh Hhi Hnh cof).
    destruct K as (F1 & F2 & F3). clearbody x.
    set (D := rdet n (rat2 m)) in *.
    assert (D1 : 0 < Rabs D) by (now apply Rabs_pos_lt).
    set (q := INR n ^ 3 * ur (fprec t) * (H ^ 5 * B ^ 6)).
    assert (Hq : 0 < q <= / 600).
    { assert (0 < INR n) by (apply lt_0_INR; lia). split.
      - unfold q. apply Rmult_lt_0_compat; [apply Rmult_lt_0_compat; [now apply pow_lt|apply u_pos]|]. apply Rmult_lt_0_compat; apply pow_lt; lra.
      - unfold q. lra. }
    replace (542 * INR n ^ 3 * ur (fprec t) * (H ^ 5 * B ^ 6)) with (542 * q) in F3 by (unfold q; ring).
    split; [exact F1|]. split.
    + assert (A : Rabs (B2R x - D) < Rabs D).
      { apply Rle_lt_trans with (1 := F3). rewrite <- (Rmult_1_l (Rabs D)) at 2. apply Rmult_lt_compat_r; [exact D1|]. lra. }
      revert A. unfold Rabs. destruct (Rcase_abs (B2R x - D)), (Rcase_abs D); intros A; try nra.
    + apply Rle_trans with (1 := F3). apply Rmult_le_compat_r; [lra|]. rewrite Ee.
      replace (300 * INR n ^ 3 * (2 * ur (fprec t)) * (H ^ 5 * B ^ 6)) with (600 * q) by (unfold q; ring). lra.
Qed.
Print Assumptions C82_determinant.

(** ** A concrete instance *)
(** The matrix of C81's example; its determinant is 1. *)
Lemma ex81_det : rdet 4 (rat2 ex81) = 1.
Proof.
  assert (A0 : B2R f0 = 0) by reflexivity. pose proof f1_val as A1. pose proof f2_val as A2.
  set (M := fun i j => nth j (nth i [[1; 1; 0; 0]; [1; 2; 1; 0]; [0; 1; 2; 1]; [0; 0; 1; 2]] []) 0).
  rewrite (rdet_ext 4 (rat2 ex81) M).
  - unfold M. cbv [rdet rsum rminor over seq fold_left Nat.even Nat.ltb Nat.leb nth]. ring.
  - intros i j Hi Hj. do 4 (destruct i as [|i]; [do 4 (destruct j as [|j]; [unfold rat2, M; cbn [nth ex81]; assumption|]); lia|]). lia.
Qed.
Example C82_ex : forall S (c : cfg) (d : ety S f64) (s : S), exists x, det c d f64_ops 4 ex81 s = (Ok x, s) /\ is_finite x = true /\
  0 < B2R x /\ Rabs (B2R x - 1) <= b2 (-9).
Proof.
  intros S c d s.
  destruct (C82_determinant F64 S c d 4 ex81 s 10 4 9) as (x & E1 & E2 & E3 & E4);
    [lia|pose proof (W_big c); lia|split; [reflexivity|repeat constructor]|repeat constructor|lra|lra|exact ex81_rows|exact ex81_lead| |lia|cbn; lra|cbn; lia|].
  - unfold epsilon. cbn. lra.
  - exists x. split; [exact E1|]. split; [exact E2|].
    assert (E3' : 0 < B2R x * 1) by (rewrite <- ex81_det; exact E3).
    assert (E4' : Rabs (B2R x - 1) <= 300 * INR 4 ^ 3 * epsilon F64 * (10 ^ 5 * 4 ^ 6) * Rabs 1) by (rewrite <- ex81_det; exact E4).
    split; [change (@B2R 53 1024 x) with (@B2R (fprec F64) (femax F64) x); lra|]. apply Rle_trans with (1 := E4'). rewrite (Rabs_pos_eq 1) by lra. unfold epsilon. cbn. lra.
Qed.
