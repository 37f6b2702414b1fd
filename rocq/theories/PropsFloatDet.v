(** * PropsFloatDet.v - C76: floating-point determinants of size four and more, on matrices that
    are diagonally dominant by rows. *)
From Coq Require Import List Arith Bool Lia ZArith Reals Lra.
From Flocq Require Import Core BinarySingleNaN Relative Plus_error.
From Verif Require Import Rust Iter Elem VectorM MatIterM MatrixM ArithM OpsM SpecCommon SpecAlg FloatM SpecReal.
From Verif Require Import Harness AccProofs Sim PropsAlg DetLoop OpsPure FloatErr PropsFloat PropsFloatErr PropsFloatInv GJReal GJFloat RDet DetReal DetFloat PropsFloatGJ.
Import ListNotations.
Local Open Scope R_scope.

Lemma p_det_is_big {T} (A : arith T) dv iz n m : (4 <= n)%nat -> exists cof, p_det A dv iz n m = p_det_big A dv iz n m cof.
Proof. intros H. destruct n as [|[|[|[|k]]]]; try lia. eexists. reflexivity. Qed.

(** ** C76 *)
(** [determinant()] of a float matrix of size n >= 4 that is diagonally dominant by rows with
    margin [del], with row sums of absolute values at most [B]: the exact determinant is not
    zero, the computed one is finite, has the same sign, and its relative error is at most
    16 n^3 epsilon B/del.  Required: 16 n^3 epsilon B <= del, and that n-fold products of
    numbers between del/2 and 2B neither overflow nor underflow. *)
Theorem C76_determinant : forall (t : float_type) S (c : cfg) (d : ety S (float t)) (n : nat) m (s : S) (del B : R) (h : Z),
  (4 <= n)%nat -> (n + n <= W c)%nat -> rect n n m -> Forall (Forall (fun x => is_finite x = true)) m ->
  0 < del <= 1 -> 1 <= B -> (forall i, (i < n)%nat -> rsum n (fun j => Rabs (rat2 m i j)) <= B) -> dominant n del (rat2 m) ->
  16 * INR n ^ 3 * epsilon t * B <= del ->
  (0 <= h)%Z -> bpow radix2 (- h) <= del / 2 -> 2 * B <= bpow radix2 h -> (Z.of_nat n * h <= femax t - 2)%Z ->
  exists x, det c d (float_ops t) n m s = (Ok x, s) /\ is_finite x = true /\ 0 < B2R x * rdet n (rat2 m) /\
  Rabs (B2R x - rdet n (rat2 m)) <= 16 * INR n ^ 3 * epsilon t * (B / del) * Rabs (rdet n (rat2 m)).
Proof.
  intros t S c d n m s del B h Hn HW R Hf Hd HB Hrow Hdom Hs Hh Hlo Hhi Hnh.
  assert (Ee : epsilon t = 2 * ur (fprec t)) by apply u_double.
  destruct (p_det_is_big (float_arith t) (Bdiv mode_NE) (fl_is_zero (fprec t) (femax t)) n m Hn) as [cof E].
  exists (p_det_big (float_arith t) (Bdiv mode_NE) (fl_is_zero (fprec t) (femax t)) n m cof). split.
  - refine (eq_trans (det_p (float_arith t) (Bdiv mode_NE) (fl_is_zero (fprec t) (femax t)) c d (float_ops t)
      (proj1 (fl_exact (fprec t) (femax t) _ _)) (proj2 (fl_exact (fprec t) (femax t) _ _)) (fun _ => eq_refl) n m s _ HW R) (f_equal (fun o => (Ok o, s)) E)). lia.
  - assert (Hs' : 32 * INR n ^ 3 * ur (fprec t) * B <= del) by (rewrite Ee in Hs; lra).
    set (x := p_det_big (float_arith t) _ _ n m cof).
    assert (K : is_finite x = true /\ rdet n (rat2 m) <> 0 /\ Rabs (B2R x - rdet n (rat2 m)) <= 31 * INR n ^ 3 * ur (fprec t) * (B / del) * Rabs (rdet n (rat2 m)))
      by exact (det_ok n m del B Hn R (fun i j Hi Hj => at2_P _ n n m i j R Hf Hi Hj) Hd HB Hs' Hrow (dominant_sum n del _ Hdom) h Hh Hlo Hhi Hnh cof).
    destruct K as (F1 & F2 & F3). clearbody x.
    set (D := rdet n (rat2 m)) in *.
    assert (D1 : 0 < Rabs D) by (now apply Rabs_pos_lt).
    assert (Hq : 0 < INR n ^ 3 * ur (fprec t) * (B / del) <= / 32).
    { assert (0 < INR n) by (apply lt_0_INR; lia). split.
      - apply Rmult_lt_0_compat; [apply Rmult_lt_0_compat; [now apply pow_lt|apply u_pos]|]. apply Rdiv_lt_0_compat; lra.
      - apply Rmult_le_reg_r with (32 * del); [lra|]. replace (INR n ^ 3 * ur (fprec t) * (B / del) * (32 * del)) with (32 * INR n ^ 3 * ur (fprec t) * B) by (field; lra). lra. }
    split; [exact F1|]. split.
    + assert (A : Rabs (B2R x - D) < Rabs D).
      { apply Rle_lt_trans with (1 := F3). rewrite <- (Rmult_1_l (Rabs D)) at 2. apply Rmult_lt_compat_r; [exact D1|].
        replace (31 * INR n ^ 3 * ur (fprec t) * (B / del)) with (31 * (INR n ^ 3 * ur (fprec t) * (B / del))) by ring. lra. }
      revert A. unfold Rabs. destruct (Rcase_abs (B2R x - D)), (Rcase_abs D); intros A; try nra.
    + apply Rle_trans with (1 := F3). apply Rmult_le_compat_r; [lra|]. rewrite Ee.
      replace (31 * INR n ^ 3 * ur (fprec t) * (B / del)) with (31 * (INR n ^ 3 * ur (fprec t) * (B / del))) by ring.
      replace (16 * INR n ^ 3 * (2 * ur (fprec t)) * (B / del)) with (32 * (INR n ^ 3 * ur (fprec t) * (B / del))) by ring. lra.
Qed.
Print Assumptions C76_determinant.

(** ** A concrete instance *)
(** The matrix of C75's example; its determinant is 15. *)
Lemma ex75_det : rdet 4 (rat2 ex75) = 15.
Proof.
  assert (A0 : B2R f0 = 0) by reflexivity. pose proof f1_val as A1. pose proof f2_val as A2.
  set (M := fun i j => nth j (nth i [[2; 1; 0; 0]; [0; 2; 1; 0]; [0; 0; 2; 1]; [1; 0; 0; 2]] []) 0).
  rewrite (rdet_ext 4 (rat2 ex75) M).
  - unfold M. cbv [rdet rsum rminor over seq fold_left Nat.even Nat.ltb Nat.leb nth]. ring.
  - intros i j Hi Hj. do 4 (destruct i as [|i]; [do 4 (destruct j as [|j]; [unfold rat2, M; cbn [nth ex75]; assumption|]); lia|]). lia.
Qed.
Example C76_ex : forall S (c : cfg) (d : ety S f64) (s : S), exists x, det c d f64_ops 4 ex75 s = (Ok x, s) /\ is_finite x = true /\
  0 < B2R x /\ Rabs (B2R x - 15) <= 15 * b2 (-40).
Proof.
  intros S c d s. destruct ex75_rows as [H1 H2].
  destruct (C76_determinant F64 S c d 4 ex75 s 1 3 3) as (x & E1 & E2 & E3 & E4);
    [lia|pose proof (W_big c); lia|split; [reflexivity|repeat constructor]|repeat constructor|lra|lra|exact H1|exact H2| |lia|cbn; lra|cbn; lra|cbn; lia|].
  - unfold epsilon. cbn. lra.
  - exists x. split; [exact E1|]. split; [exact E2|].
    assert (E3' : 0 < B2R x * 15) by (rewrite <- ex75_det; exact E3).
    assert (E4' : Rabs (B2R x - 15) <= 16 * INR 4 ^ 3 * epsilon F64 * (3 / 1) * Rabs 15) by (rewrite <- ex75_det; exact E4).
    split; [change (@B2R 53 1024 x) with (@B2R (fprec F64) (femax F64) x); lra|]. apply Rle_trans with (1 := E4'). rewrite (Rabs_pos_eq 15) by lra. unfold epsilon. cbn. lra.
Qed.
