(** * GJReal.v - error analysis of Gauss-Jordan elimination without pivoting on real matrices
    that are diagonally dominant by rows (proofs only; no floats here). *)
From Coq Require Import List Arith Bool Lia ZArith Reals Lra.
From Verif Require Import SpecReal FloatErr.
Import ListNotations.
Local Open Scope R_scope.

(** ** Sums of reals *)
Lemma rsum_0 f : rsum 0 f = 0.
Proof. reflexivity. Qed.
Lemma rsum_plus n f g : rsum n (fun j => f j + g j) = rsum n f + rsum n g.
Proof. induction n as [|n IH]; [rewrite !rsum_0; ring|]. rewrite !rsum_S, IH. ring. Qed.
Lemma rsum_minus n f g : rsum n (fun j => f j - g j) = rsum n f - rsum n g.
Proof. induction n as [|n IH]; [rewrite !rsum_0; ring|]. rewrite !rsum_S, IH. ring. Qed.
Lemma rsum_scal n a f : rsum n (fun j => a * f j) = a * rsum n f.
Proof. induction n as [|n IH]; [rewrite !rsum_0; ring|]. rewrite !rsum_S, IH. ring. Qed.
Lemma rsum_scal_r n a f : rsum n (fun j => f j * a) = rsum n f * a.
Proof. induction n as [|n IH]; [rewrite !rsum_0; ring|]. rewrite !rsum_S, IH. ring. Qed.
Lemma rsum_const n a : rsum n (fun _ => a) = INR n * a.
Proof. induction n as [|n IH]; [rewrite rsum_0; cbn; ring|]. rewrite rsum_S, IH, S_INR. ring. Qed.
Lemma rsum_le n f g : (forall j, (j < n)%nat -> f j <= g j) -> rsum n f <= rsum n g.
Proof.
  induction n as [|n IH]; intros H; [rewrite !rsum_0; lra|]. rewrite !rsum_S. pose proof (H n ltac:(lia)).
  specialize (IH (fun i Hi => H i ltac:(lia))). lra.
Qed.
Lemma rsum_abs n f : Rabs (rsum n f) <= rsum n (fun j => Rabs (f j)).
Proof.
  induction n as [|n IH]; [rewrite !rsum_0, Rabs_R0; lra|]. rewrite !rsum_S. pose proof (Rabs_triang (rsum n f) (f n)). lra.
Qed.
Lemma rsum_pos n f : (forall j, (j < n)%nat -> 0 <= f j) -> 0 <= rsum n f.
Proof. intros H. pose proof (rsum_le n (fun _ => 0) f H) as L. rewrite rsum_const in L. lra. Qed.
(** Changing one term. *)
Lemma rsum_upd n f k v : (k < n)%nat -> rsum n (fun j => if (j =? k)%nat then v else f j) = rsum n f - f k + v.
Proof.
  induction n as [|n IH]; intros Hk; [lia|]. rewrite !rsum_S. destruct (Nat.eq_dec k n) as [->|Hkn].
  - rewrite Nat.eqb_refl. rewrite (rsum_ext n _ f); [ring|]. intros i Hi. destruct (Nat.eqb_spec i n); [lia|reflexivity].
  - rewrite IH by lia. destruct (Nat.eqb_spec n k); [lia|]. ring.
Qed.
Lemma rsum_one n k f : (k < n)%nat -> rsum n (fun j => if (j =? k)%nat then f j else 0) = f k.
Proof.
  intros Hk. rewrite (rsum_ext n _ (fun j => if (j =? k)%nat then f k else (fun _ => 0) j)).
  - rewrite rsum_upd by exact Hk. rewrite rsum_const. ring.
  - intros i _. destruct (Nat.eqb_spec i k) as [->|]; reflexivity.
Qed.
Lemma rsum_term n f k : (forall j, (j < n)%nat -> 0 <= f j) -> (k < n)%nat -> f k <= rsum n f.
Proof.
  intros H Hk. rewrite <- (rsum_one n k f Hk). apply rsum_le. intros j Hj. destruct (j =? k)%nat; [lra|now apply H].
Qed.
Lemma rsum_swap n p f : rsum n (fun i => rsum p (fun j => f i j)) = rsum p (fun j => rsum n (fun i => f i j)).
Proof.
  induction n as [|n IH].
  - rewrite rsum_0. rewrite (rsum_ext p _ (fun _ => 0)) by (intros; apply rsum_0). rewrite rsum_const. ring.
  - rewrite rsum_S, IH, <- rsum_plus. apply rsum_ext. intros j _. now rewrite rsum_S.
Qed.
Lemma rsum_mul_le n f g a b : (forall j, (j < n)%nat -> Rabs (f j) <= a) -> (forall j, (j < n)%nat -> Rabs (g j) <= b) ->
  Rabs (rsum n (fun j => f j * g j)) <= INR n * (a * b).
Proof.
  intros Hf Hg. apply Rle_trans with (1 := rsum_abs _ _). rewrite <- rsum_const. apply rsum_le. intros j Hj.
  rewrite Rabs_mult. apply Rmult_le_compat; auto using Rabs_pos.
Qed.
Lemma rsum_row_le n f g b : (forall j, (j < n)%nat -> Rabs (g j) <= b) ->
  Rabs (rsum n (fun j => f j * g j)) <= rsum n (fun j => Rabs (f j)) * b.
Proof.
  intros Hg. apply Rle_trans with (1 := rsum_abs _ _). rewrite <- rsum_scal_r. apply rsum_le. intros j Hj.
  rewrite Rabs_mult. apply Rmult_le_compat_l; [apply Rabs_pos|auto].
Qed.

Lemma abs_0 r : Rabs r = 0 -> r = 0.
Proof. intros H. destruct (Req_dec r 0) as [|N]; [assumption|]. pose proof (Rabs_pos_lt r N). lra. Qed.

Definition dl (i j : nat) : R := if (i =? j)%nat then 1 else 0.
Lemma dl_le i j : Rabs (dl i j) <= 1.
Proof. unfold dl. destruct (i =? j)%nat; [rewrite Rabs_R1|rewrite Rabs_R0]; lra. Qed.

(** ** The elimination *)
Section GJ.
Variable n : nat.
Variable A : nat -> nat -> R.
Variables del B e : R.
Hypothesis Hdel : 0 < del <= 1.
Hypothesis HB : 1 <= B.
Hypothesis He : 0 <= e.
Hypothesis Hsmall : 3 * (INR n * INR n * e) <= del.
Hypothesis Hrow : forall i, (i < n)%nat -> rsum n (fun j => Rabs (A i j)) <= B.
Hypothesis Hdom : forall i, (i < n)%nat -> rsum n (fun j => Rabs (A i j)) + del <= 2 * Rabs (A i i).
Let w := del / 2.

(** Column [j] of the exact step with pivot [k]. *)
Definition ex (m z : nat -> nat -> R) (k i j : nat) : R :=
  if (i =? k)%nat then z k j / m k k else z i j - m i k * (z k j / m k k).
(** An approximate step. *)
Record Step (k : nat) (m x m' x' : nat -> nat -> R) : Prop := {
  st_m : forall i j, (i < n)%nat -> (k < j < n)%nat -> Rabs (m' i j - ex m m k i j) <= e;
  st_x : forall i j, (i < n)%nat -> (j <= k)%nat -> w * Rabs (x' i j - ex m x k i j) <= e;
  st_0 : forall i j, (i < n)%nat -> (k < j < n)%nat -> x' i j = ex m x k i j }.
(** The columns that matter: of [m] from [k] on, of [x] before [k], weighted. *)
Definition aug (k : nat) (m x : nat -> nat -> R) (i j : nat) : R := if (j <? k)%nat then w * x i j else m i j.
Definition rs k m x i : R := rsum n (fun j => Rabs (aug k m x i j)).
Let tM := 3 * B * e.
Let tX := 3 * B * (e / w).
Record Inv (k : nat) (m x : nat -> nat -> R) : Prop := {
  iv_x : forall i j, (i < n)%nat -> (k <= j < n)%nat -> x i j = dl i j;
  iv_done : forall i, (i < k)%nat -> rs k m x i <= 1 + INR k * (INR n * e);
  iv_up : forall i, (k <= i < n)%nat -> rs k m x i <= B + INR k * (INR n * e);
  iv_dom : forall i, (k <= i < n)%nat -> rs k m x i + del <= 2 * Rabs (m i i) + INR k * (INR n * e);
  iv_T : exists T : nat -> nat -> R,
    (forall i j, (i < n)%nat -> (k <= j < n)%nat -> T i j = dl i j) /\
    (forall i j, (i < n)%nat -> (j < k)%nat -> Rabs (T i j - A i j) <= INR k * tM) /\
    (forall i j, (i < n)%nat -> (k <= j < n)%nat -> Rabs (rsum n (fun l => T i l * m l j) - A i j) <= INR k * tM) /\
    (forall i j, (i < n)%nat -> (j < n)%nat -> Rabs (rsum n (fun l => T i l * x l j) - dl i j) <= INR k * tX) }.

Lemma Hn0 k : (k <= n)%nat -> INR k * (INR n * e) <= INR n * INR n * e.
Proof.
  intros H. rewrite <- Rmult_assoc. apply Rmult_le_compat_r; [exact He|]. apply Rmult_le_compat_r; [apply pos_INR|now apply le_INR].
Qed.
Lemma kne k : 0 <= INR k * (INR n * e).
Proof. repeat apply Rmult_le_pos; auto using pos_INR. Qed.

Lemma inv_start : Inv 0 A dl.
Proof.
  assert (E : forall i, rs 0 A dl i = rsum n (fun j => Rabs (A i j))) by (intros; reflexivity).
  split.
  - reflexivity.
  - intros; lia.
  - intros i Hi. rewrite E. cbn [INR]. pose proof (Hrow i ltac:(lia)). lra.
  - intros i Hi. rewrite E. cbn [INR]. pose proof (Hdom i ltac:(lia)). lra.
  - exists dl. cbn [INR].
    assert (G : forall (z : nat -> nat -> R) i j, (i < n)%nat -> rsum n (fun l => dl i l * z l j) = z i j).
    { intros z i j Hi. rewrite <- (rsum_one n i (fun l => z l j) Hi). apply rsum_ext. intros l _. unfold dl.
      rewrite (Nat.eqb_sym i l). destruct (l =? i)%nat; ring. }
    repeat split; auto.
    + intros; lia.
    + intros i j Hi Hj. rewrite G by lia. unfold Rminus. rewrite Rplus_opp_r, Rabs_R0. lra.
    + intros i j Hi Hj. rewrite (G dl) by lia. unfold Rminus. rewrite Rplus_opp_r, Rabs_R0. lra.
Qed.

(** What the invariant says about the entries of the next step. *)
Section Bounds.
Variables (k : nat) (m x : nat -> nat -> R).
Hypothesis I : Inv k m x.
Hypothesis Hk : (k < n)%nat.
Let sl := INR k * (INR n * e).
Lemma sl_le : 0 <= sl <= del / 3.
Proof. unfold sl. split; [apply kne|]. pose proof (Hn0 k ltac:(lia)). lra. Qed.
Lemma aug_row i j : (i < n)%nat -> (j < n)%nat -> Rabs (aug k m x i j) <= rs k m x i.
Proof. intros Hi Hj. apply (rsum_term n (fun j => Rabs (aug k m x i j)) j); [intros; apply Rabs_pos|exact Hj]. Qed.
Lemma pivot : rs k m x k - Rabs (m k k) + w <= Rabs (m k k).
Proof. pose proof (iv_dom _ _ _ I k ltac:(lia)). pose proof sl_le. unfold w. unfold sl in *. lra. Qed.
Lemma pivot_low : del * 2 / 3 <= Rabs (m k k).
Proof.
  pose proof (iv_dom _ _ _ I k ltac:(lia)). pose proof sl_le. pose proof (aug_row k k Hk Hk) as HA0. unfold aug in HA0.
  rewrite (proj2 (Nat.ltb_ge k k)) in HA0 by lia. unfold sl in *. lra.
Qed.
Lemma pivot_pos : 0 < Rabs (m k k).
Proof. pose proof pivot_low. lra. Qed.
(** Entries of the pivot row after division: m at most 1, w x at most 1. *)
Lemma piv_m j : (k < j < n)%nat -> Rabs (m k j / m k k) <= 1.
Proof.
  intros Hj. pose proof pivot_pos as Hp. unfold Rdiv. rewrite Rabs_mult, Rabs_Rinv by (intros E; rewrite E, Rabs_R0 in Hp; lra).
  apply Rmult_le_reg_r with (Rabs (m k k)); [exact Hp|]. rewrite Rmult_assoc, Rinv_l by lra.
  pose proof pivot. assert (H1 : Rabs (m k k) + Rabs (m k j) <= rs k m x k).
  { unfold rs. pose proof (rsum_upd n (fun j => Rabs (aug k m x k j)) k 0 Hk) as E.
    pose proof (rsum_term n (fun j0 => if (j0 =? k)%nat then 0 else Rabs (aug k m x k j0)) j) as L. cbv beta in L.
    rewrite E in L. destruct (Nat.eqb_spec j k); [lia|]. unfold aug at 2 in L. unfold aug at 3 in L.
    rewrite (proj2 (Nat.ltb_ge k k)), (proj2 (Nat.ltb_ge j k)) in L by lia.
    assert (L' := L (fun j0 _ => if (j0 =? k)%nat as b return (0 <= (if b then 0 else Rabs (aug k m x k j0))) then Rle_refl 0 else Rabs_pos _) ltac:(lia)). lra. }
  unfold w in *. lra.
Qed.
Lemma piv_x j : (j < k)%nat -> w * Rabs (x k j / m k k) <= 1.
Proof.
  intros Hj. pose proof pivot_pos as Hp. unfold Rdiv. rewrite Rabs_mult, Rabs_Rinv by (intros E; rewrite E, Rabs_R0 in Hp; lra).
  apply Rmult_le_reg_r with (Rabs (m k k)); [exact Hp|]. rewrite Rmult_assoc, Rmult_assoc, Rinv_l by lra.
  pose proof pivot. assert (H1 : Rabs (m k k) + w * Rabs (x k j) <= rs k m x k).
  { unfold rs. pose proof (rsum_upd n (fun j => Rabs (aug k m x k j)) k 0 Hk) as E.
    pose proof (rsum_term n (fun j0 => if (j0 =? k)%nat then 0 else Rabs (aug k m x k j0)) j) as L. cbv beta in L.
    rewrite E in L. destruct (Nat.eqb_spec j k); [lia|]. unfold aug at 2 in L. unfold aug at 3 in L.
    rewrite (proj2 (Nat.ltb_ge k k)), (proj2 (Nat.ltb_lt j k)) in L by lia.
    assert (L' := L (fun j0 _ => if (j0 =? k)%nat as b return (0 <= (if b then 0 else Rabs (aug k m x k j0))) then Rle_refl 0 else Rabs_pos _) ltac:(lia)).
    rewrite Rabs_mult, (Rabs_pos_eq w) in L' by (unfold w; lra). lra. }
  unfold w in *. lra.
Qed.
Lemma piv_1 : w * Rabs (1 / m k k) <= 1.
Proof.
  pose proof pivot_pos as Hp. unfold Rdiv. rewrite Rabs_mult, Rabs_R1, Rmult_1_l, Rabs_Rinv by (intros E; rewrite E, Rabs_R0 in Hp; lra).
  apply Rmult_le_reg_r with (Rabs (m k k)); [exact Hp|]. rewrite Rmult_assoc, Rinv_l by lra. pose proof pivot_low. unfold w. lra.
Qed.
(** All working entries. *)
Lemma row_up i : (i < n)%nat -> rs k m x i <= 4 / 3 * B.
Proof.
  intros Hi. pose proof sl_le. unfold sl in *. destruct (Nat.lt_ge_cases i k) as [H1|H1].
  - pose proof (iv_done _ _ _ I i H1). lra.
  - pose proof (iv_up _ _ _ I i ltac:(lia)). lra.
Qed.
Lemma bnd_m i j : (i < n)%nat -> (k <= j < n)%nat -> Rabs (m i j) <= 4 / 3 * B.
Proof.
  intros Hi Hj. pose proof (aug_row i j Hi ltac:(lia)) as H0. unfold aug in H0. rewrite (proj2 (Nat.ltb_ge j k)) in H0 by lia.
  pose proof (row_up i Hi). lra.
Qed.
Lemma bnd_x i j : (i < n)%nat -> (j < n)%nat -> w * Rabs (x i j) <= 4 / 3 * B.
Proof.
  intros Hi Hj. destruct (Nat.lt_ge_cases j k) as [H1|H1].
  - pose proof (aug_row i j Hi ltac:(lia)) as H0. unfold aug in H0. rewrite (proj2 (Nat.ltb_lt j k)) in H0 by lia.
    rewrite Rabs_mult, (Rabs_pos_eq w) in H0 by (unfold w; lra). pose proof (row_up i Hi). lra.
  - rewrite (iv_x _ _ _ I) by lia. pose proof (dl_le i j). unfold w. nra.
Qed.
End Bounds.

(** One step keeps the invariant. *)
Section Next.
Variables (k : nat) (m x m' x' : nat -> nat -> R).
Hypothesis I : Inv k m x.
Hypothesis Hk : (k < n)%nat.
Hypothesis St : Step k m x m' x'.
Let p := m k k.
Let q := rs k m x k.
Let w0 : 0 < w. Proof. unfold w. lra. Qed.
Let p0 : 0 < Rabs p. Proof. exact (pivot_pos k m x I Hk). Qed.
Let pn : p <> 0. Proof. intros E. pose proof p0. rewrite E, Rabs_R0 in *. lra. Qed.
Let pv : q - Rabs p + w <= Rabs p. Proof. exact (pivot k m x I Hk). Qed.

(** The exact update of the weighted entry. *)
Definition aex (i j : nat) : R := if (j <? k + 1)%nat then w * ex m x k i j else ex m m k i j.
Lemma aug_err i j : (i < n)%nat -> (j < n)%nat -> Rabs (aug (k + 1) m' x' i j - aex i j) <= e.
Proof.
  intros Hi Hj. unfold aug, aex. destruct (Nat.ltb_spec j (k + 1)) as [H|H].
  - rewrite <- Rmult_minus_distr_l, Rabs_mult, (Rabs_pos_eq w) by lra. apply (st_x _ _ _ _ _ St); lia.
  - apply (st_m _ _ _ _ _ St); lia.
Qed.
(** Its size. *)
Lemma aex_k j : (j < n)%nat -> Rabs (aex k j) = (if (j =? k)%nat then w else Rabs (aug k m x k j)) / Rabs p.
Proof.
  intros Hj. unfold aex, ex, aug. rewrite Nat.eqb_refl. fold p. destruct (Nat.eqb_spec j k) as [->|Hjk].
  - rewrite (proj2 (Nat.ltb_lt k (k + 1))) by lia. rewrite (iv_x _ _ _ I) by lia. unfold dl. rewrite Nat.eqb_refl.
    unfold Rdiv. rewrite Rmult_1_l, Rabs_mult, Rabs_Rinv, (Rabs_pos_eq w) by (auto; lra). reflexivity.
  - destruct (Nat.ltb_spec j (k + 1)), (Nat.ltb_spec j k); try lia; unfold Rdiv; rewrite ?Rabs_mult, Rabs_Rinv by exact pn; ring.
Qed.
Lemma aex_i i j : (i < n)%nat -> (j < n)%nat -> i <> k ->
  Rabs (aex i j) <= (if (j =? k)%nat then Rabs (m i k) / Rabs p * w else Rabs (aug k m x i j) + Rabs (m i k) / Rabs p * Rabs (aug k m x k j)).
Proof.
  intros Hi Hj Hik. unfold aex, ex, aug. rewrite (proj2 (Nat.eqb_neq i k) Hik). fold p. destruct (Nat.eqb_spec j k) as [->|Hjk].
  - rewrite (proj2 (Nat.ltb_lt k (k + 1))) by lia. rewrite !(iv_x _ _ _ I) by lia. unfold dl. rewrite Nat.eqb_refl, (proj2 (Nat.eqb_neq i k) Hik).
    right. unfold Rdiv. replace (w * (0 - m i k * (1 * / p))) with (- (w * (m i k * / p))) by ring.
    rewrite Rabs_Ropp, !Rabs_mult, Rabs_Rinv, (Rabs_pos_eq w) by (auto; lra). ring.
  - destruct (Nat.ltb_spec j (k + 1)), (Nat.ltb_spec j k); try lia.
    + replace (w * (x i j - m i k * (x k j / p))) with (w * x i j + - (m i k / p * (w * x k j))) by (field; exact pn).
      apply Rle_trans with (1 := Rabs_triang _ _). rewrite Rabs_Ropp, (Rabs_mult (m i k / p)). right. unfold Rdiv.
      rewrite (Rabs_mult (m i k)), Rabs_Rinv by exact pn. reflexivity.
    + replace (m i j - m i k * (m k j / p)) with (m i j + - (m i k / p * m k j)) by (field; exact pn).
      apply Rle_trans with (1 := Rabs_triang _ _). rewrite Rabs_Ropp, (Rabs_mult (m i k / p)). right. unfold Rdiv.
      rewrite (Rabs_mult (m i k)), Rabs_Rinv by exact pn. reflexivity.
Qed.
Let g i j := (if (j =? k)%nat then Rabs (m i k) / Rabs p * w else Rabs (aug k m x i j) + Rabs (m i k) / Rabs p * Rabs (aug k m x k j)) + e.
Lemma aug_kk i : aug k m x i k = m i k.
Proof. unfold aug. now rewrite (proj2 (Nat.ltb_ge k k)) by lia. Qed.
Lemma g_sum i : rsum n (g i) <= rs k m x i + INR n * e.
Proof.
  unfold g. rewrite rsum_plus, rsum_const. rewrite rsum_upd by exact Hk. rewrite rsum_plus, rsum_scal. fold (rs k m x i). fold (rs k m x k). fold q.
  rewrite !aug_kk. fold p. set (a := Rabs (m i k)). assert (a / Rabs p * Rabs p = a) by (field; lra).
  assert (0 <= a / Rabs p) by (apply Rmult_le_pos; [apply Rabs_pos|left; now apply Rinv_0_lt_compat]). nra.
Qed.
Lemma aug_g i j : (i < n)%nat -> (j < n)%nat -> i <> k -> Rabs (aug (k + 1) m' x' i j) <= g i j.
Proof.
  intros Hi Hj Hik. unfold g. pose proof (aug_err i j Hi Hj). pose proof (aex_i i j Hi Hj Hik).
  pose proof (Rabs_triang_inv (aug (k + 1) m' x' i j) (aex i j)). lra.
Qed.
Lemma rs_next i : (i < n)%nat -> i <> k -> rs (k + 1) m' x' i <= rs k m x i + INR n * e.
Proof.
  intros Hi Hik. apply Rle_trans with (2 := g_sum i). apply rsum_le. intros j Hj. now apply aug_g.
Qed.
Lemma rs_k : rs (k + 1) m' x' k <= 1 + INR n * e.
Proof.
  apply Rle_trans with (rsum n (fun j => (if (j =? k)%nat then w else Rabs (aug k m x k j)) * / Rabs p + e)).
  - apply rsum_le. intros j Hj. pose proof (aug_err k j Hk Hj). rewrite <- (aex_k j Hj : _ = _ * / _).
    pose proof (Rabs_triang_inv (aug (k + 1) m' x' k j) (aex k j)). lra.
  - rewrite rsum_plus, rsum_const, rsum_scal_r, rsum_upd by exact Hk. fold (rs k m x k). fold q. rewrite aug_kk. fold p.
    apply Rplus_le_compat_r. apply Rmult_le_reg_r with (Rabs p); [exact p0|]. rewrite Rmult_assoc, Rinv_l by lra. lra.
Qed.
Lemma k1 : INR (k + 1) * (INR n * e) = INR k * (INR n * e) + INR n * e.
Proof. rewrite plus_INR. cbn [INR]. ring. Qed.
Lemma dom_next i : (k + 1 <= i < n)%nat -> rs (k + 1) m' x' i + del <= 2 * Rabs (m' i i) + INR (k + 1) * (INR n * e).
Proof.
  intros Hi. rewrite k1. set (v := Rabs (m' i i)).
  assert (Hv : rs (k + 1) m' x' i <= rsum n (g i) - g i i + v).
  { rewrite <- rsum_upd by lia. apply rsum_le. intros j Hj. destruct (Nat.eqb_spec j i) as [->|]; [|apply aug_g; lia].
    unfold aug, v. rewrite (proj2 (Nat.ltb_ge i (k + 1))) by lia. lra. }
  assert (Hg : g i i = Rabs (m i i) + Rabs (m i k) / Rabs p * Rabs (m k i) + e).
  { unfold g, aug. destruct (Nat.eqb_spec i k); [lia|]. rewrite (proj2 (Nat.ltb_ge i k)) by lia. reflexivity. }
  assert (Hm : Rabs (m i i) - Rabs (m i k) / Rabs p * Rabs (m k i) - e <= v).
  { pose proof (st_m _ _ _ _ _ St i i ltac:(lia) ltac:(lia)) as H. unfold ex in H. destruct (Nat.eqb_spec i k) as [|Hik]; [lia|]. fold p in H.
    pose proof (Rabs_triang_inv (m i i - m i k * (m k i / p)) (m i i - m i k * (m k i / p) - m' i i)) as H1.
    replace (m i i - m i k * (m k i / p) - (m i i - m i k * (m k i / p) - m' i i)) with (m' i i) in H1 by ring.
    rewrite Rabs_minus_sym in H. pose proof (Rabs_triang_inv (m i i) (m i k * (m k i / p))) as H2.
    replace (Rabs (m i k * (m k i / p))) with (Rabs (m i k) / Rabs p * Rabs (m k i)) in H2.
    - unfold v. lra.
    - unfold Rdiv. rewrite !Rabs_mult, Rabs_Rinv by exact pn. ring. }
  pose proof (iv_dom _ _ _ I i ltac:(lia)). pose proof (g_sum i). lra.
Qed.

(** The matrix T: column [k] becomes T times the pivot column. *)
Lemma e_w : 0 <= e / w.
Proof. apply Rmult_le_pos; [exact He|]. left. apply Rinv_0_lt_compat, w0. Qed.
Lemma T_next : exists T : nat -> nat -> R,
    (forall i j, (i < n)%nat -> (k + 1 <= j < n)%nat -> T i j = dl i j) /\
    (forall i j, (i < n)%nat -> (j < k + 1)%nat -> Rabs (T i j - A i j) <= INR (k + 1) * tM) /\
    (forall i j, (i < n)%nat -> (k + 1 <= j < n)%nat -> Rabs (rsum n (fun l => T i l * m' l j) - A i j) <= INR (k + 1) * tM) /\
    (forall i j, (i < n)%nat -> (j < n)%nat -> Rabs (rsum n (fun l => T i l * x' l j) - dl i j) <= INR (k + 1) * tX).
Proof.
  destruct (iv_T _ _ _ I) as (T & T0 & T1 & T2 & T3).
  set (c := fun i => rsum n (fun l => T i l * m l k)).
  set (T' := fun i j => if (j =? k)%nat then c i else T i j).
  assert (HtM : 0 <= tM) by (unfold tM; repeat apply Rmult_le_pos; lra).
  assert (Hk1 : INR (k + 1) = INR k + 1) by (rewrite plus_INR; reflexivity).
  assert (T1' : forall i j, (i < n)%nat -> (j < k + 1)%nat -> Rabs (T' i j - A i j) <= INR k * tM).
  { intros i j Hi Hj. unfold T'. destruct (Nat.eqb_spec j k) as [->|Hjk]; [apply T2; lia|apply T1; lia]. }
  assert (T0' : forall i j, (i < n)%nat -> (k + 1 <= j < n)%nat -> T' i j = dl i j).
  { intros i j Hi Hj. unfold T'. destruct (Nat.eqb_spec j k); [lia|]. apply T0; lia. }
  (* rows of T' *)
  assert (HR : forall i, (i < n)%nat -> rsum n (fun l => Rabs (T' i l)) <= 3 * B).
  { intros i Hi. apply Rle_trans with (rsum n (fun l => Rabs (A i l) + INR k * tM + Rabs (dl i l))).
    - apply rsum_le. intros l Hl. assert (0 <= INR k * tM) by (apply Rmult_le_pos; [apply pos_INR|exact HtM]).
      destruct (Nat.lt_ge_cases l (k + 1)) as [H1|H1].
      + pose proof (T1' i l Hi H1). pose proof (Rabs_triang_inv (T' i l) (A i l)). pose proof (Rabs_pos (dl i l)). lra.
      + rewrite (T0' i l) by lia. pose proof (Rabs_pos (A i l)). lra.
    - rewrite !rsum_plus, rsum_const. pose proof (Hrow i Hi).
      rewrite (rsum_ext n (fun l => Rabs (dl i l)) (fun l => if (l =? i)%nat then 1 else 0)).
      2:{ intros l _. unfold dl. rewrite (Nat.eqb_sym i l). destruct (l =? i)%nat; [apply Rabs_R1|apply Rabs_R0]. }
      rewrite (rsum_one n i (fun _ => 1) Hi).
      assert (INR n * (INR k * tM) <= B).
      { replace (INR n * (INR k * tM)) with (B * (3 * (INR k * (INR n * e)))) by (unfold tM; ring). pose proof (Hn0 k ltac:(lia)).
        rewrite <- (Rmult_1_r B) at 2. apply Rmult_le_compat_l; lra. }
      lra. }
  (* the exact step does not change T z *)
  assert (HX : forall (z : nat -> nat -> R) i j, (i < n)%nat -> rsum n (fun l => T' i l * ex m z k l j) = rsum n (fun l => T i l * z l j)).
  { intros z i j Hi.
    rewrite (rsum_ext n (fun l => T' i l * ex m z k l j)
       (fun l => if (l =? k)%nat then c i * (z k j / p) else T i l * z l j - T i l * m l k * (z k j / p))).
    - rewrite rsum_upd by exact Hk. rewrite rsum_minus, rsum_scal_r. fold (c i). fold p. field. exact pn.
    - intros l Hl. unfold T', ex. fold p. destruct (Nat.eqb_spec l k) as [->|]; [reflexivity|ring]. }
  assert (HE : forall (z z' : nat -> nat -> R) b i j, (i < n)%nat -> (forall l, (l < n)%nat -> Rabs (z' l j - ex m z k l j) <= b) ->
    Rabs (rsum n (fun l => T' i l * z' l j) - rsum n (fun l => T i l * z l j)) <= 3 * B * b).
  { intros z z' b i j Hi Hb. rewrite <- HX by exact Hi. rewrite <- rsum_minus.
    rewrite (rsum_ext n _ (fun l => T' i l * (z' l j - ex m z k l j))) by (intros; ring).
    apply Rle_trans with (1 := rsum_row_le n (fun l => T' i l) (fun l => z' l j - ex m z k l j) b Hb).
    apply Rmult_le_compat_r; [|now apply HR]. apply Rle_trans with (2 := Hb k Hk). apply Rabs_pos. }
  exists T'. split; [exact T0'|]. split; [|split].
  - intros i j Hi Hj. apply Rle_trans with (1 := T1' i j Hi Hj). rewrite Hk1. lra.
  - intros i j Hi Hj. pose proof (T2 i j Hi ltac:(lia)).
    pose proof (HE m m' e i j Hi (fun l Hl => st_m _ _ _ _ _ St l j Hl ltac:(lia))) as H1. fold tM in H1.
    pose proof (Rabs_triang (rsum n (fun l => T' i l * m' l j) - rsum n (fun l => T i l * m l j)) (rsum n (fun l => T i l * m l j) - A i j)) as H2.
    replace (rsum n (fun l => T' i l * m' l j) - rsum n (fun l => T i l * m l j) + (rsum n (fun l => T i l * m l j) - A i j))
      with (rsum n (fun l => T' i l * m' l j) - A i j) in H2 by ring. rewrite Hk1. lra.
  - intros i j Hi Hj. pose proof (T3 i j Hi ltac:(lia)).
    assert (Hx : forall l, (l < n)%nat -> Rabs (x' l j - ex m x k l j) <= e / w).
    { intros l Hl. destruct (Nat.lt_ge_cases k j) as [Hkj|Hkj].
      - rewrite (st_0 _ _ _ _ _ St l j Hl) by lia. unfold Rminus. rewrite Rplus_opp_r, Rabs_R0. apply e_w.
      - apply Rmult_le_reg_l with w; [exact w0|]. replace (w * (e / w)) with e by (field; apply Rgt_not_eq, w0).
        apply (st_x _ _ _ _ _ St); lia. }
    pose proof (HE x x' (e / w) i j Hi Hx) as H1. fold tX in H1.
    pose proof (Rabs_triang (rsum n (fun l => T' i l * x' l j) - rsum n (fun l => T i l * x l j)) (rsum n (fun l => T i l * x l j) - dl i j)) as H2.
    replace (rsum n (fun l => T' i l * x' l j) - rsum n (fun l => T i l * x l j) + (rsum n (fun l => T i l * x l j) - dl i j))
      with (rsum n (fun l => T' i l * x' l j) - dl i j) in H2 by ring. rewrite Hk1. lra.
Qed.
Lemma inv_next : Inv (k + 1) m' x'.
Proof.
  split.
  - intros i j Hi Hj. rewrite (st_0 _ _ _ _ _ St) by lia. unfold ex. rewrite !(iv_x _ _ _ I) by lia.
    assert (E : dl k j = 0) by (unfold dl; rewrite (proj2 (Nat.eqb_neq k j)) by lia; reflexivity). rewrite E.
    destruct (Nat.eqb_spec i k) as [->|]; [rewrite E|]; unfold Rdiv; ring.
  - intros i Hi. rewrite k1. destruct (Nat.eq_dec i k) as [->|Hik].
    + pose proof rs_k. pose proof (kne k). lra.
    + pose proof (iv_done _ _ _ I i ltac:(lia)). pose proof (rs_next i ltac:(lia) Hik). lra.
  - intros i Hi. rewrite k1. pose proof (iv_up _ _ _ I i ltac:(lia)). pose proof (rs_next i ltac:(lia) ltac:(lia)). lra.
  - intros i Hi. now apply dom_next.
  - exact T_next.
Qed.
End Next.

(** ** The end result *)
Section End.
Variables m x : nat -> nat -> R.
Hypothesis I : Inv n m x.
Lemma x_small i j : (i < n)%nat -> (j < n)%nat -> Rabs (x i j) <= 3 / del.
Proof.
  intros Hi Hj. pose proof (iv_done _ _ _ I i Hi) as H. pose proof (Hn0 n ltac:(lia)).
  pose proof (rsum_term n (fun j => Rabs (aug n m x i j)) j (fun _ _ => Rabs_pos _) Hj) as H1. cbv beta in H1. fold (rs n m x i) in H1.
  unfold aug in H1. rewrite (proj2 (Nat.ltb_lt j n) Hj), Rabs_mult, (Rabs_pos_eq w) in H1 by (unfold w; lra).
  apply Rmult_le_reg_l with (del / 2); [lra|]. replace (del / 2 * (3 / del)) with (3 / 2) by (field; lra). unfold w in H1. lra.
Qed.
Lemma residual i j : (i < n)%nat -> (j < n)%nat ->
  Rabs (rsum n (fun l => A i l * x l j) - dl i j) <= (9 * INR n + 6) * (INR n * (B * e)) / del.
Proof.
  intros Hi Hj. destruct (iv_T _ _ _ I) as (T & _ & T1 & _ & T3).
  pose proof (T3 i j Hi Hj) as H3.
  pose proof (rsum_mul_le n (fun l => T i l - A i l) (fun l => x l j) (INR n * tM) (3 / del)
    (fun l Hl => T1 i l Hi Hl) (fun l Hl => x_small l j Hl Hj)) as H1.
  rewrite (rsum_ext n _ (fun l => T i l * x l j - A i l * x l j)), rsum_minus in H1 by (intros; ring).
  pose proof (Rabs_triang (rsum n (fun l => A i l * x l j) - rsum n (fun l => T i l * x l j)) (rsum n (fun l => T i l * x l j) - dl i j)) as H2.
  replace (rsum n (fun l => A i l * x l j) - rsum n (fun l => T i l * x l j) + (rsum n (fun l => T i l * x l j) - dl i j))
    with (rsum n (fun l => A i l * x l j) - dl i j) in H2 by ring.
  rewrite (Rabs_minus_sym (rsum n (fun l => A i l * x l j)) (rsum n (fun l => T i l * x l j))) in H2.
  replace ((9 * INR n + 6) * (INR n * (B * e)) / del) with (INR n * (INR n * tM * (3 / del)) + INR n * tX).
  - lra.
  - unfold tM, tX, w. field. lra.
Qed.
End End.
End GJ.

(** ** Dominant matrices: bounds and uniqueness *)
Lemma argmax n (f : nat -> R) : (0 < n)%nat -> exists i, (i < n)%nat /\ forall j, (j < n)%nat -> f j <= f i.
Proof.
  induction n as [|n IH]; intros H; [lia|]. destruct n as [|n].
  - exists 0%nat. split; [lia|]. intros j Hj. replace j with 0%nat by lia. lra.
  - destruct IH as (i & Hi & Hm); [lia|]. destruct (Rle_dec (f i) (f (S n))) as [L|L].
    + exists (S n). split; [lia|]. intros j Hj. destruct (Nat.eq_dec j (S n)) as [->|]; [lra|]. pose proof (Hm j ltac:(lia)). lra.
    + exists i. split; [lia|]. intros j Hj. destruct (Nat.eq_dec j (S n)) as [->|]; [lra|]. apply Hm. lia.
Qed.
Section Dom.
Variable n : nat.
Variable A : nat -> nat -> R.
Variable del : R.
Hypothesis Hdel : 0 < del.
Hypothesis Hdom : forall i, (i < n)%nat -> rsum n (fun j => Rabs (A i j)) + del <= 2 * Rabs (A i i).
Lemma dom_bound v r : (forall i, (i < n)%nat -> Rabs (rsum n (fun j => A i j * v j)) <= r) ->
  forall i, (i < n)%nat -> Rabs (v i) <= r / del.
Proof.
  intros H i0 Hi0. destruct (argmax n (fun i => Rabs (v i))) as (i & Hi & Hm); [lia|]. cbv beta in Hm.
  apply Rle_trans with (1 := Hm i0 Hi0). apply Rmult_le_reg_l with del; [exact Hdel|]. replace (del * (r / del)) with r by (field; lra).
  apply Rle_trans with (2 := H i Hi).
  pose proof (rsum_upd n (fun j => A i j * v j) i 0 Hi) as E.
  assert (L : Rabs (rsum n (fun j => if (j =? i)%nat then 0 else A i j * v j)) <= (rsum n (fun j => Rabs (A i j)) - Rabs (A i i)) * Rabs (v i)).
  { apply Rle_trans with (1 := rsum_abs _ _). apply Rle_trans with (rsum n (fun j => if (j =? i)%nat then 0 else Rabs (A i j) * Rabs (v i))).
    - apply rsum_le. intros j Hj. destruct (j =? i)%nat; [rewrite Rabs_R0; lra|]. rewrite Rabs_mult. apply Rmult_le_compat_l; [apply Rabs_pos|now apply Hm].
    - rewrite rsum_upd by exact Hi. rewrite rsum_scal_r. lra. }
  set (s := rsum n (fun j => A i j * v j)) in *. rewrite E in L.
  pose proof (Rabs_triang_inv (A i i * v i) (A i i * v i - s)) as H1. replace (A i i * v i - (A i i * v i - s)) with s in H1 by ring.
  rewrite (Rabs_minus_sym (A i i * v i)) in H1. replace (s - A i i * v i + 0) with (s - A i i * v i) in L by ring. rewrite Rabs_mult in H1.
  pose proof (Hdom i Hi). pose proof (Rabs_pos (v i)). nra.
Qed.
(** A right inverse of a dominant matrix is a left inverse. *)
Lemma dom_left X : (forall i j, (i < n)%nat -> (j < n)%nat -> rsum n (fun l => A i l * X l j) = dl i j) ->
  forall i j, (i < n)%nat -> (j < n)%nat -> rsum n (fun l => X i l * A l j) = dl i j.
Proof.
  intros H i j Hi Hj. set (v := fun i => rsum n (fun l => X i l * A l j) - dl i j).
  assert (Hv : Rabs (v i) <= 0 / del).
  { apply (dom_bound v 0); [|exact Hi]. intros a Ha. right. unfold v.
    rewrite (rsum_ext n _ (fun b => rsum n (fun l => A a b * X b l * A l j) - A a b * dl b j)).
    2:{ intros b Hb. rewrite Rmult_minus_distr_l, <- rsum_scal. f_equal. apply rsum_ext. intros; ring. }
    rewrite rsum_minus, rsum_swap.
    rewrite (rsum_ext n (fun l => rsum n (fun b => A a b * X b l * A l j)) (fun l => dl a l * A l j)).
    2:{ intros l Hl. rewrite rsum_scal_r. now rewrite H. }
    rewrite (rsum_ext n (fun l => dl a l * A l j) (fun l => if (l =? a)%nat then A l j else 0)).
    2:{ intros l _. unfold dl. rewrite (Nat.eqb_sym a l). destruct (l =? a)%nat; ring. }
    rewrite (rsum_ext n (fun b => A a b * dl b j) (fun b => if (b =? j)%nat then A a b else 0)).
    2:{ intros l _. unfold dl. destruct (l =? j)%nat; ring. }
    rewrite !rsum_one by assumption. unfold Rminus. rewrite Rplus_opp_r. apply Rabs_R0. }
  unfold Rdiv in Hv. rewrite Rmult_0_l in Hv. pose proof (Rabs_pos (v i)). assert (E : Rabs (v i) = 0) by lra.
  apply abs_0 in E. unfold v in E. lra.
Qed.

(** Exact elimination: every dominant matrix has an inverse. *)
Fixpoint gjr (k : nat) : (nat -> nat -> R) * (nat -> nat -> R) :=
  match k with
  | 0%nat => (A, dl)
  | S k' => let (m, x) := gjr k' in (ex m m k', ex m x k')
  end.
Lemma dom_inverse_1 B : del <= 1 -> 1 <= B -> (forall i, (i < n)%nat -> rsum n (fun j => Rabs (A i j)) <= B) ->
  real_inverse n A (snd (gjr n)).
Proof.
  intros H1 HB Hrow.
  assert (S0 : forall k m x, Step n del 0 k m x (ex m m k) (ex m x k)).
  { intros k m x. split; intros; unfold Rminus; rewrite ?Rplus_opp_r, ?Rabs_R0; lra. }
  assert (H0 : 3 * (INR n * INR n * 0) <= del) by lra.
  assert (I : forall k, (k <= n)%nat -> Inv n A del B 0 k (fst (gjr k)) (snd (gjr k))).
  { induction k as [|k IH]; intros Hk.
    - apply inv_start; auto; lra.
    - specialize (IH ltac:(lia)). cbn [gjr]. destruct (gjr k) as [m x]. cbn [fst snd] in *. rewrite <- Nat.add_1_r.
      apply (inv_next n A del B 0 (Logic.conj Hdel H1) HB (Rle_refl 0) H0 Hrow k m x); [exact IH|lia|apply S0]. }
  assert (Rt : forall i j, (i < n)%nat -> (j < n)%nat -> rsum n (fun l => A i l * snd (gjr n) l j) = dl i j).
  { intros i j Hi Hj. pose proof (residual n A del B 0 (Logic.conj Hdel H1) (Rle_refl 0) H0 _ _ (I n ltac:(lia)) i j Hi Hj) as H.
    rewrite !Rmult_0_r in H. unfold Rdiv in H. rewrite Rmult_0_l in H.
    pose proof (Rabs_pos (rsum n (fun l => A i l * snd (gjr n) l j) - dl i j)).
    assert (E : Rabs (rsum n (fun l => A i l * snd (gjr n) l j) - dl i j) = 0) by lra. apply abs_0 in E. lra. }
  intros i j Hi Hj. split; [now apply Rt|]. now apply dom_left.
Qed.
End Dom.
