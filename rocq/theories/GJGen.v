(** * GJGen.v - error analysis of Gauss-Jordan elimination without pivoting on real matrices all of
    whose leading principal blocks are well conditioned (proofs only; no floats here). *)
From Coq Require Import List Arith Bool Lia ZArith Reals Lra.
From Verif Require Import SpecReal FloatErr GJReal.
Import ListNotations.
Local Open Scope R_scope.

(** ** More about sums *)
Lemma rsum_cut n k f : (k <= n)%nat -> (forall l, (k <= l < n)%nat -> f l = 0) -> rsum n f = rsum k f.
Proof.
  intros Hk Z. induction n as [|n IH].
  - now replace k with 0%nat by lia.
  - destruct (Nat.eq_dec k (S n)) as [->|Hne]; [reflexivity|]. rewrite rsum_S, Z by lia.
    rewrite IH; [ring|lia|]. intros l Hl. apply Z. lia.
Qed.
Lemma rsum_split n k f : (k <= n)%nat -> rsum n f = rsum k f + rsum n (fun l => if (l <? k)%nat then 0 else f l).
Proof.
  intros Hk.
  assert (E : rsum n (fun l => if (l <? k)%nat then f l else 0) = rsum k f).
  { rewrite (rsum_cut n k _ Hk).
    - apply rsum_ext. intros l Hl. now rewrite (proj2 (Nat.ltb_lt l k)) by lia.
    - intros l Hl. now rewrite (proj2 (Nat.ltb_ge l k)) by lia. }
  rewrite <- E, <- rsum_plus. apply rsum_ext. intros l Hl. destruct (l <? k)%nat; ring.
Qed.
Lemma rsum_dl_l n i f : (i < n)%nat -> rsum n (fun l => dl i l * f l) = f i.
Proof.
  intros Hi. rewrite (rsum_ext n _ (fun l => if (l =? i)%nat then f l else 0)).
  - now apply rsum_one.
  - intros l _. unfold dl. rewrite (Nat.eqb_sym i l). destruct (l =? i)%nat; ring.
Qed.
Lemma rsum_dl_r n j f : (j < n)%nat -> rsum n (fun l => f l * dl l j) = f j.
Proof.
  intros Hi. rewrite (rsum_ext n _ (fun l => if (l =? j)%nat then f l else 0)).
  - now apply rsum_one.
  - intros l _. unfold dl. destruct (l =? j)%nat; ring.
Qed.
Lemma dl_ne i j : i <> j -> dl i j = 0.
Proof. intros N. unfold dl. now rewrite (proj2 (Nat.eqb_neq i j) N). Qed.
Lemma rsum_assoc n p (f : nat -> R) (g : nat -> nat -> R) (h : nat -> R) :
  rsum n (fun i => f i * rsum p (fun j => g i j * h j)) = rsum p (fun j => rsum n (fun i => f i * g i j) * h j).
Proof.
  rewrite (rsum_ext n _ (fun i => rsum p (fun j => f i * g i j * h j))).
  - rewrite rsum_swap. apply rsum_ext. intros j _. now rewrite <- rsum_scal_r.
  - intros i _. rewrite <- rsum_scal. apply rsum_ext. intros; ring.
Qed.

Section Gen.
Variable n : nat.
Variable A : nat -> nat -> R.
Variables H B e : R.
Hypothesis Hn : (4 <= n)%nat.
Hypothesis HB : 1 <= B.
Hypothesis HH : 1 <= H.
Hypothesis He : 0 <= e.
Hypothesis Hrow : forall i, (i < n)%nat -> rsum n (fun j => Rabs (A i j)) <= B.
Hypothesis Hlead : forall k, (1 <= k <= n)%nat -> exists V, real_inverse k A V /\ forall i, (i < k)%nat -> rsum k (fun j => Rabs (V i j)) <= H.
Let sg := INR n * INR n * e.
Hypothesis Hsmall : 36 * (H ^ 3 * B ^ 3 * sg) <= 1.

Lemma A_le i j : (i < n)%nat -> (j < n)%nat -> Rabs (A i j) <= B.
Proof. intros Hi Hj. apply Rle_trans with (2 := Hrow i Hi). now apply (rsum_term n (fun j => Rabs (A i j))); [intros; apply Rabs_pos|]. Qed.
Lemma n4' : 4 <= INR n.
Proof. replace 4 with (INR 4) by (cbn; lra). now apply le_INR. Qed.
Lemma HB1 : 1 <= H * B. Proof. nra. Qed.
Lemma sg0 : 0 <= sg.
Proof. unfold sg. repeat apply Rmult_le_pos; auto using pos_INR. Qed.
(** Smallness, in the forms used below. *)
Lemma ne : INR n * e <= sg / 4.
Proof. unfold sg. pose proof n4'. assert (0 <= INR n * e) by (apply Rmult_le_pos; [apply pos_INR|exact He]). nra. Qed.
Lemma HBsg : 36 * (H * (H * B * (H * B)) * (B * sg)) <= 1.
Proof. replace (H * (H * B * (H * B)) * (B * sg)) with (H ^ 3 * B ^ 3 * sg) by ring. exact Hsmall. Qed.
Lemma s3 : 36 * (H * B * (H * B) * (B * sg)) <= / H.
Proof.
  apply Rmult_le_reg_l with H; [lra|]. rewrite Rinv_r by lra. pose proof HBsg. lra.
Qed.
Lemma s2 : 36 * (H * B * (H * B) * sg) <= 1.
Proof.
  pose proof HBsg as S. pose proof sg0 as G. pose proof HB1.
  assert (X : 0 <= H * B * (H * B) * sg) by (apply Rmult_le_pos; [nra|exact G]). 
  replace (H * (H * B * (H * B)) * (B * sg)) with (H * B * (H * B * (H * B) * sg)) in S by ring. nra.
Qed.
Lemma s1 : 36 * (H * B * sg) <= 1.
Proof.
  pose proof s2 as S. pose proof sg0 as G. pose proof HB1. assert (0 <= H * B * sg) by (apply Rmult_le_pos; [lra|exact G]).
  replace (H * B * (H * B) * sg) with (H * B * (H * B * sg)) in S by ring. nra.
Qed.
Lemma s0 : 36 * sg <= 1.
Proof. pose proof s1 as S. pose proof sg0 as G. pose proof HB1. nra. Qed.
Lemma sH : 36 * (H * sg) <= 1.
Proof. pose proof s1 as S. pose proof sg0 as G. assert (0 <= H * sg) by (apply Rmult_le_pos; lra). nra. Qed.

(** ** The exact elimination, through the inverse of the leading block of order [k] *)
Section Exact.
Variables (k : nat) (V : nat -> nat -> R).
Hypothesis Hk : (k <= n)%nat.
Hypothesis HV : real_inverse k A V.
Hypothesis HVr : forall i, (i < k)%nat -> rsum k (fun j => Rabs (V i j)) <= H.
Definition Tk (i j : nat) : R := if (j <? k)%nat then A i j else dl i j.
Definition Xk (i j : nat) : R :=
  if (i <? k)%nat then (if (j <? k)%nat then V i j else 0)
  else if (j <? k)%nat then - rsum k (fun l => A i l * V l j) else dl i j.
Definition Mk (i j : nat) : R := rsum n (fun l => Xk i l * A l j).

Lemma Xk_Tk i j : (i < n)%nat -> (j < n)%nat -> rsum n (fun l => Xk i l * Tk l j) = dl i j.
Proof.
  intros Hi Hj. rewrite (rsum_split n k) by exact Hk. destruct (Nat.ltb_spec i k) as [Hik|Hik].
  - rewrite (rsum_ext n _ (fun _ => 0)), rsum_const.
    2:{ intros l Hl. unfold Xk. rewrite (proj2 (Nat.ltb_lt i k) Hik). destruct (l <? k)%nat; ring. }
    destruct (Nat.ltb_spec j k) as [Hjk|Hjk].
    + rewrite (rsum_ext k _ (fun l => V i l * A l j)).
      * rewrite (proj2 (HV i j Hik Hjk)). unfold dl. ring.
      * intros l Hl. unfold Xk, Tk. now rewrite (proj2 (Nat.ltb_lt i k) Hik), (proj2 (Nat.ltb_lt l k) Hl), (proj2 (Nat.ltb_lt j k) Hjk).
    + rewrite (rsum_ext k _ (fun _ => 0)), rsum_const.
      * rewrite dl_ne by lia. ring.
      * intros l Hl. unfold Tk. rewrite (proj2 (Nat.ltb_ge j k) Hjk), dl_ne by lia. ring.
  - rewrite (rsum_ext n (fun l => if (l <? k)%nat then 0 else _) (fun l => dl i l * Tk l j)).
    2:{ intros l Hl. unfold Xk. rewrite (proj2 (Nat.ltb_ge i k) Hik). destruct (Nat.ltb_spec l k); [rewrite dl_ne by lia; ring|reflexivity]. }
    rewrite (rsum_dl_l n i (fun l => Tk l j) Hi). destruct (Nat.ltb_spec j k) as [Hjk|Hjk].
    + rewrite (rsum_ext k _ (fun l => -1 * (rsum k (fun q => A i q * V q l) * A l j))).
      * rewrite rsum_scal, <- (rsum_assoc k k (fun q => A i q) V (fun l => A l j)).
        rewrite (rsum_ext k _ (fun q => A i q * dl q j)) by (intros q Hq; now rewrite (proj2 (HV q j Hq Hjk))).
        rewrite (rsum_dl_r k j (fun q => A i q) Hjk). unfold Tk. rewrite (proj2 (Nat.ltb_lt j k) Hjk), dl_ne by lia. ring.
      * intros l Hl. unfold Xk, Tk. rewrite (proj2 (Nat.ltb_ge i k) Hik), (proj2 (Nat.ltb_lt l k) Hl), (proj2 (Nat.ltb_lt j k) Hjk). ring.
    + rewrite (rsum_ext k _ (fun _ => 0)), rsum_const.
      * unfold Tk. rewrite (proj2 (Nat.ltb_ge j k) Hjk). ring.
      * intros l Hl. unfold Tk. rewrite (proj2 (Nat.ltb_ge j k) Hjk), (dl_ne l j) by lia. ring.
Qed.
Lemma Xk_row_low i : (i < k)%nat -> rsum n (fun l => Rabs (Xk i l)) <= H.
Proof.
  intros Hi. rewrite (rsum_cut n k) by (try lia; intros l Hl; unfold Xk; rewrite (proj2 (Nat.ltb_lt i k) Hi), (proj2 (Nat.ltb_ge l k)) by lia; apply Rabs_R0).
  rewrite (rsum_ext k _ (fun l => Rabs (V i l))); [now apply HVr|]. intros l Hl. unfold Xk.
  now rewrite (proj2 (Nat.ltb_lt i k) Hi), (proj2 (Nat.ltb_lt l k) Hl).
Qed.
Lemma Xk_row i : (i < n)%nat -> rsum n (fun l => Rabs (Xk i l)) <= 2 * (H * B).
Proof.
  intros Hi. pose proof HB1. destruct (Nat.lt_ge_cases i k) as [Hik|Hik].
  - pose proof (Xk_row_low i Hik). nra.
  - rewrite (rsum_split n k) by exact Hk.
    rewrite (rsum_ext n (fun l => if (l <? k)%nat then 0 else _) (fun l => dl i l * 1)).
    2:{ intros l Hl. unfold Xk. rewrite (proj2 (Nat.ltb_ge i k) Hik). destruct (Nat.ltb_spec l k); [rewrite dl_ne by lia; ring|].
        unfold dl. destruct (i =? l)%nat; [rewrite Rabs_R1|rewrite Rabs_R0]; ring. }
    rewrite (rsum_dl_l n i (fun _ => 1) Hi).
    assert (L : rsum k (fun l => Rabs (Xk i l)) <= B * H).
    { apply Rle_trans with (rsum k (fun l => rsum k (fun q => Rabs (A i q) * Rabs (V q l)))).
      - apply rsum_le. intros l Hl. unfold Xk. rewrite (proj2 (Nat.ltb_ge i k) Hik), (proj2 (Nat.ltb_lt l k) Hl), Rabs_Ropp.
        apply Rle_trans with (1 := rsum_abs _ _). right. apply rsum_ext. intros. apply Rabs_mult.
      - rewrite rsum_swap. apply Rle_trans with (rsum k (fun q => Rabs (A i q) * H)).
        + apply rsum_le. intros q Hq. rewrite rsum_scal. apply Rmult_le_compat_l; [apply Rabs_pos|now apply HVr].
        + rewrite rsum_scal_r. apply Rmult_le_compat_r; [lra|]. apply Rle_trans with (2 := Hrow i Hi).
          rewrite (rsum_split n k (fun j => Rabs (A i j)) Hk).
          assert (0 <= rsum n (fun l => if (l <? k)%nat then 0 else Rabs (A i l))); [|lra].
          apply rsum_pos. intros l _. destruct (l <? k)%nat; [lra|apply Rabs_pos]. }
    lra.
Qed.
Lemma Xk_le i j : (i < n)%nat -> (j < n)%nat -> Rabs (Xk i j) <= 2 * (H * B).
Proof. intros Hi Hj. apply Rle_trans with (2 := Xk_row i Hi). now apply (rsum_term n (fun l => Rabs (Xk i l))); [intros; apply Rabs_pos|]. Qed.
Lemma Xk_le_low i j : (i < k)%nat -> (j < n)%nat -> Rabs (Xk i j) <= H.
Proof. intros Hi Hj. apply Rle_trans with (2 := Xk_row_low i Hi). now apply (rsum_term n (fun l => Rabs (Xk i l))); [intros; apply Rabs_pos|]. Qed.
Lemma Mk_le i j : (i < n)%nat -> (j < n)%nat -> Rabs (Mk i j) <= 2 * (H * B) * B.
Proof.
  intros Hi Hj. apply Rle_trans with (1 := rsum_row_le n (fun l => Xk i l) (fun l => A l j) B (fun l Hl => A_le l j Hl Hj)).
  apply Rmult_le_compat_r; [lra|now apply Xk_row].
Qed.
Lemma Mk_le_low i j : (i < k)%nat -> (j < n)%nat -> Rabs (Mk i j) <= H * B.
Proof.
  intros Hi Hj. apply Rle_trans with (1 := rsum_row_le n (fun l => Xk i l) (fun l => A l j) B (fun l Hl => A_le l j Hl Hj)).
  apply Rmult_le_compat_r; [lra|now apply Xk_row_low].
Qed.
(** Columns of the identity. *)
Lemma Xk_id i j : (i < n)%nat -> (k <= j < n)%nat -> Xk i j = dl i j.
Proof.
  intros Hi Hj. unfold Xk. rewrite (proj2 (Nat.ltb_ge j k)) by lia. destruct (Nat.ltb_spec i k); [rewrite dl_ne by lia|]; reflexivity.
Qed.

(** The pivot row. *)
Section Pivot.
Variable V' : nat -> nat -> R.
Hypothesis Hk1 : (k < n)%nat.
Hypothesis HV' : real_inverse (k + 1) A V'.
Hypothesis HVr' : forall i, (i < k + 1)%nat -> rsum (k + 1) (fun j => Rabs (V' i j)) <= H.
Let p := Mk k k.
Lemma Xk_above l : (k < l < n)%nat -> Xk k l = 0.
Proof. intros Hl. rewrite Xk_id by lia. apply dl_ne. lia. Qed.
Lemma Mk_k j : (j < n)%nat -> Mk k j = rsum (k + 1) (fun l => Xk k l * A l j).
Proof. intros Hj. unfold Mk. apply rsum_cut; [lia|]. intros l Hl. rewrite Xk_above by lia. ring. Qed.
Lemma Mk_k0 j : (j < k)%nat -> Mk k j = 0.
Proof.
  intros Hj. pose proof (Xk_Tk k j Hk1 ltac:(lia)) as E. rewrite dl_ne in E by lia. rewrite <- E. unfold Mk. apply rsum_ext.
  intros l Hl. unfold Tk. now rewrite (proj2 (Nat.ltb_lt j k) Hj).
Qed.
Lemma Xk_piv j : (j < k + 1)%nat -> Xk k j = p * V' k j.
Proof.
  intros Hj. transitivity (rsum (k + 1) (fun l => Xk k l * dl l j)); [now rewrite (rsum_dl_r (k + 1) j (fun l => Xk k l) Hj)|].
  rewrite (rsum_ext (k + 1) _ (fun l => Xk k l * rsum (k + 1) (fun q => A l q * V' q j))).
  2:{ intros l Hl. now rewrite (proj1 (HV' l j Hl Hj)). }
  rewrite (rsum_assoc (k + 1) (k + 1) (fun l => Xk k l) A (fun q => V' q j)).
  rewrite (rsum_ext (k + 1) _ (fun q => if (q =? k)%nat then p * V' q j else 0)).
  - exact (rsum_one (k + 1) k (fun q => p * V' q j) ltac:(lia)).
  - intros q Hq. rewrite <- Mk_k by lia. destruct (Nat.eqb_spec q k) as [->|Hqk]; [reflexivity|]. rewrite Mk_k0 by lia. ring.
Qed.
Lemma V'_le j : (j < k + 1)%nat -> Rabs (V' k j) <= H.
Proof. intros Hj. apply Rle_trans with (2 := HVr' k ltac:(lia)). now apply (rsum_term (k + 1) (fun l => Rabs (V' k l))); [intros; apply Rabs_pos|]. Qed.
Lemma p_big : / H <= Rabs p.
Proof.
  pose proof (Xk_piv k ltac:(lia)) as E. rewrite Xk_id in E by lia. unfold dl in E. rewrite Nat.eqb_refl in E.
  apply (f_equal Rabs) in E. rewrite Rabs_R1, Rabs_mult in E. pose proof (V'_le k ltac:(lia)). pose proof (Rabs_pos p).
  apply Rmult_le_reg_r with H; [lra|]. rewrite Rinv_l by lra. nra.
Qed.
Lemma p_inv : 1 <= Rabs p * H.
Proof. pose proof p_big as E. apply Rmult_le_compat_r with (r := H) in E; [|lra]. rewrite Rinv_l in E by lra. exact E. Qed.
Lemma Xk_piv_le j : (j < n)%nat -> Rabs (Xk k j) <= Rabs p * H.
Proof.
  intros Hj. destruct (Nat.lt_ge_cases j (k + 1)) as [Hjk|Hjk].
  - rewrite Xk_piv, Rabs_mult by exact Hjk. apply Rmult_le_compat_l; [apply Rabs_pos|now apply V'_le].
  - rewrite Xk_above, Rabs_R0 by lia. pose proof p_inv. lra.
Qed.
Lemma Mk_piv_le j : (j < n)%nat -> Rabs (Mk k j) <= Rabs p * (H * B).
Proof.
  intros Hj. rewrite Mk_k by exact Hj. rewrite (rsum_ext (k + 1) _ (fun l => p * (V' k l * A l j))) by (intros l Hl; rewrite Xk_piv by exact Hl; ring).
  rewrite rsum_scal, Rabs_mult. apply Rmult_le_compat_l; [apply Rabs_pos|].
  apply Rle_trans with (1 := rsum_row_le (k + 1) (fun l => V' k l) (fun l => A l j) B (fun l Hl => A_le l j ltac:(lia) Hj)).
  apply Rmult_le_compat_r; [lra|]. apply HVr'. lia.
Qed.
End Pivot.

(** ** From the invariant to forward errors *)
Lemma fwd T z a al be ze : 0 <= be -> 0 <= ze ->
  (forall i j, (i < n)%nat -> (k <= j < n)%nat -> T i j = dl i j) ->
  (forall i j, (i < n)%nat -> (j < k)%nat -> Rabs (T i j - A i j) <= be) ->
  (forall i, (i < n)%nat -> Rabs (rsum n (fun l => T i l * z l) - a i) <= al) ->
  (forall l, (l < k)%nat -> Rabs (z l) <= ze) ->
  forall i, (i < n)%nat -> Rabs (z i - rsum n (fun l => Xk i l * a l)) <= rsum n (fun l => Rabs (Xk i l)) * (al + INR n * (be * ze)).
Proof.
  intros Hbe Hze T0 T1 T2 Hz i Hi.
  assert (E : z i = rsum n (fun l => Xk i l * rsum n (fun j => Tk l j * z j))).
  { rewrite (rsum_assoc n n (fun l => Xk i l) Tk z). rewrite (rsum_ext n _ (fun j => dl i j * z j)) by (intros j Hj; now rewrite Xk_Tk).
    now rewrite (rsum_dl_l n i z Hi). }
  rewrite E, <- rsum_minus. rewrite (rsum_ext n _ (fun l => Xk i l * (rsum n (fun j => Tk l j * z j) - a l))) by (intros; ring).
  apply rsum_row_le. intros l Hl.
  replace (rsum n (fun j => Tk l j * z j) - a l) with ((rsum n (fun j => T l j * z j) - a l) + rsum n (fun j => (Tk l j - T l j) * z j)).
  2:{ rewrite (rsum_ext n (fun j => (Tk l j - T l j) * z j) (fun j => Tk l j * z j - T l j * z j)) by (intros; ring). rewrite rsum_minus. ring. }
  apply Rle_trans with (1 := Rabs_triang _ _). apply Rplus_le_compat; [now apply T2|].
  apply Rle_trans with (1 := rsum_abs _ _). rewrite <- rsum_const. apply rsum_le. intros j Hj. unfold Tk. destruct (Nat.ltb_spec j k) as [Hjk|Hjk].
  - rewrite Rabs_mult, Rabs_minus_sym. apply Rmult_le_compat; auto using Rabs_pos.
  - rewrite T0 by lia. unfold Rminus. rewrite Rplus_opp_r, Rmult_0_l, Rabs_R0. now apply Rmult_le_pos.
Qed.
Lemma boot T z a al be Z : 0 <= be -> 0 <= al -> 12 * (H * (INR n * be)) <= 1 ->
  (forall i j, (i < n)%nat -> (k <= j < n)%nat -> T i j = dl i j) ->
  (forall i j, (i < n)%nat -> (j < k)%nat -> Rabs (T i j - A i j) <= be) ->
  (forall i, (i < n)%nat -> Rabs (rsum n (fun l => T i l * z l) - a i) <= al) ->
  (forall i, (i < k)%nat -> Rabs (rsum n (fun l => Xk i l * a l)) <= Z) ->
  forall i, (i < k)%nat -> Rabs (z i) <= 12 / 11 * (Z + H * al).
Proof.
  intros Hbe Hal Hs T0 T1 T2 HZ i Hi. destruct (argmax k (fun i => Rabs (z i))) as (i0 & Hi0 & Hm); [lia|]. cbv beta in Hm.
  apply Rle_trans with (1 := Hm i Hi). set (ze := Rabs (z i0)) in *. assert (0 <= ze) by apply Rabs_pos.
  pose proof (fwd T z a al be ze Hbe ltac:(assumption) T0 T1 T2 Hm i0 ltac:(lia)) as F.
  pose proof (Xk_row_low i0 Hi0) as R0. pose proof (HZ i0 Hi0) as Z0.
  assert (P : 0 <= al + INR n * (be * ze)).
  { apply Rplus_le_le_0_compat; [exact Hal|]. repeat apply Rmult_le_pos; auto using pos_INR. }
  assert (F' : Rabs (z i0 - rsum n (fun l => Xk i0 l * a l)) <= H * (al + INR n * (be * ze))).
  { apply Rle_trans with (1 := F). apply Rmult_le_compat_r; [exact P|exact R0]. }
  pose proof (Rabs_triang_inv (z i0) (rsum n (fun l => Xk i0 l * a l))) as G. fold ze in G.
  assert (Q : H * (INR n * (be * ze)) <= / 12 * ze).
  { replace (H * (INR n * (be * ze))) with (H * (INR n * be) * ze) by ring. apply Rmult_le_compat_r; [assumption|lra]. }
  lra.
Qed.
End Exact.

(** ** The computed elimination *)
Let tM := 3 * B * e.
Let tX := 3 * e.
Record GInv (k : nat) (m x : nat -> nat -> R) : Prop := {
  gi_x : forall i j, (i < n)%nat -> (k <= j < n)%nat -> x i j = dl i j;
  gi_T : exists T : nat -> nat -> R,
    (forall i j, (i < n)%nat -> (k <= j < n)%nat -> T i j = dl i j) /\
    (forall i j, (i < n)%nat -> (j < k)%nat -> Rabs (T i j - A i j) <= INR k * tM) /\
    (forall i j, (i < n)%nat -> (k <= j < n)%nat -> Rabs (rsum n (fun l => T i l * m l j) - A i j) <= INR k * tM) /\
    (forall i j, (i < n)%nat -> (j < n)%nat -> Rabs (rsum n (fun l => T i l * x l j) - dl i j) <= INR k * tX) }.
Record GStep (k : nat) (m x m' x' : nat -> nat -> R) : Prop := {
  gs_m : forall i j, (i < n)%nat -> (k < j < n)%nat -> Rabs (m' i j - ex m m k i j) <= e;
  gs_x : forall i j, (i < n)%nat -> (j <= k)%nat -> Rabs (x' i j - ex m x k i j) <= e / B;
  gs_0 : forall i j, (i < n)%nat -> (k < j < n)%nat -> x' i j = ex m x k i j }.

Lemma ktM k : (k <= n)%nat -> INR k * tM <= INR n * tM.
Proof. intros L. apply Rmult_le_compat_r; [unfold tM; repeat apply Rmult_le_pos; lra|now apply le_INR]. Qed.
Lemma ktX k : (k <= n)%nat -> INR k * tX <= INR n * tX.
Proof. intros L. apply Rmult_le_compat_r; [unfold tX; lra|now apply le_INR]. Qed.
Lemma ntM : INR n * tM <= 3 / 4 * (B * sg).
Proof. unfold tM. pose proof ne. replace (INR n * (3 * B * e)) with (3 * B * (INR n * e)) by ring. nra. Qed.
Lemma ntM0 : 0 <= INR n * tM.
Proof. unfold tM. repeat apply Rmult_le_pos; auto using pos_INR; lra. Qed.
Lemma nntM : INR n * (INR n * tM) = 3 * (B * sg).
Proof. unfold tM, sg. ring. Qed.
Lemma ntX : INR n * tX <= 3 / 4 * sg.
Proof. unfold tX. pose proof ne. lra. Qed.
Lemma ntX0 : 0 <= INR n * tX.
Proof. unfold tX. apply Rmult_le_pos; [apply pos_INR|lra]. Qed.
Lemma lead k : (k <= n)%nat -> exists V, real_inverse k A V /\ forall i, (i < k)%nat -> rsum k (fun j => Rabs (V i j)) <= H.
Proof. intros L. destruct k as [|k]; [exists dl; split; [intros i j Hi; lia|intros i Hi; lia]|]. apply Hlead. lia. Qed.
Lemma small_be : 12 * (H * (INR n * (INR n * tM))) <= 1.
Proof. rewrite nntM. pose proof s1. lra. Qed.

Section Bounds.
Variables (k : nat) (m x V : nat -> nat -> R).
Hypothesis Hk : (k <= n)%nat.
Hypothesis I : GInv k m x.
Hypothesis HV : real_inverse k A V.
Hypothesis HVr : forall i, (i < k)%nat -> rsum k (fun j => Rabs (V i j)) <= H.
Let xk := Xk k V.
Let mk := Mk k V.
Lemma m_low i j : (i < k)%nat -> (k <= j < n)%nat -> Rabs (m i j) <= 5 / 4 * (H * B).
Proof.
  intros Hi Hj. destruct (gi_T _ _ _ I) as (T & T0 & T1 & T2 & T3). pose proof (ktM k Hk) as K. pose proof ntM0 as N0.
  pose proof (boot k V Hk HV HVr T (fun l => m l j) (fun l => A l j) (INR n * tM) (INR n * tM) (H * B) N0 N0 small_be T0
    (fun a b Ha Hb => Rle_trans _ _ _ (T1 a b Ha Hb) K) (fun a Ha => Rle_trans _ _ _ (T2 a j Ha Hj) K)
    (fun a Ha => Mk_le_low k V Hk HVr a j Ha ltac:(lia)) i Hi) as G.
  pose proof ntM. pose proof s1. pose proof HB1. pose proof sg0.
  assert (H * (INR n * tM) <= 3 / 4 * (H * B * sg)) by (replace (3 / 4 * (H * B * sg)) with (H * (3 / 4 * (B * sg))) by ring; apply Rmult_le_compat_l; lra).
  lra.
Qed.
Lemma x_low i j : (i < k)%nat -> (j < n)%nat -> Rabs (x i j) <= 5 / 4 * H.
Proof.
  intros Hi Hj. destruct (gi_T _ _ _ I) as (T & T0 & T1 & T2 & T3). pose proof (ktM k Hk) as K. pose proof (ktX k Hk) as KX. pose proof ntM0 as N0.
  assert (HZ : forall a, (a < k)%nat -> Rabs (rsum n (fun l => Xk k V a l * dl l j)) <= H).
  { intros a Ha. rewrite (rsum_dl_r n j (fun l => Xk k V a l) Hj). apply Xk_le_low; auto. }
  pose proof (boot k V Hk HV HVr T (fun l => x l j) (fun l => dl l j) (INR n * tX) (INR n * tM) H N0 ntX0 small_be T0
    (fun a b Ha Hb => Rle_trans _ _ _ (T1 a b Ha Hb) K) (fun a Ha => Rle_trans _ _ _ (T3 a j Ha Hj) KX) HZ i Hi) as G.
  pose proof ntX. pose proof sH. 
  assert (H * (INR n * tX) <= 3 / 4 * (H * sg)) by (replace (3 / 4 * (H * sg)) with (H * (3 / 4 * sg)) by ring; apply Rmult_le_compat_l; lra).
  lra.
Qed.
Lemma m_err9 i j : (i < n)%nat -> (k <= j < n)%nat -> Rabs (m i j - mk i j) <= 9 * (H * B * (H * B) * (B * sg)).
Proof.
  intros Hi Hj. destruct (gi_T _ _ _ I) as (T & T0 & T1 & T2 & T3). pose proof (ktM k Hk) as K. pose proof ntM0 as N0. pose proof HB1 as H1. pose proof sg0 as G0.
  apply Rle_trans with (1 := fwd k V Hk HV T (fun l => m l j) (fun l => A l j) (INR n * tM) (INR n * tM) (5 / 4 * (H * B)) N0 ltac:(lra) T0
    (fun a b Ha Hb => Rle_trans _ _ _ (T1 a b Ha Hb) K) (fun a Ha => Rle_trans _ _ _ (T2 a j Ha Hj) K)
    (fun a Ha => m_low a j Ha Hj) i Hi).
  replace (INR n * (INR n * tM * (5 / 4 * (H * B)))) with (INR n * (INR n * tM) * (5 / 4 * (H * B))) by ring. rewrite nntM.
  assert (Bs : 0 <= B * sg) by (apply Rmult_le_pos; lra).
  assert (Y : INR n * tM + 3 * (B * sg) * (5 / 4 * (H * B)) <= 9 / 2 * (H * B * (B * sg))).
  { pose proof ntM. replace (3 * (B * sg) * (5 / 4 * (H * B))) with (15 / 4 * (H * B * (B * sg))) by field. assert (B * sg <= H * B * (B * sg)) by nra. lra. }
  apply Rle_trans with (2 * (H * B) * (9 / 2 * (H * B * (B * sg)))).
  - apply Rmult_le_compat; [apply rsum_pos; intros; apply Rabs_pos| |now apply Xk_row|exact Y].
    apply Rplus_le_le_0_compat; [exact N0|]. apply Rmult_le_pos; lra.
  - lra.
Qed.
Lemma m_err i j : (i < n)%nat -> (k <= j < n)%nat -> Rabs (m i j - mk i j) <= / H / 4.
Proof. intros Hi Hj. pose proof (m_err9 i j Hi Hj). pose proof s3. lra. Qed.
Lemma x_err i j : (i < n)%nat -> (j < n)%nat -> Rabs (x i j - xk i j) <= / 4.
Proof.
  intros Hi Hj. destruct (gi_T _ _ _ I) as (T & T0 & T1 & T2 & T3). pose proof (ktM k Hk) as K. pose proof (ktX k Hk) as KX. pose proof ntM0 as N0. pose proof HB1 as H1. pose proof sg0 as G0.
  pose proof (fwd k V Hk HV T (fun l => x l j) (fun l => dl l j) (INR n * tX) (INR n * tM) (5 / 4 * H) N0 ltac:(lra) T0
    (fun a b Ha Hb => Rle_trans _ _ _ (T1 a b Ha Hb) K) (fun a Ha => Rle_trans _ _ _ (T3 a j Ha Hj) KX)
    (fun a Ha => x_low a j Ha Hj) i Hi) as F. cbv beta in F.
  rewrite (rsum_dl_r n j (fun l => Xk k V i l) Hj) in F. apply Rle_trans with (1 := F).
  replace (INR n * (INR n * tM * (5 / 4 * H))) with (INR n * (INR n * tM) * (5 / 4 * H)) by ring. rewrite nntM.
  assert (Y : INR n * tX + 3 * (B * sg) * (5 / 4 * H) <= 9 / 2 * (H * B * sg)).
  { pose proof ntX. replace (3 * (B * sg) * (5 / 4 * H)) with (15 / 4 * (H * B * sg)) by field. assert (sg <= H * B * sg) by nra. lra. }
  apply Rle_trans with (2 * (H * B) * (9 / 2 * (H * B * sg))).
  - apply Rmult_le_compat; [apply rsum_pos; intros; apply Rabs_pos| |now apply Xk_row|exact Y].
    apply Rplus_le_le_0_compat; [exact ntX0|]. apply Rmult_le_pos; [apply Rmult_le_pos; [lra|apply Rmult_le_pos; lra]|lra].
  - pose proof s2. lra.
Qed.
Lemma iH : 0 < / H <= 1.
Proof. split; [apply Rinv_0_lt_compat; lra|]. rewrite <- Rinv_1. apply Rinv_le_contravar; lra. Qed.
Lemma m_up i j : (i < n)%nat -> (k <= j < n)%nat -> Rabs (m i j) <= 9 / 4 * (H * B * B).
Proof.
  intros Hi Hj. pose proof (m_err i j Hi Hj) as E. pose proof (Mk_le k V Hk HVr i j Hi ltac:(lia)) as M. fold mk in M. pose proof iH.
  pose proof (Rabs_triang_inv (m i j) (mk i j)). pose proof HB1. assert (1 <= H * B * B) by nra. lra.
Qed.
Lemma x_up' i j : (i < n)%nat -> (j < n)%nat -> Rabs (x i j) <= 9 / 4 * (H * B).
Proof.
  intros Hi Hj. pose proof (x_err i j Hi Hj) as E. pose proof (Xk_le k V Hk HVr i j Hi Hj) as M. fold xk in M.
  pose proof (Rabs_triang_inv (x i j) (xk i j)). pose proof HB1. lra.
Qed.
Section Piv.
Hypothesis Hk1 : (k < n)%nat.
Lemma piv_all : 3 / 4 * / H <= Rabs (m k k) /\
  (forall j, (k <= j < n)%nat -> Rabs (m k j / m k k) <= 5 / 3 * (H * B)) /\
  (forall j, (j < n)%nat -> Rabs (x k j / m k k) <= 5 / 3 * H).
Proof.
  destruct (Hlead (k + 1) ltac:(lia)) as (V' & HV' & HVr').
  pose proof (p_big k V Hk HV V' Hk1 HV' HVr') as P1. pose proof (p_inv k V Hk HV V' Hk1 HV' HVr') as P2. fold mk in P1, P2.
  pose proof (m_err k k Hk1 ltac:(lia)) as E. pose proof iH as IH. pose proof HB1 as H1.
  rewrite Rabs_minus_sym in E.
  assert (L : 3 / 4 * Rabs (mk k k) <= Rabs (m k k)).
  { pose proof (Rabs_triang_inv (mk k k) (m k k)). lra. }
  assert (P : 0 < Rabs (m k k)) by lra.
  assert (NZ : m k k <> 0) by (intros Z; rewrite Z, Rabs_R0 in P; lra).
  assert (DV : forall a b, Rabs a <= b * Rabs (m k k) -> Rabs (a / m k k) <= b).
  { intros a b Hab. unfold Rdiv. rewrite Rabs_mult, Rabs_Rinv by exact NZ. apply Rmult_le_reg_r with (Rabs (m k k)); [exact P|].
    rewrite Rmult_assoc, Rinv_l by lra. lra. }
  split; [lra|]. split.
  - intros j Hj. apply DV. pose proof (m_err k j Hk1 Hj) as Ej. pose proof (Mk_piv_le k V Hk HV V' Hk1 HV' HVr' j ltac:(lia)) as Mj. fold mk in Mj.
    pose proof (Rabs_triang_inv (m k j) (mk k j)). pose proof (Rabs_pos (mk k k)).
    assert (Rabs (mk k k) <= Rabs (mk k k) * (H * B)) by nra.
    apply Rle_trans with (5 / 3 * (H * B) * (3 / 4 * Rabs (mk k k))); [lra|]. apply Rmult_le_compat_l; lra.
  - intros j Hj. apply DV. pose proof (x_err k j Hk1 Hj) as Ej. pose proof (Xk_piv_le k V Hk HV V' Hk1 HV' HVr' j ltac:(lia)) as Xj. fold xk in Xj.
    fold mk in Xj. pose proof (Rabs_triang_inv (x k j) (xk k j)).
    apply Rle_trans with (5 / 3 * H * (3 / 4 * Rabs (mk k k))); [lra|]. apply Rmult_le_compat_l; lra.
Qed.
End Piv.
End Bounds.

(** ** One step *)
Section Next.
Variables (k : nat) (m x m' x' : nat -> nat -> R).
Hypothesis I : GInv k m x.
Hypothesis Hk : (k < n)%nat.
Hypothesis St : GStep k m x m' x'.
Let p := m k k.
Lemma pn : p <> 0.
Proof.
  destruct (lead k ltac:(lia)) as (V & HV & HVr). destruct (piv_all k m x V ltac:(lia) I HV HVr Hk) as (P & _). pose proof iH.
  intros E. fold p in P. rewrite E, Rabs_R0 in P. lra.
Qed.
Lemma e_B : 0 <= e / B.
Proof. apply Rmult_le_pos; [exact He|]. left. apply Rinv_0_lt_compat. lra. Qed.
Lemma ginv_next : GInv (k + 1) m' x'.
Proof.
  split.
  { intros i j Hi Hj. rewrite (gs_0 _ _ _ _ _ St) by lia. unfold ex. rewrite !(gi_x _ _ _ I) by lia.
    rewrite (dl_ne k j) by lia. destruct (Nat.eqb_spec i k) as [->|]; [rewrite (dl_ne k j) by lia|]; unfold Rdiv; ring. }
  destruct (gi_T _ _ _ I) as (T & T0 & T1 & T2 & T3).
  set (c := fun i => rsum n (fun l => T i l * m l k)).
  set (T' := fun i j => if (j =? k)%nat then c i else T i j).
  assert (HtM : 0 <= tM) by (unfold tM; repeat apply Rmult_le_pos; lra).
  assert (Hk1 : INR (k + 1) = INR k + 1) by (rewrite plus_INR; reflexivity).
  assert (T1' : forall i j, (i < n)%nat -> (j < k + 1)%nat -> Rabs (T' i j - A i j) <= INR k * tM).
  { intros i j Hi Hj. unfold T'. destruct (Nat.eqb_spec j k) as [->|Hjk]; [apply T2; lia|apply T1; lia]. }
  assert (T0' : forall i j, (i < n)%nat -> (k + 1 <= j < n)%nat -> T' i j = dl i j).
  { intros i j Hi Hj. unfold T'. destruct (Nat.eqb_spec j k); [lia|]. apply T0; lia. }
  assert (HR : forall i, (i < n)%nat -> rsum n (fun l => Rabs (T' i l)) <= 3 * B).
  { intros i Hi. apply Rle_trans with (rsum n (fun l => Rabs (A i l) + INR k * tM + Rabs (dl i l))).
    - apply rsum_le. intros l Hl. assert (0 <= INR k * tM) by (apply Rmult_le_pos; [apply pos_INR|exact HtM]).
      destruct (Nat.lt_ge_cases l (k + 1)) as [H1|H1].
      + pose proof (T1' i l Hi H1). pose proof (Rabs_triang_inv (T' i l) (A i l)). pose proof (Rabs_pos (dl i l)). lra.
      + rewrite (T0' i l) by lia. pose proof (Rabs_pos (A i l)). lra.
    - rewrite !rsum_plus, rsum_const. pose proof (Hrow i Hi).
      rewrite (rsum_ext n (fun l => Rabs (dl i l)) (fun l => if (l =? i)%nat then 1 else 0)).
      2:{ intros l _. unfold dl. rewrite (Nat.eqb_sym i l). destruct (l =? i)%nat; [apply Rabs_R1|apply Rabs_R0]. }
      rewrite (rsum_one n i (fun _ => 1) Hi).
      assert (INR n * (INR k * tM) <= B).
      { apply Rle_trans with (INR n * (INR n * tM)); [apply Rmult_le_compat_l; [apply pos_INR|apply ktM; lia]|].
        rewrite nntM. pose proof s0. pose proof sg0. nra. }
      lra. }
  assert (HX : forall (z : nat -> nat -> R) i j, (i < n)%nat -> rsum n (fun l => T' i l * ex m z k l j) = rsum n (fun l => T i l * z l j)).
  { intros z i j Hi.
    rewrite (rsum_ext n (fun l => T' i l * ex m z k l j)
       (fun l => if (l =? k)%nat then c i * (z k j / p) else T i l * z l j - T i l * m l k * (z k j / p))).
    - rewrite rsum_upd by exact Hk. rewrite rsum_minus, rsum_scal_r. fold (c i). fold p. field. exact pn.
    - intros l Hl. unfold T', ex. fold p. destruct (Nat.eqb_spec l k) as [->|]; [reflexivity|ring]. }
  assert (HE : forall (z z' : nat -> nat -> R) b i j, (i < n)%nat -> (forall l, (l < n)%nat -> Rabs (z' l j - ex m z k l j) <= b) ->
    Rabs (rsum n (fun l => T' i l * z' l j) - rsum n (fun l => T i l * z l j)) <= 3 * B * b).
  { intros z z' b i j Hi Hb. rewrite <- HX by exact Hi. rewrite <- rsum_minus.
    rewrite (rsum_ext n _ (fun l => T' i l * (z' l j - ex m z k l j))) by (intros; ring).
    apply Rle_trans with (1 := rsum_row_le n (fun l => T' i l) (fun l => z' l j - ex m z k l j) b Hb).
    apply Rmult_le_compat_r; [|now apply HR]. apply Rle_trans with (2 := Hb k Hk). apply Rabs_pos. }
  exists T'. split; [exact T0'|]. split; [|split].
  - intros i j Hi Hj. apply Rle_trans with (1 := T1' i j Hi Hj). rewrite Hk1. lra.
  - intros i j Hi Hj. pose proof (T2 i j Hi ltac:(lia)).
    pose proof (HE m m' e i j Hi (fun l Hl => gs_m _ _ _ _ _ St l j Hl ltac:(lia))) as H1. fold tM in H1.
    pose proof (Rabs_triang (rsum n (fun l => T' i l * m' l j) - rsum n (fun l => T i l * m l j)) (rsum n (fun l => T i l * m l j) - A i j)) as H2.
    replace (rsum n (fun l => T' i l * m' l j) - rsum n (fun l => T i l * m l j) + (rsum n (fun l => T i l * m l j) - A i j))
      with (rsum n (fun l => T' i l * m' l j) - A i j) in H2 by ring. rewrite Hk1. lra.
  - intros i j Hi Hj. pose proof (T3 i j Hi ltac:(lia)).
    assert (Hx : forall l, (l < n)%nat -> Rabs (x' l j - ex m x k l j) <= e / B).
    { intros l Hl. destruct (Nat.lt_ge_cases k j) as [Hkj|Hkj].
      - rewrite (gs_0 _ _ _ _ _ St l j Hl) by lia. unfold Rminus. rewrite Rplus_opp_r, Rabs_R0. apply e_B.
      - apply (gs_x _ _ _ _ _ St); lia. }
    pose proof (HE x x' (e / B) i j Hi Hx) as H1. replace (3 * B * (e / B)) with tX in H1 by (unfold tX; field; lra).
    pose proof (Rabs_triang (rsum n (fun l => T' i l * x' l j) - rsum n (fun l => T i l * x l j)) (rsum n (fun l => T i l * x l j) - dl i j)) as H2.
    replace (rsum n (fun l => T' i l * x' l j) - rsum n (fun l => T i l * x l j) + (rsum n (fun l => T i l * x l j) - dl i j))
      with (rsum n (fun l => T' i l * x' l j) - dl i j) in H2 by ring. rewrite Hk1. lra.
Qed.
End Next.
Lemma ginv_start : GInv 0 A dl.
Proof.
  split; [reflexivity|]. exists dl. cbn [INR]. split; [reflexivity|]. split; [intros; lia|]. split.
  - intros i j Hi Hj. rewrite (rsum_dl_l n i (fun l => A l j) Hi). unfold Rminus. rewrite Rplus_opp_r, Rabs_R0. lra.
  - intros i j Hi Hj. rewrite (rsum_dl_l n i (fun l => dl l j) Hi). unfold Rminus. rewrite Rplus_opp_r, Rabs_R0. lra.
Qed.

(** ** The result *)
Lemma g_result m x : GInv n m x -> exists V, real_inverse n A V /\ forall i j, (i < n)%nat -> (j < n)%nat ->
  Rabs (x i j) <= 5 / 4 * H /\ Rabs (rsum n (fun l => A i l * x l j) - dl i j) <= 9 / 2 * (H * B * sg) /\
  Rabs (x i j - V i j) <= 9 / 2 * (H * (H * B * sg)).
Proof.
  intros I. destruct (lead n ltac:(lia)) as (V & HV & HVr). exists V. split; [exact HV|]. intros i j Hi Hj.
  assert (XL : forall l, (l < n)%nat -> Rabs (x l j) <= 5 / 4 * H) by (intros l Hl; apply (x_low n m x V ltac:(lia) I HV HVr l j Hl Hj)).
  split; [now apply XL|].
  destruct (gi_T _ _ _ I) as (T & T0 & T1 & T2 & T3). pose proof HB1 as H1. pose proof sg0 as G0.
  assert (RS : forall a, (a < n)%nat -> Rabs (rsum n (fun l => A a l * x l j) - dl a j) <= 9 / 2 * (H * B * sg)).
  { intros a Ha. pose proof (T3 a j Ha Hj) as H3.
    pose proof (rsum_mul_le n (fun l => T a l - A a l) (fun l => x l j) (INR n * tM) (5 / 4 * H) (fun l Hl => T1 a l Ha Hl) XL) as H2.
    rewrite (rsum_ext n _ (fun l => T a l * x l j - A a l * x l j)), rsum_minus in H2 by (intros; ring).
    replace (INR n * (INR n * tM * (5 / 4 * H))) with (INR n * (INR n * tM) * (5 / 4 * H)) in H2 by ring. rewrite nntM in H2.
    pose proof (Rabs_triang (rsum n (fun l => A a l * x l j) - rsum n (fun l => T a l * x l j)) (rsum n (fun l => T a l * x l j) - dl a j)) as H4.
    replace (rsum n (fun l => A a l * x l j) - rsum n (fun l => T a l * x l j) + (rsum n (fun l => T a l * x l j) - dl a j))
      with (rsum n (fun l => A a l * x l j) - dl a j) in H4 by ring.
    rewrite (Rabs_minus_sym (rsum n (fun l => A a l * x l j)) (rsum n (fun l => T a l * x l j))) in H4.
    pose proof ntX. assert (sg <= H * B * sg) by nra.
    replace (3 * (B * sg) * (5 / 4 * H)) with (15 / 4 * (H * B * sg)) in H2 by field. lra. }
  split; [now apply RS|].
  (* x - V = V (A x - I) *)
  replace (x i j - V i j) with (rsum n (fun a => V i a * (rsum n (fun l => A a l * x l j) - dl a j))).
  - apply Rle_trans with (1 := rsum_row_le n (fun a => V i a) _ _ RS).
    replace (9 / 2 * (H * (H * B * sg))) with (H * (9 / 2 * (H * B * sg))) by ring. apply Rmult_le_compat_r; [|now apply HVr].
    assert (0 <= H * B * sg) by (apply Rmult_le_pos; lra). lra.
  - rewrite (rsum_ext n _ (fun a => V i a * rsum n (fun l => A a l * x l j) - V i a * dl a j)) by (intros; ring).
    rewrite rsum_minus, (rsum_dl_r n j (fun a => V i a) Hj), (rsum_assoc n n (fun a => V i a) A (fun l => x l j)).
    rewrite (rsum_ext n _ (fun l => dl i l * x l j)) by (intros l Hl; now rewrite (proj2 (HV i l Hi Hl))).
    now rewrite (rsum_dl_l n i (fun l => x l j) Hi).
Qed.
End Gen.
