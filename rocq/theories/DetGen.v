(** * DetGen.v - pivots of Gaussian elimination without pivoting on real matrices with
    well-conditioned leading blocks, exact and approximate (proofs only; no floats here). *)
From Coq Require Import List Arith Bool Lia ZArith Reals Lra.
From Verif Require Import SpecReal FloatErr GJReal GJGen RDet DetReal.
Import ListNotations.
Local Open Scope R_scope.

(** ** Exact elimination *)
Section Exact.
Variable n : nat.
Variable A : nat -> nat -> R.
Fixpoint ge (k : nat) : nat -> nat -> R :=
  match k with
  | 0%nat => A
  | S k => fun i j => if (k <? i)%nat then ge k i j - ge k i k / ge k k k * ge k k j else ge k i j
  end.
Hypothesis NZ : forall k, (k < n)%nat -> ge k k k <> 0.
Lemma ge_low : forall k, (k <= n)%nat -> forall i j, (j < k)%nat -> (j < i)%nat -> ge k i j = 0.
Proof.
  induction k as [|k IH]; intros Hk i j Hj Hi; [lia|]. cbn [ge]. destruct (Nat.ltb_spec k i) as [L|L].
  - destruct (Nat.eq_dec j k) as [->|N].
    + field. apply NZ. lia.
    + rewrite (IH ltac:(lia) i j), (IH ltac:(lia) k j) by lia. ring.
  - apply IH; lia.
Qed.
Lemma ge_det1 k : (k < n)%nat -> rdet n (ge (S k)) = rdet n (ge k).
Proof.
  intros Hk. set (c := fun i => ge k i k / ge k k k).
  set (K := fun r i j => if (i <? r)%nat then ge (S k) i j else ge k i j).
  assert (L : forall r, (r <= n)%nat -> rdet n (K r) = rdet n (ge k)).
  { induction r as [|r IH]; intros Hr.
    - apply rdet_ext. intros i j _ _. reflexivity.
    - rewrite <- IH by lia. destruct (Nat.le_gt_cases r k) as [L|L].
      + apply rdet_ext. intros i j _ _. unfold K. destruct (Nat.ltb_spec i (S r)), (Nat.ltb_spec i r); try lia; try reflexivity.
        cbn [ge]. now rewrite (proj2 (Nat.ltb_ge k i)) by lia.
      + rewrite <- (det_rowop n r k (c r) (K r)) by lia. apply rdet_ext. intros i j _ _. unfold setrow. destruct (Nat.eqb_spec i r) as [->|N].
        * unfold K. rewrite (proj2 (Nat.ltb_lt r (S r))), (proj2 (Nat.ltb_ge r r)), (proj2 (Nat.ltb_lt k r)) by lia.
          cbn [ge]. rewrite (proj2 (Nat.ltb_lt k r)), (proj2 (Nat.ltb_ge k k)) by lia. reflexivity.
        * unfold K. destruct (Nat.ltb_spec i (S r)), (Nat.ltb_spec i r); try lia; reflexivity. }
  rewrite <- (L n ltac:(lia)). apply rdet_ext. intros i j Hi _. unfold K. now rewrite (proj2 (Nat.ltb_lt i n) Hi).
Qed.
Lemma ge_top : forall k i j, (i <= k)%nat -> ge k i j = ge i i j.
Proof.
  induction k as [|k IH]; intros i j Hi; [now replace i with 0%nat by lia|]. destruct (Nat.eq_dec i (S k)) as [->|N]; [reflexivity|].
  cbn [ge]. rewrite (proj2 (Nat.ltb_ge k i)) by lia. apply IH. lia.
Qed.
Lemma ge_det : rdet n A = rprod n (fun i => ge i i i).
Proof.
  assert (L : forall k, (k <= n)%nat -> rdet n (ge k) = rdet n A).
  { induction k as [|k IH]; intros Hk; [reflexivity|]. rewrite ge_det1 by lia. apply IH. lia. }
  rewrite <- (L n ltac:(lia)), det_upper.
  - assert (P : forall q, (q <= n)%nat -> rprod q (fun i => ge n i i) = rprod q (fun i => ge i i i)); [|apply P; lia].
    induction q as [|q IH]; intros Hq; [reflexivity|]. cbn [rprod]. rewrite IH by lia. now rewrite (ge_top n q q) by lia.
  - intros i j Hij. apply ge_low; lia.
Qed.
End Exact.

(** ** Approximate elimination, seen inside a Gauss-Jordan elimination whose other rows are exact *)
Section Gen.
Variable n : nat.
Variable A : nat -> nat -> R.
Variables H B e : R.
Hypothesis Hn : (4 <= n)%nat.
Hypothesis HB : 1 <= B.
Hypothesis HH : 1 <= H.
Hypothesis He : 0 <= e.
Hypothesis Hrow : forall i, (i < n)%nat -> rsum n (fun j => Rabs (A i j)) <= B.
Hypothesis Hlead : forall k, (1 <= k <= n)%nat -> exists V, real_inverse k A V /\ forall i, (i < k)%nat -> rsum k (fun j => Rabs (V i j)) <= H.
Hypothesis Hsmall : 36 * (H ^ 3 * B ^ 3 * (INR n * INR n * e)) <= 1.
Definition DInv (k : nat) (z : nat -> nat -> R) : Prop :=
  exists g x, GInv n A B e k g x /\ forall i j, (k <= i < n)%nat -> (k <= j < n)%nat -> g i j = z i j.
Lemma dinv_start : DInv 0 A.
Proof. exists A, dl. split; [now apply ginv_start|reflexivity]. Qed.
Lemma dinv_next k z z' : (k < n)%nat -> DInv k z -> EStep n e k z z' -> DInv (S k) z'.
Proof.
  intros Hk (g & x & I & E) St. set (g' := fun i j => if (k <? i)%nat then z' i j else ex g g k i j).
  exists g', (ex g x k). split.
  - rewrite <- Nat.add_1_r. apply (ginv_next n A H B e Hn HB HH He Hrow Hlead Hsmall k g x g' (ex g x k) I Hk). 
    assert (Z : forall r b, 0 <= b -> Rabs (r - r) <= b) by (intros r b Hb; unfold Rminus; now rewrite Rplus_opp_r, Rabs_R0).
    split.
    + intros i j Hi Hj. unfold g'. destruct (Nat.ltb_spec k i) as [L|L]; [|now apply Z].
      pose proof (es_low _ _ _ _ _ St i j ltac:(lia) Hj) as D. unfold ex. rewrite (proj2 (Nat.eqb_neq i k)) by lia. rewrite !E by lia.
      replace (z i j - z i k * (z k j / z k k)) with (z i j - z i k / z k k * z k j) by (unfold Rdiv; ring). exact D.
    + intros i j Hi Hj. apply Z. apply Rmult_le_pos; [exact He|]. left. apply Rinv_0_lt_compat. lra.
    + reflexivity.
  - intros i j Hi Hj. unfold g'. now rewrite (proj2 (Nat.ltb_lt k i)) by lia.
Qed.
(** The bounds of a step. *)
Lemma dinv_bounds k z : (k < n)%nat -> DInv k z ->
  3 / 4 * / H <= Rabs (z k k) /\
  (forall j, (k <= j < n)%nat -> Rabs (z k j / z k k) <= 5 / 3 * (H * B)) /\
  (forall i j, (k <= i < n)%nat -> (k <= j < n)%nat -> Rabs (z i j) <= 9 / 4 * (H * B * B)).
Proof.
  intros Hk (g & x & I & E). destruct (lead n A H Hn Hlead k ltac:(lia)) as (V & HV & HVr).
  destruct (piv_all n A H B e Hn HB HH He Hrow Hlead Hsmall k g x V ltac:(lia) I HV HVr Hk) as (P1 & P2 & _). rewrite E in P1 by lia.
  split; [exact P1|]. split.
  - intros j Hj. specialize (P2 j Hj). now rewrite !E in P2 by lia.
  - intros i j Hi Hj. rewrite <- E by lia. apply (m_up n A H B e Hn HB HH He Hrow Hsmall k g x V ltac:(lia) I HV HVr); lia.
Qed.
(** The pivot against the exact pivot, and the exact pivot from below. *)
Lemma dinv_piv k z : (k < n)%nat -> DInv k z -> exists p, / H <= Rabs p /\ Rabs (z k k - p) <= 9 * (H * B * (H * B) * (B * (INR n * INR n * e))) /\
  forall V, real_inverse k A V -> (forall i, (i < k)%nat -> rsum k (fun j => Rabs (V i j)) <= H) -> p = Mk n A k V k k.
Proof.
  intros Hk (g & x & I & E). destruct (lead n A H Hn Hlead k ltac:(lia)) as (V & HV & HVr). destruct (Hlead (k + 1) ltac:(lia)) as (V' & HV' & HVr').
  exists (Mk n A k V k k). split; [|split].
  - exact (p_big n A H Hn HH k V ltac:(lia) HV V' Hk HV' HVr').
  - rewrite <- E by lia. apply (m_err9 n A H B e Hn HB HH He Hrow Hsmall k g x V ltac:(lia) I HV HVr); lia.
  - intros W HW HWr. unfold Mk. apply rsum_ext. intros l Hl. f_equal. unfold Xk. rewrite (proj2 (Nat.ltb_ge k k)) by lia. destruct (Nat.ltb_spec l k) as [L|]; [|reflexivity].
    f_equal. apply rsum_ext. intros q Hq. f_equal.
    (* V = V A W = W *)
    transitivity (rsum k (fun a => V q a * dl a l)); [now rewrite (rsum_dl_r k l (fun a => V q a) L)|].
    rewrite (rsum_ext k _ (fun a => V q a * rsum k (fun b => A a b * W b l))) by (intros a Ha; now rewrite (proj1 (HW a l Ha L))).
    rewrite (rsum_assoc k k (fun a => V q a) A (fun b => W b l)).
    rewrite (rsum_ext k _ (fun b => dl q b * W b l)) by (intros b Hb; now rewrite (proj2 (HV q b Hq Hb))).
    exact (rsum_dl_l k q (fun b => W b l) Hq).
Qed.
End Gen.

Section Result.
Variable n : nat.
Variable A : nat -> nat -> R.
Variables H B e : R.
Hypothesis Hn : (4 <= n)%nat.
Hypothesis HB : 1 <= B.
Hypothesis HH : 1 <= H.
Hypothesis He : 0 <= e.
Hypothesis Hrow : forall i, (i < n)%nat -> rsum n (fun j => Rabs (A i j)) <= B.
Hypothesis Hlead : forall k, (1 <= k <= n)%nat -> exists V, real_inverse k A V /\ forall i, (i < k)%nat -> rsum k (fun j => Rabs (V i j)) <= H.
Hypothesis Hsmall : 36 * (H ^ 3 * B ^ 3 * (INR n * INR n * e)) <= 1.
Lemma small0 : 36 * (H ^ 3 * B ^ 3 * (INR n * INR n * 0)) <= 1.
Proof. rewrite !Rmult_0_r. lra. Qed.
Lemma ge_dinv : forall k, (k <= n)%nat -> DInv n A B 0 k (ge A k).
Proof.
  induction k as [|k IH]; intros Hk; [now apply dinv_start|]. 
  apply (dinv_next n A H B 0 Hn HB HH (Rle_refl 0) Hrow Hlead small0 k (ge A k)); [lia|apply IH; lia|]. split.
  - intros i j Hi Hj. cbn [ge]. rewrite (proj2 (Nat.ltb_lt k i)) by lia. unfold Rminus. rewrite Rplus_opp_r, Rabs_R0. lra.
  - intros i j Hi Hj. cbn [ge]. now rewrite (proj2 (Nat.ltb_ge k i)) by lia.
Qed.
Let th := 9 * (H * B * (H * B) * (B * (INR n * INR n * e))).
Lemma piv_rel k z : (k < n)%nat -> DInv n A B e k z -> / H <= Rabs (ge A k k k) /\ Rabs (z k k - ge A k k k) <= th.
Proof.
  intros Hk D.
  destruct (dinv_piv n A H B e Hn HB HH He Hrow Hlead Hsmall k z Hk D) as (p & P1 & P2 & P3).
  destruct (dinv_piv n A H B 0 Hn HB HH (Rle_refl 0) Hrow Hlead small0 k _ Hk (ge_dinv k ltac:(lia))) as (q & Q1 & Q2 & Q3).
  destruct (lead n A H Hn Hlead k ltac:(lia)) as (V & HV & HVr). rewrite (P3 V HV HVr) in *. rewrite (Q3 V HV HVr) in *.
  rewrite !Rmult_0_r in Q2. assert (E : ge A k k k = Mk n A k V k k).
  { pose proof (Rabs_pos (ge A k k k - Mk n A k V k k)). assert (Z : Rabs (ge A k k k - Mk n A k V k k) = 0) by lra.
    destruct (Req_dec (ge A k k k - Mk n A k V k k) 0) as [N|N]; [lra|]. apply Rabs_pos_lt in N. lra. }
  rewrite E. split; [exact P1|exact P2].
Qed.
Lemma lead_det : rdet n A = rprod n (fun i => ge A i i i).
Proof.
  apply ge_det. intros k Hk Z. pose proof (dinv_bounds n A H B 0 Hn HB HH (Rle_refl 0) Hrow Hlead small0 k _ Hk (ge_dinv k ltac:(lia))) as (P & _).
  rewrite Z, Rabs_R0 in P. assert (0 < / H) by (apply Rinv_0_lt_compat; lra). lra.
Qed.
(** What is known of a state after [k] steps. *)
Record LInv (k : nat) (z : nat -> nat -> R) : Prop := {
  li_d : DInv n A B e k z;
  li_p : forall i, (i < k)%nat -> (/ H <= Rabs (ge A i i i) /\ Rabs (z i i - ge A i i i) <= th) /\ 3 / 4 * / H <= Rabs (z i i) <= 9 / 4 * (H * B * B) }.
Lemma linv_start : LInv 0 A.
Proof. split; [now apply dinv_start|intros; lia]. Qed.
Lemma linv_next k z z' : (k < n)%nat -> LInv k z -> EStep n e k z z' -> LInv (S k) z'.
Proof.
  intros Hk [D P] St. split; [exact (dinv_next n A H B e Hn HB HH He Hrow Hlead Hsmall k z z' Hk D St)|].
  intros i Hi. rewrite (es_top _ _ _ _ _ St i i) by lia. destruct (Nat.eq_dec i k) as [->|N]; [|apply P; lia].
  destruct (dinv_bounds n A H B e Hn HB HH He Hrow Hlead Hsmall k z Hk D) as (B1 & _ & B3).
  split; [now apply piv_rel|]. split; [exact B1|apply B3; lia].
Qed.
Lemma linv_end z : LInv n z -> rel ((1 + 9 * (H ^ 3 * B ^ 3 * (INR n * INR n * e))) ^ n) (rdet n A) (rprod n (fun i => z i i)) /\ rdet n A <> 0.
Proof.
  intros [_ P]. rewrite lead_det. set (q := 1 + _).
  assert (Sg : 0 <= H ^ 3 * B ^ 3 * (INR n * INR n * e)).
  { repeat apply Rmult_le_pos; try apply pow_le; try apply pos_INR; try lra; exact He. }
  assert (Q1 : 1 <= q) by (unfold q; lra).
  assert (Hp : forall i, (i < n)%nat -> rel q (ge A i i i) (z i i) /\ ge A i i i <> 0).
  { intros i Hi. destruct (P i Hi) as [[P1 P2] _]. split.
    - unfold rel. apply Rle_trans with (1 := P2). unfold q. 
      replace (1 + 9 * (H ^ 3 * B ^ 3 * (INR n * INR n * e)) - 1) with (th * H) by (unfold th; ring).
      assert (0 <= th). { unfold th. assert (0 <= H * B * (H * B) * (B * (INR n * INR n * e))); [|lra]. repeat apply Rmult_le_pos; try apply pos_INR; lra. }
      rewrite Rmult_assoc. rewrite <- (Rmult_1_r th) at 1. apply Rmult_le_compat_l; [exact H0|].
      apply Rmult_le_compat_l with (r := H) in P1; [|lra]. rewrite Rinv_r in P1 by lra. exact P1.
    - intros Z. rewrite Z, Rabs_R0 in P1. assert (0 < / H) by (apply Rinv_0_lt_compat; lra). lra. }
  assert (G : forall k, (k <= n)%nat -> rel (q ^ k) (rprod k (fun i => ge A i i i)) (rprod k (fun i => z i i)) /\ rprod k (fun i => ge A i i i) <> 0).
  { induction k as [|k IH]; intros Hk; cbn [rprod pow]; [split; [apply rel_refl|lra]|]. destruct (IH ltac:(lia)) as [I1 I2]. destruct (Hp k ltac:(lia)) as [J1 J2].
    split; [|now apply Rmult_integral_contrapositive_currified].
    rewrite Rmult_comm. apply rel_trans with (rprod k (fun i => z i i) * ge A k k k); [exact Q1| |].
    - unfold rel in *. replace (rprod k (fun i => z i i) * ge A k k k - rprod k (fun i => ge A i i i) * ge A k k k) with ((rprod k (fun i => z i i) - rprod k (fun i => ge A i i i)) * ge A k k k) by ring.
      rewrite !Rabs_mult, <- Rmult_assoc. apply Rmult_le_compat_r; [apply Rabs_pos|exact I1].
    - unfold rel in *. replace (rprod k (fun i => z i i) * z k k - rprod k (fun i => z i i) * ge A k k k) with (rprod k (fun i => z i i) * (z k k - ge A k k k)) by ring.
      rewrite !Rabs_mult. replace ((q - 1) * (Rabs (rprod k (fun i => z i i)) * Rabs (ge A k k k))) with (Rabs (rprod k (fun i => z i i)) * ((q - 1) * Rabs (ge A k k k))) by ring.
      apply Rmult_le_compat_l; [apply Rabs_pos|exact J1]. }
  apply G. lia.
Qed.
End Result.
