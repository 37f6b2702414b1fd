(** * DetReal.v - error analysis of Gaussian elimination without pivoting, and of the product of
    its pivots, on real matrices that are diagonally dominant by rows (proofs only; no floats
    here). *)
From Coq Require Import List Arith Bool Lia ZArith Reals Lra.
From Verif Require Import SpecReal FloatErr GJReal RDet.
Import ListNotations.
Local Open Scope R_scope.

Section GE.
Variable n : nat.
Variable A : nat -> nat -> R.
Variables del B e : R.
Hypothesis Hdel : 0 < del.
Hypothesis He : 0 <= e.
Hypothesis Hsmall : 3 * (INR n * INR n * e) <= del.
Hypothesis Hrow : forall i, (i < n)%nat -> rsum n (fun j => Rabs (A i j)) <= B.
Hypothesis Hdom : forall i, (i < n)%nat -> rsum n (fun j => Rabs (A i j)) + del <= 2 * Rabs (A i i).

(** The part of [m] that is still read after [k] steps; what lies below the diagonal in the
    first [k] columns counts as zero. *)
Definition up (k : nat) (m : nat -> nat -> R) (i j : nat) : R := if (j <? Nat.min i k)%nat then 0 else m i j.
Definition rw (k : nat) (m : nat -> nat -> R) (i : nat) : R := rsum n (fun j => Rabs (up k m i j)).
(** One approximate elimination step. *)
Record EStep (k : nat) (m m' : nat -> nat -> R) : Prop := {
  es_low : forall i j, (k < i < n)%nat -> (k < j < n)%nat -> Rabs (m' i j - (m i j - m i k / m k k * m k j)) <= e;
  es_top : forall i j, (i <= k)%nat -> (j < n)%nat -> m' i j = m i j }.
Definition grow : R := 1 + INR n * e / (2 / 3 * del).
Record EInv (k : nat) (m : nat -> nat -> R) : Prop := {
  ei_row : forall i, (i < n)%nat -> rw k m i <= B + INR k * (INR n * e);
  ei_dom : forall i, (i < n)%nat -> rw k m i + del <= 2 * Rabs (m i i) + INR k * (INR n * e);
  ei_det : rel (grow ^ (k * n)) (rdet n A) (rdet n (up k m)) }.

Lemma up_diag k m i : up k m i i = m i i.
Proof. unfold up. destruct (Nat.ltb_spec i (Nat.min i k)); [lia|reflexivity]. Qed.
Lemma up_0 m i j : up 0 m i j = m i j.
Proof. unfold up. now rewrite Nat.min_0_r. Qed.
Lemma einv_start : EInv 0 A.
Proof.
  assert (E : forall i, rw 0 A i = rsum n (fun j => Rabs (A i j))).
  { intros i. unfold rw. apply rsum_ext. intros j _. now rewrite up_0. }
  split.
  - intros i Hi. rewrite E. cbn [INR]. pose proof (Hrow i Hi). lra.
  - intros i Hi. rewrite E. cbn [INR]. pose proof (Hdom i Hi). lra.
  - cbn [Nat.mul pow]. replace (rdet n (up 0 A)) with (rdet n A); [apply rel_refl|]. apply rdet_ext. intros i j _ _. now rewrite up_0.
Qed.
Lemma kn_e k : (k <= n)%nat -> 0 <= INR k * (INR n * e) <= del / 3.
Proof.
  intros H. pose proof (kne n e He k). pose proof (Hn0 n e He k H). lra.
Qed.
Lemma grow_1 : 1 <= grow.
Proof.
  unfold grow. assert (0 <= INR n * e / (2 / 3 * del)); [|lra]. apply Rmult_le_pos; [apply Rmult_le_pos; [apply pos_INR|exact He]|].
  left. apply Rinv_0_lt_compat. lra.
Qed.

Section Pos.
Variables (k : nat) (m : nat -> nat -> R).
Hypothesis I : EInv k m.
Hypothesis Hk : (k <= n)%nat.
Lemma e_entry i j : (i < n)%nat -> (j < n)%nat -> Rabs (up k m i j) <= rw k m i.
Proof. intros Hi Hj. exact (rsum_term n (fun j => Rabs (up k m i j)) j (fun j _ => Rabs_pos _) Hj). Qed.
Lemma e_dom : dom n (2 / 3 * del) (up k m).
Proof. intros i Hi. rewrite up_diag. pose proof (ei_dom _ _ I i Hi). pose proof (kn_e k Hk). unfold rw in *. lra. Qed.
Lemma e_pivot i : (i < n)%nat -> 2 / 3 * del <= Rabs (m i i).
Proof.
  intros Hi. pose proof (e_dom i Hi) as H. pose proof (e_entry i i Hi Hi) as H1. rewrite up_diag in *. unfold rw in *. lra.
Qed.
Lemma e_nz i : (i < n)%nat -> m i i <> 0.
Proof. intros Hi E. pose proof (e_pivot i Hi) as H. rewrite E, Rabs_R0 in H. lra. Qed.
Lemma e_bound i j : (i < n)%nat -> (j < n)%nat -> (Nat.min i k <= j)%nat -> Rabs (m i j) <= B + del / 3.
Proof.
  intros Hi Hj H. pose proof (e_entry i j Hi Hj) as H1. unfold up in H1. rewrite (proj2 (Nat.ltb_ge j (Nat.min i k)) H) in H1.
  pose proof (ei_row _ _ I i Hi). pose proof (kn_e k Hk). lra.
Qed.
(** In its row the pivot is the largest entry. *)
Lemma e_big i j : (i < n)%nat -> (j < n)%nat -> (Nat.min i k <= j)%nat -> Rabs (m i j) <= Rabs (m i i).
Proof.
  intros Hi Hj H. destruct (Nat.eq_dec j i) as [->|N]; [lra|]. pose proof (e_dom i Hi) as D. rewrite up_diag in D.
  assert (Rabs (up k m i j) + Rabs (up k m i i) <= rsum n (fun j => Rabs (up k m i j))).
  { rewrite <- (rsum_one n i (fun j => Rabs (up k m i j)) Hi). rewrite <- (rsum_one n j (fun j => Rabs (up k m i j)) Hj) at 1. rewrite <- rsum_plus.
    apply rsum_le. intros l Hl. pose proof (Rabs_pos (up k m i l)). destruct (Nat.eqb_spec l j), (Nat.eqb_spec l i); try lia; lra. }
  rewrite up_diag in *. unfold up at 1 in H0. rewrite (proj2 (Nat.ltb_ge j (Nat.min i k)) H) in H0. lra.
Qed.
End Pos.

Section Next.
Variables (k : nat) (m m' : nat -> nat -> R).
Hypothesis I : EInv k m.
Hypothesis Hk : (k < n)%nat.
Hypothesis St : EStep k m m'.
Let F := up k m.
Let c i := m i k / m k k.
(** The exact step. *)
Let G i j := if (i <=? k)%nat then F i j else F i j - c i * F k j.
Lemma nz : m k k <> 0.
Proof. apply (e_nz k m I); lia. Qed.
Lemma F_k j : (j < k)%nat -> F k j = 0.
Proof. intros H. unfold F, up. now rewrite (proj2 (Nat.ltb_lt j (Nat.min k k))) by lia. Qed.
Lemma F_get i j : (Nat.min i k <= j)%nat -> F i j = m i j.
Proof. intros H. unfold F, up. now rewrite (proj2 (Nat.ltb_ge j (Nat.min i k)) H). Qed.
Lemma F_low i j : (j < Nat.min i k)%nat -> F i j = 0.
Proof. intros H. unfold F, up. now rewrite (proj2 (Nat.ltb_lt j (Nat.min i k)) H). Qed.
Lemma G_k i : (k < i)%nat -> G i k = 0.
Proof.
  intros H. unfold G. rewrite (proj2 (Nat.leb_gt i k) H). rewrite !F_get by lia. unfold c. field. exact nz.
Qed.
Lemma G_det : rdet n G = rdet n F.
Proof.
  set (K := fun r i j => if (i <? r)%nat then G i j else F i j).
  assert (L : forall r, (r <= n)%nat -> rdet n (K r) = rdet n F).
  { induction r as [|r IH]; intros Hr.
    - apply rdet_ext. intros i j _ _. reflexivity.
    - rewrite <- IH by lia. destruct (Nat.le_gt_cases r k) as [L|L].
      + apply rdet_ext. intros i j _ _. unfold K. destruct (Nat.ltb_spec i (S r)), (Nat.ltb_spec i r); try lia; try reflexivity.
        unfold G. now rewrite (proj2 (Nat.leb_le i k)) by lia.
      + rewrite <- (det_rowop n r k (c r) (K r)) by lia. apply rdet_ext. intros i j _ _. unfold setrow. destruct (Nat.eqb_spec i r) as [->|N].
        * unfold K. rewrite (proj2 (Nat.ltb_lt r (S r))), (proj2 (Nat.ltb_ge r r)), (proj2 (Nat.ltb_lt k r)) by lia.
          unfold G. rewrite (proj2 (Nat.leb_gt r k)), (proj2 (Nat.leb_le k k)) by lia. reflexivity.
        * unfold K. destruct (Nat.ltb_spec i (S r)), (Nat.ltb_spec i r); try lia; reflexivity. }
  rewrite <- (L n ltac:(lia)). apply rdet_ext. intros i j Hi _. unfold K. now rewrite (proj2 (Nat.ltb_lt i n) Hi).
Qed.
(** Row sums and dominance of the exact step. *)
Lemma G_row i : (i < n)%nat -> rsum n (fun j => Rabs (G i j)) <= rw k m i /\
  rsum n (fun j => Rabs (G i j)) - 2 * Rabs (G i i) <= rw k m i - 2 * Rabs (m i i).
Proof.
  intros Hi. destruct (Nat.le_gt_cases i k) as [L|L].
  - assert (E : forall j, G i j = F i j) by (intros j; unfold G; now rewrite (proj2 (Nat.leb_le i k) L)).
    rewrite (rsum_ext n _ (fun j => Rabs (F i j))) by (intros; now rewrite E). rewrite E. unfold F at 3. rewrite up_diag. unfold rw, F. lra.
  - set (C := Rabs (c i)). assert (C0 : 0 <= C) by apply Rabs_pos.
    set (h := fun j => if (j =? k)%nat then 0 else Rabs (F i j) + C * Rabs (F k j)).
    assert (Hh : rsum n h <= rw k m i).
    { unfold h. rewrite (rsum_upd n (fun j => Rabs (F i j) + C * Rabs (F k j)) k 0 Hk). rewrite rsum_plus, rsum_scal.
      fold (rw k m i). pose proof (e_dom k m I ltac:(lia) k Hk) as D. fold F in D.
      assert (EC : C * Rabs (F k k) = Rabs (F i k)).
      { unfold C. rewrite <- Rabs_mult. f_equal. rewrite !F_get by lia. unfold c. field. exact nz. }
      assert (C * rsum n (fun j => Rabs (F k j)) <= C * (2 * Rabs (F k k))) by (apply Rmult_le_compat_l; lra).
      unfold rw, F in *. lra. }
    assert (Gh : forall j, (j < n)%nat -> Rabs (G i j) <= h j).
    { intros j Hj. unfold h. destruct (Nat.eqb_spec j k) as [->|N]; [rewrite G_k by exact L; rewrite Rabs_R0; lra|].
      unfold G. rewrite (proj2 (Nat.leb_gt i k) L). unfold C. rewrite <- Rabs_mult. unfold Rminus.
      rewrite <- (Rabs_Ropp (c i * F k j)). apply Rabs_triang. }
    split; [apply Rle_trans with (2 := Hh); now apply rsum_le|].
    assert (S1 : rsum n (fun j => Rabs (G i j)) - Rabs (G i i) <= rsum n h - h i).
    { pose proof (rsum_upd n (fun j => Rabs (G i j)) i 0 Hi) as U1. pose proof (rsum_upd n h i 0 Hi) as U2.
      assert (rsum n (fun j => if (j =? i)%nat then 0 else Rabs (G i j)) <= rsum n (fun j => if (j =? i)%nat then 0 else h j)); [|lra].
      apply rsum_le. intros j Hj. destruct (j =? i)%nat; [lra|now apply Gh]. }
    assert (S2 : Rabs (m i i) <= Rabs (G i i) + C * Rabs (F k i)).
    { rewrite <- (up_diag k m i). fold F. unfold G. rewrite (proj2 (Nat.leb_gt i k) L). unfold C. rewrite <- Rabs_mult.
      replace (F i i) with (F i i - c i * F k i + c i * F k i) at 1 by ring. apply Rabs_triang. }
    unfold h at 2 in S1. rewrite (proj2 (Nat.eqb_neq i k)) in S1 by lia. replace (F i i) with (m i i) in S1 by (symmetry; apply up_diag). lra.
Qed.
Lemma G_close i j : (i < n)%nat -> (j < n)%nat -> Rabs (up (S k) m' i j - G i j) <= e.
Proof.
  intros Hi Hj. assert (Z : Rabs 0 <= e) by (rewrite Rabs_R0; exact He). destruct (Nat.le_gt_cases i k) as [L|L].
  - unfold G. rewrite (proj2 (Nat.leb_le i k) L). unfold F, up. replace (Nat.min i (S k)) with i by lia. replace (Nat.min i k) with i by lia.
    destruct (j <? i)%nat; [now rewrite Rminus_0_r|]. rewrite (es_top _ _ _ St i j L Hj). now replace (m i j - m i j) with 0 by ring.
  - destruct (Nat.lt_trichotomy j k) as [J|[J|J]].
    + unfold G. rewrite (proj2 (Nat.leb_gt i k) L). rewrite F_low by lia. rewrite F_k by lia. unfold up.
      rewrite (proj2 (Nat.ltb_lt j (Nat.min i (S k)))) by lia. now replace (0 - (0 - c i * 0)) with 0 by ring.
    + subst j. rewrite G_k by exact L. unfold up. rewrite (proj2 (Nat.ltb_lt k (Nat.min i (S k)))) by lia. now rewrite Rminus_0_r.
    + unfold G. rewrite (proj2 (Nat.leb_gt i k) L). rewrite !F_get by lia. unfold up.
      rewrite (proj2 (Nat.ltb_ge j (Nat.min i (S k)))) by lia. apply (es_low _ _ _ St); lia.
Qed.
Lemma einv_next : EInv (S k) m'.
Proof.
  assert (Habs : forall i j, (i < n)%nat -> (j < n)%nat -> Rabs (up (S k) m' i j) <= Rabs (G i j) + e /\ Rabs (G i j) <= Rabs (up (S k) m' i j) + e).
  { intros i j Hi Hj. pose proof (G_close i j Hi Hj) as H. split.
    - pose proof (Rabs_triang (up (S k) m' i j - G i j) (G i j)) as T. replace (up (S k) m' i j - G i j + G i j) with (up (S k) m' i j) in T by ring. lra.
    - rewrite Rabs_minus_sym in H. pose proof (Rabs_triang (G i j - up (S k) m' i j) (up (S k) m' i j)) as T.
      replace (G i j - up (S k) m' i j + up (S k) m' i j) with (G i j) in T by ring. lra. }
  assert (Hr : forall i, (i < n)%nat -> rw (S k) m' i <= rsum n (fun j => Rabs (G i j)) + INR n * e).
  { intros i Hi. unfold rw. rewrite <- rsum_const, <- rsum_plus. apply rsum_le. intros j Hj. now apply Habs. }
  assert (Hd : forall i, (i < n)%nat -> rw (S k) m' i - 2 * Rabs (m' i i) <= rsum n (fun j => Rabs (G i j)) - 2 * Rabs (G i i) + INR n * e).
  { intros i Hi. rewrite <- (up_diag (S k) m' i).
    pose proof (rsum_upd n (fun j => Rabs (up (S k) m' i j)) i (- Rabs (up (S k) m' i i)) Hi) as U1.
    pose proof (rsum_upd n (fun j => Rabs (G i j)) i (- Rabs (G i i)) Hi) as U2. cbv beta in U1, U2.
    assert (L : rsum n (fun j => if (j =? i)%nat then - Rabs (up (S k) m' i i) else Rabs (up (S k) m' i j)) <=
      rsum n (fun j => if (j =? i)%nat then - Rabs (G i i) else Rabs (G i j)) + INR n * e).
    { rewrite <- rsum_const, <- rsum_plus. apply rsum_le. intros j Hj. destruct (Nat.eqb_spec j i) as [->|]; [destruct (Habs i i Hi Hi); lra|now apply Habs]. }
    unfold rw. lra. }
  split.
  - intros i Hi. rewrite S_INR. pose proof (Hr i Hi). destruct (G_row i Hi) as [G1 _]. pose proof (ei_row _ _ I i Hi). lra.
  - intros i Hi. rewrite S_INR. pose proof (Hd i Hi). destruct (G_row i Hi) as [_ G2]. pose proof (ei_dom _ _ I i Hi). lra.
  - replace (S k * n)%nat with (k * n + n)%nat by lia. rewrite pow_add. apply rel_trans with (rdet n F); [|exact (ei_det _ _ I)|].
    + apply pow_R1_Rle. exact grow_1.
    + rewrite <- G_det. unfold grow. apply det_pert; [lra|exact He| | |exact G_close].
      * intros i Hi. destruct (G_row i Hi) as [_ G2]. pose proof (e_dom k m I ltac:(lia) i Hi) as D. rewrite up_diag in D. unfold rw in G2. lra.
      * intros i Hi. pose proof (Hd i Hi) as H. destruct (G_row i Hi) as [_ G2]. pose proof (ei_dom _ _ I i Hi) as D.
        pose proof (kn_e (S k) ltac:(lia)) as Kn. rewrite S_INR in Kn. rewrite up_diag. unfold rw in *. lra.
Qed.
End Next.

Lemma einv_end m : EInv n m -> rel (grow ^ (n * n)) (rdet n A) (rprod n (fun i => m i i)).
Proof.
  intros I. pose proof (ei_det _ _ I) as H. rewrite (det_upper n (up n m)) in H.
  - replace (rprod n (fun i => m i i)) with (rprod n (fun i => up n m i i)); [exact H|].
    generalize n at 1 3. intros q. induction q as [|q IH]; [reflexivity|]. cbn [rprod]. now rewrite IH, up_diag.
  - intros i j Hij. unfold up. now rewrite (proj2 (Nat.ltb_lt j (Nat.min i n))) by lia.
Qed.
End GE.
