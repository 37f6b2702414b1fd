(** * PowProofs.v - powers of f32 and f64 matrices (proofs only). *)
From Coq Require Import List Arith Bool Lia ZArith Reals Lra.
From Flocq Require Import Core BinarySingleNaN.
From Verif Require Import Rust Elem SpecCommon SpecAlg FloatM SpecReal SpecPow FloatErr.
From Verif Require Import AccProofs Sim Algebra PropsFloatErr PropsFloatInt FloatPost GJReal GJGen.
Import ListNotations.
Local Open Scope R_scope.

(** ** What exponentiation by squaring computes, step by step: only powers up to [e]. *)
Lemma pow_ind_e {X} (mul : X -> X -> X) (one b : X) e (G : nat -> X -> Prop) :
  (forall a c x y, (1 <= a)%nat -> (1 <= c)%nat -> (a + c <= e)%nat -> G a x -> G c y -> G (a + c)%nat (mul x y)) ->
  (e = 0%nat -> G 0%nat one) -> ((1 <= e)%nat -> G 1%nat b) -> G e (pnum_pow mul one b e).
Proof.
  intros Hm Ho Hb.
  assert (D : forall k, (k = 2 * Nat.div2 k + (if Nat.odd k then 1 else 0))%nat).
  { intros k. pose proof (Nat.div2_odd k). destruct (Nat.odd k); cbn [Nat.b2n] in *; lia. }
  assert (L1 : forall k w b e0, (1 <= w)%nat -> (1 <= e0 <= k)%nat -> (w * e0 = e)%nat -> G w b ->
    let (b', e') := ppow_loop1 mul k b e0 in exists w', (1 <= w')%nat /\ Nat.odd e' = true /\ (w' * e' = e)%nat /\ G w' b').
  { induction k as [|k IH]; intros w b0 e0 Hw He E H; [lia|]. cbn [ppow_loop1]. destruct (Nat.even e0) eqn:Ev.
    - specialize (D e0). unfold Nat.odd in D. rewrite Ev in D. cbn [negb] in D. pose proof (div2_lt e0 ltac:(lia)).
      apply IH with (w + w)%nat; [lia|lia|nia|]. apply Hm; auto. nia.
    - exists w. unfold Nat.odd. rewrite Ev. auto. }
  assert (L2 : forall k w a b acc e0, (1 <= w)%nat -> (1 <= a)%nat -> (e0 <= k)%nat -> (a + (w + w) * Nat.div2 e0 = e)%nat -> G w b -> G a acc ->
    G e (ppow_loop2 mul k b acc e0)).
  { induction k as [|k IH]; intros w a b0 acc e0 Hw Ha He E H1 H2; [destruct e0; [cbn [Nat.div2] in E; rewrite Nat.mul_0_r, Nat.add_0_r in E; subst a; exact H2|lia]|].
    cbn [ppow_loop2]. destruct (Nat.ltb_spec 1 e0) as [L|L].
    - set (e1 := Nat.div2 e0) in *. assert (1 <= e1)%nat by (unfold e1; destruct e0 as [|[|e0]]; cbn; lia). pose proof (div2_lt e0 ltac:(lia)). fold e1 in H0.
      specialize (D e1). assert (G (w + w)%nat (mul b0 b0)) by (apply Hm; auto; nia).
      destruct (Nat.odd e1).
      + apply IH with (w + w)%nat (a + (w + w))%nat; auto; [lia|lia|lia|nia|]. apply Hm; auto; [lia|nia].
      + apply IH with (w + w)%nat a; auto; [lia|lia|nia].
    - replace (Nat.div2 e0) with 0%nat in E by (destruct e0 as [|[|e0]]; [reflexivity|reflexivity|lia]). rewrite Nat.mul_0_r, Nat.add_0_r in E. subst a. exact H2. }
  unfold pnum_pow. destruct (Nat.eqb_spec e 0) as [->|N]; [now apply Ho|].
  specialize (L1 e 1%nat b e ltac:(lia) ltac:(lia) ltac:(lia) (Hb ltac:(lia))). destruct (ppow_loop1 mul e b e) as [b' e']. destruct L1 as (w & Hw & Od & E & H).
  destruct (Nat.eqb_spec e' 1) as [->|N1]; [replace e with w by lia; exact H|].
  apply L2 with w w; auto. specialize (D e'). rewrite Od in D. nia.
Qed.

(** ** Powers of matrices of reals *)
Section Real.
Variable n : nat.
Variable A : nat -> nat -> R.
Lemma rpow_1 i j : (i < n)%nat -> (j < n)%nat -> rpow n A 1 i j = A i j.
Proof. intros Hi Hj. cbn [rpow]. rewrite <- (rsum_one n j (fun l => A i l)) by exact Hj. apply rsum_ext. intros l Hl. destruct (l =? j)%nat; ring. Qed.
Lemma rpow_add a b i j : (i < n)%nat -> rpow n A (a + b) i j = rsum n (fun l => rpow n A a i l * rpow n A b l j).
Proof.
  revert i. induction a as [|a IH]; intros i Hi; cbn [Nat.add rpow].
  - rewrite <- (rsum_one n i (fun l => rpow n A b l j)) by exact Hi. apply rsum_ext. intros l Hl. rewrite (Nat.eqb_sym i l). destruct (l =? i)%nat; ring.
  - rewrite <- (rsum_assoc n n (fun l => A i l) (fun l q => rpow n A a l q) (fun q => rpow n A b q j)).
    apply rsum_ext. intros l Hl. now rewrite IH.
Qed.
Lemma rpow_nonneg k i j : (forall i j, (i < n)%nat -> (j < n)%nat -> 0 <= A i j) -> (i < n)%nat -> 0 <= rpow n A k i j.
Proof.
  intros H. revert i. induction k as [|k IH]; intros i Hi; cbn [rpow]; [destruct (i =? j)%nat; lra|].
  apply rsum_pos. intros l Hl. apply Rmult_le_pos; [now apply H|now apply IH].
Qed.
Lemma rpow_abs k i j : (i < n)%nat -> Rabs (rpow n A k i j) <= rpow n (rabs A) k i j.
Proof.
  revert i. induction k as [|k IH]; intros i Hi; cbn [rpow]; [destruct (i =? j)%nat; rewrite ?Rabs_R1, ?Rabs_R0; lra|].
  apply Rle_trans with (1 := rsum_abs _ _). apply rsum_le. intros l Hl. rewrite Rabs_mult. apply Rmult_le_compat_l; [apply Rabs_pos|now apply IH].
Qed.
Lemma abs_nonneg k i j : (i < n)%nat -> 0 <= rpow n (rabs A) k i j.
Proof. intros Hi. apply Rle_trans with (2 := rpow_abs k i j Hi). apply Rabs_pos. Qed.
Lemma rpow_rows B k i : 0 <= B -> row_sums_le n B A -> (i < n)%nat -> rsum n (fun j => rpow n (rabs A) k i j) <= B ^ k.
Proof.
  intros HB H. revert i. induction k as [|k IH]; intros i Hi; cbn [rpow].
  - right. cbn [pow]. apply eq_trans with (2 := rsum_one n i (fun _ => 1) Hi). apply rsum_ext. intros l Hl. now rewrite (Nat.eqb_sym i l).
  - rewrite rsum_swap. apply Rle_trans with (rsum n (fun l => rabs A i l * B ^ k)).
    + apply rsum_le. intros l Hl. rewrite rsum_scal. apply Rmult_le_compat_l; [apply Rabs_pos|now apply IH].
    + rewrite rsum_scal_r. cbn [pow]. apply Rmult_le_compat_r; [now apply pow_le|now apply H].
Qed.
Lemma rpow_le_rows B k i j : 0 <= B -> row_sums_le n B A -> (i < n)%nat -> (j < n)%nat -> rpow n (rabs A) k i j <= B ^ k.
Proof. intros HB H Hi Hj. apply Rle_trans with (2 := rpow_rows B k i HB H Hi). apply (rsum_term n (fun j => rpow n (rabs A) k i j)); [|exact Hj]. intros; now apply abs_nonneg. Qed.
Lemma rpow_entries B k i j : 0 <= B -> (forall i j, (i < n)%nat -> (j < n)%nat -> Rabs (A i j) <= B) -> (i < n)%nat -> (j < n)%nat ->
  rpow n (rabs A) (S k) i j <= INR n ^ k * B ^ S k.
Proof.
  intros HB H. revert i. induction k as [|k IH]; intros i Hi Hj.
  - cbn [pow]. rewrite Rmult_1_l, Rmult_1_r. cbn [rpow]. apply Rle_trans with (rabs A i j); [|now apply H]. right.
    rewrite <- (rsum_one n j (fun l => rabs A i l)) by exact Hj. apply rsum_ext. intros l Hl. destruct (l =? j)%nat; ring.
  - change (rpow n (rabs A) (S (S k)) i j) with (rsum n (fun l => rabs A i l * rpow n (rabs A) (S k) l j)).
    apply Rle_trans with (rsum n (fun _ => B * (INR n ^ k * B ^ S k))).
    + apply rsum_le. intros l Hl. apply Rmult_le_compat; [apply Rabs_pos|now apply abs_nonneg|now apply H|now apply IH].
    + rewrite rsum_const. right. cbn [pow]. ring.
Qed.
End Real.

Section Format.
Context {prec emax : Z} {Hgt : Prec_gt_0 prec} {Hlt : Prec_lt_emax prec emax} {OK : fmt_ok prec emax}.
Local Notation FL := (fl prec emax).
Local Notation AR := (fl_arith prec emax Hgt Hlt).
Local Notation u := (ur prec).
Local Notation P := (Pr prec).
Local Notation au := (apu prec).
Local Notation fexp := (SpecFloat.fexp prec emax).
Local Notation rnd := (round radix2 fexp (round_mode mode_NE)).
Local Notation emin := (3 - emax - prec)%Z.
Local Notation eta := (hs prec emax).
Ltac flia := pose proof (@ok_prec _ _ OK); pose proof (@ok_emax _ _ OK); lia.
Section Pow.
Variable n : nat.
Variable m : list (list FL).
Local Notation A := (rat2 m).
Local Notation mul := (m_mul AR n n n).

(** ** Small integers *)
Lemma pow_whole e : rect n n m -> Forall (Forall whole) m ->
  (forall k i j, (k <= e)%nat -> (i < n)%nat -> (j < n)%nat -> rpow n (rabs A) k i j <= b2 prec) ->
  forall i j, (i < n)%nat -> (j < n)%nat -> val (at2 AR (pnum_pow mul (m_id AR n) m e) i j) (rpow n A e i j).
Proof.
  intros R H HB. apply (pow_ind_e mul (m_id AR n) m e (fun k x => forall i j, (i < n)%nat -> (j < n)%nat -> val (at2 AR x i j) (rpow n A k i j))).
  - intros a b x y Ha Hb Hab Hx Hy i j Hi Hj. unfold m_mul. rewrite (at2_mat AR n n _ i j Hi Hj), rpow_add by exact Hi.
    apply val_dot; [intros l Hl; split; [now apply Hx|now apply Hy]|].
    apply Rle_trans with (2 := HB (a + b)%nat i j Hab Hi Hj). rewrite rpow_add by exact Hi.
    apply rsum_le. intros l Hl. rewrite Rabs_mult. apply Rmult_le_compat; try apply Rabs_pos; now apply rpow_abs.
  - intros _ i j Hi Hj. unfold m_id. rewrite (at2_mat AR n n _ i j Hi Hj). cbn [rpow]. destruct (i =? j)%nat.
    + split; [apply is_finite_Bone|]. split; [apply Bone_correct|]. exists 1%Z. reflexivity.
    + split; [reflexivity|]. split; [reflexivity|]. exists 0%Z. reflexivity.
  - intros _ i j Hi Hj. rewrite rpow_1 by assumption. now apply (w2 n n).
Qed.

(** ** Rounding errors *)
Lemma au_mul2 a b s t v x s' t' v' y : au a s t v (B2R x) -> au b s' t' v' (B2R y) -> fin (a_mul AR x y) ->
  au (a + b + 1) (s * s') (s * t' + t * s' + t * t' + eta) (v * v') (B2R (a_mul AR x y)).
Proof.
  intros H1 H2 F. destruct (post_mul _ _ F) as (e & h & He & Hh & ->). rewrite Nat.add_1_r. apply au_rnd; [|exact He|exact Hh].
  pose proof (au_abs _ _ _ _ _ H1) as Ax. destruct (au_pos _ _ _ _ _ H1) as [Hs Ht]. destruct (au_pos _ _ _ _ _ H2) as [Hs' Ht'].
  destruct H1 as (E1 & V1 & _), H2 as (E2 & V2 & _). unfold apu. rewrite P_plus. pose proof (@P_ge1 prec a) as Pa. pose proof (@P_ge1 prec b) as Pb.
  assert (0 <= s * t') by (now apply Rmult_le_pos). assert (0 <= t * s') by (now apply Rmult_le_pos). assert (0 <= t * t') by (now apply Rmult_le_pos).
  split; [|split; [rewrite Rabs_mult; apply Rmult_le_compat; auto using Rabs_pos|lra]].
  replace (B2R x * B2R y - v * v') with (B2R x * (B2R y - v') + (B2R x - v) * v') by ring.
  pose proof (Rabs_triang (B2R x * (B2R y - v')) ((B2R x - v) * v')) as T. rewrite !Rabs_mult in T.
  assert (Rabs (B2R x) * Rabs (B2R y - v') <= (P a * (s + t)) * ((P b - 1) * s' + P b * t')) by (apply Rmult_le_compat; auto using Rabs_pos).
  assert (Rabs (B2R x - v) * Rabs v' <= ((P a - 1) * s + P a * t) * s') by (apply Rmult_le_compat; auto using Rabs_pos).
  nra.
Qed.
Variable B : R.
Hypothesis HB1 : 1 <= B.
Hypothesis HBr : row_sums_le n B A.
Definition tau : R := INR n * INR n * eta.
Definition tt (k : nat) : R := B ^ k * ((1 + tau) ^ (k - 1) - 1).
Definition err_t (a b : nat) (T T' : nat -> nat -> R) (i j : nat) : R :=
  rsum n (fun l => rpow n (rabs A) a i l * T' l j + T i l * rpow n (rabs A) b l j + T i l * T' l j + eta).
Definition approx (k : nat) (x : list (list FL)) (T : nat -> nat -> R) : Prop :=
  (forall i, (i < n)%nat -> rsum n (T i) <= tt k) /\
  forall i j, (i < n)%nat -> (j < n)%nat -> fin (at2 AR x i j) /\
    au ((k - 1) * (n + 1)) (rpow n (rabs A) k i j) (T i j) (rpow n A k i j) (B2R (at2 AR x i j)).
Lemma tau_pos : 0 <= tau.
Proof. unfold tau. pose proof (pos_INR n). pose proof (@eta_pos prec emax). apply Rmult_le_pos; [now apply Rmult_le_pos|lra]. Qed.
Lemma tt_pos k : 0 <= tt k.
Proof.
  unfold tt. pose proof tau_pos. apply Rmult_le_pos; [apply pow_le; lra|]. pose proof (pow_R1_Rle (1 + tau) (k - 1) ltac:(lra)). lra.
Qed.
Lemma tt_step a b : (1 <= a)%nat -> (1 <= b)%nat -> B ^ a * tt b + tt a * B ^ b + tt a * tt b + tau <= tt (a + b).
Proof.
  intros Ha Hb. unfold tt. rewrite pow_add. set (x := (1 + tau) ^ (a - 1)). set (y := (1 + tau) ^ (b - 1)).
  replace ((1 + tau) ^ (a + b - 1)) with (x * y * (1 + tau)) by (unfold x, y; replace (a + b - 1)%nat with ((a - 1) + (b - 1) + 1)%nat by lia; rewrite !pow_add, pow_1; reflexivity).
  pose proof tau_pos as Ht. assert (1 <= x) by (apply pow_R1_Rle; lra). assert (1 <= y) by (apply pow_R1_Rle; lra).
  pose proof (pow_R1_Rle B a HB1). pose proof (pow_R1_Rle B b HB1). set (p := B ^ a) in *. set (q := B ^ b) in *.
  assert (1 <= p * q) by nra. assert (1 <= x * y) by nra. assert (1 <= p * q * (x * y)) by nra. nra.
Qed.
Lemma approx_T k x T i j : approx k x T -> (i < n)%nat -> (j < n)%nat -> 0 <= T i j.
Proof. intros [_ H] Hi Hj. destruct (H i j Hi Hj) as [_ K]. now destruct (au_pos _ _ _ _ _ K). Qed.
Lemma err_rows a b x y T T' i : (1 <= a)%nat -> (1 <= b)%nat -> approx a x T -> approx b y T' -> (i < n)%nat -> rsum n (err_t a b T T' i) <= tt (a + b).
Proof.
  intros Ha Hb Hx Hy Hi. apply Rle_trans with (2 := tt_step a b Ha Hb). unfold err_t. rewrite rsum_swap.
  pose proof (tt_pos a). pose proof (tt_pos b). assert (HB0 : 0 <= B) by lra.
  apply Rle_trans with (rsum n (fun l => rpow n (rabs A) a i l * tt b + T i l * B ^ b + T i l * tt b + INR n * eta)).
  - apply rsum_le. intros l Hl. rewrite !rsum_plus, !rsum_scal, rsum_const. pose proof (approx_T a x T i l Hx Hi Hl). destruct Hx as [Rx _], Hy as [Ry _].
    pose proof (abs_nonneg n A a i l Hi). specialize (Ry l Hl). pose proof (rpow_rows n A B b l HB0 HBr Hl) as Rb.
    apply Rplus_le_compat_r. apply Rplus_le_compat; [apply Rplus_le_compat|]; apply Rmult_le_compat_l; auto.
  - rewrite !rsum_plus, !rsum_scal_r, rsum_const. pose proof (rpow_rows n A B a i HB0 HBr Hi). destruct Hx as [Rx _]. specialize (Rx i Hi).
    assert (0 <= B ^ b) by (apply pow_le; lra). unfold tau.
    assert (rsum n (rpow n (rabs A) a i) * tt b <= B ^ a * tt b) by (now apply Rmult_le_compat_r).
    assert (rsum n (T i) * B ^ b <= tt a * B ^ b) by (now apply Rmult_le_compat_r).
    assert (rsum n (T i) * tt b <= tt a * tt b) by (now apply Rmult_le_compat_r).
    lra.
Qed.
(** One product, if its entries are finite. *)
Lemma approx_mul a b x y T T' : (1 <= a)%nat -> (1 <= b)%nat -> approx a x T -> approx b y T' ->
  (forall i j, (i < n)%nat -> (j < n)%nat -> fin (at2 AR (mul x y) i j)) -> approx (a + b) (mul x y) (err_t a b T T').
Proof.
  intros Ha Hb Hx Hy F. split; [intros i Hi; exact (err_rows a b x y T T' i Ha Hb Hx Hy Hi)|].
  intros i j Hi Hj. split; [now apply F|]. specialize (F i j Hi Hj). unfold m_mul in *. rewrite (at2_mat AR n n _ i j Hi Hj) in *.
  destruct Hx as [_ Hx], Hy as [_ Hy].
  destruct (fsum_post n (fun l => a_mul AR (at2 AR x i l) (at2 AR y l j)) (fun l => rpow n A a i l * rpow n A b l j)
    (fun l => rpow n (rabs A) a i l * rpow n (rabs A) b l j) (fun l => rpow n (rabs A) a i l * T' l j + T i l * rpow n (rabs A) b l j + T i l * T' l j + eta)
    ((a - 1) * (n + 1) + (b - 1) * (n + 1) + 1) F) as [_ H].
  - intros l Hl Fl. apply au_mul2; [now apply Hx|now apply Hy|exact Fl].
  - rewrite !rpow_add by exact Hi. replace ((a + b - 1) * (n + 1))%nat with ((a - 1) * (n + 1) + (b - 1) * (n + 1) + 1 + n)%nat by nia. exact H.
Qed.
Lemma approx_1 : (forall i j, (i < n)%nat -> (j < n)%nat -> fin (at2 AR m i j)) -> approx 1 m (fun _ _ => 0).
Proof.
  intros F. split.
  - intros i Hi. rewrite rsum_const. unfold tt. cbn [Nat.sub pow]. lra.
  - intros i j Hi Hj. split; [now apply F|]. cbn [Nat.sub Nat.mul]. rewrite !rpow_1 by assumption. exact (au_exact (rat2 m i j)).
Qed.
(** What the error amounts to. *)
Lemma tau_small : (Z.of_nat n <= 2 ^ (prec - 3))%Z -> tau <= u.
Proof.
  intros Hn. pose proof (INR_pow n Hn) as H. pose proof (pos_INR n). unfold tau.
  apply Rle_trans with (b2 (prec - 3) * b2 (prec - 3) * eta); [apply Rmult_le_compat_r; [left; apply (@eta_pos prec emax)|now apply Rmult_le_compat]|].
  unfold hs, ur. change (/ 2) with (b2 (-1)). rewrite <- !bpow_plus. apply bpow_le. flia.
Qed.
Lemma tt_bound k : (1 <= k)%nat -> (Z.of_nat n <= 2 ^ (prec - 3))%Z -> (Z.of_nat k <= 2 ^ (prec - 3))%Z ->
  tt k <= 2 * INR k * tau * B ^ k /\ tt k <= B ^ k.
Proof.
  intros Hk Hn Hk2. pose proof (tau_small Hn) as T1. pose proof tau_pos as T0. unfold tt.
  assert (Bk : 0 <= B ^ k) by (apply pow_le; lra).
  assert (G : forall q, (q <= k)%nat -> (1 + tau) ^ q - 1 <= 2 * INR q * tau).
  { pose proof (small_nu k Hk2) as Hu. induction q as [|q IH]; intros Hq; [cbn; lra|]. specialize (IH ltac:(lia)). cbn [pow]. rewrite S_INR.
    assert (INR q <= INR k) by (apply le_INR; lia). pose proof (pos_INR q). assert (INR q * tau <= / 8) by (apply Rle_trans with (INR k * u); [apply Rmult_le_compat; lra|exact Hu]). nra. }
  specialize (G (k - 1)%nat ltac:(lia)). assert (I : INR (k - 1) <= INR k) by (apply le_INR; lia). pose proof (pos_INR (k - 1)).
  pose proof (small_nu k Hk2) as Hu.
  assert (2 * INR (k - 1) * tau <= 2 * INR k * tau) by nra. assert (INR k * tau <= INR k * u) by (apply Rmult_le_compat_l; [apply pos_INR|exact T1]).
  split.
  - rewrite (Rmult_comm (2 * INR k * tau)). apply Rmult_le_compat_l; lra.
  - rewrite <- (Rmult_1_r (B ^ k)) at 2. apply Rmult_le_compat_l; lra.
Qed.
Lemma approx_final k x T i j : (1 <= k)%nat -> (Z.of_nat (k * (n + 1)) <= 2 ^ (prec - 3))%Z -> approx k x T -> (i < n)%nat -> (j < n)%nat ->
  Rabs (rat2 x i j - rpow n A k i j) <= INR ((k - 1) * (n + 1)) * b2 (1 - prec) * rpow n (rabs A) k i j + 2 * INR k * INR n * INR n * b2 emin * B ^ k.
Proof.
  intros Hk Hn [HR HA] Hi Hj. assert (T0 : forall l, (l < n)%nat -> 0 <= T i l) by (intros l Hl; apply (approx_T k x T i l (Logic.conj HR HA) Hi Hl)).
  destruct (HA i j Hi Hj) as [_ H]. replace ((k - 1) * (n + 1))%nat with ((k - 1) * (n + 1) + 0)%nat in H by lia.
  apply au_err in H; [|nia|lia]. rewrite Nat.add_0_r in H. apply Rle_trans with (1 := H). apply Rplus_le_compat_l.
  destruct (tt_bound k Hk ltac:(nia) ltac:(nia)) as [K _]. specialize (HR i Hi). pose proof (rsum_term n (T i) j T0 Hj).
  apply Rle_trans with (2 * (2 * INR k * tau * B ^ k)); [lra|]. right. unfold tau, hs. field.
Qed.
(** If no entry of the power is infinite or NaN. *)
Lemma pow_post e : (1 <= e)%nat -> (forall x : list (list FL), {forall i j, (i < n)%nat -> (j < n)%nat -> fin (at2 AR x i j)} + {exists i j, (i < n)%nat /\ (j < n)%nat /\ ~ fin (at2 AR x i j)}) ->
  (forall i j, (i < n)%nat -> (j < n)%nat -> fin (at2 AR (pnum_pow mul (m_id AR n) m e) i j)) -> exists T, approx e (pnum_pow mul (m_id AR n) m e) T.
Proof.
  intros He D F.
  assert (G : (exists i j, (i < n)%nat /\ (j < n)%nat /\ ~ fin (at2 AR (pnum_pow mul (m_id AR n) m e) i j)) \/ exists T, approx e (pnum_pow mul (m_id AR n) m e) T).
  { apply (pow_ind_e mul (m_id AR n) m e (fun k x => (exists i j, (i < n)%nat /\ (j < n)%nat /\ ~ fin (at2 AR x i j)) \/ exists T, approx k x T)).
    - intros a b x y Ha Hb _ Gx Gy. destruct (D (mul x y)) as [F'|N]; [|now left].
      assert (S1 : forall i j l, (i < n)%nat -> (j < n)%nat -> (l < n)%nat -> fin (at2 AR x i l) /\ fin (at2 AR y l j)).
      { intros i j l Hi Hj Hl. specialize (F' i j Hi Hj). unfold m_mul in F'. rewrite (at2_mat AR n n _ i j Hi Hj) in F'.
        destruct (dot_post n (fun l => at2 AR x i l) (fun l => at2 AR y l j) F') as [K _]. now apply K. }
      destruct Gx as [(i & l & Hi & Hl & N)|[T Hx]]; [elim N; now apply (S1 i i l)|].
      destruct Gy as [(l & j & Hl & Hj & N)|[T' Hy]]; [elim N; now apply (S1 j j l)|].
      right. exists (err_t a b T T'). apply approx_mul; auto.
    - lia.
    - intros _. destruct (D m) as [F'|N]; [right|now left]. eexists. now apply approx_1. }
  destruct G as [(i & j & Hi & Hj & N)|G]; [elim N; now apply F|exact G].
Qed.
(** No overflow. *)
Lemma fin_add x y : fin x -> fin y -> Rabs (B2R x + B2R y) <= b2 (emax - 1) -> fin (a_add AR x y).
Proof.
  intros Fx Fy H. pose proof (Bplus_correct prec emax _ _ mode_NE x y Fx Fy) as C.
  rewrite Rlt_bool_true in C; [apply C|]. apply Rle_lt_trans with (b2 (emax - 1)); [apply rnd_le; [flia|exact H]|apply bpow_lt; lia].
Qed.
Lemma fin_mul x y : fin x -> fin y -> Rabs (B2R x * B2R y) <= b2 (emax - 1) -> fin (a_mul AR x y).
Proof.
  intros Fx Fy H. pose proof (Bmult_correct prec emax _ _ mode_NE x y) as C.
  rewrite Rlt_bool_true in C; [destruct C as (_ & C & _); unfold fin in *; cbn [a_mul fl_arith]; now rewrite C, Fx, Fy|].
  apply Rle_lt_trans with (b2 (emax - 1)); [apply rnd_le; [flia|exact H]|apply bpow_lt; lia].
Qed.
Lemma fin_sum q (f : nat -> FL) (v s t : nat -> R) k : (forall i, (i < q)%nat -> fin (f i) /\ au k (s i) (t i) (v i) (B2R (f i))) ->
  P (k + q) * (rsum q s + rsum q t) <= b2 (emax - 1) -> fin (sum AR q f).
Proof.
  induction q as [|q IH]; intros H HB'; [reflexivity|]. rewrite fsum_S. rewrite !rsum_S in HB'.
  destruct (H q ltac:(lia)) as [Fq Hq]. destruct (au_pos _ _ _ _ _ Hq) as [Hs Ht]. pose proof (au_abs _ _ _ _ _ Hq) as Aq.
  assert (S0 : 0 <= rsum q s) by (apply rsum_pos; intros i Hi; destruct (H i ltac:(lia)) as [_ K]; now destruct (au_pos _ _ _ _ _ K)).
  assert (T0 : 0 <= rsum q t) by (apply rsum_pos; intros i Hi; destruct (H i ltac:(lia)) as [_ K]; now destruct (au_pos _ _ _ _ _ K)).
  pose proof (@P_mono prec (k + q) (k + S q) ltac:(lia)) as M1. pose proof (@P_mono prec k (k + S q) ltac:(lia)) as M2.
  pose proof (@P_ge1 prec (k + q)). pose proof (@P_ge1 prec k).
  assert (X1 : P (k + q) * (rsum q s + rsum q t) <= P (k + S q) * (rsum q s + rsum q t)) by (apply Rmult_le_compat_r; lra).
  assert (X2 : P k * (s q + t q) <= P (k + S q) * (s q + t q)) by (apply Rmult_le_compat_r; lra).
  assert (0 <= P (k + S q) * (s q + t q)) by (apply Rmult_le_pos; lra).
  assert (F : fin (sum AR q f)) by (apply IH; [intros i Hi; apply H; lia|lra]).
  destruct (fsum_post q f v s t k F) as [_ K]; [intros i Hi _; apply H; lia|]. pose proof (au_abs _ _ _ _ _ K) as Ak.
  apply fin_add; [exact F|exact Fq|]. pose proof (Rabs_triang (B2R (sum AR q f)) (B2R (f q))). lra.
Qed.
Lemma approx_fin a b x y T T' : (1 <= a)%nat -> (1 <= b)%nat -> (Z.of_nat ((a + b) * (n + 1)) <= 2 ^ (prec - 3))%Z -> 8 * B ^ (a + b) <= b2 emax ->
  approx a x T -> approx b y T' -> forall i j, (i < n)%nat -> (j < n)%nat -> fin (at2 AR (mul x y) i j).
Proof.
  intros Ha Hb Hn HO Hx Hy i j Hi Hj. unfold m_mul. rewrite (at2_mat AR n n _ i j Hi Hj).
  assert (HO' : 4 * B ^ (a + b) <= b2 (emax - 1)).
  { unfold Zminus. rewrite bpow_plus. change (b2 (- (1))) with (/ 2). lra. }
  pose proof (err_rows a b x y T T' i Ha Hb Hx Hy Hi) as HR. assert (HB0 : 0 <= B) by lra.
  pose proof (fun l (Hl : (l < n)%nat) => approx_T a x T i l Hx Hi Hl) as T0. pose proof (fun l (Hl : (l < n)%nat) => approx_T b y T' l j Hy Hl Hj) as T0'.
  assert (Te : forall j', (j' < n)%nat -> 0 <= err_t a b T T' i j').
  { intros j' Hj'. unfold err_t. apply rsum_pos. intros l Hl. pose proof (T0 l Hl). pose proof (approx_T b y T' l j' Hy Hl Hj'). pose proof (abs_nonneg n A a i l Hi). pose proof (abs_nonneg n A b l j' Hl).
    pose proof (@eta_pos prec emax). assert (0 <= rpow n (rabs A) a i l * T' l j') by (now apply Rmult_le_pos). assert (0 <= T i l * rpow n (rabs A) b l j') by (now apply Rmult_le_pos). assert (0 <= T i l * T' l j') by (now apply Rmult_le_pos). lra. }
  pose proof (rsum_term n (err_t a b T T' i) j Te Hj) as E1. destruct (tt_bound (a + b) ltac:(lia) ltac:(nia) ltac:(nia)) as [_ E2].
  pose proof (rpow_le_rows n A B (a + b) i j HB0 HBr Hi Hj) as E3. rewrite rpow_add in E3 by exact Hi.
  destruct Hx as [_ Hx], Hy as [_ Hy].
  set (s := fun l => rpow n (rabs A) a i l * rpow n (rabs A) b l j) in *.
  set (t := fun l => rpow n (rabs A) a i l * T' l j + T i l * rpow n (rabs A) b l j + T i l * T' l j + eta).
  set (K := ((a - 1) * (n + 1) + (b - 1) * (n + 1) + 1)%nat).
  assert (PK : P (K + n) <= 2). { replace (K + n)%nat with ((a + b - 1) * (n + 1) + 0)%nat by (unfold K; nia). apply (@P_le prec emax OK); [nia|lia]. }
  assert (ST : P (K + n) * (rsum n s + rsum n t) <= b2 (emax - 1)).
  { change (rsum n t) with (err_t a b T T' i j). assert (0 <= rsum n s) by (apply rsum_pos; intros l Hl; apply Rmult_le_pos; now apply abs_nonneg). pose proof (Te j Hj).
    apply Rle_trans with (2 * (rsum n s + err_t a b T T' i j)); [apply Rmult_le_compat_r; lra|]. lra. }
  apply (fin_sum n _ (fun l => rpow n A a i l * rpow n A b l j) s t K); [|exact ST].
  intros l Hl. assert (Fl : fin (a_mul AR (at2 AR x i l) (at2 AR y l j))).
  { destruct (Hx i l Hi Hl) as [F1 A1]. destruct (Hy l j Hl Hj) as [F2 A2]. apply fin_mul; [exact F1|exact F2|]. rewrite Rabs_mult.
    pose proof (au_abs _ _ _ _ _ A1) as B1. pose proof (au_abs _ _ _ _ _ A2) as B2'.
    apply Rle_trans with (2 := ST). apply Rle_trans with (P ((a - 1) * (n + 1)) * (rpow n (rabs A) a i l + T i l) * (P ((b - 1) * (n + 1)) * (rpow n (rabs A) b l j + T' l j))).
    - apply Rmult_le_compat; auto using Rabs_pos.
    - pose proof (T0 l Hl). pose proof (T0' l Hl). pose proof (abs_nonneg n A a i l Hi). pose proof (abs_nonneg n A b l j Hl).
      assert (Z : forall l', (l' < n)%nat -> 0 <= s l' + t l').
      { intros l' Hl'. unfold s, t. pose proof (T0 l' Hl'). pose proof (T0' l' Hl'). pose proof (abs_nonneg n A a i l' Hi). pose proof (abs_nonneg n A b l' j Hl').
        pose proof (@eta_pos prec emax). assert (0 <= rpow n (rabs A) a i l' * T' l' j) by (now apply Rmult_le_pos). assert (0 <= T i l' * rpow n (rabs A) b l' j) by (now apply Rmult_le_pos). assert (0 <= T i l' * T' l' j) by (now apply Rmult_le_pos).
        assert (0 <= rpow n (rabs A) a i l' * rpow n (rabs A) b l' j) by (now apply Rmult_le_pos). lra. }
      rewrite <- rsum_plus. pose proof (rsum_term n (fun l => s l + t l) l Z Hl) as Z1. cbv beta in Z1.
      apply Rle_trans with (P (K + n) * (s l + t l)); [|apply Rmult_le_compat_l; [pose proof (@P_ge1 prec (K + n)); lra|exact Z1]].
      rewrite Rmult_assoc, (Rmult_comm (rpow n (rabs A) a i l + T i l)), Rmult_assoc, <- Rmult_assoc, <- P_plus.
      apply Rmult_le_compat; [pose proof (@P_ge1 prec ((a - 1) * (n + 1) + (b - 1) * (n + 1))); lra|apply Rmult_le_pos; lra|apply P_mono; unfold K; lia|].
      unfold s, t. pose proof (@eta_pos prec emax). lra. }
  split; [exact Fl|]. destruct (Hx i l Hi Hl) as [F1 A1]. destruct (Hy l j Hl Hj) as [F2 A2]. now apply au_mul2.
Qed.
Lemma pow_fin e : (1 <= e)%nat -> (Z.of_nat (e * (n + 1)) <= 2 ^ (prec - 3))%Z -> 8 * B ^ e <= b2 emax ->
  (forall i j, (i < n)%nat -> (j < n)%nat -> fin (at2 AR m i j)) -> exists T, approx e (pnum_pow mul (m_id AR n) m e) T.
Proof.
  intros He Hn HO F. apply (pow_ind_e mul (m_id AR n) m e (fun k x => exists T, approx k x T)).
  - intros a b x y Ha Hb Hab [T Hx] [T' Hy]. exists (err_t a b T T'). apply approx_mul; auto. apply (approx_fin a b x y T T' Ha Hb); auto; [nia|].
    apply Rle_trans with (2 := HO). apply Rmult_le_compat_l; [lra|]. apply Rle_pow; [exact HB1|lia].
  - lia.
  - intros _. eexists. now apply approx_1.
Qed.
End Pow.
End Format.
