(** * FloatPost.v - rounding errors of finite results, without assumptions on the operands (proofs
    only). *)
From Coq Require Import ZArith Reals Lra Lia List Arith.
From Flocq Require Import Core BinarySingleNaN Relative Plus_error.
From Verif Require Import Rust Elem SpecCommon SpecAlg FloatM SpecReal FloatErr.
Import ListNotations.
Local Open Scope R_scope.

(** Half the smallest positive number of the format: what underflow can cost. *)
Definition hs (prec emax : Z) : R := / 2 * b2 (3 - emax - prec).
(** As [apr], with an absolute error [t] besides. *)
Definition apu (prec : Z) (k : nat) (s t v r : R) : Prop :=
  Rabs (r - v) <= (Pr prec k - 1) * s + Pr prec k * t /\ Rabs v <= s /\ 0 <= t.

Section Format.
Context {prec emax : Z} {Hg : Prec_gt_0 prec} {Hm : Prec_lt_emax prec emax} {OK : fmt_ok prec emax}.
Local Notation F := (fl prec emax).
Local Notation A := (fl_arith prec emax Hg Hm).
Local Notation u := (ur prec).
Local Notation P := (Pr prec).
Local Notation au := (apu prec).
Local Notation fexp := (SpecFloat.fexp prec emax).
Local Notation rnd := (round radix2 fexp (round_mode mode_NE)).
Local Notation emin := (3 - emax - prec)%Z.
Local Notation eta := (hs prec emax).
Ltac flia := pose proof (@ok_prec _ _ OK); pose proof (@ok_emax _ _ OK); lia.
Lemma eta_pos : 0 < eta.
Proof. unfold hs. pose proof (bpow_gt_0 radix2 emin). lra. Qed.
Lemma nf_add x y : fin (a_add A x y) -> fin x /\ fin y.
Proof. unfold fin. cbn [a_add fl_arith]. destruct x as [| [] | |], y as [| [] | |]; cbn; auto; discriminate. Qed.
Lemma nf_sub x y : fin (a_sub A x y) -> fin x /\ fin y.
Proof. unfold fin. cbn [a_sub fl_arith]. destruct x as [| [] | |], y as [| [] | |]; cbn; auto; discriminate. Qed.
Lemma nf_mul x y : fin (a_mul A x y) -> fin x /\ fin y.
Proof. unfold fin. cbn [a_mul fl_arith]. destruct x, y; cbn; auto; discriminate. Qed.
Lemma overflow_nf (z : F) s : B2SF z = binary_overflow prec emax mode_NE s -> ~ fin z.
Proof. intros E H. unfold fin in H. rewrite <- is_finite_SF_B2SF, E in H. discriminate. Qed.
Lemma post_add x y : fin (a_add A x y) -> exists e, Rabs e <= u /\ B2R (a_add A x y) = (B2R x + B2R y) * (1 + e).
Proof.
  intros H. destruct (nf_add _ _ H) as [Fx Fy]. pose proof (Bplus_correct prec emax _ _ mode_NE x y Fx Fy) as C.
  destruct (Rlt_bool _ _); [|destruct C as [C _]; now elim (overflow_nf _ _ C)].
  destruct C as [C _]. cbn [a_add fl_arith] in *. rewrite C. apply plus_err; apply generic_format_B2R.
Qed.
Lemma post_sub x y : fin (a_sub A x y) -> exists e, Rabs e <= u /\ B2R (a_sub A x y) = (B2R x - B2R y) * (1 + e).
Proof.
  intros H. destruct (nf_sub _ _ H) as [Fx Fy]. pose proof (Bminus_correct prec emax _ _ mode_NE x y Fx Fy) as C.
  destruct (Rlt_bool _ _); [|destruct C as [C _]; now elim (overflow_nf _ _ C)].
  destruct C as [C _]. cbn [a_sub fl_arith] in *. rewrite C. unfold Rminus. apply plus_err; [|apply generic_format_opp]; apply generic_format_B2R.
Qed.
Lemma post_mul x y : fin (a_mul A x y) -> exists e h, Rabs e <= u /\ Rabs h <= eta /\ B2R (a_mul A x y) = B2R x * B2R y * (1 + e) + h.
Proof.
  intros H. destruct (nf_mul _ _ H) as [Fx Fy]. pose proof (Bmult_correct prec emax _ _ mode_NE x y) as C.
  destruct (Rlt_bool _ _); [|now elim (overflow_nf _ _ C)].
  destruct C as [C _]. cbn [a_mul fl_arith] in *. rewrite C.
  destruct (error_N_FLT radix2 emin prec Hg (fun x => negb (Z.even x)) (B2R x * B2R y)) as (e & h & He & Hh & _ & E).
  exists e, h. repeat split; [|exact Hh|exact E]. apply Rle_trans with (1 := He). right. unfold ur. rewrite bpow_plus. change (b2 1) with 2. lra.
Qed.

Lemma au_exact v : au 0 (Rabs v) 0 v v.
Proof. repeat split; try lra. unfold Pr. cbn. rewrite Rminus_diag_eq by reflexivity. rewrite Rabs_R0. lra. Qed.
Lemma au_abs k s t v r : au k s t v r -> Rabs r <= P k * (s + t).
Proof. intros (H1 & H2 & H3). replace r with ((r - v) + v) by ring. pose proof (Rabs_triang (r - v) v). pose proof (@P_ge1 prec k). lra. Qed.
Lemma au_pos k s t v r : au k s t v r -> 0 <= s /\ 0 <= t.
Proof. intros (_ & H & H'). pose proof (Rabs_pos v). lra. Qed.
Lemma au_rnd k s t v r e h g : au k s t v r -> Rabs e <= u -> Rabs h <= g -> au (S k) s (t + g) v (r * (1 + e) + h).
Proof.
  intros H He Hh. pose proof (au_abs _ _ _ _ _ H) as Ha. destruct (au_pos _ _ _ _ _ H) as [Hs Ht]. destruct H as (H1 & H2 & _).
  pose proof (Rabs_pos h). split; [|split; [exact H2|lra]].
  replace (r * (1 + e) + h - v) with ((r - v) + (r * e + h)) by ring. rewrite P_S.
  pose proof (Rabs_triang (r - v) (r * e + h)) as T1. pose proof (Rabs_triang (r * e) h) as T2. rewrite Rabs_mult in T2.
  assert (Rabs r * Rabs e <= P k * (s + t) * u) by (apply Rmult_le_compat; auto using Rabs_pos).
  pose proof (@P_ge1 prec k). pose proof (@u_pos prec). assert (1 <= P k * (1 + u)) by nra. assert (1 * g <= P k * (1 + u) * g) by (apply Rmult_le_compat_r; lra). lra.
Qed.
Lemma au_rnd0 k s t v r e : au k s t v r -> Rabs e <= u -> au (S k) s t v (r * (1 + e)).
Proof.
  intros H He. pose proof (au_rnd k s t v r e 0 0 H He) as K. rewrite Rabs_R0, !Rplus_0_r in K. apply K. lra.
Qed.
Lemma au_weaken k l s t v r : au k s t v r -> (k <= l)%nat -> au l s t v r.
Proof.
  intros H L. destruct (au_pos _ _ _ _ _ H) as [Hs Ht]. destruct H as (H1 & H2 & _). repeat split; auto. apply Rle_trans with (1 := H1).
  pose proof (@P_mono prec _ _ L). nra.
Qed.
Lemma au_add0 k s t v r s' t' v' r' : au k s t v r -> au k s' t' v' r' -> au k (s + s') (t + t') (v + v') (r + r').
Proof.
  intros (H1 & H2 & H3) (H1' & H2' & H3'). repeat split; [| |lra].
  - replace (r + r' - (v + v')) with ((r - v) + (r' - v')) by ring. pose proof (Rabs_triang (r - v) (r' - v')). lra.
  - pose proof (Rabs_triang v v'). lra.
Qed.
Lemma au_opp k s t v r : au k s t v r -> au k s t (- v) (- r).
Proof. intros (H1 & H2 & H3). repeat split; [|now rewrite Rabs_Ropp|exact H3]. replace (- r - - v) with (- (r - v)) by ring. now rewrite Rabs_Ropp. Qed.
Lemma au_scale k s t v r w : au k s t v r -> au k (s * Rabs w) (t * Rabs w) (v * w) (r * w).
Proof.
  intros (H1 & H2 & H3). pose proof (Rabs_pos w). repeat split; [| |nra].
  - replace (r * w - v * w) with ((r - v) * w) by ring. rewrite Rabs_mult. nra.
  - rewrite Rabs_mult. nra.
Qed.
(** A float operation on approximations. *)
Lemma au_add k s t v x s' t' v' y : au k s t v (B2R x) -> au k s' t' v' (B2R y) -> fin (a_add A x y) ->
  au (S k) (s + s') (t + t') (v + v') (B2R (a_add A x y)).
Proof. intros H1 H2 H. destruct (post_add _ _ H) as (e & He & ->). apply au_rnd0; [|exact He]. now apply au_add0. Qed.
Lemma au_sub k s t v x s' t' v' y : au k s t v (B2R x) -> au k s' t' v' (B2R y) -> fin (a_sub A x y) ->
  au (S k) (s + s') (t + t') (v - v') (B2R (a_sub A x y)).
Proof. intros H1 H2 H. destruct (post_sub _ _ H) as (e & He & ->). apply au_rnd0; [|exact He]. apply au_add0; [exact H1|now apply au_opp]. Qed.
Lemma au_mulx k s t v x y : au k s t v (B2R x) -> fin (a_mul A x y) ->
  au (S k) (s * Rabs (B2R y)) (t * Rabs (B2R y) + eta) (v * B2R y) (B2R (a_mul A x y)).
Proof. intros H1 H. destruct (post_mul _ _ H) as (e & h & He & Hh & ->). apply au_rnd; [|exact He|exact Hh]. now apply au_scale. Qed.
Lemma au_prod x y : fin (a_mul A x y) -> au 1 (Rabs (B2R x * B2R y)) eta (B2R x * B2R y) (B2R (a_mul A x y)).
Proof. intros H. pose proof (au_mulx 0 _ 0 _ x y (au_exact (B2R x)) H) as K. now rewrite Rmult_0_l, Rplus_0_l, <- Rabs_mult in K. Qed.

Lemma rsum_const n x : rsum n (fun _ => x) = INR n * x.
Proof. induction n as [|n IH]; [unfold rsum; cbn; ring|]. rewrite rsum_S, IH, S_INR. ring. Qed.
Lemma fsum_post n (f : nat -> F) (v s t : nat -> R) k : fin (sum A n f) ->
  (forall i, (i < n)%nat -> fin (f i) -> au k (s i) (t i) (v i) (B2R (f i))) ->
  (forall i, (i < n)%nat -> fin (f i)) /\ au (k + n) (rsum n s) (rsum n t) (rsum n v) (B2R (sum A n f)).
Proof.
  intros H0 H. induction n as [|n IH].
  - split; [lia|]. unfold rsum. cbn. repeat split; try lra; [|rewrite Rabs_R0; lra]. rewrite Rminus_diag_eq by reflexivity. rewrite Rabs_R0. lra.
  - rewrite fsum_S in *. destruct (nf_add _ _ H0) as [Fs Fx]. destruct IH as [IH1 IH2]; [exact Fs|intros; apply H; [lia|assumption]|]. split.
    + intros i Hi. destruct (Nat.eq_dec i n) as [->|]; [exact Fx|]. apply IH1. lia.
    + rewrite !rsum_S. replace (k + S n)%nat with (S (k + n)) by lia. apply au_add; [exact IH2| |exact H0].
      apply au_weaken with k; [apply H; [lia|exact Fx]|lia].
Qed.
(** The final form: (1+u)^(n+j) - 1 <= (n + j) epsilon, (1+u)^(n+j) <= 2. *)
Lemma au_err n j s t v r : (Z.of_nat n <= 2 ^ (prec - 3))%Z -> (j <= 8)%nat -> au (n + j) s t v r ->
  Rabs (r - v) <= INR (n + j) * b2 (1 - prec) * s + 2 * t.
Proof.
  intros Hn Hj H. destruct (au_pos _ _ _ _ _ H) as [Hs Ht]. destruct H as [H _]. destruct (@P_le prec emax OK n j Hn Hj) as [H1 H2]. nra.
Qed.
Lemma dot_post n (f g : nat -> F) : let z := sum A n (fun k => a_mul A (f k) (g k)) in fin z ->
  (forall k, (k < n)%nat -> fin (f k) /\ fin (g k)) /\
  au (n + 1) (rsum n (fun k => Rabs (B2R (f k) * B2R (g k)))) (INR n * eta) (rsum n (fun k => B2R (f k) * B2R (g k))) (B2R z).
Proof.
  intros z H. destruct (fsum_post n (fun k => a_mul A (f k) (g k)) (fun k => B2R (f k) * B2R (g k)) (fun k => Rabs (B2R (f k) * B2R (g k))) (fun _ => eta) 1 H) as [H1 H2].
  - intros i Hi Fi. now apply au_prod.
  - split; [intros k Hk; apply nf_mul; now apply H1|]. rewrite rsum_const in H2. replace (n + 1)%nat with (1 + n)%nat by lia. exact H2.
Qed.
(** Square roots. *)
Lemma sqrt_close S S' g t : 0 <= S -> 0 <= S' -> 0 <= g -> 0 <= t -> Rabs (S' - S) <= g * S + t -> Rabs (sqrt S' - sqrt S) <= g * sqrt S + sqrt t.
Proof.
  intros HS HS' Hg0 Ht H. pose proof (sqrt_pos S) as P1. pose proof (sqrt_pos S') as P2. pose proof (sqrt_pos t) as P3.
  pose proof (sqrt_sqrt S HS) as E1. pose proof (sqrt_sqrt S' HS') as E2. pose proof (sqrt_sqrt t Ht) as E3.
  set (a := sqrt S) in *. set (b := sqrt S') in *. set (q := sqrt t) in *.
  assert (K : Rabs (b - a) * (a + b) <= g * (a * a) + q * q).
  { rewrite <- (Rabs_pos_eq (a + b)) by lra. rewrite <- Rabs_mult. replace ((b - a) * (a + b)) with (S' - S) by (rewrite <- E1, <- E2; ring). rewrite E1, E3. exact H. }
  assert (GA : 0 <= g * a) by (now apply Rmult_le_pos). destruct (Rle_or_lt (a + b) q) as [L|L].
  - assert (Rabs (b - a) <= a + b) by (unfold Rabs; destruct (Rcase_abs (b - a)); lra). lra.
  - assert (a + b > 0) by lra. apply Rmult_le_reg_r with (a + b); [lra|]. apply Rle_trans with (1 := K).
    assert (0 <= g * a * b) by (now apply Rmult_le_pos). assert (q * q <= q * (a + b)) by (apply Rmult_le_compat_l; lra). lra.
Qed.
End Format.
