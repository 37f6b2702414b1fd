(** * MonoProofs.v - monotonicity of floating-point operations on non-negative numbers (for C95). *)
From Coq Require Import ZArith Reals Lra Lia List Arith Bool.
From Flocq Require Import Core BinarySingleNaN.
From Verif Require Import Rust Elem SpecCommon SpecAlg FloatM SpecReal FloatErr Algebra.
Import ListNotations.
Local Open Scope R_scope.

Section Format.
Context {prec emax : Z} {Hg : Prec_gt_0 prec} {Hm : Prec_lt_emax prec emax} {OK : fmt_ok prec emax}.
Local Notation F := (fl prec emax).
Local Notation A := (fl_arith prec emax Hg Hm).
Local Notation fexp := (SpecFloat.fexp prec emax).
Local Notation rnd := (round radix2 fexp ZnearestE).
Local Notation emin := (3 - emax - prec)%Z.
Local Notation big := (b2 emax).
Local Instance fexp_ok : Valid_exp fexp.
Proof. apply fexp_correct. exact Hg. Qed.
Definition zf : F := B754_zero false.
(** At least 0 (the infinity too, NaN not); the value, 2^emax for the infinity. *)
Definition pos (x : F) : Prop := Bleb zf x = true.
Definition vR (x : F) : R := match x with B754_infinity _ => big | _ => B2R x end.
Lemma big_pos : 0 < big. Proof. apply bpow_gt_0. Qed.
Lemma pos_cases x : pos x -> x = B754_infinity false \/ (is_finite x = true /\ vR x = B2R x /\ 0 <= B2R x < big).
Proof.
  unfold pos. intros H. destruct (is_finite x) eqn:E.
  - right. rewrite Bleb_correct in H by (assumption || reflexivity). split; [reflexivity|]. split; [destruct x; [reflexivity|discriminate|reflexivity|reflexivity]|].
    split; [destruct (Rle_bool_spec (B2R zf) (B2R x)) as [K|K]; [exact K|discriminate H]|].
    apply Rle_lt_trans with (1 := Rle_abs _). apply abs_B2R_lt_emax.
  - left. destruct x as [s|[]| |s m e B]; cbn in *; try discriminate. reflexivity.
Qed.
Lemma fin_pos x : is_finite x = true -> 0 <= B2R x -> pos x.
Proof. intros Hf Hx. unfold pos. rewrite Bleb_correct by (assumption || reflexivity). now apply Rle_bool_true. Qed.
Lemma vR_fin x : is_finite x = true -> vR x = B2R x.
Proof. destruct x; try discriminate; reflexivity. Qed.
Lemma vR_pos x : pos x -> 0 <= vR x <= big.
Proof. intros H. apply pos_cases in H. pose proof big_pos. destruct H as [->|(_ & -> & H)]; cbn; lra. Qed.
Lemma le_v x y : pos x -> pos y -> (Bleb x y = true <-> vR x <= vR y).
Proof.
  intros Hx Hy. destruct (pos_cases x Hx) as [->|(Fx & Vx & Bx)], (pos_cases y Hy) as [->|(Fy & Vy & By)].
  - split; [intros _; apply Rle_refl|reflexivity].
  - rewrite Vy. split; [intros H; exfalso; destruct y as [s|s| |[] m e B]; discriminate|cbn; lra].
  - rewrite Vx. split; [cbn; lra|]. intros _. destruct x as [s|[]| |[] m e B]; try discriminate; reflexivity.
  - rewrite Bleb_correct by assumption. rewrite Vx, Vy. destruct (Rle_bool_spec (B2R x) (B2R y)) as [H|H]; split; intros; try lra; try reflexivity; discriminate.
Qed.
Lemma le_pos x y : pos x -> Bleb x y = true -> pos y.
Proof.
  intros Hx H. unfold pos. destruct (pos_cases x Hx) as [->|(Fx & Vx & Bx)].
  - destruct y as [s|[]| |[] m e B]; try discriminate; reflexivity.
  - destruct (is_finite y) eqn:Fy.
    + rewrite Bleb_correct in H by assumption. apply fin_pos; [exact Fy|]. destruct (Rle_bool_spec (B2R x) (B2R y)); [lra|discriminate].
    + destruct y as [s|[]| |s m e B]; try discriminate Fy; try reflexivity; exfalso; destruct x as [s0|[]| |[] m0 e0 B0]; discriminate.
Qed.
Lemma rnd_mono x y : x <= y -> rnd x <= rnd y.
Proof. apply round_le; [apply fexp_ok|apply valid_rnd_N]. Qed.
Lemma rnd_0 : rnd 0 = 0. Proof. apply round_0, valid_rnd_N. Qed.
Lemma rnd_pos x : 0 <= x -> 0 <= rnd x.
Proof. intros H. rewrite <- rnd_0. now apply rnd_mono. Qed.
Lemma rnd_id (x : F) : rnd (B2R x) = B2R x.
Proof. apply round_generic; [apply valid_rnd_N|apply generic_format_B2R]. Qed.
Lemma rnd_pow e : (emin <= e)%Z -> rnd (b2 e) = b2 e.
Proof.
  intros He. apply round_generic; [apply valid_rnd_N|]. apply generic_format_bpow. unfold SpecFloat.fexp, SpecFloat.emin.
  pose proof (@ok_prec _ _ OK). lia.
Qed.
Lemma rnd_big : rnd big = big.
Proof. apply rnd_pow. pose proof (@ok_prec _ _ OK). pose proof (@ok_emax _ _ OK). lia. Qed.
Lemma sign_pos x : pos x -> Bsign x = true -> B2R x = 0.
Proof. intros H S. apply pos_cases in H. destruct H as [->|(Fx & _ & Bx)]; [discriminate S|]. destruct x as [s|s| |[] m e B]; try discriminate; try reflexivity.
  exfalso. assert (B2R (B754_finite true m e B : F) < 0) by (apply F2R_lt_0; reflexivity). lra. Qed.
Lemma over x y : pos x -> Rabs y >= big -> 0 <= y -> B2SF x = SpecFloat.S754_infinity false -> vR x = Rmin big y.
Proof. intros Hx H Hy E. rewrite Rabs_pos_eq in H by exact Hy. rewrite Rmin_left by lra. destruct x; try discriminate; reflexivity. Qed.
Lemma inf_pos x : B2SF x = SpecFloat.S754_infinity false -> pos x.
Proof. destruct x as [|[]| |]; try discriminate; reflexivity. Qed.
Lemma add_v x y : pos x -> pos y -> pos (Bplus mode_NE x y) /\ vR (Bplus mode_NE x y) = Rmin big (rnd (vR x + vR y)).
Proof.
  intros Hx Hy. pose proof (vR_pos x Hx) as Px. pose proof (vR_pos y Hy) as Py.
  assert (I : big <= vR x \/ big <= vR y -> vR (B754_infinity false) = Rmin big (rnd (vR x + vR y))).
  { intros H. rewrite Rmin_left; [reflexivity|]. rewrite <- rnd_big at 1. apply rnd_mono. destruct H; lra. }
  destruct (pos_cases x Hx) as [->|(Fx & Vx & Bx)].
  { destruct (pos_cases y Hy) as [->|(Fy & Vy & By)]; [split; [reflexivity|apply I; left; apply Rle_refl]|].
    replace (Bplus mode_NE (B754_infinity false) y) with (B754_infinity false : F) by (destruct y; try discriminate; reflexivity). split; [reflexivity|apply I; left; apply Rle_refl]. }
  destruct (pos_cases y Hy) as [->|(Fy & Vy & By)].
  { replace (Bplus mode_NE x (B754_infinity false)) with (B754_infinity false : F) by (destruct x; try discriminate; reflexivity). split; [reflexivity|apply I; right; apply Rle_refl]. }
  clear I. rewrite Vx, Vy. pose proof (rnd_pos (B2R x + B2R y) ltac:(lra)) as P0.
  pose proof (Bplus_correct prec emax Hg Hm mode_NE x y Fx Fy) as C. cbn [round_mode] in C.
  destruct (Rlt_bool_spec (Rabs (rnd (B2R x + B2R y))) big) as [L|L].
  - destruct C as (C1 & C2 & _). split; [apply fin_pos; [exact C2|now rewrite C1]|]. rewrite vR_fin, C1 by exact C2. rewrite Rabs_pos_eq in L by exact P0. rewrite Rmin_right; [reflexivity|]. now apply Rlt_le.
  - destruct C as [C1 C2]. assert (S : Bsign x = false).
    { destruct (Bsign x) eqn:Sx; [|reflexivity]. exfalso. rewrite (sign_pos x Hx Sx), (sign_pos y Hy (eq_sym C2)), Rplus_0_l, rnd_0, Rabs_R0 in L. pose proof big_pos. lra. }
    rewrite S in C1. cbn in C1. assert (Q : pos (Bplus mode_NE x y)) by now apply inf_pos. split; [exact Q|]. apply over; auto; try lra.
Qed.
Lemma mul_v x y : pos x -> pos y -> is_finite x = true -> is_finite y = true ->
  pos (Bmult mode_NE x y) /\ vR (Bmult mode_NE x y) = Rmin big (rnd (B2R x * B2R y)).
Proof.
  intros Hx Hy Fx Fy. destruct (pos_cases x Hx) as [->|(_ & _ & Bx)]; [discriminate Fx|]. destruct (pos_cases y Hy) as [->|(_ & _ & By)]; [discriminate Fy|].
  assert (P0 : 0 <= rnd (B2R x * B2R y)) by (apply rnd_pos; apply Rmult_le_pos; lra).
  pose proof (Bmult_correct prec emax Hg Hm mode_NE x y) as C. cbn [round_mode] in C.
  destruct (Rlt_bool_spec (Rabs (rnd (B2R x * B2R y))) big) as [L|L].
  - destruct C as (C1 & C2 & _). rewrite Fx, Fy in C2. cbn in C2. split; [apply fin_pos; [exact C2|now rewrite C1]|].
    rewrite vR_fin, C1 by exact C2. rewrite Rabs_pos_eq in L by exact P0. rewrite Rmin_right; [reflexivity|]. now apply Rlt_le.
  - assert (B : B2R x <> 0 /\ B2R y <> 0).
    { pose proof big_pos. split; intros E; rewrite E, ?Rmult_0_l, ?Rmult_0_r, rnd_0, Rabs_R0 in L; lra. }
    assert (Sx : Bsign x = false) by (destruct (Bsign x) eqn:Sx; [|reflexivity]; exfalso; apply (proj1 B); now apply sign_pos).
    assert (Sy : Bsign y = false) by (destruct (Bsign y) eqn:Sy; [|reflexivity]; exfalso; apply (proj2 B); now apply sign_pos).
    rewrite Sx, Sy in C. cbn in C. assert (Q : pos (Bmult mode_NE x y)) by now apply inf_pos. split; [exact Q|]. apply over; auto; try lra.
Qed.
Lemma sqrt_v x : pos x -> pos (Bsqrt mode_NE x) /\ (is_finite x = true -> is_finite (Bsqrt mode_NE x) = true /\ B2R (Bsqrt mode_NE x) = rnd (sqrt (B2R x))) /\
  (x = B754_infinity false -> Bsqrt mode_NE x = B754_infinity false).
Proof.
  intros Hx. destruct (pos_cases x Hx) as [->|(Fx & _ & Bx)]; [repeat split; discriminate|].
  destruct (Bsqrt_correct prec emax Hg Hm mode_NE x) as (C1 & C2 & _). cbn [round_mode] in C1.
  assert (FS : is_finite (Bsqrt mode_NE x) = true).
  { rewrite C2. destruct x as [s|s| |[] m e B]; try discriminate; reflexivity. }
  split; [apply fin_pos; [exact FS|]; rewrite C1; apply rnd_pos, sqrt_pos|]. split; [intros _; split; assumption|]. intros ->. discriminate Fx.
Qed.
Lemma min_mono x y : x <= y -> Rmin big x <= Rmin big y.
Proof. intros H. apply Rle_min_compat_l. exact H. Qed.
Lemma add_mono x y x' y' : pos x -> pos y -> Bleb x x' = true -> Bleb y y' = true -> pos (Bplus mode_NE x y) /\ Bleb (Bplus mode_NE x y) (Bplus mode_NE x' y') = true.
Proof.
  intros Hx Hy Lx Ly. pose proof (le_pos x x' Hx Lx) as Hx'. pose proof (le_pos y y' Hy Ly) as Hy'.
  destruct (add_v x y Hx Hy) as [P1 V1]. destruct (add_v x' y' Hx' Hy') as [P2 V2]. split; [exact P1|]. apply le_v; auto. rewrite V1, V2. apply min_mono, rnd_mono.
  apply le_v in Lx; auto. apply le_v in Ly; auto. lra.
Qed.
Lemma mul_mono x y x' y' : pos x -> pos y -> is_finite x' = true -> is_finite y' = true -> Bleb x x' = true -> Bleb y y' = true ->
  pos (Bmult mode_NE x y) /\ Bleb (Bmult mode_NE x y) (Bmult mode_NE x' y') = true.
Proof.
  intros Hx Hy Fx' Fy' Lx Ly. pose proof (le_pos x x' Hx Lx) as Hx'. pose proof (le_pos y y' Hy Ly) as Hy'.
  apply le_v in Lx; auto. apply le_v in Ly; auto. rewrite (vR_fin x' Fx') in Lx. rewrite (vR_fin y' Fy') in Ly.
  destruct (pos_cases x' Hx') as [->|(_ & _ & Bx')]; [discriminate|]. destruct (pos_cases y' Hy') as [->|(_ & _ & By')]; [discriminate|].
  destruct (pos_cases x Hx) as [->|(Fx & Vx & Bx)]; [cbn in Lx; lra|]. destruct (pos_cases y Hy) as [->|(Fy & Vy & By)]; [cbn in Ly; lra|].
  destruct (mul_v x y Hx Hy Fx Fy) as [P1 V1]. destruct (mul_v x' y' Hx' Hy' Fx' Fy') as [P2 V2]. split; [exact P1|]. apply le_v; auto. rewrite V1, V2. apply min_mono, rnd_mono.
  apply Rmult_le_compat; lra.
Qed.
Lemma sqrt_mono x x' : pos x -> Bleb x x' = true -> pos (Bsqrt mode_NE x) /\ Bleb (Bsqrt mode_NE x) (Bsqrt mode_NE x') = true.
Proof.
  intros Hx L. pose proof (le_pos x x' Hx L) as Hx'. destruct (sqrt_v x Hx) as (P1 & K1 & I1). destruct (sqrt_v x' Hx') as (P2 & K2 & I2). split; [exact P1|].
  destruct (pos_cases x' Hx') as [E|(Fx' & Vx' & Bx')].
  - rewrite (I2 E). apply le_v; [exact P1|reflexivity|]. apply vR_pos. exact P1.
  - apply le_v in L; auto. destruct (pos_cases x Hx) as [->|(Fx & Vx & Bx)]; [cbn in L; lra|].
    destruct (K1 Fx) as [G1 W1]. destruct (K2 Fx') as [G2 W2]. apply le_v; auto. rewrite !vR_fin, W1, W2 by assumption. apply rnd_mono, sqrt_le_1; lra.
Qed.
Lemma pos_zero : pos zf. Proof. reflexivity. Qed.
Lemma pos_refl x : pos x -> Bleb x x = true.
Proof. intros H. apply le_v; auto. apply Rle_refl. Qed.
Lemma le_trans x y z : pos x -> Bleb x y = true -> Bleb y z = true -> Bleb x z = true.
Proof.
  intros Hx L1 L2. pose proof (le_pos x y Hx L1) as Hy. pose proof (le_pos y z Hy L2) as Hz. apply le_v in L1; auto. apply le_v in L2; auto. apply le_v; auto. lra.
Qed.
Lemma sum_mono n f g : (forall k, (k < n)%nat -> pos (f k) /\ Bleb (f k) (g k) = true) -> pos (sum A n f) /\ Bleb (sum A n f) (sum A n g) = true.
Proof.
  induction n as [|n IH]; intros H; [split; reflexivity|]. rewrite !(sum_S A). destruct IH as [P L]; [intros; apply H; lia|]. destruct (H n ltac:(lia)) as [P1 L1]. now apply add_mono.
Qed.
(** A sum of non-negative numbers is at least every one of them. *)
Lemma sum_ge n f i : (i < n)%nat -> (forall k, (k < n)%nat -> pos (f k)) -> Bleb (f i) (sum A n f) = true.
Proof.
  induction n as [|n IH]; intros Hi H; [lia|]. rewrite (sum_S A).
  assert (PS : pos (sum A n f)) by (apply (sum_mono n f f); intros k Hk; split; [|apply pos_refl]; apply H; lia). pose proof (H n ltac:(lia)) as Pn.
  destruct (add_v (sum A n f) (f n) PS Pn) as [PA VA]. change (a_add A (sum A n f) (f n)) with (Bplus mode_NE (sum A n f) (f n)).
  assert (G : forall x, pos x -> vR x <= vR (sum A n f) + vR (f n) -> vR x <= vR (Bplus mode_NE (sum A n f) (f n))).
  { intros x Px Hx. rewrite VA. apply Rmin_glb; [apply vR_pos, Px|]. destruct (pos_cases x Px) as [->|(Fx & Vx & _)].
    - cbn [vR]. rewrite <- rnd_big. apply rnd_mono. exact Hx.
    - rewrite Vx, <- rnd_id, <- Vx. now apply rnd_mono. }
  pose proof (vR_pos _ PS). pose proof (vR_pos _ Pn). destruct (Nat.eq_dec i n) as [->|Hne].
  - apply le_v; auto. apply G; [exact Pn|lra].
  - apply le_trans with (sum A n f); [apply H; lia|apply IH; [lia|intros; apply H; lia]|]. apply le_v; auto. apply G; [exact PS|lra].
Qed.

(** ** The root of a rounded square *)
Lemma abs_pos x : is_finite x = true -> pos (Babs x) /\ is_finite (Babs x) = true /\ B2R (Babs x) = Rabs (B2R x).
Proof.
  intros H. assert (Ef : is_finite (Babs x) = true) by now rewrite is_finite_Babs. assert (Er : B2R (Babs x) = Rabs (B2R x)) by apply B2R_Babs.
  split; [apply fin_pos; [exact Ef|rewrite Er; apply Rabs_pos]|]. now split.
Qed.
Lemma sqrt_sqr a (x : F) : a = B2R x -> 0 < a -> b2 (emin + prec - 1) <= a * a -> a <= rnd (sqrt (rnd (a * a))).
Proof.
  intros Ea Ha Hs. assert (Fa : generic_format radix2 fexp a) by (rewrite Ea; apply generic_format_B2R).
  pose proof (@ok_prec _ _ OK) as Hp. pose proof (@ok_emax _ _ OK) as He.
  assert (Hmag : exists e, (mag radix2 a : Z) = e /\ b2 (e - 1) <= a < b2 e).
  { exists (mag radix2 a). split; [reflexivity|]. pose proof (bpow_mag_le radix2 a (Rgt_not_eq _ _ Ha)) as H1. pose proof (bpow_mag_gt radix2 a) as H2. rewrite Rabs_pos_eq in H1, H2 by lra. now split. }
  destruct Hmag as (e & Me & Hmag).
  assert (Bsq : b2 (2 * e - 2) <= a * a < b2 (2 * e)).
  { replace (2 * e - 2)%Z with ((e - 1) + (e - 1))%Z by lia. replace (2 * e)%Z with (e + e)%Z by lia. rewrite !bpow_plus. pose proof (bpow_gt_0 radix2 (e - 1)).
    split; [apply Rmult_le_compat; lra|]. apply Rmult_le_0_lt_compat; lra. }
  assert (Hlo : (emin + prec - 1 < 2 * e)%Z) by (apply (lt_bpow radix2); lra).
  destruct (Req_dec a (b2 (e - 1))) as [E|E].
  - assert (Er : rnd (a * a) = a * a).
    { rewrite E, <- bpow_plus. apply rnd_pow. lia. }
    rewrite Er. rewrite sqrt_square by lra. rewrite Ea, rnd_id. apply Rle_refl.
  - assert (HeN : (emin <= e - prec)%Z) by lia.
    assert (Eulp : ulp radix2 fexp a = b2 (e - prec)).
    { rewrite ulp_neq_0 by lra. unfold cexp. rewrite Me. f_equal. unfold SpecFloat.fexp, SpecFloat.emin. lia. }
    apply round_N_ge_midp; [apply fexp_ok|exact Fa|]. rewrite pred_eq_pos by lra. unfold pred_pos. rewrite Me, Req_bool_false by exact E. rewrite Eulp.
    set (w := b2 (e - prec)).
    assert (W : 0 < w) by apply bpow_gt_0.
    assert (Aw : b2 (e - 1) + w <= a).
    { pose proof (succ_le_lt radix2 fexp (b2 (e - 1)) a) as Q. rewrite succ_eq_pos in Q by apply bpow_ge_0.
      rewrite ulp_bpow in Q. replace (fexp (e - 1 + 1)) with (e - prec)%Z in Q by (unfold SpecFloat.fexp, SpecFloat.emin; lia). apply Q; [|exact Fa|lra].
      apply generic_format_bpow. unfold SpecFloat.fexp, SpecFloat.emin. lia. }
    pose proof (error_le_half_ulp radix2 fexp (fun z => negb (Z.even z)) (a * a)) as HE. change (Rabs (rnd (a * a) - a * a) <= / 2 * ulp radix2 fexp (a * a)) in HE.
    assert (U : ulp radix2 fexp (a * a) <= b2 (2 * e - prec)).
    { rewrite ulp_neq_0 by nra. apply bpow_le. unfold cexp. assert (mag radix2 (a * a) <= 2 * e)%Z by (apply mag_le_bpow; [nra|rewrite Rabs_pos_eq by nra; apply Bsq]).
      unfold SpecFloat.fexp, SpecFloat.emin. lia. }
    assert (EU : b2 (2 * e - prec) = 2 * (b2 (e - 1) * w)).
    { unfold w. rewrite <- bpow_plus. replace (2 * e - prec)%Z with (1 + (e - 1 + (e - prec)))%Z by lia. now rewrite bpow_plus. }
    apply Rabs_le_inv in HE. assert (R : a * a - b2 (e - 1) * w <= rnd (a * a)) by lra.
    assert (Lw : 0 < (a + (a - w)) / 2) by (pose proof (bpow_gt_0 radix2 (e - 1)); lra).
    rewrite <- (sqrt_square ((a + (a - w)) / 2)) by lra. apply sqrt_lt_1; [apply Rlt_le; nra| |].
    + apply rnd_pos. nra.
    + apply Rlt_le_trans with (2 := R). nra.
Qed.
End Format.
