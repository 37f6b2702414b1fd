(** * GJFloat.v - one step of the n >= 4 inverse in floating point (proofs only): the link from
    the loops of inverse() to matrices as functions, and the rounding error of a step. *)
From Coq Require Import List Arith Bool Lia ZArith Reals Lra.
From Flocq Require Import Core BinarySingleNaN Relative Plus_error.
From Verif Require Import Rust Iter Elem VectorM MatIterM MatrixM ArithM OpsM SpecCommon SpecAlg FloatM SpecReal.
From Verif Require Import AccProofs Sim DetLoop OpsPure FloatErr PropsFloat PropsFloatErr PropsFloatInv GJReal.
Import ListNotations.

(** ** The loop body as a function of the indices *)
Section Link.
Context {T : Type} (A : arith T) (dv : T -> T -> T) (iz : T -> bool).
Lemma at2_mat n f a b : a < n -> b < n -> at2 A (mat n n f) a b = f a b.
Proof.
  intros Ha Hb. pose proof (entry_mat n n f a b Ha Hb) as E. unfold entry in E. unfold at2.
  destruct (nth_error (mat n n f) a) as [r|] eqn:Er; [|discriminate]. rewrite (nth_error_nth _ _ _ Er). now apply nth_error_nth.
Qed.
(** Entry (a,b) after the step with pivot [i]: row [i] is scaled by r, every other row [a] loses
    (scaled row i) * (entry (a,i)). *)
Definition gstep (r : T) (m z : nat -> nat -> T) (i a b : nat) : T :=
  if a =? i then a_mul A (z i b) r else a_sub A (z a b) (a_mul A (a_mul A (z i b) r) (m a i)).
Lemma inv_step_fun n i m1 m2 : i < n -> iz (at2 A m1 i i) = false ->
  exists m1' m2', p_inv_step A dv iz n i (m1, m2) = inl (m1', m2') /\ rect n n m1' /\ rect n n m2' /\
  let r := dv (a_one A) (at2 A m1 i i) in
  forall a b, a < n -> b < n ->
    at2 A m1' a b = gstep r (at2 A m1) (at2 A m1) i a b /\ at2 A m2' a b = gstep r (at2 A m1) (at2 A m2) i a b.
Proof.
  intros Hi Hz. unfold p_inv_step. cbn [fst snd]. rewrite Hz. set (r := dv _ _). cbv zeta.
  set (body := fun (mi : list (list T) * list (list T)) j => if i =? j then mi
     else let a := at2 A (fst mi) j i in (p_elim A n i j a (fst mi), p_elim A n i j a (snd mi))).
  set (part := fun (t : nat) (z : nat -> nat -> T) a b => if a =? i then a_mul A (z i b) r else
     if a <? t then a_sub A (z a b) (a_mul A (a_mul A (z i b) r) (at2 A m1 a i)) else z a b).
  assert (G : forall t, t <= n ->
    let st := fold_left body (seq 0 t) (p_scale A n i r m1, p_scale A n i r m2) in
    (rect n n (fst st) /\ rect n n (snd st)) /\
    forall a b, a < n -> b < n -> at2 A (fst st) a b = part t (at2 A m1) a b /\ at2 A (snd st) a b = part t (at2 A m2) a b).
  { induction t as [|t IH]; intros Ht.
    - cbn [seq fold_left fst snd]. split; [split; apply mat_rect|]. intros a b Ha Hb. unfold p_scale. rewrite !at2_mat by assumption.
      unfold f_scale, part. destruct (Nat.eqb_spec a i) as [->|]; [auto|]. destruct (Nat.ltb_spec a 0); [lia|auto].
    - specialize (IH ltac:(lia)). rewrite seq_S, fold_left_app. cbn [Nat.add].
      set (st := fold_left body (seq 0 t) (p_scale A n i r m1, p_scale A n i r m2)) in *. cbv zeta in IH. destruct IH as [R IH].
      cbn [fold_left]. unfold body. destruct (Nat.eqb_spec i t) as [E|E].
      + split; [exact R|]. intros a b Ha Hb. destruct (IH a b Ha Hb) as [-> ->]. unfold part.
        destruct (Nat.eqb_spec a i); [auto|]. destruct (Nat.ltb_spec a t), (Nat.ltb_spec a (Datatypes.S t)); try lia; auto.
      + cbv zeta. cbn [fst snd]. split; [split; apply mat_rect|]. intros a b Ha Hb. unfold p_elim. rewrite !at2_mat by assumption.
        unfold f_elim. rewrite (proj1 (IH t i ltac:(lia) Hi)).
        destruct (IH a b Ha Hb) as [Ea Eb]. destruct (IH i b Hi Hb) as [Ia Ib]. rewrite Ea, Eb, Ia, Ib. unfold part. rewrite Nat.eqb_refl.
        destruct (Nat.eqb_spec t i); [lia|]. rewrite (proj2 (Nat.ltb_ge t t)) by lia.
        destruct (Nat.eqb_spec a t) as [->|].
        * destruct (Nat.eqb_spec t i); [lia|]. rewrite (proj2 (Nat.ltb_ge t t)), (proj2 (Nat.ltb_lt t (Datatypes.S t))) by lia. auto.
        * destruct (Nat.eqb_spec a i); [auto|]. destruct (Nat.ltb_spec a t), (Nat.ltb_spec a (Datatypes.S t)); try lia; auto. }
  specialize (G (n - 0) ltac:(lia)). cbv zeta in G. destruct (fold_left body _ _) as [m1' m2']. cbn [fst snd] in G.
  destruct G as [[R1 R2] G]. exists m1', m2'. split; [reflexivity|]. split; [exact R1|]. split; [exact R2|]. intros a b Ha Hb. destruct (G a b Ha Hb) as [-> ->].
  unfold part, gstep. rewrite Nat.sub_0_r, (proj2 (Nat.ltb_lt a n) Ha). destruct (a =? i); auto.
Qed.
Lemma ret_fold_snoc {St R} (g : nat -> St -> St + R) l i : forall st,
  ret_fold g (l ++ [i]) st = match ret_fold g l st with inl st' => g i st' | inr v => inr v end.
Proof.
  induction l as [|j l IH]; intros st; cbn [app ret_fold]; [now destruct (g i st)|]. destruct (g j st); [apply IH|reflexivity].
Qed.
End Link.

Local Open Scope R_scope.
Section Format.
Context {prec emax : Z} {Hgt : Prec_gt_0 prec} {Hlt : Prec_lt_emax prec emax} {OK : fmt_ok prec emax}.
Local Notation FL := (fl prec emax).
Local Notation AR := (fl_arith prec emax Hgt Hlt).
Local Notation OP := (fl_ops prec emax Hgt Hlt).
Local Notation u := (ur prec).
Local Notation fexp := (SpecFloat.fexp prec emax).
Local Notation rnd := (round radix2 fexp (round_mode mode_NE)).
Ltac flia := pose proof (@ok_prec _ _ OK); pose proof (@ok_emax _ _ OK); lia.
(** Half the smallest positive number. *)
Definition eta : R := b2 (2 - emax - prec).
Lemma rnd_any r : exists e h, Rabs e <= u /\ Rabs h <= eta /\ rnd r = r * (1 + e) + h.
Proof.
  destruct (error_N_FLT radix2 (3 - emax - prec) prec ltac:(flia) (fun x => negb (Z.even x)) r) as (e & h & He & Hh & _ & E).
  exists e, h. split; [|split; [|exact E]].
  - apply Rle_trans with (1 := He). right. unfold ur. rewrite bpow_plus. change (b2 1) with 2. lra.
  - apply Rle_trans with (1 := Hh). right. unfold eta. replace (3 - emax - prec)%Z with (1 + (2 - emax - prec))%Z by lia.
    rewrite bpow_plus. change (b2 1) with 2. lra.
Qed.
Lemma rnd_no r hi : (0 <= hi <= emax - 1)%Z -> Rabs r <= b2 hi -> Rabs (rnd r) < b2 emax.
Proof. intros Hh Hr. apply Rle_lt_trans with (b2 hi); [apply rnd_le; [flia|exact Hr]|]. apply bpow_lt. lia. Qed.
Lemma fmul_any (x y : FL) hi : fin x -> fin y -> (0 <= hi <= emax - 1)%Z -> Rabs (B2R x * B2R y) <= b2 hi ->
  fin (a_mul AR x y) /\ B2R (a_mul AR x y) = rnd (B2R x * B2R y).
Proof.
  intros Fx Fy Hh H. pose proof (Bmult_correct prec emax _ _ mode_NE x y) as C. rewrite Rlt_bool_true in C by (now apply rnd_no with hi).
  destruct C as (C1 & C2 & _). unfold fin in *. rewrite Fx, Fy in C2. cbn [a_mul fl_arith]. split; [exact C2|exact C1].
Qed.
Lemma fdiv_any (x y : FL) hi : fin x -> B2R y <> 0 -> (0 <= hi <= emax - 1)%Z -> Rabs (B2R x / B2R y) <= b2 hi ->
  fin (Bdiv mode_NE x y) /\ B2R (Bdiv mode_NE x y) = rnd (B2R x / B2R y).
Proof.
  intros Fx Hy Hh H. pose proof (Bdiv_correct prec emax _ _ mode_NE x y Hy) as C. rewrite Rlt_bool_true in C by (now apply rnd_no with hi).
  destruct C as (C1 & C2 & _). unfold fin in *. rewrite Fx in C2. split; [exact C2|exact C1].
Qed.
Lemma fone : fin (a_one AR) /\ B2R (a_one AR) = 1.
Proof. cbn [a_one fl_arith]. split; [apply is_finite_Bone|apply Bone_correct]. Qed.
Lemma abs_tri r q a b : Rabs (r - q) <= a -> Rabs q <= b -> Rabs r <= a + b.
Proof. intros H1 H2. pose proof (Rabs_triang (r - q) q) as H. replace (r - q + q) with r in H by ring. lra. Qed.
Lemma abs_tri3 r q t a b : Rabs (r - q) <= a -> Rabs (q - t) <= b -> Rabs (r - t) <= a + b.
Proof. intros H1 H2. pose proof (Rabs_triang (r - q) (q - t)) as H. replace (r - q + (q - t)) with (r - t) in H by ring. lra. Qed.
Lemma rnd_close r b a : Rabs r <= b -> eta <= a -> Rabs (rnd r - r) <= u * b + a.
Proof.
  intros Hr Ha. destruct (rnd_any r) as (e & h & He & Hh & ->). replace (r * (1 + e) + h - r) with (r * e + h) by ring.
  apply Rle_trans with (1 := Rabs_triang _ _). rewrite Rabs_mult, (Rmult_comm u).
  assert (Rabs r * Rabs e <= b * u) by (apply Rmult_le_compat; auto using Rabs_pos). lra.
Qed.

Section Elem.
Variables (p x y f : FL) (Q F Y : R).
Hypothesis Fx : fin x.
Hypothesis Fy : fin y.
Hypothesis Ff : fin f.
Hypothesis P0 : B2R p <> 0.
Hypothesis P1 : Rabs (1 / B2R p) <= b2 (emax - 4).
Hypothesis HQ : Rabs (B2R x / B2R p) <= Q.
Hypothesis HF : Rabs (B2R f) <= F.
Hypothesis HY : Rabs (B2R y) <= Y.
Hypothesis E1 : eta <= u * Q.
Hypothesis E2 : Rabs (B2R x) * eta <= u * Q.
Hypothesis E3 : eta <= u * (F * Q).
Hypothesis O1 : Q <= b2 (emax - 4).
Hypothesis O2 : F * Q <= b2 (emax - 4).
Hypothesis O3 : Y <= b2 (emax - 4).
Let r := Bdiv mode_NE (a_one AR) p.
Let xh := a_mul AR x r.
Let yh := a_sub AR y (a_mul AR xh f).
Lemma bp k : (0 <= k <= 4)%Z -> b2 (emax - 4) * b2 k <= b2 emax.
Proof. intros H. rewrite <- bpow_plus. apply bpow_le. lia. Qed.
Lemma up2 z : Rabs z <= 2 * b2 (emax - 4) -> Rabs z <= b2 (emax - 3).
Proof. intros H. replace (emax - 3)%Z with (emax - 4 + 1)%Z by lia. rewrite bpow_plus. change (b2 1) with 2. lra. Qed.
Lemma r_ok : fin r /\ exists e h, Rabs e <= u /\ Rabs h <= eta /\ B2R r = 1 / B2R p * (1 + e) + h.
Proof.
  destruct (fdiv_any (a_one AR) p (emax - 4)) as [H1 H2]; [apply fone|exact P0|flia|rewrite (proj2 fone); exact P1|].
  split; [exact H1|]. unfold r. rewrite H2, (proj2 fone). apply rnd_any.
Qed.
Lemma xr_ok : Rabs (B2R x * B2R r - B2R x / B2R p) <= 2 * u * Q /\ Rabs (B2R x * B2R r) <= 2 * Q.
Proof.
  assert (H : Rabs (B2R x * B2R r - B2R x / B2R p) <= 2 * u * Q).
  { destruct r_ok as (_ & e & h & He & Hh & ->). replace (B2R x * (1 / B2R p * (1 + e) + h) - B2R x / B2R p) with (B2R x / B2R p * e + B2R x * h)
      by (field; exact P0).
    apply Rle_trans with (1 := Rabs_triang _ _). rewrite !Rabs_mult.
    assert (Rabs (B2R x / B2R p) * Rabs e <= Q * u) by (apply Rmult_le_compat; auto using Rabs_pos).
    assert (Rabs (B2R x) * Rabs h <= Rabs (B2R x) * eta) by (apply Rmult_le_compat_l; auto using Rabs_pos). lra. }
  split; [exact H|]. pose proof (abs_tri _ _ _ _ H HQ). pose proof u_small. pose proof (Rabs_pos (B2R x / B2R p)). nra.
Qed.
Lemma x_ok : fin xh /\ Rabs (B2R xh - B2R x / B2R p) <= 5 * u * Q.
Proof.
  destruct xr_ok as [H1 H2]. destruct (fmul_any x r (emax - 3)) as [H3 H4]; [exact Fx|apply r_ok|flia|apply up2; lra|].
  split; [exact H3|]. pose proof (rnd_close _ _ _ H2 E1) as H5. unfold xh. rewrite H4. pose proof (abs_tri3 _ _ _ _ _ H5 H1). lra.
Qed.
Lemma x_up : Rabs (B2R xh) <= 2 * Q.
Proof. destruct x_ok as [_ H]. pose proof (abs_tri _ _ _ _ H HQ). pose proof u_small. pose proof (Rabs_pos (B2R x / B2R p)). nra. Qed.
Lemma q_ok : let q := a_mul AR xh f in fin q /\ Rabs (B2R q - B2R f * (B2R x / B2R p)) <= 8 * u * (F * Q) /\ Rabs (B2R q) <= 2 * (F * Q).
Proof.
  pose proof u_small as Hu. pose proof (@u_pos prec) as Hu0.
  assert (H1 : Rabs (B2R xh * B2R f) <= 2 * (F * Q)).
  { rewrite Rabs_mult. apply Rle_trans with (2 * Q * F); [|right; ring]. apply Rmult_le_compat; auto using Rabs_pos, x_up. }
  destruct (fmul_any xh f (emax - 3)) as [H3 H4]; [apply x_ok|exact Ff|flia|apply up2; lra|]. intros q. split; [exact H3|].
  assert (H5 : Rabs (B2R q - B2R f * (B2R x / B2R p)) <= 8 * u * (F * Q)).
  { unfold q. rewrite H4. pose proof (rnd_close _ _ _ H1 E3) as H5.
    assert (H6 : Rabs (B2R xh * B2R f - B2R f * (B2R x / B2R p)) <= 5 * u * Q * F).
    { replace (B2R xh * B2R f - B2R f * (B2R x / B2R p)) with ((B2R xh - B2R x / B2R p) * B2R f) by ring. rewrite Rabs_mult.
      apply Rmult_le_compat; auto using Rabs_pos. apply x_ok. }
    pose proof (abs_tri3 _ _ _ _ _ H5 H6). lra. }
  split; [exact H5|].
  assert (H7 : Rabs (B2R f * (B2R x / B2R p)) <= F * Q) by (rewrite Rabs_mult; apply Rmult_le_compat; auto using Rabs_pos).
  pose proof (abs_tri _ _ _ _ H5 H7). pose proof (Rabs_pos (B2R f * (B2R x / B2R p))). nra.
Qed.
Lemma y_ok : fin yh /\ Rabs (B2R yh - (B2R y - B2R f * (B2R x / B2R p))) <= u * (10 * (F * Q) + Y).
Proof.
  pose proof u_small as Hu. pose proof (@u_pos prec) as Hu0.
  destruct q_ok as (H1 & H2 & H3). cbv zeta in *. set (q := a_mul AR xh f) in *.
  destruct (fsub_spec y q (emax - 3)) as (G1 & _ & (e & He & G2) & _); [exact Fy|exact H1| | |flia|].
  - apply up2. pose proof (bpow_ge_0 radix2 (emax - 4)). lra.
  - apply up2. lra.
  - split; [exact G1|]. unfold yh. fold q. rewrite G2.
    assert (H4 : Rabs (B2R y - B2R q) <= Y + 2 * (F * Q)).
    { pose proof (Rabs_triang (B2R y) (- B2R q)) as H. rewrite Rabs_Ropp in H. unfold Rminus. lra. }
    assert (H5 : Rabs ((B2R y - B2R q) * (1 + e) - (B2R y - B2R q)) <= u * (Y + 2 * (F * Q))).
    { replace ((B2R y - B2R q) * (1 + e) - (B2R y - B2R q)) with (e * (B2R y - B2R q)) by ring. rewrite Rabs_mult.
      apply Rmult_le_compat; auto using Rabs_pos. }
    assert (H6 : Rabs ((B2R y - B2R q) - (B2R y - B2R f * (B2R x / B2R p))) <= 8 * u * (F * Q)).
    { rewrite Rabs_minus_sym. now replace (B2R y - B2R f * (B2R x / B2R p) - (B2R y - B2R q)) with (B2R q - B2R f * (B2R x / B2R p)) by ring. }
    pose proof (abs_tri3 _ _ _ _ _ H5 H6). lra.
Qed.
(** A zero in the pivot row changes nothing. *)
Lemma zero_ok : B2R x = 0 -> B2R xh = 0 /\ B2R yh = B2R y.
Proof.
  intros X0. destruct (fmul_any x r (emax - 3)) as [H3 H4]; [exact Fx|apply r_ok|flia|rewrite X0, Rmult_0_l, Rabs_R0; apply bpow_ge_0|].
  assert (Ex : B2R xh = 0) by (unfold xh; rewrite H4, X0, Rmult_0_l; apply round_0; auto with typeclass_instances). split; [exact Ex|].
  destruct (fmul_any xh f (emax - 3)) as [H5 H6]; [exact H3|exact Ff|flia|rewrite Ex, Rmult_0_l, Rabs_R0; apply bpow_ge_0|].
  assert (Eq : B2R (a_mul AR xh f) = 0) by (rewrite H6, Ex, Rmult_0_l; apply round_0; auto with typeclass_instances).
  destruct (fsub_spec y (a_mul AR xh f) (emax - 3)) as (G1 & _ & _ & G2); [exact Fy|exact H5| | |flia|].
  - apply up2. pose proof (bpow_ge_0 radix2 (emax - 4)). lra.
  - rewrite Eq, Rabs_R0. apply bpow_ge_0.
  - unfold yh. rewrite G2, Eq, Rminus_0_r. apply round_generic; auto with typeclass_instances. apply generic_format_B2R.
Qed.
Lemma elem_all : (fin xh /\ Rabs (B2R xh - B2R x / B2R p) <= 5 * u * Q) /\
  (fin yh /\ Rabs (B2R yh - (B2R y - B2R f * (B2R x / B2R p))) <= u * (10 * (F * Q) + Y)) /\
  (B2R x = 0 -> B2R xh = 0 /\ B2R yh = B2R y).
Proof. split; [exact x_ok|]. split; [exact y_ok|exact zero_ok]. Qed.
End Elem.

(** ** The whole run on a dominant matrix *)
Section Run.
Variable n : nat.
Variable m : list (list FL).
Variables del B : R.
Hypothesis Hn : (1 <= n)%nat.
Hypothesis Hr : rect n n m.
Hypothesis Hfin : forall i j, (i < n)%nat -> (j < n)%nat -> fin (at2 AR m i j).
Hypothesis Hdel : 0 < del <= 1.
Hypothesis HB : 1 <= B.
Hypothesis Hsmall : 48 * (INR n * INR n) * u * B <= del.
Let val (z : list (list FL)) (i j : nat) : R := B2R (at2 AR z i j).
Hypothesis Hrow : forall i, (i < n)%nat -> rsum n (fun j => Rabs (val m i j)) <= B.
Hypothesis Hdom : forall i, (i < n)%nat -> rsum n (fun j => Rabs (val m i j)) + del <= 2 * Rabs (val m i i).
Let e := 15 * u * B.
Let u0 : 0 < u := @u_pos prec.
Lemma Hn1 : 1 <= INR n.
Proof. change 1 with (INR 1). now apply le_INR. Qed.
Lemma e0 : 0 <= e.
Proof. unfold e. pose proof u0. nra. Qed.
Lemma uB : 48 * (u * B) <= del.
Proof.
  pose proof Hn1. assert (1 <= INR n * INR n) by nra. assert (0 < u * B) by (apply Rmult_lt_0_compat; [exact u0|lra]). nra.
Qed.
Lemma e_small : 3 * (INR n * INR n * e) <= del.
Proof.
  unfold e. pose proof Hn1. assert (1 <= INR n * INR n) by nra. assert (0 < u * B) by (apply Rmult_lt_0_compat; [exact u0|lra]). nra.
Qed.
Lemma u_inv : u * b2 prec = 1.
Proof. unfold ur. rewrite <- bpow_plus. now replace (- prec + prec)%Z with 0%Z by lia. Qed.
Lemma B_up : B <= b2 prec.
Proof. apply Rmult_le_reg_l with u; [exact u0|]. rewrite u_inv. pose proof uB. lra. Qed.
Lemma Bd_up : B * (2 / del) <= b2 (prec + 1).
Proof.
  apply Rmult_le_reg_l with (u * del); [apply Rmult_lt_0_compat; [exact u0|lra]|]. rewrite bpow_plus. change (b2 1) with 2.
  replace (u * del * (b2 prec * 2)) with (del * 2 * (u * b2 prec)) by ring. rewrite u_inv.
  replace (u * del * (B * (2 / del))) with (2 * (u * B)) by (field; lra). pose proof uB. lra.
Qed.
Lemma d_up : 1 / del <= b2 prec.
Proof.
  apply Rmult_le_reg_l with (u * del); [apply Rmult_lt_0_compat; [exact u0|lra]|].
  replace (u * del * b2 prec) with (del * (u * b2 prec)) by ring. rewrite u_inv.
  replace (u * del * (1 / del)) with u by (field; lra). pose proof uB. pose proof u0. nra.
Qed.
Lemma eta_u : eta * b2 (prec + 1) <= u.
Proof. unfold eta, ur. rewrite <- bpow_plus. apply bpow_le. flia. Qed.
Lemma eta0 : 0 < eta.
Proof. apply bpow_gt_0. Qed.
Lemma big k : (k <= prec + 3)%Z -> b2 k <= b2 (emax - 4).
Proof. intros H. apply bpow_le. flia. Qed.
Lemma eta_B : 4 / 3 * B * eta <= u.
Proof.
  apply Rle_trans with (2 := eta_u). rewrite bpow_plus. change (b2 1) with 2. pose proof B_up. pose proof eta0. nra.
Qed.
Lemma eta_1 : eta <= u.
Proof. pose proof eta_B. pose proof eta0. nra. Qed.

Record Good (k : nat) (m1 m2 : list (list FL)) : Prop := {
  gd_fm : forall i j, (i < n)%nat -> (k <= j < n)%nat -> fin (at2 AR m1 i j);
  gd_fx : forall i j, (i < n)%nat -> (j < n)%nat -> fin (at2 AR m2 i j);
  gd_inv : Inv n (val m) del B e k (val m1) (val m2) }.

Section One.
Variables (k : nat) (m1 m2 m1' m2' : list (list FL)).
Hypothesis Hk : (k < n)%nat.
Hypothesis G : Good k m1 m2.
Let p := at2 AR m1 k k.
Let r := Bdiv mode_NE (a_one AR) p.
Hypothesis E' : forall a b, (a < n)%nat -> (b < n)%nat ->
  at2 AR m1' a b = gstep AR r (at2 AR m1) (at2 AR m1) k a b /\ at2 AR m2' a b = gstep AR r (at2 AR m1) (at2 AR m2) k a b.
Let I := gd_inv _ _ _ G.
Lemma p_low : del * 2 / 3 <= Rabs (B2R p).
Proof. exact (pivot_low n (val m) del B e e0 e_small k _ _ I Hk). Qed.
Lemma p_nz : B2R p <> 0.
Proof. intros E. pose proof p_low as H. rewrite E, Rabs_R0 in H. lra. Qed.
Lemma p_inv1 : Rabs (1 / B2R p) <= b2 (emax - 4).
Proof.
  apply Rle_trans with (b2 (prec + 1)); [|apply big; flia]. pose proof p_low as H. pose proof d_up as D.
  unfold Rdiv. rewrite Rmult_1_l, Rabs_Rinv by exact p_nz. rewrite bpow_plus. change (b2 1) with 2.
  apply Rle_trans with (/ (del * 2 / 3)); [apply Rinv_le; lra|]. replace (/ (del * 2 / 3)) with (3 / 2 * (1 / del)) by (field; lra).
  pose proof (bpow_gt_0 radix2 prec). lra.
Qed.
Lemma bm i j : (i < n)%nat -> (k <= j < n)%nat -> Rabs (B2R (at2 AR m1 i j)) <= 4 / 3 * B.
Proof. exact (bnd_m n (val m) del B e Hdel HB e0 e_small k _ _ I Hk i j). Qed.
Lemma bx i j : (i < n)%nat -> (j < n)%nat -> Rabs (B2R (at2 AR m2 i j)) <= 4 / 3 * B * (2 / del).
Proof.
  intros Hi Hj. pose proof (bnd_x n (val m) del B e Hdel HB e0 e_small k _ _ I Hk i j Hi Hj) as H. unfold val in H.
  apply Rmult_le_reg_l with (del / 2); [lra|]. replace (del / 2 * (4 / 3 * B * (2 / del))) with (4 / 3 * B) by (field; lra). exact H.
Qed.
Lemma px j : (j < n)%nat -> Rabs (B2R (at2 AR m2 k j) / B2R p) <= 2 / del.
Proof.
  intros Hj. apply Rmult_le_reg_l with (del / 2); [lra|]. replace (del / 2 * (2 / del)) with 1 by (field; lra).
  destruct (Nat.lt_trichotomy j k) as [H|[H|H]].
  - exact (piv_x n (val m) del B e Hdel e0 e_small k _ _ I Hk j H).
  - subst j. pose proof (iv_x _ _ _ _ _ _ _ _ I k k Hk ltac:(lia)) as E. unfold val in E. rewrite E. unfold dl. rewrite Nat.eqb_refl.
    exact (piv_1 n (val m) del B e Hdel e0 e_small k _ _ I Hk).
  - pose proof (iv_x _ _ _ _ _ _ _ _ I k j Hk ltac:(lia)) as E. unfold val in E. rewrite E. unfold dl. rewrite (proj2 (Nat.eqb_neq k j)) by lia.
    unfold Rdiv. rewrite Rmult_0_l, Rabs_R0. lra.
Qed.
Lemma d2 : 2 <= 2 / del.
Proof. apply Rmult_le_reg_r with del; [lra|]. replace (2 / del * del) with 2 by (field; lra). lra. Qed.
Lemma upM : 4 / 3 * B <= b2 (emax - 4).
Proof. apply Rle_trans with (b2 (prec + 1)); [|apply big; flia]. rewrite bpow_plus. change (b2 1) with 2. pose proof B_up. lra. Qed.
Lemma upX : 4 / 3 * B * (2 / del) <= b2 (emax - 4).
Proof.
  apply Rle_trans with (b2 (prec + 2)); [|apply big; flia]. replace (prec + 2)%Z with (prec + 1 + 1)%Z by lia. rewrite bpow_plus. change (b2 1) with 2.
  pose proof Bd_up. pose proof (bpow_gt_0 radix2 (prec + 1)). lra.
Qed.
Lemma one_m i j : (i < n)%nat -> (k < j < n)%nat -> fin (at2 AR m1' i j) /\ Rabs (B2R (at2 AR m1' i j) - ex (val m1) (val m1) k i j) <= e.
Proof.
  intros Hi Hj. pose proof u0 as Hu0. pose proof uB as HuB. pose proof eta_1 as He1. pose proof eta0 as He0. pose proof eta_B as HeB.
  destruct (elem_all p (at2 AR m1 k j) (at2 AR m1 i j) (at2 AR m1 i k) 1 (4 / 3 * B) (4 / 3 * B)) as ((X1 & X2) & (Y1 & Y2) & _).
  - apply (gd_fm _ _ _ G); lia.
  - apply (gd_fm _ _ _ G); lia.
  - apply (gd_fm _ _ _ G); lia.
  - apply p_nz.
  - apply p_inv1.
  - exact (piv_m n (val m) del B e Hdel e0 e_small k _ _ I Hk j Hj).
  - apply bm; lia.
  - apply bm; lia.
  - lra.
  - pose proof (bm k j Hk ltac:(lia)). nra.
  - nra.
  - apply (big 0). flia.
  - rewrite Rmult_1_r. apply upM.
  - apply upM.
  - rewrite (proj1 (E' i j Hi ltac:(lia))). unfold gstep, ex. destruct (Nat.eqb_spec i k) as [->|Hik].
    + split; [exact X1|]. apply Rle_trans with (1 := X2). unfold e. nra.
    + split; [exact Y1|]. apply Rle_trans with (1 := Y2). unfold e. nra.
Qed.
Lemma one_x i j : (i < n)%nat -> (j < n)%nat -> fin (at2 AR m2' i j) /\ del / 2 * Rabs (B2R (at2 AR m2' i j) - ex (val m1) (val m2) k i j) <= e /\
  ((k < j)%nat -> B2R (at2 AR m2' i j) = ex (val m1) (val m2) k i j).
Proof.
  intros Hi Hj. pose proof u0 as Hu0. pose proof uB as HuB. pose proof eta_1 as He1. pose proof eta0 as He0. pose proof eta_B as HeB. pose proof d2 as Hd2.
  destruct (elem_all p (at2 AR m2 k j) (at2 AR m2 i j) (at2 AR m1 i k) (2 / del) (4 / 3 * B) (4 / 3 * B * (2 / del))) as ((X1 & X2) & (Y1 & Y2) & Z).
  - apply (gd_fx _ _ _ G); lia.
  - apply (gd_fx _ _ _ G); lia.
  - apply (gd_fm _ _ _ G); lia.
  - apply p_nz.
  - apply p_inv1.
  - now apply px.
  - apply bm; lia.
  - now apply bx.
  - nra.
  - pose proof (bx k j Hk Hj). apply Rle_trans with (4 / 3 * B * (2 / del) * eta); [apply Rmult_le_compat_r; lra|].
    replace (4 / 3 * B * (2 / del) * eta) with (4 / 3 * B * eta * (2 / del)) by ring. apply Rmult_le_compat_r; lra.
  - assert (2 <= 4 / 3 * B * (2 / del)) by nra. nra.
  - apply Rle_trans with (2 := upX). nra.
  - apply upX.
  - apply upX.
  - assert (Hw : forall z, del / 2 * (u * (z * (2 / del))) = u * z) by (intros; field; lra).
    rewrite (proj2 (E' i j Hi ltac:(lia))). unfold gstep, ex. destruct (Nat.eqb_spec i k) as [->|Hik].
    + split; [exact X1|]. split.
      * apply Rle_trans with (del / 2 * (5 * u * (2 / del))); [apply Rmult_le_compat_l; [lra|exact X2]|].
        replace (5 * u * (2 / del)) with (u * (5 * (2 / del))) by ring. rewrite Hw. unfold e. nra.
      * intros Hkj. pose proof (iv_x _ _ _ _ _ _ _ _ I k j Hk ltac:(lia)) as E. unfold dl in E. rewrite (proj2 (Nat.eqb_neq k j)) in E by lia.
        rewrite E. unfold val in E. destruct (Z E) as [Z1 _]. fold r. unfold Rdiv. rewrite Rmult_0_l. exact Z1.
    + split; [exact Y1|]. split.
      * apply Rle_trans with (del / 2 * (u * (10 * (4 / 3 * B * (2 / del)) + 4 / 3 * B * (2 / del)))); [apply Rmult_le_compat_l; [lra|exact Y2]|].
        replace (10 * (4 / 3 * B * (2 / del)) + 4 / 3 * B * (2 / del)) with (44 / 3 * B * (2 / del)) by (field; lra). rewrite Hw. unfold e. nra.
      * intros Hkj. pose proof (iv_x _ _ _ _ _ _ _ _ I k j Hk ltac:(lia)) as E. unfold dl in E. rewrite (proj2 (Nat.eqb_neq k j)) in E by lia.
        rewrite E. unfold val in E. destruct (Z E) as [_ Z2]. fold r. unfold Rdiv. rewrite Rmult_0_l, Rmult_0_r, Rminus_0_r. exact Z2.
Qed.
Lemma good_next : Good (k + 1) m1' m2'.
Proof.
  split.
  - intros i j Hi Hj. apply one_m; lia.
  - intros i j Hi Hj. now apply one_x.
  - apply (inv_next n (val m) del B e Hdel HB e0 e_small Hrow k _ _ _ _ I Hk). split.
    + intros i j Hi Hj. now apply one_m.
    + intros i j Hi Hj. apply one_x; lia.
    + intros i j Hi Hj. apply one_x; lia.
Qed.
End One.

Lemma run_ok : forall k, (k <= n)%nat -> exists m1 m2,
  ret_fold (p_inv_step AR (Bdiv mode_NE) (fl_is_zero prec emax) n) (seq 0 k) (m, m_id AR n) = inl (m1, m2) /\ rect n n m2 /\ Good k m1 m2.
Proof.
  induction k as [|k IH]; intros Hk.
  - exists m, (m_id AR n). split; [reflexivity|]. split; [apply mat_rect|].
    assert (Ei : forall i j, (i < n)%nat -> (j < n)%nat -> at2 AR (m_id AR n) i j = if (i =? j)%nat then a_one AR else a_zero AR).
    { intros i j Hi Hj. unfold m_id. now rewrite at2_mat. }
    split.
    + intros i j Hi Hj. apply Hfin; lia.
    + intros i j Hi Hj. rewrite Ei by assumption. destruct (i =? j)%nat; [apply fone|reflexivity].
    + pose proof (inv_start n (val m) del B e Hrow Hdom) as I0. destruct I0 as [I1 I2 I3 I4 I5].
      assert (Ed : forall i j, (i < n)%nat -> (j < n)%nat -> val (m_id AR n) i j = dl i j).
      { intros i j Hi Hj. unfold val. rewrite Ei by assumption. unfold dl. destruct (i =? j)%nat; [apply fone|reflexivity]. }
      split.
      * intros i j Hi Hj. apply Ed; lia.
      * exact I2.
      * exact I3.
      * exact I4.
      * destruct I5 as (T & T0 & T1 & T2 & T3). exists T. split; [exact T0|]. split; [exact T1|]. split; [exact T2|].
        intros i j Hi Hj. rewrite (rsum_ext n _ (fun l => T i l * dl l j)); [now apply T3|]. intros l Hl. now rewrite Ed.
  - destruct (IH ltac:(lia)) as (m1 & m2 & E & R2 & G). rewrite seq_S, ret_fold_snoc, E. cbn [Nat.add].
    assert (Hz : fl_is_zero prec emax (at2 AR m1 k k) = false).
    { apply is_zero_false; [apply (gd_fm _ _ _ G); lia|]. apply (p_nz k m1 m2 ltac:(lia) G). }
    destruct (inv_step_fun AR (Bdiv mode_NE) (fl_is_zero prec emax) n k m1 m2 ltac:(lia) Hz) as (m1' & m2' & E1 & R1' & R2' & E2).
    exists m1', m2'. split; [exact E1|]. split; [exact R2'|]. rewrite <- Nat.add_1_r. apply (good_next k m1 m2 m1' m2'); [lia|exact G|exact E2].
Qed.
Lemma inv_ok : exists y, p_inv_big AR (Bdiv mode_NE) (fl_is_zero prec emax) n m = Some y /\ rect n n y /\
  forall i j, (i < n)%nat -> (j < n)%nat -> fin (at2 AR y i j) /\ Rabs (val y i j) <= 3 / del /\
  Rabs (rsum n (fun l => val m i l * val y l j) - dl i j) <= (9 * INR n + 6) * (INR n * (B * (15 * u * B))) / del.
Proof.
  destruct (run_ok n ltac:(lia)) as (m1 & m2 & E & R2 & G). exists m2. unfold p_inv_big. rewrite Nat.sub_0_r, E.
  split; [reflexivity|]. split; [exact R2|]. intros i j Hi Hj. split; [now apply (gd_fx _ _ _ G)|]. split.
  - exact (x_small n (val m) del B e Hdel e0 e_small _ _ (gd_inv _ _ _ G) i j Hi Hj).
  - exact (residual n (val m) del B e Hdel e0 e_small _ _ (gd_inv _ _ _ G) i j Hi Hj).
Qed.
End Run.
End Format.
