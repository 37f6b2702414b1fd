(** * Pow2Proofs.v - C98: floating-point arithmetic without overflow and underflow is arithmetic with
    an unbounded exponent, where powers of two commute with rounding (proofs only). *)
From Coq Require Import List Arith Bool Lia ZArith Reals Lra.
From Flocq Require Import Core BinarySingleNaN Relative Plus_error.
From Verif Require Import Rust Iter Elem SpecCommon SpecAlg FloatM SpecReal SpecPost SpecRel SpecPow2.
From Verif Require Import IterProofs Sim FloatErr FloatPost ZGrade PropsFloat PropsFloatErr ScaleProofs.
Import ListNotations.
Local Open Scope R_scope.

Section Unbounded.
Variable prec : Z.
Context {Hp : Prec_gt_0 prec}.
Definition rx (r : R) : R := round radix2 (FLX_exp prec) (round_mode mode_NE) r.
Lemma rx_scale k r : rx (b2 k * r) = b2 k * rx r.
Proof.
  unfold rx, round, F2R, cexp, scaled_mantissa, cexp. cbn [Fnum Fexp].
  destruct (Req_dec r 0) as [->|N].
  - rewrite Rmult_0_r, !Rmult_0_l. cbn [round_mode]. rewrite (Zrnd_IZR ZnearestE 0). ring.
  - rewrite (Rmult_comm (b2 k) r). rewrite mag_mult_bpow by exact N. unfold FLX_exp.
    replace (r * b2 k * b2 (- (mag radix2 r + k - prec))) with (r * b2 (- (mag radix2 r - prec))).
    2:{ rewrite Rmult_assoc, <- bpow_plus. f_equal. f_equal. lia. }
    rewrite (Rmult_comm (b2 k)), Rmult_assoc, <- bpow_plus. f_equal. f_equal. lia.
Qed.
Definition x_arith : arith R := Arith 0 1 (fun x y => rx (x + y)) (fun x y => rx (x - y)) (fun x y => rx (x * y)) Ropp.
Definition x_div (x y : R) : R := rx (x / y).
Definition x_iz (x : R) : bool := Req_bool x 0.
Definition srel (k : Z) (x y : R) : Prop := y = b2 k * x.
Lemma x_graded : zgraded x_arith x_div x_iz srel.
Proof.
  split; unfold srel; cbn [x_arith a_zero a_one a_add a_sub a_mul a_neg].
  - intros k. ring.
  - change (b2 0) with 1. ring.
  - intros k x y x' y' -> ->. rewrite <- rx_scale. f_equal. ring.
  - intros k x y x' y' -> ->. rewrite <- rx_scale. f_equal. ring.
  - intros k k' x y x' y' -> ->. rewrite <- rx_scale. f_equal. rewrite bpow_plus. ring.
  - intros k x y ->. ring.
  - intros k k' x y x' y' -> -> Z. unfold x_div. rewrite <- rx_scale. f_equal. unfold x_iz in Z.
    destruct (Req_bool_spec x' 0) as [|N]; [discriminate|]. pose proof (bpow_gt_0 radix2 k').
    unfold Z.sub. rewrite bpow_plus, bpow_opp. field. split; lra.
  - intros k x y ->. unfold x_iz. pose proof (bpow_gt_0 radix2 k). destruct (Req_bool_spec x 0) as [Z|N], (Req_bool_spec (b2 k * x) 0) as [E|N']; try reflexivity.
    + elim N'. rewrite Z. ring.
    + apply Rmult_integral in E. destruct E; [lra|contradiction].
  Qed.
Lemma x_div_all k k' x y x' y' : srel k x y -> srel k' x' y' -> srel (k - k') (x_div x x') (x_div y y').
Proof.
  intros H H'. destruct (Req_bool_spec x' 0) as [Z|N].
  - unfold srel in *. subst. unfold x_div, Rdiv. rewrite Rmult_0_r, Rinv_0, !Rmult_0_r. unfold rx. rewrite round_0 by apply valid_rnd_round_mode. ring.
  - apply (zg_div _ _ _ _ x_graded); [exact H|exact H'|]. unfold x_iz. now rewrite Req_bool_false.
Qed.
Lemma x_sqrt k x : rx (sqrt (b2 (k + k) * x)) = b2 k * rx (sqrt x).
Proof.
  rewrite <- rx_scale. f_equal. pose proof (bpow_gt_0 radix2 k). rewrite sqrt_mult_alt by (apply bpow_ge_0).
  f_equal. rewrite bpow_plus. apply sqrt_square. lra.
Qed.
End Unbounded.

Section Float.
Context {t : float_type}.
Local Notation FL := (float t).
Local Notation prec := (fprec t).
Local Notation emax := (femax t).
Local Notation fexp := (SpecFloat.fexp prec emax).
Local Notation rnd := (round radix2 fexp (round_mode mode_NE)).
Local Notation emin := (3 - emax - prec)%Z.
Lemma pr_big : (24 <= prec /\ 128 <= emax /\ 4 * prec <= emax)%Z.
Proof. destruct t; cbn; lia. Qed.
Lemma small_spec (x : FL) : small x = true <-> fin x /\ Rabs (B2R x) <= b2 (2 - emax).
Proof.
  pose proof pr_big as PB. unfold fin. destruct x as [s|s| |s m e h]; cbn [small is_finite].
  - split; [|reflexivity]. intros _. split; [reflexivity|]. cbn. rewrite Rabs_R0. apply bpow_ge_0.
  - split; [discriminate|]. intros [H _]. discriminate.
  - split; [discriminate|]. intros [H _]. discriminate.
  - assert (E : Rabs (B2R (B754_finite s m e h : FL)) = IZR (Z.pos m) * b2 e).
    { cbn [B2R]. rewrite <- F2R_Zabs. unfold F2R. cbn [Fnum Fexp]. destruct s; reflexivity. }
    rewrite E. clear E. unfold SpecFloat.bounded in h. apply andb_prop in h as [h _]. unfold SpecFloat.canonical_mantissa in h. apply Zeq_bool_eq in h.
    unfold SpecFloat.fexp, SpecFloat.emin in h. rewrite Digits.Zpos_digits2_pos in h.
    pose proof (Digits.Zdigits_correct radix2 (Z.pos m)) as [D1 _]. rewrite Z.abs_eq in D1 by lia. set (d := Digits.Zdigits radix2 (Z.pos m)) in *.
    assert (Hd : (0 < d)%Z) by (apply Digits.Zdigits_gt_0; lia). change (radix_val radix2) with 2%Z in D1.
    split.
    + intros H. apply andb_prop in H as [H1 H2]. apply Z.eqb_eq in H1. apply Z.leb_le in H2. split; [reflexivity|].
      apply Rle_trans with (b2 (prec - 1) * b2 e).
      * apply Rmult_le_compat_r; [apply bpow_ge_0|]. rewrite <- IZR_Zpower by lia. apply IZR_le. exact H2.
      * rewrite <- bpow_plus. apply bpow_le. lia.
    + intros [_ H]. assert (He : e = emin).
      { destruct (Z.eq_dec e emin) as [|N]; [assumption|]. assert (d = prec) by lia. exfalso. apply Rle_not_lt in H. apply H. clear H.
        apply Rlt_le_trans with (b2 (d - 1) * b2 e).
        - rewrite <- bpow_plus. apply bpow_lt. lia.
        - apply Rmult_le_compat_r; [apply bpow_ge_0|]. rewrite <- IZR_Zpower by lia. apply IZR_le. exact D1. }
      apply andb_true_intro. split; [now apply Z.eqb_eq|]. apply Z.leb_le. apply le_IZR. change 2%Z with (radix_val radix2). rewrite IZR_Zpower by lia.
      apply Rmult_le_reg_r with (b2 e); [apply bpow_gt_0|]. rewrite <- bpow_plus. rewrite He in H |- *. replace (prec - 1 + emin)%Z with (2 - emax)%Z by lia. exact H.
Qed.
Lemma zero_spec (x : FL) : fin x -> (zero x = true <-> B2R x = 0).
Proof.
  unfold fin. destruct x as [s|s| |s m e h]; try discriminate; intros _; cbn [zero]; split; try reflexivity; try discriminate.
  intros E. exfalso. revert E. unfold B2R. destruct s; cbn [cond_Zopp]; apply F2R_neq_0; discriminate.
Qed.
(** Rounding with the exponent bounded below and unbounded. *)
Lemma rnd_rx_normal r : b2 (2 - emax) <= Rabs r -> rnd r = rx prec r.
Proof.
  intros H. unfold rx. apply (round_FLT_FLX radix2 emin prec). apply Rle_trans with (2 := H). apply bpow_le. lia.
Qed.
Lemma rnd_rx_big r : b2 (2 - emax) < Rabs (rnd r) -> rnd r = rx prec r.
Proof.
  intros H. apply rnd_rx_normal. destruct (Rle_or_lt (b2 (2 - emax)) (Rabs r)) as [L|L]; [exact L|]. exfalso.
  pose proof pr_big. assert (K : Rabs (rnd r) <= b2 (2 - emax)); [|lra].
  apply abs_round_le_generic; auto with typeclass_instances; [apply fexp_correct; exact (fprec_gt t)| |lra]. apply generic_format_bpow. unfold SpecFloat.fexp, SpecFloat.emin. lia.
Qed.
Lemma rnd_rx_0 : rnd 0 = rx prec 0.
Proof. unfold rx. now rewrite !round_0 by auto with typeclass_instances. Qed.
Lemma fmt_FLT (x : FL) : generic_format radix2 (FLT_exp emin prec) (B2R x).
Proof. exact (generic_format_B2R prec emax x). Qed.
Lemma rnd_rx_plus r q : generic_format radix2 (FLT_exp emin prec) r -> generic_format radix2 (FLT_exp emin prec) q -> rnd (r + q) = rx prec (r + q).
Proof.
  intros Hr Hq. destruct (Rle_or_lt (b2 (2 - emax)) (Rabs (r + q))) as [L|L]; [now apply rnd_rx_normal|].
  assert (G : generic_format radix2 (FLT_exp emin prec) (r + q)).
  { apply FLT_format_plus_small; auto with typeclass_instances. pose proof pr_big. apply Rlt_le, Rlt_le_trans with (1 := L), bpow_le. lia. }
  unfold rx. rewrite (round_generic radix2 (FLX_exp prec)); auto with typeclass_instances; [|exact (generic_format_FLX_FLT _ _ _ _ G)].
  apply round_generic; auto with typeclass_instances.
Qed.
(** ** The operators: when they return, and what *)
Definition Rl (x : FL) (r : R) : Prop := fin x /\ B2R x = r.
Local Notation big r := (negb (Rlt_bool (Rabs (rnd r)) (b2 emax))).
Local Notation low r := (Rle_bool (Rabs (rnd r)) (b2 (2 - emax))).
Lemma small_low (z : FL) r : fin z -> B2R z = rnd r -> small z = low r.
Proof.
  intros F E. pose proof (small_spec z) as Sp. rewrite E in Sp. destruct (Rle_bool_spec (Rabs (rnd r)) (b2 (2 - emax))) as [L|L].
  - apply Sp. split; [exact F|exact L].
  - destruct (small z) eqn:Es; [|reflexivity]. destruct (proj1 Sp eq_refl) as [_ H]. lra.
Qed.
Lemma zero_req (x : FL) r : Rl x r -> zero x = Req_bool r 0.
Proof.
  intros [F <-]. pose proof (zero_spec x F) as Z. destruct (Req_bool_spec (B2R x) 0) as [E|N]; [now apply Z|].
  destruct (zero x); [|reflexivity]. elim N. now apply Z.
Qed.
Lemma plus_when (x y : FL) r q : Rl x r -> Rl y q -> is_finite (Bplus mode_NE x y) = negb (big (r + q)) /\
  (fin (Bplus mode_NE x y) -> B2R (Bplus mode_NE x y) = rx prec (r + q)).
Proof.
  intros [Fx <-] [Fy <-]. rewrite negb_involutive. pose proof (Bplus_correct prec emax _ _ mode_NE x y Fx Fy) as C. destruct (Rlt_bool _ _).
  - destruct C as (C & F & _). split; [exact F|]. intros _. rewrite C. apply rnd_rx_plus; apply fmt_FLT.
  - destruct C as [C _]. pose proof (overflow_nf _ _ C) as N. split; [apply not_true_is_false; exact N|]. intros H. elim N. exact H.
Qed.
Lemma minus_when (x y : FL) r q : Rl x r -> Rl y q -> is_finite (Bminus mode_NE x y) = negb (big (r - q)) /\
  (fin (Bminus mode_NE x y) -> B2R (Bminus mode_NE x y) = rx prec (r - q)).
Proof.
  intros [Fx <-] [Fy <-]. rewrite negb_involutive. pose proof (Bminus_correct prec emax _ _ mode_NE x y Fx Fy) as C. destruct (Rlt_bool _ _).
  - destruct C as (C & F & _). split; [exact F|]. intros _. rewrite C. unfold Rminus. apply rnd_rx_plus; [|apply generic_format_opp]; apply fmt_FLT.
  - destruct C as [C _]. pose proof (overflow_nf _ _ C) as N. split; [apply not_true_is_false; exact N|]. intros H. elim N. exact H.
Qed.
Lemma mult_when (x y : FL) r q : Rl x r -> Rl y q -> let z := Bmult mode_NE x y in
  negb (is_finite z) || (small z && negb (zero x) && negb (zero y)) = big (r * q) || (low (r * q) && negb (Req_bool r 0) && negb (Req_bool q 0)) /\
  (negb (is_finite z) || (small z && negb (zero x) && negb (zero y)) = false -> Rl z (rx prec (r * q))).
Proof.
  intros Hx Hy z. rewrite (zero_req _ _ Hx), (zero_req _ _ Hy). destruct Hx as [Fx Er], Hy as [Fy Eq]. unfold fin in Fx, Fy.
  pose proof (Bmult_correct prec emax _ _ mode_NE x y) as C. rewrite Er, Eq in C. destruct (Rlt_bool _ _).
  - destruct C as (C & F & _). fold z in C, F. rewrite Fx, Fy in F. cbn [andb] in F. rewrite F. cbn [negb orb]. rewrite (small_low z _ F C).
    split; [reflexivity|]. intros K. split; [exact F|]. rewrite C.
    destruct (Req_bool_spec r 0) as [E|_]; [rewrite E, Rmult_0_l; apply rnd_rx_0|]. destruct (Req_bool_spec q 0) as [E|_]; [rewrite E, Rmult_0_r; apply rnd_rx_0|].
    cbn [negb] in K. rewrite !andb_true_r in K. apply rnd_rx_big. destruct (Rle_bool_spec (Rabs (rnd (r * q))) (b2 (2 - emax))); [discriminate|assumption].
  - pose proof (overflow_nf _ _ C) as N. fold z in N. apply not_true_is_false in N. rewrite N. split; [reflexivity|discriminate].
Qed.
Lemma div_when (x y : FL) r q : Rl x r -> Rl y q -> let z := Bdiv mode_NE x y in
  negb (is_finite y) || negb (is_finite z) || (small z && negb (zero x)) = Req_bool q 0 || big (r / q) || (low (r / q) && negb (Req_bool r 0)) /\
  (negb (is_finite y) || negb (is_finite z) || (small z && negb (zero x)) = false -> Rl z (rx prec (r / q))).
Proof.
  intros Hx Hy z. rewrite (zero_req _ _ Hx). destruct Hx as [Fx Er], Hy as [Fy Eq]. pose proof Fy as Fy'. unfold fin in Fx, Fy'. rewrite Fy'. cbn [negb orb].
  destruct (Req_bool_spec q 0) as [E|N0].
  - assert (Fz : is_finite z = false).
    { destruct (is_finite z) eqn:Fz; [|reflexivity]. destruct (nf_div x y Fy Fz) as [_ K]. rewrite Eq in K. contradiction. }
    rewrite Fz. split; [reflexivity|discriminate].
  - rewrite <- Eq in N0. pose proof (Bdiv_correct prec emax _ _ mode_NE x y N0) as C. rewrite Er, Eq in C. destruct (Rlt_bool _ _).
    + destruct C as (C & F & _). fold z in C, F. rewrite Fx in F. rewrite F. cbn [negb orb]. rewrite (small_low z _ F C).
      split; [reflexivity|]. intros K. split; [exact F|]. rewrite C.
      destruct (Req_bool_spec r 0) as [E|_]; [rewrite E; unfold Rdiv; rewrite Rmult_0_l; apply rnd_rx_0|].
      cbn [negb] in K. rewrite !andb_true_r in K. apply rnd_rx_big. destruct (Rle_bool_spec (Rabs (rnd (r / q))) (b2 (2 - emax))); [discriminate|assumption].
    + pose proof (overflow_nf _ _ C) as N. fold z in N. apply not_true_is_false in N. rewrite N. split; [reflexivity|discriminate].
Qed.
Lemma sqrt_when (x : FL) r : Rl x r -> is_finite (Bsqrt mode_NE x) = Rle_bool 0 r /\
  (fin (Bsqrt mode_NE x) -> B2R (Bsqrt mode_NE x) = rx prec (sqrt r)).
Proof.
  intros [Fx <-]. pose proof pr_big as PB. destruct (Bsqrt_correct prec emax _ _ mode_NE x) as (C & F & _). split.
  - rewrite F. destruct x as [s|s| |s m e h]; try discriminate Fx.
    + cbn [B2R]. symmetry. apply Rle_bool_true. lra.
    + unfold B2R. destruct s; cbn [cond_Zopp]; symmetry.
      * apply Rle_bool_false. apply F2R_lt_0. reflexivity.
      * apply Rle_bool_true. apply F2R_ge_0. cbn. lia.
  - intros Fs. rewrite C. destruct (Req_dec (B2R x) 0) as [->|N]; [rewrite sqrt_0; apply rnd_rx_0|].
    assert (P : 0 < B2R x).
    { unfold fin in Fs. rewrite F in Fs. destruct x as [s|s| |s m e h]; try discriminate; [now elim N|]. destruct s; [discriminate|]. unfold B2R. apply F2R_gt_0. reflexivity. }
    apply rnd_rx_normal. rewrite Rabs_pos_eq by apply sqrt_pos.
    apply Rle_trans with (sqrt (b2 emin)).
    + apply Rle_trans with (2 := sqrt_bpow_ge radix2 _). apply bpow_le. apply Z.div_le_lower_bound; lia.
    + apply sqrt_le_1_alt. apply (generic_format_ge_bpow radix2 (FLT_exp emin prec)); [|exact P|apply fmt_FLT].
      intros e. unfold FLT_exp. lia.
Qed.

(** ** The same operators on real numbers *)
Definition xt_ops {S} : ops S R :=
  Ops 0 1 (fun r q => unless (big (r + q)) (rx prec (r + q))) (fun r q => unless (big (r - q)) (rx prec (r - q)))
    (fun r q => unless (big (r * q) || (low (r * q) && negb (Req_bool r 0) && negb (Req_bool q 0))) (rx prec (r * q)))
    (fun r q => unless (Req_bool q 0 || big (r / q) || (low (r / q) && negb (Req_bool r 0))) (rx prec (r / q)))
    (fun r => ret (- r)) (x_iz) ret.
Section Alike.
Context {S1 S2 : Type}.
Local Notation any := (fun (_ : S1) (_ : S2) => True).
Lemma alike_unless {A B} (R : A -> B -> Prop) b b' x y : b = b' -> (b = false -> R x y) -> alike any R (unless b x) (unless b' y).
Proof. intros <- H s1 s2 _. unfold unless. destruct b; cbn; auto. Qed.
Lemma alike_ret {A B} (R : A -> B -> Prop) x y : R x y -> alike any R (ret x) (ret y).
Proof. intros H s1 s2 _. cbn. auto. Qed.
Lemma B2R_one : B2R (@Bone prec emax _ _) = 1.
Proof. apply Bone_correct. Qed.
Lemma Rl_zero : Rl (B754_zero false) 0. Proof. split; reflexivity. Qed.
Lemma Rl_one : Rl Bone 1. Proof. split; [apply is_finite_Bone|apply B2R_one]. Qed.
Lemma careful_alike : ops_alike any Rl (careful_ops t) xt_ops.
Proof.
  split; [split|..]; cbn [careful_ops xt_ops o_zero o_one o_add o_sub o_mul o_div o_neg o_is_zero o_clone].
  - exact Rl_zero.
  - exact Rl_one.
  - intros x r y q Hx Hy. destruct (plus_when _ _ _ _ Hx Hy) as [E V]. apply alike_unless; [rewrite E; apply negb_involutive|].
    intros K. apply negb_false_iff in K. split; [exact K|now apply V].
  - intros x r y q Hx Hy. destruct (minus_when _ _ _ _ Hx Hy) as [E V]. apply alike_unless; [rewrite E; apply negb_involutive|].
    intros K. apply negb_false_iff in K. split; [exact K|now apply V].
  - intros x r y q Hx Hy. destruct (mult_when _ _ _ _ Hx Hy) as [E V]. now apply alike_unless.
  - intros x r [Fx Ex]. apply alike_ret. split; [unfold fin; now rewrite is_finite_Bopp|]. now rewrite B2R_Bopp, Ex.
  - intros x r Hx. now apply alike_ret.
  - intros x r y q Hx Hy. destruct (div_when _ _ _ _ Hx Hy) as [E V]. now apply alike_unless.
  - intros x r Hx. unfold x_iz. rewrite <- (zero_req _ _ Hx). destruct Hx as [F _]. destruct x as [s|s| |s m e h]; try discriminate F; [now destruct s|]. now destruct s.
Qed.
Lemma square_alike : op1_alike any Rl Rl (f_powi2 (careful_fops t)) (fun r => o_mul xt_ops r r).
Proof. intros x r Hx. apply (ra_mul _ _ _ _ (oa_ring _ _ _ _ careful_alike)); exact Hx. Qed.
Lemma sqrt_alike : op1_alike any Rl Rl (f_sqrt (careful_fops t)) (fun r => unless (negb (Rle_bool 0 r)) (rx prec (sqrt r))).
Proof.
  intros x r Hx. destruct (sqrt_when _ _ Hx) as [E V]. apply alike_unless; [now rewrite E|]. intros K. apply negb_false_iff in K. split; [exact K|now apply V].
Qed.
End Alike.
(** Each returns the value of unbounded-exponent arithmetic, or panics. *)
Lemma sim_unless {S A} b (x y : A) : (b = false -> x = y) -> sim (S := S) true eq (unless b x) y.
Proof. intros H s. unfold unless. destruct b; [right; split; [reflexivity|now exists s]|left; exists x; split; [reflexivity|now apply H]]. Qed.
Lemma xt_sim {S} : sim_ring true eq (xt_ops (S := S)) (x_arith prec).
Proof.
  split; [split|..]; cbn [xt_ops x_arith o_zero o_one o_add o_sub o_mul o_neg o_clone a_zero a_one a_add a_sub a_mul a_neg]; try reflexivity.
  - intros x y x' y' -> ->. now apply sim_unless.
  - intros x y x' y' -> ->. now apply sim_unless.
  - intros x s. reflexivity.
  - intros x y x' y' -> ->. now apply sim_unless.
  - intros x x' ->. now apply sim_ret.
Qed.
Lemma xt_div {S} x y : sim (S := S) true eq (o_div xt_ops x y) (x_div prec x y).
Proof. now apply sim_unless. Qed.
(** And when the careful arithmetic returns, so does the ordinary one. *)
Lemma careful_sim {S} : sim_ring true eq (careful_ops t (S := S)) (float_arith t).
Proof.
  split; [split|..]; cbn [careful_ops float_arith fl_arith o_zero o_one o_add o_sub o_mul o_neg o_clone a_zero a_one a_add a_sub a_mul a_neg]; try reflexivity.
  - intros x y x' y' -> ->. now apply sim_unless.
  - intros x y x' y' -> ->. now apply sim_unless.
  - intros x s. reflexivity.
  - intros x y x' y' -> ->. now apply sim_unless.
  - intros x x' ->. now apply sim_ret.
Qed.
Lemma careful_div {S} x y : sim (S := S) true eq (o_div (careful_ops t) x y) (Bdiv mode_NE x y).
Proof. now apply sim_unless. Qed.
End Float.

Section Lift.
Context {t : float_type}.
Local Notation FL := (float t).
Local Notation XA := (x_arith (fprec t)).
Local Notation bv := (map (@B2R (fprec t) (femax t))).
Local Notation bm := (map (map (@B2R (fprec t) (femax t)))).
Local Notation z0 := (B754_zero false : FL).
Lemma careful_simx {S} : sim_ring true Rl (careful_ops t (S := S)) XA.
Proof.
  assert (U : forall b (z : FL) p, (b = false -> Rl z p) -> sim (S := S) true Rl (unless b z) p).
  { intros b z p H s. unfold unless. destruct b; [right; split; [reflexivity|now exists s]|left; exists z; split; [reflexivity|now apply H]]. }
  split; [split|..]; cbn [careful_ops x_arith o_zero o_one o_add o_sub o_mul o_neg o_clone a_zero a_one a_add a_sub a_mul a_neg].
  - exact Rl_zero.
  - exact Rl_one.
  - intros x y r q Hx Hy. destruct (plus_when _ _ _ _ Hx Hy) as [E V]. apply U. intros K. apply negb_false_iff in K. split; [exact K|now apply V].
  - intros x y r q Hx Hy. destruct (mult_when _ _ _ _ Hx Hy) as [E V]. now apply U.
  - intros x s. reflexivity.
  - intros x y r q Hx Hy. destruct (minus_when _ _ _ _ Hx Hy) as [E V]. apply U. intros K. apply negb_false_iff in K. split; [exact K|now apply V].
  - intros x r [Fx Ex]. apply sim_ret. split; [unfold fin; now rewrite is_finite_Bopp|]. now rewrite B2R_Bopp, Ex.
Qed.
Lemma careful_divx {S} (x y : FL) r q : Rl x r -> Rl y q -> sim (S := S) true Rl (o_div (careful_ops t) x y) (x_div (fprec t) r q).
Proof.
  intros Hx Hy s. destruct (div_when _ _ _ _ Hx Hy) as [E V]. cbn [careful_ops o_div]. unfold unless.
  match goal with |- context [if ?b then _ else _] => destruct b eqn:K end; [right; split; [reflexivity|now exists s]|left; eexists; split; [reflexivity|now apply V]].
Qed.
Lemma sqrt_simx {S} (x : FL) r : Rl x r -> sim (S := S) true Rl (f_sqrt (careful_fops t) x) (rx (fprec t) (sqrt r)).
Proof.
  intros Hx s. destruct (sqrt_when _ _ Hx) as [E V]. cbn [careful_fops f_sqrt]. unfold unless.
  destruct (is_finite (Bsqrt mode_NE x)) eqn:K; [left; eexists; split; [reflexivity|split; [exact K|now apply V]]|right; split; [reflexivity|now exists s]].
Qed.
Lemma sqrt_simq {S} (x : FL) : sim (S := S) true eq (f_sqrt (careful_fops t) x) (Bsqrt mode_NE x).
Proof. now apply sim_unless. Qed.
(** Outcomes. *)
Lemma ok_run {S A B} pa (R : A -> B -> Prop) (m : M S A) p x s s' : sim pa R m p -> m s = (Ok x, s') -> R x p.
Proof. intros H E. destruct (H s) as [(a & E' & Ha)|(_ & s2 & E')]; rewrite E' in E; [|discriminate]. injection E as <- _. exact Ha. Qed.
Lemma alike_run {S1 S2 A B} (R : A -> B -> Prop) (m1 : M S1 A) (m2 : M S2 B) p x s1 s1' (s2 : S2) : alike (fun _ _ => True) R m1 m2 -> sim true eq m2 p -> m1 s1 = (Ok x, s1') -> R x p.
Proof.
  intros H Hs E. destruct (H s1 s2 I) as [K _]. rewrite E in K. destruct (Hs s2) as [(a & E' & Ha)|(_ & s3 & E')]; rewrite E' in K; cbn in K; [now subst|contradiction].
Qed.
(** Real vectors and matrices. *)
Lemma at1_bv (v : list FL) i : at1 XA (bv v) i = B2R (nth i v z0).
Proof. unfold at1. cbn [x_arith a_zero]. change 0 with (B2R z0) at 1. apply map_nth. Qed.
Lemma at2_bm (m : list (list FL)) i j : at2 XA (bm m) i j = B2R (nth j (nth i m []) z0).
Proof. unfold at2. change (@nil R) with (bv []) at 1. rewrite map_nth. apply at1_bv. Qed.
Lemma Rl_v (v : list FL) : (forall i, (i < length v)%nat -> fin (nth i v z0)) -> Forall2 Rl v (bv v).
Proof.
  induction v as [|x v IH]; intros H; cbn; constructor.
  - split; [apply (H 0%nat); cbn; lia|reflexivity].
  - apply IH. intros i Hi. apply (H (Datatypes.S i)). cbn. lia.
Qed.
Lemma Rl_m row col (m : list (list FL)) : rect row col m -> (forall i j, (i < row)%nat -> (j < col)%nat -> fin (nth j (nth i m []) z0)) -> Forall2 (Forall2 Rl) m (bm m).
Proof.
  intros [L Hc] H. subst row. induction m as [|r m IH]; cbn; constructor.
  - apply Rl_v. intros j Hj. inversion Hc; subst. apply (H 0%nat j); [cbn; lia|exact Hj].
  - inversion Hc; subst. apply IH; [assumption|]. intros i j Hi Hj. apply (H (Datatypes.S i) j); [cbn; lia|exact Hj].
Qed.
Lemma Forall2_at {A B} (R : A -> B -> Prop) l l' i a b : Forall2 R l l' -> R a b -> R (nth i l a) (nth i l' b).
Proof. intros H Hd. revert i. induction H; intros [|i]; cbn; auto. Qed.
Lemma scaled_srel (k : Z) (x y : FL) : scaled k x y <-> fin x /\ fin y /\ srel k (B2R x) (B2R y).
Proof. reflexivity. Qed.
Lemma s1_len n f (v w : list FL) : scaled1 n f v w -> length v = n /\ length w = n.
Proof. intros (H1 & H2 & _). now split. Qed.
Lemma s1_rel n f (v w : list FL) : scaled1 n f v w -> Forall2 Rl v (bv v) /\ Forall2 Rl w (bv w) /\ length (bv v) = n /\ length (bv w) = n /\
  forall i, (i < n)%nat -> srel (f i) (at1 XA (bv v) i) (at1 XA (bv w) i).
Proof.
  intros (L1 & L2 & H). split; [apply Rl_v; intros i Hi; apply H; lia|]. split; [apply Rl_v; intros i Hi; apply H; lia|]. rewrite !map_length. split; [exact L1|]. split; [exact L2|].
  intros i Hi. rewrite !at1_bv. apply H, Hi.
Qed.
Lemma s1_intro n f (p q : list FL) P Q : Forall2 Rl p P -> Forall2 Rl q Q -> length P = n -> length Q = n ->
  (forall i, (i < n)%nat -> srel (f i) (at1 XA P i) (at1 XA Q i)) -> scaled1 n f p q.
Proof.
  intros H1 H2 L1 L2 H. split; [rewrite <- L1; eapply Forall2_length; exact H1|]. split; [rewrite <- L2; eapply Forall2_length; exact H2|].
  intros i Hi. pose proof (Forall2_at _ _ _ i z0 0 H1 Rl_zero) as [F1 E1]. pose proof (Forall2_at _ _ _ i z0 0 H2 Rl_zero) as [F2 E2].
  split; [exact F1|]. split; [exact F2|]. rewrite E1, E2. now apply H.
Qed.
Lemma s2_rect row col f g (m p : list (list FL)) : scaled2 row col f g m p -> rect row col m /\ rect row col p.
Proof.
  intros (L1 & L2 & Lc & _). split; (split; [assumption|]); apply Forall_forall; intros r Hr; apply In_nth with (d := []) in Hr; destruct Hr as (i & Hi & <-); apply Lc; lia.
Qed.
Lemma s2_rel row col f g (m p : list (list FL)) : scaled2 row col f g m p -> Forall2 (Forall2 Rl) m (bm m) /\ Forall2 (Forall2 Rl) p (bm p) /\
  forall i j, (i < row)%nat -> (j < col)%nat -> srel (f i + g j) (at2 XA (bm m) i j) (at2 XA (bm p) i j).
Proof.
  intros H. destruct (s2_rect _ _ _ _ _ _ H) as [R1 R2]. destruct H as (_ & _ & _ & H).
  split; [apply (Rl_m row col); [exact R1|]; intros i j Hi Hj; now apply H|]. split; [apply (Rl_m row col); [exact R2|]; intros i j Hi Hj; now apply H|].
  intros i j Hi Hj. rewrite !at2_bm. now apply H.
Qed.
Lemma s2_intro row col f g (m p : list (list FL)) M P : Forall2 (Forall2 Rl) m M -> Forall2 (Forall2 Rl) p P -> rect row col M -> rect row col P ->
  (forall i j, (i < row)%nat -> (j < col)%nat -> srel (f i + g j) (at2 XA M i j) (at2 XA P i j)) -> scaled2 row col f g m p.
Proof.
  intros H1 H2 [L1 C1] [L2 C2] H. assert (E1 := Forall2_length _ _ _ H1). assert (E2 := Forall2_length _ _ _ H2).
  split; [now rewrite E1|]. split; [now rewrite E2|].
  assert (Row1 : forall i, Forall2 Rl (nth i m []) (nth i M [])) by (intros i; apply (Forall2_at _ _ _ i [] [] H1); constructor).
  assert (Row2 : forall i, Forall2 Rl (nth i p []) (nth i P [])) by (intros i; apply (Forall2_at _ _ _ i [] [] H2); constructor).
  split.
  - intros i Hi. rewrite (Forall2_length _ _ _ (Row1 i)), (Forall2_length _ _ _ (Row2 i)). rewrite Forall_forall in C1, C2. split; [apply C1|apply C2]; apply nth_In; lia.
  - intros i j Hi Hj. pose proof (Forall2_at _ _ _ j z0 0 (Row1 i) Rl_zero) as [F1 V1]. pose proof (Forall2_at _ _ _ j z0 0 (Row2 i) Rl_zero) as [F2 V2].
    split; [exact F1|]. split; [exact F2|]. rewrite V1, V2. now apply H.
Qed.
Lemma bm_rect row col (m : list (list FL)) : rect row col m -> rect row col (bm m).
Proof. intros [L C]. split; [now rewrite map_length|]. apply Forall_map. eapply Forall_impl; [|exact C]. intros r <-. now rewrite map_length. Qed.
End Lift.
