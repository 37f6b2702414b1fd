(** * PropsFloatInt.v - C74: on integers below 2^precision, float vector and matrix arithmetic
    is exact. *)
From Coq Require Import List Arith Bool Lia ZArith Reals Lra.
From Flocq Require Import Core BinarySingleNaN Relative Plus_error.
From Verif Require Import Rust Iter Elem VectorM MatIterM MatrixM ArithM OpsM SpecCommon SpecAlg FloatM SpecReal.
From Verif Require Import Harness AccProofs Sim PropsAlg DetLoop OpsPure FloatErr PropsFloat PropsFloatErr PropsFloatInv.
Import ListNotations.
Local Open Scope R_scope.

Section Format.
Context {prec emax : Z} {Hgt : Prec_gt_0 prec} {Hlt : Prec_lt_emax prec emax} {OK : fmt_ok prec emax}.
Local Notation FL := (fl prec emax).
Local Notation AR := (fl_arith prec emax Hgt Hlt).
Local Notation OP := (fl_ops prec emax Hgt Hlt).
Local Notation fexp := (SpecFloat.fexp prec emax).
Local Notation rnd := (round radix2 fexp (round_mode mode_NE)).
Ltac flia := pose proof (@ok_prec _ _ OK); pose proof (@ok_emax _ _ OK); lia.
(** A real integer of absolute value at most 2^p is a float. *)
Definition wz (r : R) : Prop := exists z : Z, r = IZR z.
Lemma wz_plus a b : wz a -> wz b -> wz (a + b).
Proof. intros [x ->] [y ->]. exists (x + y)%Z. now rewrite plus_IZR. Qed.
Lemma wz_minus a b : wz a -> wz b -> wz (a - b).
Proof. intros [x ->] [y ->]. exists (x - y)%Z. now rewrite minus_IZR. Qed.
Lemma wz_mult a b : wz a -> wz b -> wz (a * b).
Proof. intros [x ->] [y ->]. exists (x * y)%Z. now rewrite mult_IZR. Qed.
Lemma wz_fmt r : wz r -> Rabs r <= b2 prec -> generic_format radix2 fexp r.
Proof.
  intros [z ->] H. destruct (Rle_lt_or_eq_dec _ _ H) as [L|E].
  - apply generic_format_FLT. exists (Float radix2 z 0); cbn [Fnum Fexp].
    + unfold F2R. cbn. ring.
    + apply lt_IZR. rewrite abs_IZR. change 2%Z with (radix_val radix2). rewrite IZR_Zpower by flia. exact L.
    + unfold SpecFloat.emin. flia.
  - apply generic_format_abs_inv. rewrite E. apply generic_format_bpow. unfold SpecFloat.fexp, SpecFloat.emin. flia.
Qed.
Lemma wz_rnd r : wz r -> Rabs r <= b2 prec -> rnd r = r.
Proof. intros H1 H2. apply round_generic; [auto with typeclass_instances|]. now apply wz_fmt. Qed.
Lemma no_over r : Rabs r <= b2 prec -> Rlt_bool (Rabs r) (b2 emax) = true.
Proof. intros H. apply Rlt_bool_true. apply Rle_lt_trans with (1 := H). apply bpow_lt. flia. Qed.
Definition val (x : FL) (r : R) : Prop := fin x /\ B2R x = r /\ wz r.
Lemma val_whole x : whole x -> val x (B2R x).
Proof. intros [F [z E]]. split; [exact F|]. split; [reflexivity|]. now exists z. Qed.
Lemma val_add x y a b : val x a -> val y b -> Rabs (a + b) <= b2 prec -> val (a_add AR x y) (a + b).
Proof.
  intros (Fx & Ex & Wx) (Fy & Ey & Wy) H. pose proof (Bplus_correct prec emax _ _ mode_NE x y Fx Fy) as C.
  rewrite Ex, Ey in C. pose proof (wz_plus _ _ Wx Wy) as WW. rewrite (wz_rnd _ WW H), (no_over _ H) in C. destruct C as (C1 & C2 & _).
  split; [exact C2|]. split; [exact C1|exact WW].
Qed.
Lemma val_sub x y a b : val x a -> val y b -> Rabs (a - b) <= b2 prec -> val (a_sub AR x y) (a - b).
Proof.
  intros (Fx & Ex & Wx) (Fy & Ey & Wy) H. pose proof (Bminus_correct prec emax _ _ mode_NE x y Fx Fy) as C.
  rewrite Ex, Ey in C. pose proof (wz_minus _ _ Wx Wy) as WW. rewrite (wz_rnd _ WW H), (no_over _ H) in C. destruct C as (C1 & C2 & _).
  split; [exact C2|]. split; [exact C1|exact WW].
Qed.
Lemma val_mul x y a b : val x a -> val y b -> Rabs (a * b) <= b2 prec -> val (a_mul AR x y) (a * b).
Proof.
  intros (Fx & Ex & Wx) (Fy & Ey & Wy) H. pose proof (Bmult_correct prec emax _ _ mode_NE x y) as C.
  rewrite Ex, Ey in C. pose proof (wz_mult _ _ Wx Wy) as WW. rewrite (wz_rnd _ WW H), (no_over _ H) in C. destruct C as (C1 & C2 & _).
  split; [unfold fin in *; change (is_finite (Bmult mode_NE x y) = true); rewrite C2, Fx, Fy; reflexivity|]. split; [exact C1|exact WW].
Qed.
Lemma val_sum n (f : nat -> FL) (v : nat -> R) : (forall i, (i < n)%nat -> val (f i) (v i)) ->
  rsum n (fun i => Rabs (v i)) <= b2 prec -> val (sum AR n f) (rsum n v) /\ Rabs (rsum n v) <= rsum n (fun i => Rabs (v i)).
Proof.
  induction n as [|n IH]; intros H B.
  - split; [|unfold rsum; cbn; rewrite Rabs_R0; lra]. split; [reflexivity|]. split; [reflexivity|]. exists 0%Z. reflexivity.
  - rewrite rsum_S in B. pose proof (Rabs_pos (v n)). destruct (IH (fun i Hi => H i ltac:(lia)) ltac:(lra)) as [V A].
    rewrite fsum_S, !rsum_S. pose proof (Rabs_triang (rsum n v) (v n)).
    split; [|lra]. apply val_add; [exact V|apply H; lia|lra].
Qed.
Lemma val_dot n (f g : nat -> FL) (v w : nat -> R) : (forall i, (i < n)%nat -> val (f i) (v i) /\ val (g i) (w i)) ->
  rsum n (fun i => Rabs (v i * w i)) <= b2 prec -> val (sum AR n (fun i => a_mul AR (f i) (g i))) (rsum n (fun i => v i * w i)).
Proof.
  intros H B. apply val_sum; [|exact B]. intros i Hi. destruct (H i Hi) as [Hf Hg]. apply val_mul; [exact Hf|exact Hg|].
  apply Rle_trans with (2 := B). apply (norm_low n (fun k => Rabs (v k * w k))); [intros; apply Rabs_pos|exact Hi].
Qed.
Lemma w1 v i : Forall whole v -> (i < length v)%nat -> val (at1 AR v i) (rat1 v i).
Proof. intros H Hi. apply val_whole. now apply at1_P. Qed.
Lemma w2 row col m i j : rect row col m -> Forall (Forall whole) m -> (i < row)%nat -> (j < col)%nat -> val (at2 AR m i j) (rat2 m i j).
Proof. intros R H Hi Hj. apply val_whole. now apply (at2_P whole row col). Qed.
Lemma val_fin x r : val x r -> whole x /\ B2R x = r.
Proof. intros (F & E & [z W]). split; [|exact E]. split; [exact F|]. exists z. now rewrite E. Qed.

Lemma i_sum : forall S (n : nat) v (s : S), length v = n -> Forall whole v -> rsum n (fun k => Rabs (rat1 v k)) <= b2 prec ->
  exists z, vsum OP n v s = (Ok z, s) /\ whole z /\ B2R z = rsum n (rat1 v).
Proof.
  intros S n v s Hv Hw HB. exists (v_sum AR n v). split; [exact (sumv _ _ (ex_semi _ _ (proj1 (fl_exact prec emax Hgt Hlt))) n v s Hv)|].
  apply val_fin. apply val_sum; [|exact HB]. intros i Hi. apply w1; [exact Hw|lia].
Qed.
Lemma i_dot : forall S (n : nat) a b (s : S), length a = n -> length b = n -> Forall whole a -> Forall whole b ->
  rsum n (fun k => Rabs (rat1 a k * rat1 b k)) <= b2 prec ->
  exists z, vdot OP n a b s = (Ok z, s) /\ whole z /\ B2R z = rsum n (fun k => rat1 a k * rat1 b k).
Proof.
  intros S n a b s La Lb Ha Hb HB. exists (v_dot AR n a b).
  split; [exact (dotv _ _ (ex_semi _ _ (proj1 (fl_exact prec emax Hgt Hlt))) n a b s La Lb)|].
  apply val_fin. apply (val_dot n (at1 AR a) (at1 AR b)); [|exact HB]. intros i Hi. split; apply w1; auto; lia.
Qed.
Lemma i_matrix_product : forall S (c : cfg) (d : ety S FL) (l n r : nat) a b (s : S),
  rect l n a -> rect n r b -> (l < W c)%nat -> (n < W c)%nat -> (r < W c)%nat ->
  Forall (Forall whole) a -> Forall (Forall whole) b ->
  (forall i j, (i < l)%nat -> (j < r)%nat -> rsum n (fun k => Rabs (rat2 a i k * rat2 b k j)) <= b2 prec) ->
  exists p, mmul_vv c d OP l n r a b s = (Ok p, s) /\ rect l r p /\
  forall i j, (i < l)%nat -> (j < r)%nat -> whole (at2 AR p i j) /\ rat2 p i j = rsum n (fun k => rat2 a i k * rat2 b k j).
Proof.
  intros S c d l n r a b s Ra Rb Hl Hw Hr Ha Hb HB. exists (m_mul AR l n r a b).
  split; [exact (mulm c d _ _ (ex_semi _ _ (proj1 (fl_exact prec emax Hgt Hlt))) l n r a b s Ra Rb Hl Hw Hr)|]. split; [apply mat_rect|].
  intros i j Hi Hj. rewrite (rat2E (m_mul _ _ _ _ _ _)). unfold m_mul. rewrite (at2_mat AR l r _ i j Hi Hj).
  apply val_fin. apply (val_dot n (fun k => at2 AR a i k) (fun k => at2 AR b k j)); [|now apply HB].
  intros k Hk. split; [apply (w2 l n)|apply (w2 n r)]; auto.
Qed.
Lemma i_matrix_vector : forall S (c : cfg) (d : ety S FL) (row col : nat) m v (s : S),
  rect row col m -> length v = col -> (row < W c)%nat -> (col < W c)%nat -> Forall (Forall whole) m -> Forall whole v ->
  (forall i, (i < row)%nat -> rsum col (fun k => Rabs (rat2 m i k * rat1 v k)) <= b2 prec) ->
  exists w, mmulv c d OP row col m v s = (Ok w, s) /\ length w = row /\
  forall i, (i < row)%nat -> whole (at1 AR w i) /\ rat1 w i = rsum col (fun k => rat2 m i k * rat1 v k).
Proof.
  intros S c d row col m v s Rm Lv Hl Hw Hm Hv HB. exists (m_mulv AR row col m v).
  split; [exact (mulmv c d _ _ (ex_semi _ _ (proj1 (fl_exact prec emax Hgt Hlt))) row col m v s Rm Lv Hl Hw)|]. split; [apply vec_length|].
  intros i Hi. rewrite (rat1E (m_mulv _ _ _ _ _)). unfold m_mulv. rewrite (at1_vec AR row _ i Hi).
  apply val_fin. apply (val_dot col (fun k => at2 AR m i k) (fun k => at1 AR v k)); [|now apply HB].
  intros k Hk. split; [apply (w2 row col); auto|apply w1; auto; lia].
Qed.
Lemma val_ms x y z w a b e f : val x a -> val y b -> val z e -> val w f -> Rabs (a * b) + Rabs (e * f) <= b2 prec ->
  val (a_sub AR (a_mul AR x y) (a_mul AR z w)) (a * b - e * f).
Proof.
  intros. pose proof (Rabs_pos (a * b)). pose proof (Rabs_pos (e * f)). pose proof (Rabs_triang (a * b) (- (e * f))) as T. rewrite Rabs_Ropp in T.
  apply val_sub; [apply val_mul; auto; lra|apply val_mul; auto; lra|]. unfold Rminus. lra.
Qed.
Lemma i_cross : forall S (c : cfg) a b (s : S), length a = 3%nat -> length b = 3%nat -> Forall whole a -> Forall whole b ->
  (forall j k, (j < 3)%nat -> (k < 3)%nat -> j <> k -> Rabs (rat1 a j * rat1 b k) + Rabs (rat1 a k * rat1 b j) <= b2 prec) ->
  exists z, vcross c OP a b s = (Ok z, s) /\ length z = 3%nat /\
  forall i, (i < 3)%nat -> let j := ((i + 1) mod 3)%nat in let k := ((i + 2) mod 3)%nat in
  whole (at1 AR z i) /\ rat1 z i = rat1 a j * rat1 b k - rat1 a k * rat1 b j.
Proof.
  intros S c a b s La Lb Ha Hb HB. exists (v_cross AR a b).
  split; [exact (sim_eqv _ _ (sim_vcross false eq c OP AR (exact_sim _ _ (proj1 (fl_exact prec emax Hgt Hlt))) a a b b (Forall2_eq _) (Forall2_eq _) La Lb) s)|].
  split; [reflexivity|].
  assert (G : forall j k, (j < 3)%nat -> (k < 3)%nat -> j <> k ->
    let z := a_sub AR (a_mul AR (at1 AR a j) (at1 AR b k)) (a_mul AR (at1 AR a k) (at1 AR b j)) in
    whole z /\ B2R z = rat1 a j * rat1 b k - rat1 a k * rat1 b j).
  { intros j k Hj Hk Hjk z. apply val_fin. apply val_ms; try (apply w1; auto; lia). now apply HB. }
  intros i Hi. destruct i as [|[|[|]]]; [apply (G 1%nat 2%nat)|apply (G 2%nat 0%nat)|apply (G 0%nat 1%nat)|]; lia.
Qed.
Lemma i_determinant : forall S (c : cfg) (d : ety S FL) (n : nat) m (s : S), (1 <= n <= 3)%nat -> rect n n m -> Forall (Forall whole) m ->
  rperm n (fun i j => Rabs (rat2 m i j)) <= b2 prec -> 
  (n = 3%nat -> forall j l, (j < 3)%nat -> (l < 3)%nat -> j <> l -> Rabs (rat2 m 0 j * rat2 m 1 l) <= b2 prec) ->
  exists x, det c d OP n m s = (Ok x, s) /\ whole x /\ B2R x = rdet n (rat2 m).
Proof.
  intros S c d n m s Hn R Hm HB H2. pose proof (W_big c) as HW. exists (p_det AR (Bdiv mode_NE) (fl_is_zero prec emax) n m).
  split; [apply (det_p AR (Bdiv mode_NE) (fl_is_zero prec emax) c d OP (proj1 (fl_exact prec emax Hgt Hlt)) (proj2 (fl_exact prec emax Hgt Hlt)) (fun _ => eq_refl)); auto; lia|].
  apply val_fin. assert (V : forall i j, (i < n)%nat -> (j < n)%nat -> val (at2 AR m i j) (rat2 m i j)) by (intros; now apply (w2 n n)).
  destruct n as [|[|[|[|n]]]]; [lia| | | |lia]; cbn [p_det].
  - replace (rdet 1 (rat2 m)) with (rat2 m 0 0) by (real_unf; ring). apply V; lia.
  - replace (rdet 2 (rat2 m)) with (rat2 m 0 0 * rat2 m 1 1 - rat2 m 1 0 * rat2 m 0 1) by (real_unf; ring).
    replace (rperm 2 (fun i j => Rabs (rat2 m i j))) with (Rabs (rat2 m 0 0 * rat2 m 1 1) + Rabs (rat2 m 1 0 * rat2 m 0 1)) in HB by (rewrite !Rabs_mult; real_unf; ring).
    apply val_ms; try (apply V; lia). exact HB.
  - replace (rperm 3 (fun i j => Rabs (rat2 m i j))) with (pm3 m) in HB by (unfold pm3, tr; rewrite !Rabs_mult; real_unf; ring).
    replace (rdet 3 (rat2 m)) with (dt3 m) by (unfold dt3, tr; real_unf; ring).
    unfold pm3 in HB. 
    assert (T : forall j l q, (j < 3)%nat -> (l < 3)%nat -> (q < 3)%nat -> j <> l ->
      Rabs (tr m 0 j 1 l 2 q) <= b2 prec ->
      val (a_mul AR (a_mul AR (at2 AR m 0 j) (at2 AR m 1 l)) (at2 AR m 2 q)) (tr m 0 j 1 l 2 q)).
    { intros j l q ? ? ? ? B. unfold tr. apply val_mul; [|apply V; lia|exact B]. apply val_mul; [apply V; lia|apply V; lia|]. now apply H2. }
    assert (Q : forall i j k l p q, 0 <= Rabs (tr m i j k l p q)) by (intros; apply Rabs_pos).
    pose proof (Q 0 0 1 1 2 2)%nat. pose proof (Q 0 1 1 2 2 0)%nat. pose proof (Q 0 2 1 0 2 1)%nat.
    pose proof (Q 0 2 1 1 2 0)%nat. pose proof (Q 0 1 1 0 2 2)%nat. pose proof (Q 0 0 1 2 2 1)%nat.
    assert (Tp : forall a b x, Rabs a <= x -> Rabs (a + b) <= x + Rabs b) by (intros a0 b0 x0 Hx; pose proof (Rabs_triang a0 b0); lra).
    assert (Tm : forall a b x, Rabs a <= x -> Rabs (a - b) <= x + Rabs b) by (intros a0 b0 x0 Hx; pose proof (Rabs_triang a0 (- b0)) as T0; rewrite Rabs_Ropp in T0; unfold Rminus; lra).
    unfold dt3, det_3. cbv zeta.
    pose proof (Tp _ (tr m 0 1 1 2 2 0) _ (Rle_refl (Rabs (tr m 0 0 1 1 2 2)))) as B1.
    pose proof (Tp _ (tr m 0 2 1 0 2 1) _ B1) as B2'. pose proof (Tm _ (tr m 0 2 1 1 2 0) _ B2') as B3.
    pose proof (Tm _ (tr m 0 1 1 0 2 2) _ B3) as B4. pose proof (Tm _ (tr m 0 0 1 2 2 1) _ B4) as B5.
    apply val_sub; [apply val_sub; [apply val_sub; [apply val_add; [apply val_add|..]|..]|..]|..]; try (apply T; try lia; lra); lra.
Qed.
Lemma i_add_sub : forall S (c : cfg) (d : ety S FL) (row col : nat) a b (s : S),
  rect row col a -> rect row col b -> (row < W c)%nat -> (col < W c)%nat -> Forall (Forall whole) a -> Forall (Forall whole) b ->
  (forall i j, (i < row)%nat -> (j < col)%nat -> Rabs (rat2 a i j) + Rabs (rat2 b i j) <= b2 prec) ->
  exists p q, mzip_vv c d d d row col (o_add OP) a b s = (Ok p, s) /\ mzip_vv c d d d row col (o_sub OP) a b s = (Ok q, s) /\
  forall i j, (i < row)%nat -> (j < col)%nat ->
  (whole (at2 AR p i j) /\ rat2 p i j = rat2 a i j + rat2 b i j) /\ (whole (at2 AR q i j) /\ rat2 q i j = rat2 a i j - rat2 b i j).
Proof.
  intros S c d row col a b s Ra Rb Hr Hc Ha Hb HB. exists (m_add AR row col a b), (m_sub AR row col a b).
  pose proof (exact_sim _ _ (proj1 (@fl_exact S prec emax Hgt Hlt))) as HS.
  split; [apply sim_eqm; apply sim_mzip_vv; auto using Forall2_eq2; apply HS|].
  split; [apply sim_eqm; apply sim_mzip_vv; auto using Forall2_eq2; apply HS|].
  intros i j Hi Hj. rewrite (rat2E (m_add _ _ _ _ _)), (rat2E (m_sub _ _ _ _ _)). unfold m_add, m_sub. rewrite !(at2_mat AR row col _ i j Hi Hj).
  pose proof (HB i j Hi Hj) as B. pose proof (Rabs_triang (rat2 a i j) (rat2 b i j)). pose proof (Rabs_triang (rat2 a i j) (- rat2 b i j)) as T. rewrite Rabs_Ropp in T.
  split; apply val_fin; [apply val_add|apply val_sub]; try (apply (w2 row col); assumption); [lra|unfold Rminus; lra].
Qed.
End Format.

(** ** C74 *)
(** The sum of a vector of integers whose absolute values sum to at most 2^p (2^24 for f32,
    2^53 for f64) is exact.  [whole]: finite and an integer. *)
Theorem C74_sum : forall (t : float_type) S (n : nat) v (s : S),
  length v = n -> Forall whole v -> rsum n (fun k => Rabs (rat1 v k)) <= b2 (fprec t) ->
  exists z, vsum (float_ops t) n v s = (Ok z, s) /\ whole z /\ B2R z = rsum n (rat1 v).
Proof. intros t S. exact (i_sum S). Qed.
Print Assumptions C74_sum.
Theorem C74_dot : forall (t : float_type) S (n : nat) a b (s : S),
  length a = n -> length b = n -> Forall whole a -> Forall whole b ->
  rsum n (fun k => Rabs (rat1 a k * rat1 b k)) <= b2 (fprec t) ->
  exists z, vdot (float_ops t) n a b s = (Ok z, s) /\ whole z /\ B2R z = rsum n (fun k => rat1 a k * rat1 b k).
Proof. intros t S. exact (i_dot S). Qed.
Print Assumptions C74_dot.
Theorem C74_cross : forall (t : float_type) S (c : cfg) a b (s : S),
  length a = 3%nat -> length b = 3%nat -> Forall whole a -> Forall whole b ->
  (forall j k, (j < 3)%nat -> (k < 3)%nat -> j <> k -> Rabs (rat1 a j * rat1 b k) + Rabs (rat1 a k * rat1 b j) <= b2 (fprec t)) ->
  exists z, vcross c (float_ops t) a b s = (Ok z, s) /\ length z = 3%nat /\
  forall i, (i < 3)%nat -> let j := ((i + 1) mod 3)%nat in let k := ((i + 2) mod 3)%nat in
  whole (at1 (float_arith t) z i) /\ rat1 z i = rat1 a j * rat1 b k - rat1 a k * rat1 b j.
Proof. intros t S. exact (i_cross S). Qed.
Print Assumptions C74_cross.
Theorem C74_matrix_add_sub : forall (t : float_type) S (c : cfg) (d : ety S (float t)) (row col : nat) a b (s : S),
  rect row col a -> rect row col b -> (row < W c)%nat -> (col < W c)%nat -> Forall (Forall whole) a -> Forall (Forall whole) b ->
  (forall i j, (i < row)%nat -> (j < col)%nat -> Rabs (rat2 a i j) + Rabs (rat2 b i j) <= b2 (fprec t)) ->
  exists p q, mzip_vv c d d d row col (o_add (float_ops t)) a b s = (Ok p, s) /\ mzip_vv c d d d row col (o_sub (float_ops t)) a b s = (Ok q, s) /\
  forall i j, (i < row)%nat -> (j < col)%nat ->
  (whole (at2 (float_arith t) p i j) /\ rat2 p i j = rat2 a i j + rat2 b i j) /\
  (whole (at2 (float_arith t) q i j) /\ rat2 q i j = rat2 a i j - rat2 b i j).
Proof. intros t S. exact (i_add_sub S). Qed.
Print Assumptions C74_matrix_add_sub.
Theorem C74_matrix_product : forall (t : float_type) S (c : cfg) (d : ety S (float t)) (l n r : nat) a b (s : S),
  rect l n a -> rect n r b -> (l < W c)%nat -> (n < W c)%nat -> (r < W c)%nat ->
  Forall (Forall whole) a -> Forall (Forall whole) b ->
  (forall i j, (i < l)%nat -> (j < r)%nat -> rsum n (fun k => Rabs (rat2 a i k * rat2 b k j)) <= b2 (fprec t)) ->
  exists p, mmul_vv c d (float_ops t) l n r a b s = (Ok p, s) /\ rect l r p /\
  forall i j, (i < l)%nat -> (j < r)%nat -> whole (at2 (float_arith t) p i j) /\ rat2 p i j = rsum n (fun k => rat2 a i k * rat2 b k j).
Proof. intros t S. exact (i_matrix_product S). Qed.
Print Assumptions C74_matrix_product.
Theorem C74_matrix_vector : forall (t : float_type) S (c : cfg) (d : ety S (float t)) (row col : nat) m v (s : S),
  rect row col m -> length v = col -> (row < W c)%nat -> (col < W c)%nat -> Forall (Forall whole) m -> Forall whole v ->
  (forall i, (i < row)%nat -> rsum col (fun k => Rabs (rat2 m i k * rat1 v k)) <= b2 (fprec t)) ->
  exists w, mmulv c d (float_ops t) row col m v s = (Ok w, s) /\ length w = row /\
  forall i, (i < row)%nat -> whole (at1 (float_arith t) w i) /\ rat1 w i = rsum col (fun k => rat2 m i k * rat1 v k).
Proof. intros t S. exact (i_matrix_vector S). Qed.
Print Assumptions C74_matrix_vector.
(** The determinant for n = 1, 2, 3; for n = 3 the products of an entry of row 0 with an entry
    of row 1 (computed first) must stay within 2^p too. *)
Theorem C74_determinant : forall (t : float_type) S (c : cfg) (d : ety S (float t)) (n : nat) m (s : S),
  (1 <= n <= 3)%nat -> rect n n m -> Forall (Forall whole) m ->
  rperm n (fun i j => Rabs (rat2 m i j)) <= b2 (fprec t) ->
  (n = 3%nat -> forall j l, (j < 3)%nat -> (l < 3)%nat -> j <> l -> Rabs (rat2 m 0 j * rat2 m 1 l) <= b2 (fprec t)) ->
  exists x, det c d (float_ops t) n m s = (Ok x, s) /\ whole x /\ B2R x = rdet n (rat2 m).
Proof. intros t S. exact (i_determinant S). Qed.
Print Assumptions C74_determinant.

(** The hypotheses are met: [1, 2, 1] . [2, 2, 1] = 7 in f64; and det [[2, 1], [1, 1]] = 1 in f64. *)
Lemma whole1 : whole f1.
Proof. split; [reflexivity|]. exists 1%Z. exact f1_val. Qed.
Lemma whole2 : whole f2.
Proof. split; [reflexivity|]. exists 2%Z. exact f2_val. Qed.
Example C74_ex : forall S (c : cfg) (d : ety S (float F64)) (s : S),
  exists z x, vdot (float_ops F64) 3 [f1; f2; f1] [f2; f2; f1] s = (Ok z, s) /\ B2R z = 7 /\
              det c d (float_ops F64) 2 ex66 s = (Ok x, s) /\ B2R x = 1.
Proof.
  intros S c d s. assert (B53 : 100 <= b2 (fprec F64)).
  { apply Rle_trans with (b2 7); [cbn; lra|]. apply bpow_le. discriminate. }
  destruct (C74_dot F64 S 3 [f1; f2; f1] [f2; f2; f1] s) as (z & H1 & _ & H2);
    [reflexivity|reflexivity|repeat constructor; first [apply whole1|apply whole2]|repeat constructor; first [apply whole1|apply whole2]| |].
  - unfold rsum, rat1. cbn [seq fold_left nth]. change (@B2R (fprec F64) (femax F64)) with (@B2R 53 1024). rewrite f1_val, f2_val, !Rabs_pos_eq by lra. lra.
  - assert (E00 : rat2 ex66 0 0 = 2) by exact f2_val. assert (E01 : rat2 ex66 0 1 = 1) by exact f1_val.
    assert (E10 : rat2 ex66 1 0 = 1) by exact f1_val. assert (E11 : rat2 ex66 1 1 = 1) by exact f1_val.
    assert (HP : rperm 2 (fun i j => Rabs (rat2 ex66 i j)) <= b2 (fprec F64)).
    { real_unf. rewrite E00, E01, E10, E11, !Rabs_pos_eq by lra. lra. }
    destruct (C74_determinant F64 S c d 2 ex66 s) as (x & H3 & _ & H4);
      [lia|split; [reflexivity|repeat constructor]|repeat constructor; first [apply whole1|apply whole2]|exact HP|discriminate|].
    exists z, x. split; [exact H1|]. split; [|split; [exact H3|]].
    + rewrite H2. unfold rsum, rat1. cbn [seq fold_left nth]. change (@B2R (fprec F64) (femax F64)) with (@B2R 53 1024). rewrite f1_val, f2_val. ring.
    + rewrite H4. change (@rat2 (fprec F64) (femax F64)) with (@rat2 53 1024). real_unf. rewrite E00, E01, E10, E11. ring.
Qed.
