(** * PropsFloatErr.v - C69: rounding errors of f32 and f64 vector and matrix arithmetic. *)
From Coq Require Import List Arith Bool Lia ZArith Reals Lra.
From Flocq Require Import Core BinarySingleNaN Relative Plus_error.
From Verif Require Import Rust Iter Elem VectorM MatIterM MatrixM ArithM OpsM SpecCommon SpecAlg FloatM SpecReal.
From Verif Require Import Harness AccProofs Sim PropsAlg DetLoop OpsPure FloatErr PropsFloat.
Import ListNotations.
Local Open Scope R_scope.

Section Format.
Context {prec emax : Z} {Hgt : Prec_gt_0 prec} {Hlt : Prec_lt_emax prec emax} {OK : fmt_ok prec emax}.
Local Notation FL := (fl prec emax).
Local Notation AR := (fl_arith prec emax Hgt Hlt).
Local Notation OP := (fl_ops prec emax Hgt Hlt).
Local Notation FP := (Fops OP (fun x => ret (Bmult mode_NE x x)) (fun x => ret (Bsqrt mode_NE x))).
Local Notation u := (ur prec).
Local Notation P := (Pr prec).
Local Notation ap := (apr prec).
Local Notation fexp := (SpecFloat.fexp prec emax).
Local Notation rnd := (round radix2 fexp (round_mode mode_NE)).
Ltac flia := pose proof (@ok_prec _ _ OK); pose proof (@ok_emax _ _ OK); lia.
Variable h : Z.
Hypothesis Hh : (0 <= h /\ 2 * h + prec <= emax)%Z.
Lemma at1_P (Q : FL -> Prop) v i : Forall Q v -> (i < length v)%nat -> Q (at1 AR v i).
Proof. intros H Hi. rewrite Forall_forall in H. apply H. now apply nth_In. Qed.
Lemma at2_P (Q : FL -> Prop) row col m i j : rect row col m -> Forall (Forall Q) m -> (i < row)%nat -> (j < col)%nat -> Q (at2 AR m i j).
Proof.
  intros R H Hi Hj. unfold at2. rewrite Forall_forall in H. assert (Forall Q (nth i m [])).
  { apply H. apply nth_In. destruct R as [-> _]. exact Hi. }
  rewrite Forall_forall in H0. apply H0. apply nth_In. now rewrite (at2_row row col m i R Hi).
Qed.
Lemma rat1E v i : rat1 v i = B2R (at1 AR v i).
Proof. reflexivity. Qed.
Lemma rat2E m i j : rat2 m i j = B2R (at2 AR m i j).
Proof. reflexivity. Qed.
Lemma mod_rng k (x : FL) : moderate k x -> fin x /\ rng (- k) k (B2R x).
Proof. intros [H1 H2]. split; [exact H1|exact H2]. Qed.
(** One product of moderate numbers. *)
Lemma prod_ap (x y : FL) : moderate h x -> moderate h y ->
  let z := a_mul AR x y in
  fin z /\ Rabs (B2R z) <= b2 (h + h) /\ ap 1 (Rabs (B2R x * B2R y)) (B2R x * B2R y) (B2R z).
Proof.
  intros Hx Hy z. destruct (mod_rng _ _ Hx) as [Fx Rx], (mod_rng _ _ Hy) as [Fy Ry].
  destruct (fmul_spec x y (- h) h (- h) h Fx Fy Rx Ry) as (Fz & Rz & e & He & Ez); try flia.
  split; [exact Fz|]. split; [exact (rng_up _ _ _ Rz)|]. unfold z. rewrite Ez. apply ap_rnd; [|exact He]. apply ap_exact. lra.
Qed.
Lemma dot_ap n (f g : nat -> FL) : (Z.of_nat n <= 2 ^ (prec - 3))%Z ->
  (forall k, (k < n)%nat -> moderate h (f k) /\ moderate h (g k)) ->
  let z := sum AR n (fun k => a_mul AR (f k) (g k)) in
  fin z /\ ap (n + 1) (rsum n (fun k => Rabs (B2R (f k) * B2R (g k)))) (rsum n (fun k => B2R (f k) * B2R (g k))) (B2R z).
Proof.
  intros Hn H z.
  destruct (fsum_ap n (fun k => a_mul AR (f k) (g k)) (fun k => B2R (f k) * B2R (g k)) (fun k => Rabs (B2R (f k) * B2R (g k))) 1 (h + h) Hn) as (F & A & _).
  - flia.
  - intros i Hi. destruct (H i Hi) as [Hf Hg]. apply (prod_ap (f i) (g i) Hf Hg).
  - split; [exact F|]. replace (n + 1)%nat with (1 + n)%nat by flia. exact A.
Qed.
Lemma ap_err n j s v r : (Z.of_nat n <= 2 ^ (prec - 3))%Z -> (j <= 8)%nat -> ap (n + j) s v r -> Rabs (r - v) <= INR (n + j) * b2 (1 - prec) * s.
Proof.
  intros Hn Hj H. pose proof (ap_pos _ _ _ _ H). destruct H as [H _]. apply Rle_trans with (1 := H).
  apply Rmult_le_compat_r; [assumption|]. apply (P_le n j Hn Hj).
Qed.

Lemma g_sum : forall S (n : nat) (k : Z) v (s : S), (0 <= k)%Z -> (k + prec <= emax)%Z -> (Z.of_nat n <= 2 ^ (prec - 3))%Z -> length v = n -> Forall (bounded k) v ->
  exists z, vsum OP n v s = (Ok z, s) /\ is_finite z = true /\
  Rabs (B2R z - rsum n (rat1 v)) <= INR n * b2 (1 - prec) * rsum n (fun k => Rabs (rat1 v k)).
Proof.
  intros S n k v s Hk1 Hk2 Hn Hv Hb. exists (v_sum AR n v). split; [exact (sumv _ _ (ex_semi _ _ (proj1 (fl_exact prec emax Hgt Hlt))) n v s Hv)|].
  destruct (fsum_ap n (fun i => at1 AR v i) (rat1 v) (fun k => Rabs (rat1 v k)) 0 k Hn) as (F & A & _).
  - clear Hh. flia.
  - intros i Hi. rewrite <- Hv in Hi. destruct (at1_P _ v i Hb Hi) as [H1 H2]. split; [exact H1|]. split; [exact H2|]. apply ap_exact. apply Rle_refl.
  - split; [exact F|]. cbn [Nat.add] in A. replace n with (n + 0)%nat in A at 1 by flia. apply ap_err in A; [|exact Hn|flia].
    rewrite Nat.add_0_r in A. exact A.
Qed.
(** The inner product. *)
Lemma g_dot : forall S (n : nat) a b (s : S), (Z.of_nat n <= 2 ^ (prec - 3))%Z -> length a = n -> length b = n ->
  Forall (moderate h) a -> Forall (moderate h) b ->
  exists z, vdot OP n a b s = (Ok z, s) /\ is_finite z = true /\
  Rabs (B2R z - rsum n (fun k => rat1 a k * rat1 b k)) <= INR (n + 1) * b2 (1 - prec) * rsum n (fun k => Rabs (rat1 a k * rat1 b k)).
Proof.
  intros S n a b s Hn La Lb Ha Hb. exists (v_dot AR n a b).
  split; [exact (dotv _ _ (ex_semi _ _ (proj1 (fl_exact prec emax Hgt Hlt))) n a b s La Lb)|].
  destruct (dot_ap n (at1 AR a) (at1 AR b) Hn) as (F & A).
  - intros k Hk. split; apply at1_P; auto; lia.
  - split; [exact F|]. apply (ap_err n 1); [exact Hn|flia|exact A].
Qed.
(** The matrix product (all four ownership forms compute the same value, C38). *)
Lemma g_matrix_product : forall S (c : cfg) (d : ety S FL) (l n r : nat) a b (s : S),
  (Z.of_nat n <= 2 ^ (prec - 3))%Z -> rect l n a -> rect n r b -> (l < W c)%nat -> (n < W c)%nat -> (r < W c)%nat ->
  Forall (Forall (moderate h)) a -> Forall (Forall (moderate h)) b ->
  exists p, mmul_vv c d OP l n r a b s = (Ok p, s) /\ rect l r p /\
  forall i j, (i < l)%nat -> (j < r)%nat ->
  is_finite (at2 AR p i j) = true /\
  Rabs (rat2 p i j - rsum n (fun k => rat2 a i k * rat2 b k j)) <= INR (n + 1) * b2 (1 - prec) * rsum n (fun k => Rabs (rat2 a i k * rat2 b k j)).
Proof.
  intros S c d l n r a b s Hn Ra Rb Hl Hw Hr Ha Hb. exists (m_mul AR l n r a b).
  split; [exact (mulm c d _ _ (ex_semi _ _ (proj1 (fl_exact prec emax Hgt Hlt))) l n r a b s Ra Rb Hl Hw Hr)|]. split; [apply mat_rect|].
  intros i j Hi Hj. rewrite (rat2E (m_mul _ _ _ _ _ _)). unfold m_mul. rewrite (at2_mat AR l r _ i j Hi Hj).
  destruct (dot_ap n (fun k => at2 AR a i k) (fun k => at2 AR b k j) Hn) as (F & A).
  - intros k Hk. split; [apply (at2_P _ l n a); auto|apply (at2_P _ n r b); auto].
  - split; [exact F|]. apply (ap_err n 1); [exact Hn|flia|exact A].
Qed.
(** Matrix times vector. *)
Lemma g_matrix_vector : forall S (c : cfg) (d : ety S FL) (row col : nat) m v (s : S),
  (Z.of_nat col <= 2 ^ (prec - 3))%Z -> rect row col m -> length v = col -> (row < W c)%nat -> (col < W c)%nat ->
  Forall (Forall (moderate h)) m -> Forall (moderate h) v ->
  exists w, mmulv c d OP row col m v s = (Ok w, s) /\ length w = row /\
  forall i, (i < row)%nat ->
  is_finite (at1 AR w i) = true /\
  Rabs (rat1 w i - rsum col (fun k => rat2 m i k * rat1 v k)) <= INR (col + 1) * b2 (1 - prec) * rsum col (fun k => Rabs (rat2 m i k * rat1 v k)).
Proof.
  intros S c d row col m v s Hn Rm Lv Hl Hw Hm Hv. exists (m_mulv AR row col m v).
  split; [exact (mulmv c d _ _ (ex_semi _ _ (proj1 (fl_exact prec emax Hgt Hlt))) row col m v s Rm Lv Hl Hw)|]. split; [apply vec_length|].
  intros i Hi. rewrite (rat1E (m_mulv _ _ _ _ _)). unfold m_mulv. rewrite (at1_vec AR row _ i Hi).
  destruct (dot_ap col (fun k => at2 AR m i k) (fun k => at1 AR v k) Hn) as (F & A).
  - intros k Hk. split; [apply (at2_P _ row col m); auto|apply at1_P; auto; flia].
  - split; [exact F|]. apply (ap_err col 1); [exact Hn|flia|exact A].
Qed.

(** A difference of two products of moderate numbers. *)
Lemma ms_ap (a b x y : FL) : moderate h a -> moderate h b -> moderate h x -> moderate h y ->
  let z := a_sub AR (a_mul AR a b) (a_mul AR x y) in
  fin z /\ ap 2 (Rabs (B2R a * B2R b) + Rabs (B2R x * B2R y)) (B2R a * B2R b - B2R x * B2R y) (B2R z).
Proof.
  intros Ha Hb Hx Hy z. destruct (prod_ap a b Ha Hb) as (F1 & B1 & A1), (prod_ap x y Hx Hy) as (F2 & B2' & A2).
  destruct (fsub_spec _ _ (h + h) F1 F2 B1 B2') as (Fz & _ & (e & He & Ez) & _); [flia|]. split; [exact Fz|].
  unfold z. rewrite Ez. apply (ap_sub 1 1); assumption.
Qed.
(** The cross product. *)
Lemma g_cross : forall S (c : cfg) a b (s : S), length a = 3%nat -> length b = 3%nat ->
  Forall (moderate h) a -> Forall (moderate h) b ->
  exists z, vcross c OP a b s = (Ok z, s) /\ length z = 3%nat /\
  forall i, (i < 3)%nat ->
  let j := ((i + 1) mod 3)%nat in let k := ((i + 2) mod 3)%nat in
  is_finite (at1 AR z i) = true /\
  Rabs (rat1 z i - (rat1 a j * rat1 b k - rat1 a k * rat1 b j)) <= b2 (2 - prec) * (Rabs (rat1 a j * rat1 b k) + Rabs (rat1 a k * rat1 b j)).
Proof.
  intros S c a b s La Lb Ha Hb. exists (v_cross AR a b).
  split; [exact (sim_eqv _ _ (sim_vcross false eq c OP AR (exact_sim _ _ (proj1 (fl_exact prec emax Hgt Hlt))) a a b b (Forall2_eq _) (Forall2_eq _) La Lb) s)|].
  split; [reflexivity|].
  assert (Ma : forall i, (i < 3)%nat -> moderate h (at1 AR a i)) by (intros; apply at1_P; auto; flia).
  assert (Mb : forall i, (i < 3)%nat -> moderate h (at1 AR b i)) by (intros; apply at1_P; auto; flia).
  assert (G : forall j k, (j < 3)%nat -> (k < 3)%nat ->
    let z := a_sub AR (a_mul AR (at1 AR a j) (at1 AR b k)) (a_mul AR (at1 AR a k) (at1 AR b j)) in
    is_finite z = true /\ Rabs (B2R z - (rat1 a j * rat1 b k - rat1 a k * rat1 b j)) <= b2 (2 - prec) * (Rabs (rat1 a j * rat1 b k) + Rabs (rat1 a k * rat1 b j))).
  { intros j k Hj Hk z. destruct (ms_ap _ _ _ _ (Ma j Hj) (Mb k Hk) (Ma k Hk) (Mb j Hj)) as (F & A).
    split; [exact F|]. apply (ap_err 0 2) in A; [|cbn; pose proof (@ok_prec _ _ OK); flia|flia]. apply Rle_trans with (1 := A). apply Rmult_le_compat_r.
    - pose proof (Rabs_pos (rat1 a j * rat1 b k)). pose proof (Rabs_pos (rat1 a k * rat1 b j)). lra.
    - replace (2 - prec)%Z with (1 + (1 - prec))%Z by flia. rewrite (bpow_plus radix2 1). right. reflexivity. }
  intros i Hi. destruct i as [|[|[|]]]; [apply (G 1%nat 2%nat)|apply (G 2%nat 0%nat)|apply (G 0%nat 1%nat)|]; lia.
Qed.

(** The Euclidean norm: relative error (n + 2) epsilon. *)
Lemma norm_run64 S n v (s : S) : length v = n ->
  vnorm FP n v s = (Ok (Bsqrt mode_NE (sum AR n (fun i => a_mul AR (at1 AR v i) (at1 AR v i)))), s).
Proof.
  intros Lv. rewrite (VecProofs.vnorm_spec _ n v s Lv). unfold bind.
  rewrite (VecProofs.fold_in_order_pure _ (fun acc x => a_add AR acc (a_mul AR x x))) by reflexivity.
  rewrite (fold_at1 AR n v (fun acc x => a_add AR acc (a_mul AR x x)) _ Lv). reflexivity.
Qed.
Lemma rsum_nonneg n f : (forall i, (i < n)%nat -> 0 <= f i) -> 0 <= rsum n f.
Proof.
  induction n as [|n IH]; intros H; [unfold rsum; cbn; lra|]. rewrite rsum_S. pose proof (H n ltac:(flia)). specialize (IH (fun i Hi => H i ltac:(flia))). lra.
Qed.
Lemma sqrt_ap k S r : 0 <= r -> ap k S S r -> ap k (sqrt S) (sqrt S) (sqrt r).
Proof.
  intros Hr H. pose proof (ap_pos _ _ _ _ H) as HS. destruct H as [H _]. pose proof (@P_ge1 prec k).
  pose proof (sqrt_pos S) as H1. pose proof (sqrt_pos r) as H2. pose proof (sqrt_sqrt S HS) as E1. pose proof (sqrt_sqrt r Hr) as E2.
  split; [|rewrite Rabs_pos_eq; lra].
  destruct (Req_dec (sqrt S) 0) as [E|N].
  - assert (S = 0) by nra. assert (r = 0). { subst S. rewrite Rmult_0_r, Rminus_0_r in H. pose proof (Rabs_pos r). unfold Rabs in *. destruct (Rcase_abs r); lra. }
    subst. rewrite sqrt_0, Rminus_0_r, Rabs_R0. lra.
  - assert (0 < sqrt S) by lra. apply Rmult_le_reg_r with (sqrt S); [assumption|]. rewrite Rmult_assoc, E1.
    apply Rle_trans with (2 := H).
    replace (r - S) with ((sqrt r - sqrt S) * (sqrt r + sqrt S)) by nra. rewrite Rabs_mult.
    apply Rmult_le_compat_l; [apply Rabs_pos|]. rewrite Rabs_pos_eq; lra.
Qed.
Lemma fsum_nonneg n (f : nat -> FL) : (Z.of_nat n <= 2 ^ (prec - 3))%Z ->
  (forall i, (i < n)%nat -> fin (f i) /\ 0 <= B2R (f i) <= b2 (h + h)) -> 0 <= B2R (sum AR n f).
Proof.
  intros Hn H. assert (G : forall i, (i < n)%nat -> fin (f i) /\ Rabs (B2R (f i)) <= b2 (h + h) /\ ap 0 (B2R (f i)) (B2R (f i)) (B2R (f i))).
  { intros i Hi. destruct (H i Hi) as [H1 H2]. rewrite Rabs_pos_eq by lra. split; [exact H1|]. split; [lra|]. apply ap_exact. rewrite Rabs_pos_eq; lra. }
  destruct (fsum_ap n f (fun i => B2R (f i)) (fun i => B2R (f i)) 0 (h + h) Hn ltac:(flia) G) as (_ & [A _] & _).
  cbn [Nat.add] in A. pose proof (P_le n 0 Hn ltac:(flia)) as [_ HP]. rewrite Nat.add_0_r in HP.
  pose proof (rsum_nonneg n (fun i => B2R (f i)) (fun i Hi => proj1 (proj2 (H i Hi)))) as HS.
  set (r := B2R (sum AR n f)) in *. set (Q := rsum n (fun i => B2R (f i))) in *.
  unfold Rabs in A. destruct (Rcase_abs (r - Q)); nra.
Qed.
Lemma g_norm : forall S (n : nat) v (s : S), (Z.of_nat n <= 2 ^ (prec - 3))%Z -> length v = n -> Forall (moderate h) v ->
  exists z, vnorm FP n v s = (Ok z, s) /\ is_finite z = true /\
  let N := sqrt (rsum n (fun k => rat1 v k * rat1 v k)) in Rabs (B2R z - N) <= INR (n + 2) * b2 (1 - prec) * N.
Proof.
  intros S n v s Hn Lv Hv. eexists. split; [apply norm_run64; exact Lv|]. cbv zeta.
  set (x := sum AR n _).
  destruct (dot_ap n (at1 AR v) (at1 AR v) Hn) as (F & A).
  { intros k Hk. split; apply at1_P; auto; flia. }
  fold x in F, A.
  rewrite (rsum_ext n (fun k => Rabs (B2R (at1 AR v k) * B2R (at1 AR v k))) (fun k => rat1 v k * rat1 v k)) in A.
  2:{ intros i _. apply Rabs_pos_eq. apply Rle_0_sqr. }
  change (rsum n (fun k => B2R (at1 AR v k) * B2R (at1 AR v k))) with (rsum n (fun k => rat1 v k * rat1 v k)) in A.
  set (Q := rsum n (fun k => rat1 v k * rat1 v k)) in *.
  assert (Hx : 0 <= B2R x).
  { apply fsum_nonneg; [exact Hn|]. intros i Hi. rewrite <- Lv in Hi. pose proof (at1_P _ v i Hv Hi) as M.
    destruct (prod_ap _ _ M M) as (F1 & B1 & A1). split; [exact F1|]. split; [|apply Rle_trans with (2 := B1); apply Rle_abs].
    destruct A1 as [A1 _]. set (w := B2R (a_mul AR (at1 AR v i) (at1 AR v i))) in *.
    pose proof (Rle_0_sqr (B2R (at1 AR v i))) as Hs. unfold Rsqr in Hs.
    set (q := B2R (at1 AR v i) * B2R (at1 AR v i)) in *. rewrite (Rabs_pos_eq q Hs) in A1.
    assert (P 1 - 1 = u) by (unfold Pr; cbn; ring). pose proof u_small. unfold Rabs in A1. destruct (Rcase_abs (w - q)); nra. }
  pose proof (Bsqrt_correct prec emax _ _ mode_NE x) as (C1 & C2 & _).
  assert (Fz : is_finite (Bsqrt mode_NE x) = true).
  { rewrite C2. destruct x as [sx| | |sx mx ex hx]; try discriminate F; try reflexivity. destruct sx; [|reflexivity].
    exfalso. revert Hx. unfold B2R. cbn [cond_Zopp]. apply Rlt_not_le. apply F2R_lt_0. reflexivity. }
  split; [exact Fz|]. rewrite C1.
  assert (Er : exists e, Rabs e <= u /\ rnd (sqrt (B2R x)) = sqrt (B2R x) * (1 + e)).
  { destruct (Req_dec (B2R x) 0) as [E0|N0].
    - exists 0. rewrite Rabs_R0. split; [left; apply u_pos|]. rewrite E0, sqrt_0, round_0 by auto with typeclass_instances. ring.
    - assert (Hl : b2 (SpecFloat.emin prec emax) <= B2R x).
      { assert (H0 : 0 < B2R x) by lra. pose proof (generic_format_B2R prec emax x) as G.
        rewrite <- (Rabs_pos_eq (B2R x)) by exact Hx. apply (abs_B2R_ge_emin prec emax x).
        clear - F N0. destruct x; try discriminate F; [elim N0; reflexivity|reflexivity]. }
      apply (rnd_rng (2 - emax) emax); [flia|flia|]. right. rewrite Rabs_pos_eq by apply sqrt_pos. split.
      + replace (b2 (2 - emax)) with (sqrt (b2 ((2 - emax) + (2 - emax)))).
        * apply sqrt_le_1; [apply bpow_ge_0|exact Hx|]. apply Rle_trans with (2 := Hl). apply bpow_le. unfold SpecFloat.emin. flia.
        * rewrite bpow_plus. apply sqrt_square. apply bpow_ge_0.
      + pose proof (abs_B2R_lt_emax prec emax x) as Hb. rewrite Rabs_pos_eq in Hb by exact Hx.
        replace (b2 emax) with (sqrt (b2 (emax + emax))).
        * apply sqrt_le_1; [exact Hx|apply bpow_ge_0|]. apply Rle_trans with (b2 emax); [lra|apply bpow_le; flia].
        * rewrite bpow_plus. apply sqrt_square. apply bpow_ge_0. }
  destruct Er as (e & He & Er). rewrite Er.
  apply (ap_err n 2); [exact Hn|flia|]. replace (n + 2)%nat with (Datatypes.S (n + 1)) by flia. apply ap_rnd; [|exact He]. now apply sqrt_ap.
Qed.
(** Normalisation of a non-zero vector. *)
Lemma norm_low n f : (forall i, (i < n)%nat -> 0 <= f i) -> forall i, (i < n)%nat -> f i <= rsum n f.
Proof.
  induction n as [|n IH]; intros H i Hi; [lia|]. rewrite rsum_S. pose proof (rsum_nonneg n f (fun k Hk => H k ltac:(lia))).
  destruct (Nat.eq_dec i n) as [->|N]; [lra|]. pose proof (IH (fun k Hk => H k ltac:(lia)) i ltac:(lia)). pose proof (H n ltac:(lia)). lra.
Qed.
Lemma norm_high n f B : (forall i, (i < n)%nat -> f i <= B) -> rsum n f <= INR n * B.
Proof.
  induction n as [|n IH]; intros H; [unfold rsum; cbn; lra|]. rewrite rsum_S, S_INR. pose proof (H n ltac:(lia)). specialize (IH (fun i Hi => H i ltac:(lia))). lra.
Qed.
Lemma g_normalized : forall S (c : cfg) (d : ety S FL) (n : nat) v (s : S), (Z.of_nat n <= 2 ^ (prec - 3))%Z -> (n < W c)%nat -> length v = n -> Forall (moderate h) v ->
  (exists i, (i < n)%nat /\ rat1 v i <> 0) ->
  exists z, vnormalized c d FP n v s = (Ok z, s) /\ length z = n /\
  forall i, (i < n)%nat -> is_finite (at1 AR z i) = true /\
  let N := sqrt (rsum n (fun k => rat1 v k * rat1 v k)) in
  Rabs (rat1 z i - rat1 v i / N) <= 2 * INR (n + 2) * b2 (1 - prec) * (Rabs (rat1 v i) / N).
Proof.
  intros S c d n v s Hn HW Lv Hv (i0 & Hi0 & Nz).
  destruct (g_norm S n v s Hn Lv Hv) as (x & Ex & Fx & Hx). cbv zeta in Hx.
  set (Q := rsum n (fun k => rat1 v k * rat1 v k)) in *. set (N := sqrt Q) in *.
  assert (Sq : forall k, (k < n)%nat -> 0 <= rat1 v k * rat1 v k) by (intros; apply Rle_0_sqr).
  assert (Mod : forall k, (k < n)%nat -> fin (at1 AR v k) /\ rng (- h) h (rat1 v k)).
  { intros k Hk. apply (mod_rng h). apply at1_P; auto; lia. }
  assert (HQ : b2 (- h) * b2 (- h) <= Q).
  { apply Rle_trans with (rat1 v i0 * rat1 v i0); [|apply (norm_low n (fun k => rat1 v k * rat1 v k)); auto].
    destruct (Mod i0 Hi0) as [_ [E|[E _]]]; [contradiction|]. replace (rat1 v i0 * rat1 v i0) with (Rabs (rat1 v i0) * Rabs (rat1 v i0)).
    - pose proof (bpow_ge_0 radix2 (- h)). apply Rmult_le_compat; assumption.
    - rewrite <- Rabs_mult. apply Rabs_pos_eq. apply Rle_0_sqr. }
  assert (HN : b2 (- h) <= N).
  { unfold N. rewrite <- (sqrt_square (b2 (- h))) by apply bpow_ge_0. apply sqrt_le_1_alt. exact HQ. }
  assert (HnP : (1 <= n)%nat) by lia.
  pose proof (INR_pow n Hn) as HnR. assert (H1n : 1 <= INR n) by (apply (le_INR 1); exact HnP).
  assert (HN2 : N <= b2 (prec - 3) * b2 h).
  { unfold N. pose proof (bpow_gt_0 radix2 (prec - 3)). pose proof (bpow_gt_0 radix2 h).
    assert (0 <= b2 (prec - 3) * b2 h) by nra.
    rewrite <- (sqrt_square (b2 (prec - 3) * b2 h)) by assumption. apply sqrt_le_1_alt.
    apply Rle_trans with (INR n * (b2 h * b2 h)).
    - apply norm_high. intros k Hk. destruct (Mod k Hk) as [_ R]. apply rng_up in R.
      replace (rat1 v k * rat1 v k) with (Rabs (rat1 v k) * Rabs (rat1 v k)) by (rewrite <- Rabs_mult; apply Rabs_pos_eq, Rle_0_sqr).
      pose proof (Rabs_pos (rat1 v k)). apply Rmult_le_compat; assumption.
    - assert (INR n <= b2 (prec - 3) * b2 (prec - 3)) by nra.
      replace (b2 (prec - 3) * b2 h * (b2 (prec - 3) * b2 h)) with (b2 (prec - 3) * b2 (prec - 3) * (b2 h * b2 h)) by ring.
      apply Rmult_le_compat_r; [nra|assumption]. }
  pose proof (bpow_gt_0 radix2 (- h)) as Hpos. assert (N0 : 0 < N) by lra.
  (* relative error of the norm at most 1/4 + 1/256 *)
  set (w := INR (n + 2) * b2 (1 - prec)) in *.
  assert (Hw : 0 <= w <= 3 / 10).
  { unfold w. rewrite u_double, plus_INR. pose proof (small_nu n Hn). pose proof u_small. pose proof (@u_pos prec). cbn [INR]. split; nra. }
  assert (Hxlo : 7 / 10 * N <= B2R x).
  { unfold Rabs in Hx. destruct (Rcase_abs (B2R x - N)); nra. }
  assert (Hxhi : B2R x <= 2 * N).
  { unfold Rabs in Hx. destruct (Rcase_abs (B2R x - N)); nra. }
  assert (X0 : 0 < B2R x) by lra.
  assert (Rx : rng (- h - 1) (h + prec - 2) (B2R x)).
  { right. rewrite Rabs_pos_eq by lra. split.
    - unfold Zminus. rewrite bpow_plus. replace (b2 (-(1))) with (/ 2) by (cbn; lra). lra.
    - replace (h + prec - 2)%Z with (1 + ((prec - 3) + h))%Z by lia. rewrite (bpow_plus radix2 1), bpow_plus. change (b2 1) with 2. lra. }
  exists (map (fun e => Bdiv mode_NE e x) v).
  assert (Run : vnormalized c d FP n v s = (Ok (map (fun e => Bdiv mode_NE e x) v), s)).
  { unfold vnormalized, bind. rewrite VecProofs.vclone_spec by assumption. rewrite (VecProofs.in_order_pure _ (fun e => e)) by reflexivity.
    rewrite map_id, Ex. rewrite VecProofs.vscale_spec by assumption. rewrite (VecProofs.unwind_pure _ _ (fun e => Bdiv mode_NE e x)); [reflexivity|].
    reflexivity. }
  split; [exact Run|]. split; [now rewrite map_length|].
  intros i Hi. assert (Ei : at1 AR (map (fun e => Bdiv mode_NE e x) v) i = Bdiv mode_NE (at1 AR v i) x).
  { unfold at1. transitivity (nth i (map (fun e => Bdiv mode_NE e x) v) (Bdiv mode_NE (a_zero AR) x)).
    - apply nth_indep. rewrite map_length. assert (Hi2 : (i < length v)%nat) by (rewrite Lv; exact Hi). exact Hi2.
    - exact (map_nth (fun e => Bdiv mode_NE e x) v (a_zero AR) i). }
  destruct (Mod i Hi) as [Fi Ri].
  destruct (fdiv_spec (at1 AR v i) x (- h) h (- h - 1) (h + prec - 2) Fi Fx Ri Rx) as (Fz & Rz & e & He & Ez); [apply Rgt_not_eq; exact X0|flia|flia|flia|].
  rewrite Ei. split; [exact Fz|]. cbv zeta. rewrite rat1E, Ei, Ez, <- rat1E.
  set (y := rat1 v i). replace (y / B2R x * (1 + e) - y / N) with (y * ((1 + e) * (N / B2R x) - 1) * / N) by (field; lra).
  rewrite !Rabs_mult, Rabs_Rinv by lra. rewrite (Rabs_pos_eq N) by lra.
  unfold Rdiv. replace (2 * INR (n + 2) * b2 (1 - prec) * (Rabs y * / N)) with (2 * w * Rabs y * / N) by (unfold w; ring). apply Rmult_le_compat_r; [left; now apply Rinv_0_lt_compat|].
  rewrite (Rmult_comm (Rabs y)). apply Rmult_le_compat_r; [apply Rabs_pos|].
  assert (Hu : u <= w / 4).
  { unfold w. rewrite u_double, plus_INR. cbn [INR]. pose proof (@u_pos prec). nra. }
  set (q := N * / B2R x).
  assert (Eq : q * B2R x = N) by (unfold q; field; lra).
  assert (Hq : 0 < q <= 10 / 7).
  { split; [unfold q; apply Rmult_lt_0_compat; [exact N0|now apply Rinv_0_lt_compat]|]. apply Rmult_le_reg_r with (B2R x); lra. }
  assert (Hq1 : Rabs (q - 1) <= 10 / 7 * w).
  { replace (q - 1) with ((N - B2R x) * / B2R x) by (unfold q; field; lra). rewrite Rabs_mult, Rabs_Rinv by lra. rewrite (Rabs_pos_eq (B2R x)) by lra.
    apply Rmult_le_reg_r with (B2R x); [exact X0|]. rewrite Rmult_assoc, Rinv_l, Rmult_1_r by lra. rewrite Rabs_minus_sym.
    apply Rle_trans with (1 := Hx). nra. }
  replace ((1 + e) * q - 1) with ((q - 1) + e * q) by ring. pose proof (Rabs_triang (q - 1) (e * q)) as T. rewrite (Rabs_mult e q) in T.
  rewrite (Rabs_pos_eq q) in T by lra. pose proof (Rabs_pos e). assert (Rabs e * q <= w / 4 * (10 / 7)) by (apply Rmult_le_compat; lra). lra.
Qed.
End Format.

(** ** C69, for f32 and f64 *)
#[global] Instance float_ok t : fmt_ok (fprec t) (femax t).
Proof. destruct t; split; discriminate. Qed.

(** The sum of a vector of [n] components of absolute value at most 2^h, where h + p <= emax
    (h <= 104 for f32, h <= 971 for f64) and n <= 2^(p-3) (2^21 for f32, 2^50 for f64). *)
Theorem C69_sum : forall (t : float_type) S (h : Z) (n : nat) v (s : S),
  (0 <= h)%Z -> (h + fprec t <= femax t)%Z -> (Z.of_nat n <= 2 ^ (fprec t - 3))%Z -> length v = n -> Forall (bounded h) v ->
  exists z, vsum (float_ops t) n v s = (Ok z, s) /\ is_finite z = true /\
  Rabs (B2R z - rsum n (rat1 v)) <= INR n * epsilon t * rsum n (fun k => Rabs (rat1 v k)).
Proof. intros t S h n v s H1 H2 Hn Hv Hb. exact (g_sum S n h v s H1 H2 Hn Hv Hb). Qed.
Print Assumptions C69_sum.
(** The inner product.  Components are zero or between 2^-h and 2^h in absolute value, where
    2h + p <= emax (h <= 52 for f32, h <= 485 for f64). *)
Theorem C69_dot : forall (t : float_type) S (h : Z) (n : nat) a b (s : S),
  (0 <= h)%Z -> (2 * h + fprec t <= femax t)%Z -> (Z.of_nat n <= 2 ^ (fprec t - 3))%Z -> length a = n -> length b = n ->
  Forall (moderate h) a -> Forall (moderate h) b ->
  exists z, vdot (float_ops t) n a b s = (Ok z, s) /\ is_finite z = true /\
  Rabs (B2R z - rsum n (fun k => rat1 a k * rat1 b k)) <= INR (n + 1) * epsilon t * rsum n (fun k => Rabs (rat1 a k * rat1 b k)).
Proof. intros t S h n a b s H1 H2. exact (g_dot h (Logic.conj H1 H2) S n a b s). Qed.
Print Assumptions C69_dot.
(** The matrix product (all four ownership forms compute the same value, C38). *)
Theorem C69_matrix_product : forall (t : float_type) S (h : Z) (c : cfg) (d : ety S (float t)) (l n r : nat) a b (s : S),
  (0 <= h)%Z -> (2 * h + fprec t <= femax t)%Z ->
  (Z.of_nat n <= 2 ^ (fprec t - 3))%Z -> rect l n a -> rect n r b -> (l < W c)%nat -> (n < W c)%nat -> (r < W c)%nat ->
  Forall (Forall (moderate h)) a -> Forall (Forall (moderate h)) b ->
  exists p, mmul_vv c d (float_ops t) l n r a b s = (Ok p, s) /\ rect l r p /\
  forall i j, (i < l)%nat -> (j < r)%nat ->
  is_finite (at2 (float_arith t) p i j) = true /\
  Rabs (rat2 p i j - rsum n (fun k => rat2 a i k * rat2 b k j)) <= INR (n + 1) * epsilon t * rsum n (fun k => Rabs (rat2 a i k * rat2 b k j)).
Proof. intros t S h c d l n r a b s H1 H2. exact (g_matrix_product h (Logic.conj H1 H2) S c d l n r a b s). Qed.
Print Assumptions C69_matrix_product.
(** Matrix times vector. *)
Theorem C69_matrix_vector : forall (t : float_type) S (h : Z) (c : cfg) (d : ety S (float t)) (row col : nat) m v (s : S),
  (0 <= h)%Z -> (2 * h + fprec t <= femax t)%Z ->
  (Z.of_nat col <= 2 ^ (fprec t - 3))%Z -> rect row col m -> length v = col -> (row < W c)%nat -> (col < W c)%nat ->
  Forall (Forall (moderate h)) m -> Forall (moderate h) v ->
  exists w, mmulv c d (float_ops t) row col m v s = (Ok w, s) /\ length w = row /\
  forall i, (i < row)%nat ->
  is_finite (at1 (float_arith t) w i) = true /\
  Rabs (rat1 w i - rsum col (fun k => rat2 m i k * rat1 v k)) <= INR (col + 1) * epsilon t * rsum col (fun k => Rabs (rat2 m i k * rat1 v k)).
Proof. intros t S h c d row col m v s H1 H2. exact (g_matrix_vector h (Logic.conj H1 H2) S c d row col m v s). Qed.
Print Assumptions C69_matrix_vector.
(** The cross product: component i within 2 epsilon of the sum of the absolute values of its two products. *)
Theorem C69_cross : forall (t : float_type) S (h : Z) (c : cfg) a b (s : S),
  (0 <= h)%Z -> (2 * h + fprec t <= femax t)%Z -> length a = 3%nat -> length b = 3%nat ->
  Forall (moderate h) a -> Forall (moderate h) b ->
  exists z, vcross c (float_ops t) a b s = (Ok z, s) /\ length z = 3%nat /\
  forall i, (i < 3)%nat ->
  let j := ((i + 1) mod 3)%nat in let k := ((i + 2) mod 3)%nat in
  is_finite (at1 (float_arith t) z i) = true /\
  Rabs (rat1 z i - (rat1 a j * rat1 b k - rat1 a k * rat1 b j)) <= 2 * epsilon t * (Rabs (rat1 a j * rat1 b k) + Rabs (rat1 a k * rat1 b j)).
Proof.
  intros t S h c a b s H1 H2. replace (2 * epsilon t) with (b2 (2 - fprec t)); [exact (g_cross h (Logic.conj H1 H2) S c a b s)|].
  unfold epsilon. change 2 with (b2 1). rewrite <- bpow_plus. f_equal. lia.
Qed.
Print Assumptions C69_cross.
(** The Euclidean norm: relative error at most (n + 2) epsilon. *)
Theorem C69_norm : forall (t : float_type) S (h : Z) (n : nat) v (s : S),
  (0 <= h)%Z -> (2 * h + fprec t <= femax t)%Z -> (Z.of_nat n <= 2 ^ (fprec t - 3))%Z -> length v = n -> Forall (moderate h) v ->
  exists z, vnorm (float_fops t) n v s = (Ok z, s) /\ is_finite z = true /\
  let N := sqrt (rsum n (fun k => rat1 v k * rat1 v k)) in Rabs (B2R z - N) <= INR (n + 2) * epsilon t * N.
Proof. intros t S h n v s H1 H2. exact (g_norm h (Logic.conj H1 H2) S n v s). Qed.
Print Assumptions C69_norm.
(** Normalisation of a non-zero vector: every component has relative error at most
    2 (n + 2) epsilon. *)
Theorem C69_normalized : forall (t : float_type) S (h : Z) (c : cfg) (d : ety S (float t)) (n : nat) v (s : S),
  (0 <= h)%Z -> (2 * h + fprec t <= femax t)%Z -> (Z.of_nat n <= 2 ^ (fprec t - 3))%Z -> (n < W c)%nat -> length v = n -> Forall (moderate h) v ->
  (exists i, (i < n)%nat /\ rat1 v i <> 0) ->
  exists z, vnormalized c d (float_fops t) n v s = (Ok z, s) /\ length z = n /\
  forall i, (i < n)%nat -> is_finite (at1 (float_arith t) z i) = true /\
  let N := sqrt (rsum n (fun k => rat1 v k * rat1 v k)) in
  Rabs (rat1 z i - rat1 v i / N) <= 2 * INR (n + 2) * epsilon t * (Rabs (rat1 v i) / N).
Proof. intros t S h c d n v s H1 H2. exact (g_normalized h (Logic.conj H1 H2) S c d n v s). Qed.
Print Assumptions C69_normalized.
