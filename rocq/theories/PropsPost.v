(** * PropsPost.v - C92: a finite result of f32 or f64 arithmetic is an accurate one. *)
From Coq Require Import List Arith Bool Lia ZArith Reals Lra.
From Flocq Require Import Core BinarySingleNaN Relative Plus_error.
From Verif Require Import Rust Iter Elem VectorM MatIterM MatrixM ArithM OpsM SpecCommon SpecAlg FloatM SpecReal SpecPost.
From Verif Require Import Harness AccProofs Sim PropsAlg PropsCross DetLoop OpsPure FloatErr PropsFloat PropsFloatErr PropsFloatInv FloatPost.
Import ListNotations.
Local Open Scope R_scope.

Section Format.
Context {prec emax : Z} {Hgt : Prec_gt_0 prec} {Hlt : Prec_lt_emax prec emax} {OK : fmt_ok prec emax}.
Local Notation FL := (fl prec emax).
Local Notation AR := (fl_arith prec emax Hgt Hlt).
Local Notation OP := (fl_ops prec emax Hgt Hlt).
Local Notation FP := (Fops OP (fun x => ret (Bmult mode_NE x x)) (fun x => ret (Bsqrt mode_NE x))).
Local Notation u := (ur prec).
Local Notation P := (Pr prec).
Local Notation au := (apu prec).
Local Notation fexp := (SpecFloat.fexp prec emax).
Local Notation rnd := (round radix2 fexp (round_mode mode_NE)).
Local Notation emin := (3 - emax - prec)%Z.
Local Notation eta := (hs prec emax).
Ltac flia := pose proof (@ok_prec _ _ OK); pose proof (@ok_emax _ _ OK); lia.
Lemma two_eta x : 2 * (x * eta) = x * b2 emin.
Proof. unfold hs. lra. Qed.

Lemma q_sum : forall S (n : nat) v (s : S), (Z.of_nat n <= 2 ^ (prec - 3))%Z -> length v = n ->
  exists z, vsum OP n v s = (Ok z, s) /\ (is_finite z = true ->
  Forall (fun x => is_finite x = true) v /\
  Rabs (B2R z - rsum n (rat1 v)) <= INR n * b2 (1 - prec) * rsum n (fun k => Rabs (rat1 v k))).
Proof.
  intros S n v s Hn Hv. exists (v_sum AR n v). split; [exact (sumv _ _ (ex_semi _ _ (proj1 (fl_exact prec emax Hgt Hlt))) n v s Hv)|].
  intros F. destruct (fsum_post n (fun i => at1 AR v i) (rat1 v) (fun k => Rabs (rat1 v k)) (fun _ => 0) 0 F) as [H1 H2].
  - intros i Hi Fi. apply au_exact.
  - split.
    + apply Forall_forall. intros x Hx. destruct (In_nth v x (a_zero AR) Hx) as (i & Hi & <-). apply H1. lia.
    + cbn [Nat.add] in H2. replace n with (n + 0)%nat in H2 at 1 by flia. apply (au_err n 0) in H2; [|exact Hn|lia].
      rewrite Nat.add_0_r, rsum_const, !Rmult_0_r, Rplus_0_r in H2. exact H2.
Qed.
Lemma q_dot_gen n (f g : nat -> FL) : (Z.of_nat n <= 2 ^ (prec - 3))%Z ->
  let z := sum AR n (fun k => a_mul AR (f k) (g k)) in is_finite z = true ->
  (forall k, (k < n)%nat -> is_finite (f k) = true /\ is_finite (g k) = true) /\
  Rabs (B2R z - rsum n (fun k => B2R (f k) * B2R (g k))) <=
    INR (n + 1) * b2 (1 - prec) * rsum n (fun k => Rabs (B2R (f k) * B2R (g k))) + INR n * b2 emin.
Proof.
  intros Hn z F. destruct (dot_post n f g F) as [H1 H2]. split; [exact H1|]. apply (au_err n 1) in H2; [|exact Hn|lia].
  rewrite two_eta in H2. exact H2.
Qed.
Lemma q_dot : forall S (n : nat) a b (s : S), (Z.of_nat n <= 2 ^ (prec - 3))%Z -> length a = n -> length b = n ->
  exists z, vdot OP n a b s = (Ok z, s) /\ (is_finite z = true ->
  (forall k, (k < n)%nat -> is_finite (at1 AR a k) = true /\ is_finite (at1 AR b k) = true) /\
  Rabs (B2R z - rsum n (fun k => rat1 a k * rat1 b k)) <=
    INR (n + 1) * b2 (1 - prec) * rsum n (fun k => Rabs (rat1 a k * rat1 b k)) + INR n * b2 emin).
Proof.
  intros S n a b s Hn La Lb. exists (v_dot AR n a b).
  split; [exact (dotv _ _ (ex_semi _ _ (proj1 (fl_exact prec emax Hgt Hlt))) n a b s La Lb)|].
  exact (q_dot_gen n (at1 AR a) (at1 AR b) Hn).
Qed.
Lemma q_matrix_product : forall S (c : cfg) (d : ety S FL) (l n r : nat) a b (s : S),
  (Z.of_nat n <= 2 ^ (prec - 3))%Z -> rect l n a -> rect n r b -> (l < W c)%nat -> (n < W c)%nat -> (r < W c)%nat ->
  exists p, mmul_vv c d OP l n r a b s = (Ok p, s) /\ rect l r p /\
  forall i j, (i < l)%nat -> (j < r)%nat -> is_finite (at2 AR p i j) = true ->
  (forall k, (k < n)%nat -> is_finite (at2 AR a i k) = true /\ is_finite (at2 AR b k j) = true) /\
  Rabs (rat2 p i j - rsum n (fun k => rat2 a i k * rat2 b k j)) <=
    INR (n + 1) * b2 (1 - prec) * rsum n (fun k => Rabs (rat2 a i k * rat2 b k j)) + INR n * b2 emin.
Proof.
  intros S c d l n r a b s Hn Ra Rb Hl Hw Hr. exists (m_mul AR l n r a b).
  split; [exact (mulm c d _ _ (ex_semi _ _ (proj1 (fl_exact prec emax Hgt Hlt))) l n r a b s Ra Rb Hl Hw Hr)|]. split; [apply mat_rect|].
  intros i j Hi Hj. rewrite (rat2E (m_mul _ _ _ _ _ _)). unfold m_mul. rewrite (at2_mat AR l r _ i j Hi Hj).
  exact (q_dot_gen n (fun k => at2 AR a i k) (fun k => at2 AR b k j) Hn).
Qed.
Lemma q_matrix_vector : forall S (c : cfg) (d : ety S FL) (row col : nat) m v (s : S),
  (Z.of_nat col <= 2 ^ (prec - 3))%Z -> rect row col m -> length v = col -> (row < W c)%nat -> (col < W c)%nat ->
  exists w, mmulv c d OP row col m v s = (Ok w, s) /\ length w = row /\
  forall i, (i < row)%nat -> is_finite (at1 AR w i) = true ->
  (forall k, (k < col)%nat -> is_finite (at2 AR m i k) = true /\ is_finite (at1 AR v k) = true) /\
  Rabs (rat1 w i - rsum col (fun k => rat2 m i k * rat1 v k)) <=
    INR (col + 1) * b2 (1 - prec) * rsum col (fun k => Rabs (rat2 m i k * rat1 v k)) + INR col * b2 emin.
Proof.
  intros S c d row col m v s Hn Rm Lv Hl Hw. exists (m_mulv AR row col m v).
  split; [exact (mulmv c d _ _ (ex_semi _ _ (proj1 (fl_exact prec emax Hgt Hlt))) row col m v s Rm Lv Hl Hw)|]. split; [apply vec_length|].
  intros i Hi. rewrite (rat1E (m_mulv _ _ _ _ _)). unfold m_mulv. rewrite (at1_vec AR row _ i Hi).
  exact (q_dot_gen col (fun k => at2 AR m i k) (fun k => at1 AR v k) Hn).
Qed.
(** A difference of two products. *)
Lemma ms_post (a b x y : FL) : let z := a_sub AR (a_mul AR a b) (a_mul AR x y) in is_finite z = true ->
  (is_finite a = true /\ is_finite b = true /\ is_finite x = true /\ is_finite y = true) /\
  au 2 (Rabs (B2R a * B2R b) + Rabs (B2R x * B2R y)) (2 * eta) (B2R a * B2R b - B2R x * B2R y) (B2R z).
Proof.
  intros z F. destruct (nf_sub _ _ F) as [F1 F2]. destruct (nf_mul _ _ F1), (nf_mul _ _ F2). split; [tauto|].
  replace (2 * eta) with (eta + eta) by ring. apply au_sub; [now apply au_prod|now apply au_prod|exact F].
Qed.
Lemma q_cross : forall S (c : cfg) a b (s : S), length a = 3%nat -> length b = 3%nat ->
  exists z, vcross c OP a b s = (Ok z, s) /\ length z = 3%nat /\
  forall i, (i < 3)%nat ->
  let j := ((i + 1) mod 3)%nat in let k := ((i + 2) mod 3)%nat in
  is_finite (at1 AR z i) = true ->
  (is_finite (at1 AR a j) = true /\ is_finite (at1 AR b k) = true /\ is_finite (at1 AR a k) = true /\ is_finite (at1 AR b j) = true) /\
  Rabs (rat1 z i - (rat1 a j * rat1 b k - rat1 a k * rat1 b j)) <= 2 * b2 (1 - prec) * (Rabs (rat1 a j * rat1 b k) + Rabs (rat1 a k * rat1 b j)) + 2 * b2 emin.
Proof.
  intros S c a b s La Lb. exists (v_cross AR a b).
  split; [exact (crossv c OP AR a b s (proj1 (fl_exact prec emax Hgt Hlt)) La Lb)|]. split; [reflexivity|].
  assert (G : forall j k, let z := a_sub AR (a_mul AR (at1 AR a j) (at1 AR b k)) (a_mul AR (at1 AR a k) (at1 AR b j)) in is_finite z = true ->
    (is_finite (at1 AR a j) = true /\ is_finite (at1 AR b k) = true /\ is_finite (at1 AR a k) = true /\ is_finite (at1 AR b j) = true) /\
    Rabs (B2R z - (rat1 a j * rat1 b k - rat1 a k * rat1 b j)) <= 2 * b2 (1 - prec) * (Rabs (rat1 a j * rat1 b k) + Rabs (rat1 a k * rat1 b j)) + 2 * b2 emin).
  { intros j k z F. destruct (ms_post _ _ _ _ F) as [H1 H2]. split; [exact H1|].
    apply (au_err 0 2) in H2; [|cbn; pose proof (@ok_prec _ _ OK); flia|flia]. rewrite two_eta in H2. cbn [Nat.add INR] in H2. replace (1 + 1) with 2 in H2 by ring. exact H2. }
  intros i Hi. destruct i as [|[|[|]]]; [apply (G 1%nat 2%nat)|apply (G 2%nat 0%nat)|apply (G 0%nat 1%nat)|lia].
Qed.
(** A square root. *)
Lemma sqrt_rnd (x : FL) : is_finite (Bsqrt mode_NE x) = true -> fin x /\ 0 <= B2R x /\
  exists e, Rabs e <= u /\ B2R (Bsqrt mode_NE x) = sqrt (B2R x) * (1 + e).
Proof.
  intros F. pose proof (Bsqrt_correct prec emax _ _ mode_NE x) as (C1 & C2 & _).
  assert (Fx : fin x). { unfold fin. destruct x as [| [] | |]; cbn in F |- *; auto; discriminate. }
  assert (Hx : 0 <= B2R x).
  { rewrite C2 in F. destruct x as [sx|sx| |sx mx ex hx]; try discriminate Fx; [apply Rle_refl|]. destruct sx; [discriminate F|].
    unfold B2R. cbn [cond_Zopp]. apply F2R_ge_0. discriminate. }
  split; [exact Fx|]. split; [exact Hx|]. rewrite C1.
  destruct (Req_dec (B2R x) 0) as [E0|N0].
  - exists 0. rewrite Rabs_R0. split; [left; apply u_pos|]. rewrite E0, sqrt_0, round_0 by auto with typeclass_instances. ring.
  - assert (Hl : b2 (SpecFloat.emin prec emax) <= B2R x).
    { rewrite <- (Rabs_pos_eq (B2R x)) by exact Hx. apply (abs_B2R_ge_emin prec emax x).
      clear - Fx N0. destruct x; try discriminate Fx; [elim N0; reflexivity|reflexivity]. }
    apply (rnd_rng (2 - emax) emax); [flia|flia|]. right. rewrite Rabs_pos_eq by apply sqrt_pos. split.
    + replace (b2 (2 - emax)) with (sqrt (b2 ((2 - emax) + (2 - emax)))).
      * apply sqrt_le_1; [apply bpow_ge_0|exact Hx|]. apply Rle_trans with (2 := Hl). apply bpow_le. unfold SpecFloat.emin. flia.
      * rewrite bpow_plus. apply sqrt_square. apply bpow_ge_0.
    + pose proof (abs_B2R_lt_emax prec emax x) as Hb. rewrite Rabs_pos_eq in Hb by exact Hx.
      replace (b2 emax) with (sqrt (b2 (emax + emax))).
      * apply sqrt_le_1; [exact Hx|apply bpow_ge_0|]. apply Rle_trans with (b2 emax); [lra|apply bpow_le; flia].
      * rewrite bpow_plus. apply sqrt_square. apply bpow_ge_0.
Qed.
Lemma q_norm : forall S (n : nat) v (s : S), (Z.of_nat n <= 2 ^ (prec - 3))%Z -> length v = n ->
  exists z, vnorm FP n v s = (Ok z, s) /\ (is_finite z = true ->
  Forall (fun x => is_finite x = true) v /\
  let N := sqrt (rsum n (fun k => rat1 v k * rat1 v k)) in
  Rabs (B2R z - N) <= INR (n + 2) * b2 (1 - prec) * N + 2 * sqrt (INR n * b2 emin)).
Proof.
  intros S n v s Hn Lv. eexists. split; [apply norm_run64; exact Lv|]. cbv zeta.
  set (x := sum AR n _). intros Fz. destruct (sqrt_rnd x Fz) as (Fx & Hx & e & He & Ez). rewrite Ez.
  destruct (dot_post n (at1 AR v) (at1 AR v) Fx) as [H1 H2]. split.
  { apply Forall_forall. intros y Hy. destruct (In_nth v y (a_zero AR) Hy) as (i & Hi & <-). apply H1. lia. }
  change (sum AR n (fun k => a_mul AR (at1 AR v k) (at1 AR v k))) with x in H2.
  rewrite (rsum_ext n (fun k => Rabs (B2R (at1 AR v k) * B2R (at1 AR v k))) (fun k => rat1 v k * rat1 v k)) in H2.
  2:{ intros i _. apply Rabs_pos_eq. apply Rle_0_sqr. }
  change (rsum n (fun k => B2R (at1 AR v k) * B2R (at1 AR v k))) with (rsum n (fun k => rat1 v k * rat1 v k)) in H2.
  set (Q := rsum n (fun k => rat1 v k * rat1 v k)) in *. destruct (au_pos _ _ _ _ _ H2) as [HQ Ht].
  assert (HP := @P_ge1 prec (n + 1)). destruct H2 as [H2 _].
  apply sqrt_close in H2; [|assumption|assumption|lra|apply Rmult_le_pos; [lra|exact Ht]].
  destruct (@P_le prec emax OK n 2 Hn ltac:(lia)) as [K1 K2]. destruct (@P_le prec emax OK n 1 Hn ltac:(lia)) as [_ K3].
  assert (E2 : P (n + 2) = P (n + 1) * (1 + u)) by (rewrite <- P_S; f_equal; lia).
  pose proof (sqrt_pos Q) as HN. pose proof (@u_pos prec) as Hu.
  assert (T : sqrt (P (n + 1) * (INR n * eta)) <= sqrt (INR n * b2 emin)).
  { apply sqrt_le_1_alt. rewrite <- two_eta. apply Rmult_le_compat_r; assumption. }
  set (g := P (n + 1) - 1) in *. set (N := sqrt Q) in *. set (t := sqrt (P (n + 1) * _)) in *. set (t2 := sqrt (INR n * b2 emin)) in *.
  pose proof (sqrt_pos (P (n + 1) * (INR n * eta))) as Ht0. fold t in Ht0.
  set (r := sqrt (B2R x)) in *. pose proof (sqrt_pos (B2R x)) as Hr. fold r in Hr.
  assert (Rr : r <= N + (g * N + t)) by (unfold Rabs in H2; destruct (Rcase_abs (r - N)); lra).
  replace (r * (1 + e) - N) with ((r - N) + e * r) by ring. pose proof (Rabs_triang (r - N) (e * r)) as T1. rewrite (Rabs_mult e r) in T1.
  rewrite (Rabs_pos_eq r) in T1 by exact Hr. pose proof (Rabs_pos e).
  assert (Rabs e * r <= u * (N + (g * N + t))) by (apply Rmult_le_compat; lra).
  assert (u <= 1) by (pose proof (@u_small prec emax OK); lra). assert (u * t <= 1 * t) by (apply Rmult_le_compat_r; lra).
  assert ((P (n + 2) - 1) * N <= INR (n + 2) * b2 (1 - prec) * N) by (apply Rmult_le_compat_r; assumption).
  rewrite E2 in *. replace (P (n + 1)) with (g + 1) in * by (unfold g; ring). nra.
Qed.
(** Determinants. *)
Lemma trip_post (a b x : FL) : let z := a_mul AR (a_mul AR a b) x in is_finite z = true ->
  (is_finite a = true /\ is_finite b = true /\ is_finite x = true) /\
  au 2 (Rabs (B2R a * B2R b * B2R x)) (eta * Rabs (B2R x) + eta) (B2R a * B2R b * B2R x) (B2R z).
Proof.
  intros z F. destruct (nf_mul _ _ F) as [F1 F2]. destruct (nf_mul _ _ F1). split; [tauto|].
  rewrite (Rabs_mult (B2R a * B2R b)). apply au_mulx; [|exact F]. now apply au_prod.
Qed.
Lemma q_determinant : forall S (c : cfg) (d : ety S FL) (n : nat) m (s : S),
  (1 <= n <= 3)%nat -> rect n n m ->
  exists x, det c d OP n m s = (Ok x, s) /\ (is_finite x = true ->
  (forall i j, (i < n)%nat -> (j < n)%nat -> is_finite (at2 AR m i j) = true) /\
  Rabs (B2R x - rdet n (rat2 m)) <= 7 * b2 (1 - prec) * rperm n (fun i j => Rabs (rat2 m i j)) +
    2 * b2 emin * (3 + rsum n (fun j => Rabs (rat2 m (n - 1) j)))).
Proof.
  intros S c d n m s Hn R. pose proof (W_big c) as HW. exists (p_det AR (Bdiv mode_NE) (fl_is_zero prec emax) n m).
  split; [apply (det_p AR (Bdiv mode_NE) (fl_is_zero prec emax) c d OP (proj1 (fl_exact prec emax Hgt Hlt)) (proj2 (fl_exact prec emax Hgt Hlt)) (fun _ => eq_refl)); auto; flia|].
  intros F.
  assert (E : forall s t v r y, au 7 s t v r -> t <= eta * (2 * (3 + y)) -> Rabs (r - v) <= 7 * b2 (1 - prec) * s + 2 * b2 emin * (3 + y)).
  { intros s0 t v r y H Hy. apply (au_err 0 7) in H; [|pose proof (@ok_prec _ _ OK); cbn; flia|flia]. cbn [Nat.add] in H. replace (INR 7) with 7 in H by (cbn; lra).
    replace (b2 emin) with (2 * eta) by (unfold hs; field). lra. }
  pose proof (@eta_pos prec emax) as He.
  destruct n as [|[|[|[|n]]]]; [flia| | | |flia]; cbn [p_det] in F |- *.
  - unfold det_1 in *. split; [intros [|i] [|j] Hi Hj; try lia; exact F|].
    replace (rperm 1 (fun i j => Rabs (rat2 m i j))) with (Rabs (rat2 m 0 0)) by (real_unf; ring).
    replace (rdet 1 (rat2 m)) with (rat2 m 0 0) by (real_unf; ring). apply E with 0; [apply au_weaken with 0%nat; [|flia]; apply au_exact|].
    unfold rsum. cbn [seq fold_left]. pose proof (Rabs_pos (rat2 m (1 - 1) 0)). nra.
  - unfold det_2 in *. destruct (ms_post _ _ _ _ F) as [(F1 & F2 & F3 & F4) H]. split; [intros [|[|i]] [|[|j]] Hi Hj; try lia; assumption|].
    replace (rperm 2 (fun i j => Rabs (rat2 m i j))) with (Rabs (rat2 m 0 0 * rat2 m 1 1) + Rabs (rat2 m 1 0 * rat2 m 0 1)) by (rewrite !Rabs_mult; real_unf; ring).
    replace (rdet 2 (rat2 m)) with (rat2 m 0 0 * rat2 m 1 1 - rat2 m 1 0 * rat2 m 0 1) by (real_unf; ring).
    apply E with (2 * eta); [apply au_weaken with 2%nat; [exact H|flia]|].
    unfold rsum. cbn [seq fold_left]. pose proof (Rabs_pos (rat2 m (2 - 1) 0)). pose proof (Rabs_pos (rat2 m (2 - 1) 1)). nra.
  - unfold det_3 in *. cbv zeta in *.
    destruct (nf_sub _ _ F) as [G1 T6]. destruct (nf_sub _ _ G1) as [G2 T5]. destruct (nf_sub _ _ G2) as [G3 T4].
    destruct (nf_add _ _ G3) as [G4 T3]. destruct (nf_add _ _ G4) as [T1 T2].
    destruct (trip_post _ _ _ T1) as [(F00 & F11 & F22) A1]. destruct (trip_post _ _ _ T2) as [(F01 & F12 & F20) A2].
    destruct (trip_post _ _ _ T3) as [(F02 & F10 & F21) A3]. destruct (trip_post _ _ _ T4) as [_ A4].
    destruct (trip_post _ _ _ T5) as [_ A5]. destruct (trip_post _ _ _ T6) as [_ A6]. cbv zeta in *.
    split; [intros [|[|[|i]]] [|[|[|j]]] Hi Hj; try lia; assumption|].
    pose proof (au_add 2 _ _ _ _ _ _ _ _ A1 A2 G4) as B1.
    pose proof (au_add 3 _ _ _ _ _ _ _ _ B1 (au_weaken _ 3 _ _ _ _ A3 ltac:(lia)) G3) as B2.
    pose proof (au_sub 4 _ _ _ _ _ _ _ _ B2 (au_weaken _ 4 _ _ _ _ A4 ltac:(lia)) G2) as B3.
    pose proof (au_sub 5 _ _ _ _ _ _ _ _ B3 (au_weaken _ 5 _ _ _ _ A5 ltac:(lia)) G1) as B4.
    pose proof (au_sub 6 _ _ _ _ _ _ _ _ B4 (au_weaken _ 6 _ _ _ _ A6 ltac:(lia)) F) as B5.
    clear - OK E B5 He. rewrite <- !rat2E in B5.
    match type of B5 with apu _ _ ?S ?T ?V _ => 
      replace (rperm 3 (fun i j => Rabs (rat2 m i j))) with S by (rewrite !Rabs_mult; real_unf; ring);
      replace (rdet 3 (rat2 m)) with V by (real_unf; ring); apply E with T end; [exact B5|].
    unfold rsum. cbn [seq fold_left Nat.sub]. lra.
Qed.
End Format.

Lemma finite_at t (v : list (float t)) n : length v = n -> Forall finite v <-> forall k, (k < n)%nat -> finite (at1 (float_arith t) v k).
Proof.
  intros L. split.
  - intros H k Hk. rewrite Forall_forall in H. apply H. apply nth_In. lia.
  - intros H. apply Forall_forall. intros x Hx. destruct (In_nth v x (a_zero (float_arith t)) Hx) as (k & Hk & <-). apply H. lia.
Qed.

(** [smallest t] is the least positive value of the type. *)
Theorem C92_smallest : forall t, (exists x : float t, finite x /\ B2R x = smallest t) /\
  forall x : float t, finite x -> B2R x = 0 \/ smallest t <= Rabs (B2R x).
Proof.
  intros t. split.
  - assert (H : SpecFloat.bounded (fprec t) (femax t) 1 (3 - femax t - fprec t) = true) by (destruct t; reflexivity).
    exists (B754_finite false 1 _ H). split; [reflexivity|]. unfold smallest, B2R, F2R. cbn [cond_Zopp Fnum Fexp]. apply Rmult_1_l.
  - intros x Fx. destruct x as [sx|sx| |sx mx ex hx]; try discriminate Fx; [left; reflexivity|right].
    exact (abs_B2R_ge_emin (fprec t) (femax t) (B754_finite sx mx ex hx) eq_refl).
Qed.
Print Assumptions C92_smallest.
(** A sum that is finite is within n epsilon of the exact one (relative to the sum of absolute
    values), and all components were finite. *)
Theorem C92_sum : forall (t : float_type) S (n : nat) v (s : S), (Z.of_nat n <= 2 ^ (fprec t - 3))%Z -> length v = n ->
  exists z, vsum (float_ops t) n v s = (Ok z, s) /\
  (finite z -> Forall finite v /\
   Rabs (B2R z - rsum n (rat1 v)) <= INR n * epsilon t * rsum n (fun k => Rabs (rat1 v k))).
Proof. intros t S n v s. exact (q_sum S n v s). Qed.
Print Assumptions C92_sum.
(** A finite inner product: the same with n + 1, and n times the smallest positive number more
    for underflow. *)
Theorem C92_dot : forall (t : float_type) S (n : nat) a b (s : S), (Z.of_nat n <= 2 ^ (fprec t - 3))%Z -> length a = n -> length b = n ->
  exists z, vdot (float_ops t) n a b s = (Ok z, s) /\
  (finite z -> Forall finite a /\ Forall finite b /\
   Rabs (B2R z - rsum n (fun k => rat1 a k * rat1 b k)) <=
     INR (n + 1) * epsilon t * rsum n (fun k => Rabs (rat1 a k * rat1 b k)) + INR n * smallest t).
Proof.
  intros t S n a b s Hn La Lb. destruct (q_dot S n a b s Hn La Lb) as (z & E & H). exists z. split; [exact E|]. intros F. destruct (H F) as [H1 H2].
  split; [|split; [|exact H2]]; (apply (finite_at t _ n); [assumption|]; intros k Hk; exact (proj1 (H1 k Hk)) || exact (proj2 (H1 k Hk))).
Qed.
Print Assumptions C92_dot.
Theorem C92_matrix_product : forall (t : float_type) S (c : cfg) (d : ety S (float t)) (l n r : nat) a b (s : S),
  (Z.of_nat n <= 2 ^ (fprec t - 3))%Z -> rect l n a -> rect n r b -> (l < W c)%nat -> (n < W c)%nat -> (r < W c)%nat ->
  exists p, mmul_vv c d (float_ops t) l n r a b s = (Ok p, s) /\ rect l r p /\
  forall i j, (i < l)%nat -> (j < r)%nat -> finite (at2 (float_arith t) p i j) ->
  (forall k, (k < n)%nat -> finite (at2 (float_arith t) a i k) /\ finite (at2 (float_arith t) b k j)) /\
  Rabs (rat2 p i j - rsum n (fun k => rat2 a i k * rat2 b k j)) <=
    INR (n + 1) * epsilon t * rsum n (fun k => Rabs (rat2 a i k * rat2 b k j)) + INR n * smallest t.
Proof. intros t S c d l n r a b s. exact (q_matrix_product S c d l n r a b s). Qed.
Print Assumptions C92_matrix_product.
Theorem C92_matrix_vector : forall (t : float_type) S (c : cfg) (d : ety S (float t)) (row col : nat) m v (s : S),
  (Z.of_nat col <= 2 ^ (fprec t - 3))%Z -> rect row col m -> length v = col -> (row < W c)%nat -> (col < W c)%nat ->
  exists w, mmulv c d (float_ops t) row col m v s = (Ok w, s) /\ length w = row /\
  forall i, (i < row)%nat -> finite (at1 (float_arith t) w i) ->
  (forall k, (k < col)%nat -> finite (at2 (float_arith t) m i k) /\ finite (at1 (float_arith t) v k)) /\
  Rabs (rat1 w i - rsum col (fun k => rat2 m i k * rat1 v k)) <=
    INR (col + 1) * epsilon t * rsum col (fun k => Rabs (rat2 m i k * rat1 v k)) + INR col * smallest t.
Proof. intros t S c d row col m v s. exact (q_matrix_vector S c d row col m v s). Qed.
Print Assumptions C92_matrix_vector.
Theorem C92_cross : forall (t : float_type) S (c : cfg) a b (s : S), length a = 3%nat -> length b = 3%nat ->
  exists z, vcross c (float_ops t) a b s = (Ok z, s) /\ length z = 3%nat /\
  forall i, (i < 3)%nat ->
  let j := ((i + 1) mod 3)%nat in let k := ((i + 2) mod 3)%nat in
  finite (at1 (float_arith t) z i) ->
  (finite (at1 (float_arith t) a j) /\ finite (at1 (float_arith t) b k) /\ finite (at1 (float_arith t) a k) /\ finite (at1 (float_arith t) b j)) /\
  Rabs (rat1 z i - (rat1 a j * rat1 b k - rat1 a k * rat1 b j)) <=
    2 * epsilon t * (Rabs (rat1 a j * rat1 b k) + Rabs (rat1 a k * rat1 b j)) + 2 * smallest t.
Proof. intros t S c a b s. exact (q_cross S c a b s). Qed.
Print Assumptions C92_cross.
(** A finite norm. *)
Theorem C92_norm : forall (t : float_type) S (n : nat) v (s : S), (Z.of_nat n <= 2 ^ (fprec t - 3))%Z -> length v = n ->
  exists z, vnorm (float_fops t) n v s = (Ok z, s) /\
  (finite z -> Forall finite v /\
   let N := sqrt (rsum n (fun k => rat1 v k * rat1 v k)) in
   Rabs (B2R z - N) <= INR (n + 2) * epsilon t * N + 2 * sqrt (INR n * smallest t)).
Proof. intros t S n v s. exact (q_norm S n v s). Qed.
Print Assumptions C92_norm.
(** A finite determinant of size 1, 2 or 3: all entries were finite, and the error is at most
    7 epsilon times the permanent of the absolute values, plus what underflow can cost. *)
Theorem C92_determinant : forall (t : float_type) S (c : cfg) (d : ety S (float t)) (n : nat) m (s : S),
  (1 <= n <= 3)%nat -> rect n n m ->
  exists x, det c d (float_ops t) n m s = (Ok x, s) /\
  (finite x ->
   (forall i j, (i < n)%nat -> (j < n)%nat -> finite (at2 (float_arith t) m i j)) /\
   Rabs (B2R x - rdet n (rat2 m)) <= 7 * epsilon t * rperm n (fun i j => Rabs (rat2 m i j)) +
     2 * smallest t * (3 + rsum n (fun j => Rabs (rat2 m (n - 1) j)))).
Proof. intros t S c d n m s. exact (q_determinant S c d n m s). Qed.
Print Assumptions C92_determinant.

(** The hypotheses are met also where C69's are not: the square of the smallest positive number
    underflows to zero, and the inner product (2^-1074, 1) . (2^-1074, 2) = 2 is finite. *)
Definition ftiny : float F64 := @B754_finite 53 1024 false 1 (-1074) eq_refl.
Lemma ftiny_val : B2R ftiny = smallest F64.
Proof. unfold smallest, ftiny, B2R, F2R. cbn [cond_Zopp Fnum Fexp]. apply Rmult_1_l. Qed.
Example C92_ex : forall S (s : S),
  let e := smallest F64 in
  exists z, vdot (float_ops F64) 2 [ftiny; f1] [ftiny; f2] s = (Ok z, s) /\ finite z /\
  Rabs (B2R z - (e * e + 2)) <= 3 * epsilon F64 * (e * e + 2) + 2 * e.
Proof.
  intros S s e. destruct (C92_dot F64 S 2 [ftiny; f1] [ftiny; f2] s) as (z & E & H); [discriminate|reflexivity|reflexivity|].
  assert (R : vdot (float_ops F64) 2 [ftiny; f1] [ftiny; f2] s = (Ok (v_dot (float_arith F64) 2 [ftiny; f1] [ftiny; f2]), s)).
  { exact (dotv _ _ (ex_semi _ _ (proj1 (fl_exact 53 1024 prec64 emax64))) 2 [ftiny; f1] [ftiny; f2] s eq_refl eq_refl). }
  assert (Fz : is_finite (v_dot (float_arith F64) 2 [ftiny; f1] [ftiny; f2]) = true) by (vm_compute; reflexivity).
  rewrite E in R. injection R as Ez. rewrite <- Ez in Fz. exists z. split; [exact E|]. split; [exact Fz|].
  destruct (H Fz) as (_ & _ & K). clear H E Ez.
  assert (E0 : rat1 [ftiny; f1] 0 = e) by exact ftiny_val. assert (E1 : rat1 [ftiny; f1] 1 = 1) by exact f1_val.
  assert (G0 : rat1 [ftiny; f2] 0 = e) by exact ftiny_val. assert (G1 : rat1 [ftiny; f2] 1 = 2) by exact f2_val.
  unfold rsum in K. cbn [seq fold_left] in K. rewrite E0, E1, G0, G1 in K.
  assert (0 <= e) by (unfold e, smallest; apply bpow_ge_0).
  rewrite (Rabs_pos_eq (e * e)), (Rabs_pos_eq (1 * 2)) in K by nra.
  replace (INR (2 + 1)) with 3 in K by (cbn; lra). replace (INR 2) with 2 in K by (cbn; lra). fold e in K.
  replace (0 + e * e + 1 * 2) with (e * e + 2) in K by ring. exact K.
Qed.
