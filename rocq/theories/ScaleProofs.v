(** * ScaleProofs.v - f32 and f64 inverses of matrices of any scale (proofs only). *)
From Coq Require Import List Arith Bool Lia ZArith Reals Lra.
From Flocq Require Import Core BinarySingleNaN Relative Plus_error.
From Verif Require Import Rust Iter Elem VectorM MatIterM MatrixM ArithM OpsM SpecCommon SpecAlg FloatM SpecReal SpecPost.
From Verif Require Import Harness AccProofs Sim PropsAlg PropsCross DetLoop OpsPure FloatErr PropsFloat PropsFloatErr PropsFloatInv PropsFloatGJ FloatPost PropsPost.
Import ListNotations.
Local Open Scope R_scope.

(** The small inverses, over any arithmetic. *)
Section Small.
Context {T : Type} (A : arith T) (dv : T -> T -> T) (iz : T -> bool).
(** None exactly if the computed determinant is zero. *)
Lemma s_none_iff n m : (1 <= n <= 3)%nat -> p_inverse A dv iz n m = None <-> iz (p_det A dv iz n m) = true.
Proof.
  intros Hn. destruct n as [|[|[|[|n]]]]; try lia; cbn [p_inverse p_det]; cbv zeta; unfold det_1;
    match goal with |- (if ?b then _ else _) = _ <-> _ => destruct b end; (split; [discriminate|discriminate]) || (split; reflexivity).
Qed.
Definition padj (n : nat) (m : list (list T)) (i j : nat) : T :=
  match n with
  | 1%nat => a_one A
  | 2%nat => at2 A [[at2 A m 1 1; a_neg A (at2 A m 0 1)]; [a_neg A (at2 A m 1 0); at2 A m 0 0]] i j
  | _ => at2 A [[p_ms A m 1 1 2 2 1 2 2 1; p_ms A m 0 2 2 1 0 1 2 2; p_ms A m 0 1 1 2 0 2 1 1];
                 [p_ms A m 1 2 2 0 1 0 2 2; p_ms A m 0 0 2 2 0 2 2 0; p_ms A m 0 2 1 0 0 0 1 2];
                 [p_ms A m 1 0 2 1 1 1 2 0; p_ms A m 0 1 2 0 0 0 2 1; p_ms A m 0 0 1 1 0 1 1 0]] i j
  end.
Lemma s_some n m y i j : (1 <= n <= 3)%nat -> (i < n)%nat -> (j < n)%nat -> p_inverse A dv iz n m = Some y ->
  at2 A y i j = dv (padj n m i j) (p_det A dv iz n m).
Proof.
  intros Hn Hi Hj. destruct n as [|[|[|[|n]]]]; try lia; cbn [p_inverse p_det padj]; cbv zeta; unfold det_1;
    match goal with |- (if ?b then _ else _) = _ -> _ => destruct b end; try discriminate; intros [= <-].
  - assert (i = 0%nat) by lia. assert (j = 0%nat) by lia. subst. reflexivity.
  - destruct i as [|[|i]]; try lia; destruct j as [|[|j]]; try lia; reflexivity.
  - destruct i as [|[|[|i]]]; try lia; destruct j as [|[|[|j]]]; try lia; reflexivity.
Qed.
End Small.

(** Diagonal matrices above size 3. *)
Section Diag.
Context {T : Type} (A : arith T) (dv : T -> T -> T) (iz : T -> bool) (Z Fn : T -> Prop) (n : nat) (d : nat -> T).
Local Open Scope nat_scope.
Let r k := dv (a_one A) (d k).
Hypothesis ZF : forall x, Z x -> Fn x.
Hypothesis Z0 : Z (a_zero A).
Hypothesis F1 : Fn (a_one A).
Hypothesis ZM : forall x y, Z x -> Fn y -> Z (a_mul A x y) /\ Z (a_mul A y x).
Hypothesis ZS : forall x y, Z x -> Z y -> Z (a_sub A x y).
Hypothesis FS : forall x y, Fn x -> Z y -> Fn (a_sub A x y).
Hypothesis Sd : forall k y, k < n -> Z y -> a_sub A (d k) y = d k.
Hypothesis Sr : forall k y, k < n -> Z y -> a_sub A (r k) y = r k.
Hypothesis S1 : forall y, Z y -> a_sub A (a_one A) y = a_one A.
Hypothesis M1 : forall k, k < n -> a_mul A (a_one A) (r k) = r k.
Hypothesis Fd : forall k, k < n -> Fn (d k).
Hypothesis Fr : forall k, k < n -> Fn (r k).
Hypothesis Fdr : forall k, k < n -> Fn (a_mul A (d k) (r k)).
Hypothesis Nd : forall k, k < n -> iz (d k) = false.
Definition dinv (k : nat) (mi : list (list T) * list (list T)) : Prop :=
  forall a b, a < n -> b < n ->
  (a <> b -> Z (at2 A (fst mi) a b) /\ Z (at2 A (snd mi) a b)) /\
  (a < k -> Fn (at2 A (fst mi) a a) /\ at2 A (snd mi) a a = r a) /\
  (k <= a -> at2 A (fst mi) a a = d a /\ at2 A (snd mi) a a = a_one A).
Lemma dinv_fin k mi a b : dinv k mi -> a < n -> b < n -> Fn (at2 A (fst mi) a b) /\ Fn (at2 A (snd mi) a b).
Proof using ZF F1 Fd Fr.
  intros H Ha Hb. destruct (H a b Ha Hb) as (H1 & H2 & H3). destruct (Nat.eq_dec a b) as [<-|N]; [|destruct (H1 N); auto].
  destruct (Nat.lt_ge_cases a k) as [L|L]; [destruct (H2 L) as [? ->]|destruct (H3 L) as [-> ->]]; auto.
Qed.
Lemma dinv_elim k i j mi : dinv k mi -> i < n -> j < n -> i <> j ->
  let a := at2 A (fst mi) j i in dinv k (p_elim A n i j a (fst mi), p_elim A n i j a (snd mi)).
Proof using ZF F1 Fd Fr ZM ZS FS Sd Sr S1.
  intros H Hi Hj Nij e. assert (Ze : Z e) by (apply (H j i Hj Hi); auto).
  intros a b Ha Hb. cbn [fst snd]. unfold p_elim. rewrite !at2_mat by assumption. unfold f_elim. destruct (H a b Ha Hb) as (H1 & H2 & H3).
  destruct (Nat.eqb_spec a j) as [->|]; [|exact (Logic.conj H1 (Logic.conj H2 H3))].
  pose proof (dinv_fin k mi i b H Hi Hb) as [G1 G2]. pose proof (dinv_fin k mi i j H Hi Hj) as [G3 G4].
  pose proof (proj2 (ZM e _ Ze G1)) as P1. pose proof (proj2 (ZM e _ Ze G2)) as P2. pose proof (proj2 (ZM e _ Ze G3)) as P3. pose proof (proj2 (ZM e _ Ze G4)) as P4.
  split; [|split].
  - intros N. destruct (H1 N). auto.
  - intros L. destruct (H2 L) as [? ->]. auto.
  - intros L. destruct (H3 L) as [-> ->]. auto.
Qed.
Lemma dinv_scale k mi : dinv k mi -> k < n -> dinv (S k) (p_scale A n k (r k) (fst mi), p_scale A n k (r k) (snd mi)).
Proof using ZF ZM M1 Fd Fr Fdr.
  intros H Hk a b Ha Hb. cbn [fst snd]. unfold p_scale. rewrite !at2_mat by assumption. unfold f_scale. destruct (H a b Ha Hb) as (H1 & H2 & H3).
  destruct (Nat.eqb_spec a k) as [->|N].
  - destruct (H3 (le_n _)) as [E1 E2]. split; [|split; [|lia]].
    + intros N. destruct (H1 N) as [K1 K2]. split; [exact (proj1 (ZM _ _ K1 (Fr k Hk)))|exact (proj1 (ZM _ _ K2 (Fr k Hk)))].
    + intros _. rewrite E1, E2. auto.
  - split; [exact H1|]. split; intros L; [apply H2|apply H3]; lia.
Qed.
Lemma diag_step k mi : dinv k mi -> k < n -> exists mi', p_inv_step A dv iz n k mi = inl mi' /\ dinv (S k) mi'.
Proof using All.
  intros H Hk. unfold p_inv_step. destruct (H k k Hk Hk) as (_ & _ & H3). destruct (H3 (le_n _)) as [E _]. rewrite E, Nd by exact Hk. cbv zeta.
  eexists. split; [reflexivity|].
  pose proof (dinv_scale k mi H Hk) as H1. rewrite Nat.sub_0_r.
  assert (G : forall l st, (forall j, In j l -> j < n) -> dinv (S k) st -> dinv (S k) (fold_left (fun mi j =>
           if k =? j then mi else let a := at2 A (fst mi) j k in (p_elim A n k j a (fst mi), p_elim A n k j a (snd mi))) l st)).
  { induction l as [|j l IH]; intros st Hl Hst; cbn [fold_left]; [exact Hst|]. apply IH; [intros; apply Hl; now right|].
    destruct (Nat.eqb_spec k j); [exact Hst|]. apply dinv_elim; auto. apply Hl. now left. }
  apply G; [|exact H1]. intros j Hj. apply in_seq in Hj. lia.
Qed.
Lemma diag_inv m : (forall a b, a < n -> b < n -> at2 A m a b = if a =? b then d a else a_zero A) ->
  exists y, p_inv_big A dv iz n m = Some y /\
  forall a b, a < n -> b < n -> if a =? b then at2 A y a b = r a else Z (at2 A y a b).
Proof using All.
  intros Hm. unfold p_inv_big.
  assert (I0 : dinv 0 (m, m_id A n)).
  { intros a b Ha Hb. cbn [fst snd]. unfold m_id. rewrite !at2_mat by assumption. rewrite !Hm by assumption. rewrite Nat.eqb_refl.
    split; [|split; [lia|auto]]. intros N. destruct (Nat.eqb_spec a b); [contradiction|auto]. }
  assert (G : forall k lo st, lo + k = n -> dinv lo st -> exists st', ret_fold (p_inv_step A dv iz n) (seq lo k) st = inl st' /\ dinv n st').
  { induction k as [|k IH]; intros lo st E Hst.
    - exists st. split; [reflexivity|]. replace n with lo by lia. exact Hst.
    - cbn [seq ret_fold]. destruct (diag_step lo st Hst ltac:(lia)) as (st1 & -> & H1). apply IH; [lia|exact H1]. }
  rewrite Nat.sub_0_r. destruct (G n 0 _ (Nat.add_0_l _) I0) as (st & -> & H). exists (snd st). split; [reflexivity|].
  intros a b Ha Hb. destruct (H a b Ha Hb) as (H1 & H2 & _). destruct (Nat.eqb_spec a b) as [<-|N]; [now apply H2|now apply H1].
Qed.
End Diag.

Section Format.
Context {prec emax : Z} {Hgt : Prec_gt_0 prec} {Hlt : Prec_lt_emax prec emax} {OK : fmt_ok prec emax}.
Local Notation FL := (fl prec emax).
Local Notation AR := (fl_arith prec emax Hgt Hlt).
Local Notation OP := (fl_ops prec emax Hgt Hlt).
Local Notation IZ := (fl_is_zero prec emax).
Local Notation DV := (Bdiv mode_NE).
Local Notation u := (ur prec).
Local Notation P := (Pr prec).
Local Notation au := (apu prec).
Local Notation fexp := (SpecFloat.fexp prec emax).
Local Notation rnd := (round radix2 fexp (round_mode mode_NE)).
Local Notation emin := (3 - emax - prec)%Z.
Local Notation eta := (hs prec emax).
Ltac flia := pose proof (@ok_prec _ _ OK); pose proof (@ok_emax _ _ OK); lia.

Lemma nf_div (x y : FL) : fin y -> fin (DV x y) -> fin x /\ B2R y <> 0.
Proof.
  unfold fin. destruct x as [sx|sx| |sx mx ex hx], y as [sy|sy| |sy my ey hy]; try discriminate; cbn [is_finite]; intros _ H; split; try reflexivity; try discriminate H.
  all: unfold B2R; destruct sy; cbn [cond_Zopp]; apply F2R_neq_0; discriminate.
Qed.
Lemma post_div (x y : FL) : fin y -> fin (DV x y) -> exists e h, Rabs e <= u /\ Rabs h <= eta /\ B2R (DV x y) = B2R x / B2R y * (1 + e) + h.
Proof.
  intros Fy F. destruct (nf_div _ _ Fy F) as [Fx Ny]. pose proof (Bdiv_correct prec emax _ _ mode_NE x y Ny) as C.
  destruct (Rlt_bool _ _); [|now elim (overflow_nf _ _ C)].
  destruct C as [C _]. rewrite C.
  destruct (error_N_FLT radix2 emin prec Hgt (fun x => negb (Z.even x)) (B2R x / B2R y)) as (e & h & He & Hh & _ & E).
  exists e, h. repeat split; [|exact Hh|exact E]. apply Rle_trans with (1 := He). right. unfold ur. rewrite bpow_plus. change (b2 1) with 2. lra.
Qed.
Lemma iz_true (x : FL) : IZ x = true -> fin x /\ B2R x = 0.
Proof. destruct x as [| [] | |[]]; cbn; intros H; try discriminate; split; reflexivity. Qed.
Lemma iz_false (x : FL) : IZ x = false -> ~ (fin x /\ B2R x = 0).
Proof.
  intros H [F E]. destruct x as [s|s| |s m e h]; [destruct s; discriminate|discriminate F|discriminate F|].
  revert E. unfold B2R. destruct s; cbn [cond_Zopp]; apply F2R_neq_0; discriminate.
Qed.
(** x approximates a quotient of approximations: x * D is close to A. *)
Lemma quot_post (a' d' : FL) a d ea ed : fin d' -> fin (DV a' d') -> Rabs (B2R a' - a) <= ea -> Rabs (B2R d' - d) <= ed ->
  let x := B2R (DV a' d') in Rabs (x * d - a) <= Rabs x * ed + 2 * ea + b2 (1 - prec) * Rabs a + b2 emin * (Rabs d + ed).
Proof.
  intros Fd F Ha Hd x. destruct (nf_div _ _ Fd F) as [_ Nd]. destruct (post_div _ _ Fd F) as (e & h & He & Hh & Ex). fold x in Ex.
  set (A := B2R a') in *. set (D := B2R d') in *.
  assert (E : x * d - a = x * (d - D) + ((A - a) + e * A + h * D)) by (rewrite Ex; field; exact Nd).
  rewrite E. pose proof (Rabs_triang (x * (d - D)) ((A - a) + e * A + h * D)) as T1. pose proof (Rabs_triang ((A - a) + e * A) (h * D)) as T2.
  pose proof (Rabs_triang (A - a) (e * A)) as T3. rewrite (Rabs_mult x) in T1. rewrite (Rabs_mult h) in T2. rewrite (Rabs_mult e) in T3.
  rewrite (Rabs_minus_sym d D) in T1. pose proof (Rabs_pos x). pose proof (Rabs_pos e). pose proof (Rabs_pos h). pose proof (Rabs_pos A). pose proof (Rabs_pos D). pose proof (Rabs_pos a). pose proof (Rabs_pos d).
  assert (HA : Rabs A <= Rabs a + ea) by (replace A with ((A - a) + a) by ring; pose proof (Rabs_triang (A - a) a); lra).
  assert (HD : Rabs D <= Rabs d + ed) by (replace D with ((D - d) + d) by ring; pose proof (Rabs_triang (D - d) d); lra).
  assert (Rabs x * Rabs (D - d) <= Rabs x * ed) by (apply Rmult_le_compat_l; lra).
  assert (Rabs e * Rabs A <= u * (Rabs a + ea)) by (apply Rmult_le_compat; lra).
  assert (Rabs h * Rabs D <= eta * (Rabs d + ed)) by (apply Rmult_le_compat; lra).
  assert (0 <= ea) by (pose proof (Rabs_pos (A - a)); lra). assert (0 <= ed) by (pose proof (Rabs_pos (D - d)); lra).
  pose proof (@u_pos prec) as U0. assert (u <= 1) by (pose proof (@u_small prec emax OK); lra). assert (u * ea <= 1 * ea) by (apply Rmult_le_compat_r; lra).
  rewrite u_double. assert (b2 emin = 2 * eta) by (unfold hs; field). pose proof (@eta_pos prec emax).
  assert (0 <= u * Rabs a) by (apply Rmult_le_pos; lra). assert (0 <= eta * (Rabs d + ed)) by (apply Rmult_le_pos; lra). nra.
Qed.
Local Notation derr n M := (7 * b2 (1 - prec) * rperm n (fun i j => Rabs (M i j)) + 2 * b2 emin * (3 + rsum n (fun j => Rabs (M (n - 1)%nat j)))).
Local Notation aerr n M i j := (2 * b2 (1 - prec) * rperm (n - 1) (rminor j i (fun i j => Rabs (M i j))) + 2 * b2 emin).
Lemma inv_p S c d n m (s : S) : (1 <= n)%nat -> rect n n m -> inverse c d OP n m s = (Ok (p_inverse AR DV IZ n m), s).
Proof.
  intros Hn R. apply (inverse_p AR DV IZ c d OP (proj1 (fl_exact prec emax Hgt Hlt)) (proj2 (fl_exact prec emax Hgt Hlt)) (fun _ => eq_refl)); auto.
Qed.
Lemma pdet_p S c d n m (s : S) : (1 <= n <= 3)%nat -> rect n n m -> det c d OP n m s = (Ok (p_det AR DV IZ n m), s).
Proof.
  intros Hn R. pose proof (W_big c).
  apply (det_p AR DV IZ c d OP (proj1 (fl_exact prec emax Hgt Hlt)) (proj2 (fl_exact prec emax Hgt Hlt)) (fun _ => eq_refl)); auto; lia.
Qed.
Lemma adj_post n m i j : (1 <= n <= 3)%nat -> (i < n)%nat -> (j < n)%nat -> fin (padj AR n m i j) ->
  Rabs (B2R (padj AR n m i j) - radj n (rat2 m) i j) <= aerr n (rat2 m) i j.
Proof.
  intros Hn Hi Hj F. unfold radj. pose proof (bpow_gt_0 radix2 (1 - prec)) as E0. pose proof (bpow_gt_0 radix2 emin) as E1.
  destruct n as [|[|[|[|n]]]]; try lia; cbn [padj] in F |- *.
  - assert (i = 0%nat) by lia. assert (j = 0%nat) by lia. subst. cbn [a_one fl_arith].
    assert (B1 : B2R (@Bone prec emax _ _) = 1) by apply Bone_correct. rewrite B1. real_unf. cbv [Nat.add].
    replace (1 - 1 * 1) with 0 by ring. rewrite Rabs_R0. lra.
  - assert (X : forall x y s, x = s * y -> Rabs s = 1 -> Rabs (x - s * y) <= 2 * b2 (1 - prec) * (Rabs y) + 2 * b2 emin).
    { intros x y s -> _. rewrite Rminus_diag_eq by reflexivity. rewrite Rabs_R0. pose proof (Rabs_pos y). nra. }
    destruct i as [|[|i]]; try lia; destruct j as [|[|j]]; try lia; cbn [at2 nth]; unfold at2; cbn [nth a_neg fl_arith]; rewrite ?B2R_Bopp;
      match goal with |- Rabs (?x - ?s * _) <= _ => replace (Rabs (x - _)) with 0 end.
    all: try (real_unf; rewrite ?Rabs_mult; cbv [Nat.add]; pose proof (Rabs_pos (rat2 m 0 0)); pose proof (Rabs_pos (rat2 m 0 1)); pose proof (Rabs_pos (rat2 m 1 0)); pose proof (Rabs_pos (rat2 m 1 1)); nra).
    all: symmetry; rewrite <- Rabs_R0 at 1; f_equal; real_unf; cbv [Nat.add]; unfold rat2; cbn [a_zero fl_arith]; unfold fl_zero; try ring.
  - assert (X : forall i1 j1 i2 j2 i3 j3 i4 j4, fin (p_ms AR m i1 j1 i2 j2 i3 j3 i4 j4) ->
       Rabs (B2R (p_ms AR m i1 j1 i2 j2 i3 j3 i4 j4) - (rat2 m i1 j1 * rat2 m i2 j2 - rat2 m i3 j3 * rat2 m i4 j4)) <=
       2 * b2 (1 - prec) * (Rabs (rat2 m i1 j1) * Rabs (rat2 m i2 j2) + Rabs (rat2 m i3 j3) * Rabs (rat2 m i4 j4)) + 2 * b2 emin).
    { intros i1 j1 i2 j2 i3 j3 i4 j4 H. destruct (ms_post _ _ _ _ H) as [_ K]. apply (au_err 0 2) in K; [|cbn; flia|flia].
      rewrite two_eta in K. cbn [Nat.add INR] in K. replace (1 + 1) with 2 in K by ring. rewrite <- !rat2E, !Rabs_mult in K. exact K. }
    destruct i as [|[|[|i]]]; try lia; destruct j as [|[|[|j]]]; try lia; unfold at2 in F |- *; cbn [nth] in F |- *; apply X in F; revert F;
      match goal with |- Rabs (?x - ?y) <= ?b -> Rabs (?x - ?y') <= ?b' => replace y' with y; [replace b' with b; [exact (fun H => H)|]|] end;
      real_unf; cbv [Nat.add]; ring.
Qed.
Lemma s_none : forall S (c : cfg) (d : ety S FL) (n : nat) m (s : S), (1 <= n <= 3)%nat -> rect n n m ->
  inverse c d OP n m s = (Ok None, s) ->
  (forall i j, (i < n)%nat -> (j < n)%nat -> is_finite (at2 AR m i j) = true) /\ Rabs (rdet n (rat2 m)) <= derr n (rat2 m).
Proof.
  intros S c d n m s Hn R I. rewrite inv_p in I by (auto; lia). injection I as I. apply (s_none_iff AR DV IZ) in I; [|exact Hn].
  destruct (iz_true _ I) as [F E]. destruct (q_determinant S c d n m s Hn R) as (x & Ex & H). rewrite pdet_p in Ex by auto. injection Ex as <-.
  destruct (H F) as [H1 H2]. split; [exact H1|]. rewrite E, Rminus_0_l, Rabs_Ropp in H2. exact H2.
Qed.
Lemma s_some_post : forall S (c : cfg) (d : ety S FL) (n : nat) m y (s : S), (1 <= n <= 3)%nat -> rect n n m ->
  inverse c d OP n m s = (Ok (Some y), s) ->
  exists x, det c d OP n m s = (Ok x, s) /\ (is_finite x = true ->
  forall i j, (i < n)%nat -> (j < n)%nat -> is_finite (at2 AR y i j) = true ->
  Rabs (rat2 y i j * rdet n (rat2 m) - radj n (rat2 m) i j) <=
    Rabs (rat2 y i j) * derr n (rat2 m) + 2 * aerr n (rat2 m) i j + b2 (1 - prec) * Rabs (radj n (rat2 m) i j) + b2 emin * (Rabs (rdet n (rat2 m)) + derr n (rat2 m))).
Proof.
  intros S c d n m y s Hn R I. rewrite inv_p in I by (auto; lia). injection I as I.
  destruct (q_determinant S c d n m s Hn R) as (x & Ex & H). exists x. split; [exact Ex|]. intros Fx i j Hi Hj Fy.
  destruct (H Fx) as [_ HD]. rewrite pdet_p in Ex by auto. injection Ex as <-.
  rewrite (rat2E y). rewrite (s_some AR DV IZ n m y i j Hn Hi Hj I) in Fy |- *. destruct (nf_div _ _ Fx Fy) as [Fa _].
  apply quot_post; [exact Fx|exact Fy|now apply adj_post|exact HD].
Qed.

(** Zeros of either sign. *)
Definition zer (x : FL) : Prop := exists s, x = B754_zero s.
Lemma zer_mul x y : zer x -> fin y -> zer (a_mul AR x y) /\ zer (a_mul AR y x).
Proof. intros [s ->] F. unfold zer. cbn [a_mul fl_arith]. destruct y as [sy|sy| |sy my ey hy]; try discriminate F; split; eexists; reflexivity. Qed.
Lemma zer_sub x y : zer x -> zer y -> zer (a_sub AR x y).
Proof. intros [s ->] [s' ->]. unfold zer. cbn [a_sub fl_arith]. destruct s, s'; eexists; reflexivity. Qed.
Lemma sub_zer x y : fin x -> B2R x <> 0 -> zer y -> a_sub AR x y = x.
Proof. intros F N [s' ->]. cbn [a_sub fl_arith]. destruct x as [sx|sx| |sx mx ex hx]; try discriminate F; [elim N; reflexivity|reflexivity]. Qed.
Lemma fin_sub_zer x y : fin x -> zer y -> fin (a_sub AR x y).
Proof. intros F [s' ->]. unfold fin. cbn [a_sub fl_arith]. destruct x as [[]|sx| |sx mx ex hx]; try discriminate F; destruct s'; reflexivity. Qed.
Lemma b2_emax_eta : b2 emax * eta = b2 (2 - prec).
Proof. unfold hs. replace (/ 2) with (b2 (-(1))) by (cbn; lra). rewrite <- !bpow_plus. f_equal. lia. Qed.
Lemma small_up : b2 (2 - prec) <= / 8.
Proof. replace (/ 8) with (b2 (-(3))) by (cbn; lra). apply bpow_le. flia. Qed.
(** A finite reciprocal: non-zero, close to 1/d, and d times it does not overflow. *)
Lemma recip (d : FL) : fin d -> B2R d <> 0 -> let r := DV (a_one AR) d in fin r ->
  B2R r <> 0 /\ fin (a_mul AR d r) /\ a_mul AR (a_one AR) r = r /\ Rabs (B2R d * B2R r - 1) <= b2 (1 - prec) + b2 emin * Rabs (B2R d).
Proof.
  intros Fd Nd r Fr. destruct (post_div _ _ Fd Fr) as (e & h & He & Hh & E). fold r in E.
  assert (B1 : B2R (a_one AR) = 1) by apply Bone_correct. rewrite B1 in E.
  assert (Ed : B2R d * B2R r - 1 = e + h * B2R d) by (rewrite E; field; exact Nd).
  pose proof (Rabs_pos (B2R d)) as Pd. pose proof (@eta_pos prec emax) as P0. pose proof (@u_pos prec) as U0. pose proof (@u_small prec emax OK) as Us.
  pose proof (Rabs_triang e (h * B2R d)) as Tr. rewrite (Rabs_mult h) in Tr. assert (Hq : Rabs h * Rabs (B2R d) <= eta * Rabs (B2R d)) by (apply Rmult_le_compat_r; assumption).
  pose proof (abs_B2R_lt_emax prec emax d) as Ld.
  assert (Hq2 : eta * Rabs (B2R d) <= b2 (2 - prec)) by (rewrite <- b2_emax_eta, Rmult_comm; apply Rmult_le_compat_r; lra).
  pose proof small_up as Sm.
  assert (K : Rabs (B2R d * B2R r - 1) <= u + eta * Rabs (B2R d)) by (rewrite Ed; lra).
  assert (K2 : Rabs (B2R d * B2R r - 1) <= 1 / 2) by lra.
  split; [|split; [|split]].
  - intros E0. rewrite E0, Rmult_0_r, Rminus_0_l, Rabs_Ropp, Rabs_R1 in K2. lra.
  - pose proof (Bmult_correct prec emax _ _ mode_NE d r) as C. rewrite Rlt_bool_true in C.
    + destruct C as (_ & C & _). unfold fin in *. cbn [a_mul fl_arith]. rewrite C, Fd, Fr. reflexivity.
    + apply Rle_lt_trans with (b2 1); [|apply bpow_lt; flia]. apply abs_round_le_generic; [apply fexp_correct; exact Hgt|auto with typeclass_instances|apply generic_format_bpow; unfold SpecFloat.fexp, SpecFloat.emin; flia|].
      change (b2 1) with 2. replace (B2R d * B2R r) with ((B2R d * B2R r - 1) + 1) by ring. pose proof (Rabs_triang (B2R d * B2R r - 1) 1) as T2. rewrite Rabs_R1 in T2. lra.
  - apply B2R_Bsign_inj; [| exact Fr | |].
    + pose proof (Bmult_correct prec emax _ _ mode_NE (a_one AR) r) as C. rewrite Rlt_bool_true in C.
      * destruct C as (_ & C & _). unfold fin in *. cbn [a_mul fl_arith]. rewrite C, Fr. rewrite andb_true_r. apply is_finite_Bone.
      * rewrite B1, Rmult_1_l, round_generic; [apply abs_B2R_lt_emax|auto with typeclass_instances|apply generic_format_B2R].
    + pose proof (Bmult_correct prec emax _ _ mode_NE (a_one AR) r) as C. rewrite Rlt_bool_true in C.
      * destruct C as (C & _). cbn [a_mul fl_arith] in *. rewrite C, B1, Rmult_1_l. apply round_generic; [auto with typeclass_instances|apply generic_format_B2R].
      * rewrite B1, Rmult_1_l, round_generic; [apply abs_B2R_lt_emax|auto with typeclass_instances|apply generic_format_B2R].
    + pose proof (Bmult_correct prec emax _ _ mode_NE (a_one AR) r) as C. rewrite Rlt_bool_true in C.
      * destruct C as (_ & C1 & C). cbn [a_mul a_one fl_arith] in *. rewrite C.
        -- rewrite Bsign_Bone. destruct (Bsign r); reflexivity.
        -- rewrite is_finite_Bone in C1. unfold fin in Fr. rewrite Fr in C1. destruct (Bmult mode_NE Bone r); try discriminate C1; reflexivity.
      * rewrite B1, Rmult_1_l, round_generic; [apply abs_B2R_lt_emax|auto with typeclass_instances|apply generic_format_B2R].
  - rewrite u_double. assert (Ee : b2 emin = 2 * eta) by (unfold hs; field). rewrite Ee, Rmult_assoc. assert (0 <= eta * Rabs (B2R d)) by (apply Rmult_le_pos; lra). lra.
Qed.
(** Sizes 1 and 4 and up: the inverse of a diagonal matrix. *)
Lemma g_diag : forall S (c : cfg) (d : ety S FL) (n : nat) (e : nat -> FL) m (s : S), n = 1%nat \/ (4 <= n)%nat -> rect n n m ->
  (forall a b, (a < n)%nat -> (b < n)%nat -> at2 AR m a b = if (a =? b)%nat then e a else a_zero AR) ->
  (forall k, (k < n)%nat -> fin (e k) /\ B2R (e k) <> 0 /\ fin (DV (a_one AR) (e k))) ->
  exists y, inverse c d OP n m s = (Ok (Some y), s) /\ rect n n y /\
  forall a b, (a < n)%nat -> (b < n)%nat -> if (a =? b)%nat then at2 AR y a b = DV (a_one AR) (e a) else zer (at2 AR y a b).
Proof.
  intros S c d n e m s Hn R Hm He. rewrite inv_p by (auto; lia).
  assert (Niz : forall k, (k < n)%nat -> IZ (e k) = false).
  { intros k Hk. destruct (IZ (e k)) eqn:Ez; [|reflexivity]. apply iz_true in Ez. destruct (He k Hk) as (_ & Q & _). tauto. }
  destruct Hn as [->|Hn].
  - cbn [p_inverse]. cbv zeta. rewrite Hm by lia. change (0 =? 0)%nat with true. cbv iota. rewrite Niz by lia. eexists. split; [reflexivity|]. split; [split; [reflexivity|repeat constructor]|].
    intros a b Ha Hb. assert (a = 0%nat) by lia. assert (b = 0%nat) by lia. subst. reflexivity.
  - assert (G : exists y, p_inv_big AR DV IZ n m = Some y /\
      forall a b, (a < n)%nat -> (b < n)%nat -> if (a =? b)%nat then at2 AR y a b = DV (a_one AR) (e a) else zer (at2 AR y a b)).
    { assert (N1 : B2R (a_one AR) <> 0) by (assert (B1 : B2R (a_one AR) = 1) by apply Bone_correct; rewrite B1; lra).
      assert (F1 : fin (a_one AR)) by apply is_finite_Bone.
      apply (diag_inv AR DV IZ zer fin n e); try assumption.
      - intros x [sx ->]. reflexivity.
      - exists false. reflexivity.
      - exact zer_mul.
      - exact zer_sub.
      - exact fin_sub_zer.
      - intros k y Hk Zy. destruct (He k Hk) as (Q1 & Q2 & Q3). now apply sub_zer.
      - intros k y Hk Zy. destruct (He k Hk) as (Q1 & Q2 & Q3). destruct (recip _ Q1 Q2 Q3) as (K1 & _). now apply sub_zer.
      - intros y Zy. now apply sub_zer.
      - intros k Hk. destruct (He k Hk) as (Q1 & Q2 & Q3). now destruct (recip _ Q1 Q2 Q3) as (_ & _ & K & _).
      - intros k Hk. now destruct (He k Hk) as (Q1 & Q2 & Q3).
      - intros k Hk. now destruct (He k Hk) as (Q1 & Q2 & Q3).
      - intros k Hk. destruct (He k Hk) as (Q1 & Q2 & Q3). now destruct (recip _ Q1 Q2 Q3) as (_ & K & _). }
    destruct G as (y & E & H). exists y. split; [|split; [exact (p_inv_rect _ _ _ _ _ _ R E)|exact H]].
    destruct n as [|[|[|[|n]]]]; try lia. cbn [p_inverse]. rewrite E. reflexivity.
Qed.
End Format.
