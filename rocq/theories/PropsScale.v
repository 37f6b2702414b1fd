(** * PropsScale.v - C93: f32 and f64 inverses of matrices of any scale. *)
From Coq Require Import List Arith Bool Lia ZArith Reals Lra.
From Flocq Require Import Core BinarySingleNaN.
From Verif Require Import Rust Iter Elem VectorM MatIterM MatrixM ArithM OpsM SpecCommon SpecAlg FloatM SpecReal SpecPost.
From Verif Require Import Harness Sim OpsPure FloatErr PropsFloat PropsFloatErr PropsFloatInv FloatPost PropsPost ScaleProofs.
Import ListNotations.
Local Open Scope R_scope.

Lemma diag_rect t n d : rect n n (@diagonal t n d).
Proof. unfold diagonal. split; [now rewrite map_length, seq_length|]. apply Forall_forall. intros r Hr. apply in_map_iff in Hr. destruct Hr as (i & <- & _). now rewrite map_length, seq_length. Qed.
Lemma diag_at t n d a b : (a < n)%nat -> (b < n)%nat -> at2 (float_arith t) (diagonal n d) a b = if (a =? b)%nat then d a else a_zero (float_arith t).
Proof. intros Ha Hb. exact (at2_mat (float_arith t) n n (fun i j => if (i =? j)%nat then d i else B754_zero false) a b Ha Hb). Qed.

(** The full claim: if c, which is not zero, and 1/c are finite, then the n x n matrix c I has an
    inverse, with the diagonal entries 1/c up to rounding and zeros elsewhere. *)
Definition C93_statement : Prop := forall (t : float_type) S (c : cfg) (d : ety S (float t)) (n : nat) (x : float t) (s : S),
  (1 <= n)%nat -> finite x -> B2R x <> 0 -> finite (Bdiv mode_NE Bone x) ->
  exists y, inverse c d (float_ops t) n (diagonal n (fun _ => x)) s = (Ok (Some y), s) /\
  forall i j, (i < n)%nat -> (j < n)%nat ->
  if (i =? j)%nat then Rabs (B2R x * rat2 y i j - 1) <= epsilon t + smallest t * Rabs (B2R x) else rat2 y i j = 0.

(** True, for all diagonal matrices, if n is 1 or at least 4. *)
Theorem C93_diag_partial : forall (t : float_type) S (c : cfg) (d : ety S (float t)) (n : nat) (x : nat -> float t) (s : S),
  n = 1%nat \/ (4 <= n)%nat -> (forall k, (k < n)%nat -> finite (x k) /\ B2R (x k) <> 0 /\ finite (Bdiv mode_NE Bone (x k))) ->
  exists y, inverse c d (float_ops t) n (diagonal n x) s = (Ok (Some y), s) /\ rect n n y /\
  forall i j, (i < n)%nat -> (j < n)%nat ->
  if (i =? j)%nat
  then at2 (float_arith t) y i j = Bdiv mode_NE Bone (x i) /\ Rabs (B2R (x i) * rat2 y i j - 1) <= epsilon t + smallest t * Rabs (B2R (x i))
  else rat2 y i j = 0.
Proof.
  intros t S c d n x s Hn Hx. destruct (g_diag S c d n x (diagonal n x) s Hn (diag_rect t n x) (diag_at t n x) Hx) as (y & E & Ry & H).
  exists y. split; [exact E|]. split; [exact Ry|]. intros i j Hi Hj. specialize (H i j Hi Hj). destruct (i =? j)%nat.
  - split; [exact H|]. destruct (Hx i Hi) as (Q1 & Q2 & Q3). pose proof (recip (x i) Q1 Q2 Q3) as (_ & _ & _ & K).
    assert (Er : rat2 y i j = B2R (Bdiv mode_NE Bone (x i))) by (rewrite (rat2E y); f_equal; exact H). rewrite Er. exact K.
  - destruct H as [b H]. assert (Er : rat2 y i j = B2R (B754_zero b : float t)) by (rewrite (rat2E y); f_equal; exact H). exact Er.
Qed.
Print Assumptions C93_diag_partial.

(** None at size 1, 2 or 3: all entries are finite, and the exact determinant is no larger than
    what rounding and underflow can do to it. *)
Theorem C93_none_partial : forall (t : float_type) S (c : cfg) (d : ety S (float t)) (n : nat) m (s : S),
  (1 <= n <= 3)%nat -> rect n n m -> inverse c d (float_ops t) n m s = (Ok None, s) ->
  (forall i j, (i < n)%nat -> (j < n)%nat -> finite (at2 (float_arith t) m i j)) /\ Rabs (rdet n (rat2 m)) <= det_err t n (rat2 m).
Proof. intros t S c d n m s. exact (s_none S c d n m s). Qed.
Print Assumptions C93_none_partial.

(** Some at size 1, 2 or 3, with a determinant that did not overflow: every finite entry, times
    the exact determinant, is the entry of the adjugate up to rounding and underflow. *)
Theorem C93_some_partial : forall (t : float_type) S (c : cfg) (d : ety S (float t)) (n : nat) m y (s : S),
  (1 <= n <= 3)%nat -> rect n n m -> inverse c d (float_ops t) n m s = (Ok (Some y), s) ->
  exists x, det c d (float_ops t) n m s = (Ok x, s) /\ (finite x ->
  forall i j, (i < n)%nat -> (j < n)%nat -> finite (at2 (float_arith t) y i j) ->
  let D := rdet n (rat2 m) in let E := det_err t n (rat2 m) in let a := radj n (rat2 m) i j in
  Rabs (rat2 y i j * D - a) <= Rabs (rat2 y i j) * E + 2 * adj_err t n (rat2 m) i j + epsilon t * Rabs a + smallest t * (Rabs D + E)).
Proof. intros t S c d n m y s. exact (s_some_post S c d n m y s). Qed.
Print Assumptions C93_some_partial.

(** 2^-88 and 2^-565, 2^64 and 2^512, 2^63 and 2^511. *)
Definition tiny (t : float_type) : float t :=
  match t with F32 => @B754_finite 24 128 false 8388608 (-111) eq_refl | F64 => @B754_finite 53 1024 false 4503599627370496 (-617) eq_refl end.
Definition huge (t : float_type) (n : nat) : float t :=
  match t with
  | F32 => match n with 2%nat => @B754_finite 24 128 false 8388608 41 eq_refl | _ => @B754_finite 24 128 false 8388608 40 eq_refl end
  | F64 => match n with 2%nat => @B754_finite 53 1024 false 4503599627370496 460 eq_refl | _ => @B754_finite 53 1024 false 4503599627370496 459 eq_refl end
  end.
Lemma pow_val m e p e' : (Zpos m = 2 ^ p)%Z -> (0 <= p)%Z -> (e' = p + e)%Z -> IZR (Zpos m) * bpow radix2 e = bpow radix2 e'.
Proof. intros H Hp ->. rewrite H, (IZR_Zpower radix2) by exact Hp. now rewrite <- bpow_plus. Qed.
Lemma tiny_val t : B2R (tiny t) = bpow radix2 (- (femax t / 2) - fprec t).
Proof. destruct t; unfold tiny, B2R, F2R; cbn [cond_Zopp Fnum Fexp]; [apply (pow_val _ _ 23)|apply (pow_val _ _ 52)]; reflexivity || lia. Qed.
Lemma huge_val t n : n = 2%nat \/ n = 3%nat -> B2R (huge t n) = bpow radix2 (femax t / 2 - (Z.of_nat n - 2)).
Proof. intros [->| ->]; destruct t; unfold huge, B2R, F2R; cbn [cond_Zopp Fnum Fexp]; [apply (pow_val _ _ 23)|apply (pow_val _ _ 52)|apply (pow_val _ _ 23)|apply (pow_val _ _ 52)]; reflexivity || lia. Qed.
(** Sizes 2 and 3, both types: c I for c = 2^-88 (f32), 2^-565 (f64), whose reciprocal is finite,
    has no inverse, because the determinant underflows to 0. *)
Theorem C93_none_refuted : forall (t : float_type) (n : nat), n = 2%nat \/ n = 3%nat ->
  exists x : float t, finite x /\ B2R x = bpow radix2 (- (femax t / 2) - fprec t) /\ finite (Bdiv mode_NE Bone x) /\
  forall S (c : cfg) (d : ety S (float t)) (s : S), inverse c d (float_ops t) n (diagonal n (fun _ => x)) s = (Ok None, s).
Proof.
  intros t n Hn. exists (tiny t). split; [destruct t; reflexivity|]. split; [apply tiny_val|]. split; [destruct t; vm_compute; reflexivity|].
  intros S c d s. etransitivity; [exact (inv_p S c d n (diagonal n (fun _ => tiny t)) s ltac:(lia) (diag_rect t n _))|]. f_equal. f_equal.
  apply s_none_iff; [lia|]. destruct Hn as [->| ->]; destruct t; vm_compute; reflexivity.
Qed.
Print Assumptions C93_none_refuted.
(** Sizes 2 and 3, both types: for c = 2^64 and 2^63 (f32), 2^512 and 2^511 (f64), whose reciprocal
    is normal, the claimed inverse of c I is the zero matrix: the determinant overflows to infinity. *)
Theorem C93_zero_refuted : forall (t : float_type) (n : nat), n = 2%nat \/ n = 3%nat ->
  exists x : float t, finite x /\ B2R x = bpow radix2 (femax t / 2 - (Z.of_nat n - 2)) /\ finite (Bdiv mode_NE Bone x) /\
  forall S (c : cfg) (d : ety S (float t)) (s : S), exists y,
    inverse c d (float_ops t) n (diagonal n (fun _ => x)) s = (Ok (Some y), s) /\
    forall i j, (i < n)%nat -> (j < n)%nat -> finite (at2 (float_arith t) y i j) /\ rat2 y i j = 0.
Proof.
  intros t n Hn. exists (huge t n). split; [destruct Hn as [->| ->]; destruct t; reflexivity|]. split; [now apply huge_val|]. split; [destruct Hn as [->| ->]; destruct t; vm_compute; reflexivity|].
  intros S c d s. set (m := diagonal n (fun _ => huge t n)).
  assert (E : inverse c d (float_ops t) n m s = (Ok (p_inverse (float_arith t) (Bdiv mode_NE) (fl_is_zero (fprec t) (femax t)) n m), s)) by exact (inv_p S c d n m s ltac:(lia) (diag_rect t n _)).
  destruct (p_inverse (float_arith t) (Bdiv mode_NE) (fl_is_zero (fprec t) (femax t)) n m) as [y|] eqn:Ey.
  - exists y. split; [exact E|]. intros i j Hi Hj.
    pose proof (s_some (float_arith t) (Bdiv mode_NE) (fl_is_zero (fprec t) (femax t)) n m y i j ltac:(lia) Hi Hj Ey) as H.
    assert (B : fl_is_zero (fprec t) (femax t) (Bdiv mode_NE (padj (float_arith t) n m i j) (p_det (float_arith t) (Bdiv mode_NE) (fl_is_zero (fprec t) (femax t)) n m)) = true).
    { subst m. destruct Hn as [->| ->]; [destruct i as [|[|i]]; try lia; destruct j as [|[|j]]; try lia|destruct i as [|[|[|i]]]; try lia; destruct j as [|[|[|j]]]; try lia]; destruct t; vm_compute; reflexivity. }
    rewrite <- H in B. apply iz_true in B. destruct B as [B1 B2]. split; [exact B1|]. rewrite (rat2E y). exact B2.
  - apply s_none_iff in Ey; [|lia]. exfalso. revert Ey. subst m. destruct Hn as [->| ->]; destruct t; vm_compute; discriminate.
Qed.
Print Assumptions C93_zero_refuted.
Theorem C93_refuted : ~ C93_statement.
Proof.
  intros H. destruct (C93_none_refuted F64 2 (or_introl eq_refl)) as (x & F & V & Fi & N).
  destruct (H F64 unit dbg (Ety (fun _ s => s) true) 2%nat x tt) as (y & E & _); [lia|exact F| |exact Fi|].
  - rewrite V. apply Rgt_not_eq, bpow_gt_0.
  - rewrite N in E. discriminate E.
Qed.
Print Assumptions C93_refuted.

(** C93_diag_partial applies to the same 2^-565 at size 4; C93_none_partial to the 2 x 2 case. *)
Example C93_ex : forall S (c : cfg) (d : ety S (float F64)) (s : S),
  (exists y, inverse c d (float_ops F64) 4 (diagonal 4 (fun _ => tiny F64)) s = (Ok (Some y), s) /\ Rabs (bpow radix2 (-565) * rat2 y 3 3 - 1) <= epsilon F64 + smallest F64 * bpow radix2 (-565) /\ rat2 y 3 1 = 0) /\
  bpow radix2 (-565) * bpow radix2 (-565) <= det_err F64 2 (rat2 (diagonal 2 (fun _ => tiny F64))).
Proof.
  intros S c d s. assert (V : B2R (tiny F64) = bpow radix2 (-565)) by exact (tiny_val F64).
  split.
  - destruct (C93_diag_partial F64 S c d 4 (fun _ => tiny F64) s) as (y & E & _ & H); [right; lia| |].
    + intros k _. split; [reflexivity|]. split; [rewrite V; apply Rgt_not_eq, bpow_gt_0|vm_compute; reflexivity].
    + exists y. split; [exact E|]. split; [|exact (H 3%nat 1%nat ltac:(lia) ltac:(lia))].
      destruct (H 3%nat 3%nat ltac:(lia) ltac:(lia)) as [_ K]. rewrite V, (Rabs_pos_eq (bpow _ _)) in K by apply bpow_ge_0. exact K.
  - destruct (C93_none_refuted F64 2 (or_introl eq_refl)) as (x & F & Vx & Fi & N).
    assert (x = tiny F64) as -> by (apply B2R_inj; [|reflexivity|rewrite V, Vx; reflexivity]; destruct x; try discriminate F; try reflexivity; exfalso; cbn in Vx; apply (Rgt_not_eq _ _ (bpow_gt_0 radix2 (- (1024 / 2) - 53))); symmetry; exact Vx).
    destruct (C93_none_partial F64 S c d 2 _ s ltac:(lia) (diag_rect F64 2 _) (N S c d s)) as [_ K].
    assert (ED : rdet 2 (rat2 (diagonal 2 (fun _ => tiny F64))) = bpow radix2 (-565) * bpow radix2 (-565)).
    { real_unf. cbv [Nat.add]. change (rat2 (diagonal 2 (fun _ => tiny F64)) 0 0) with (B2R (tiny F64)). change (rat2 (diagonal 2 (fun _ => tiny F64)) 1 1) with (B2R (tiny F64)).
      change (rat2 (diagonal 2 (fun _ => tiny F64)) 0 1) with 0. rewrite V. ring. }
    rewrite ED in K. rewrite Rabs_pos_eq in K; [exact K|]. apply Rmult_le_pos; apply bpow_ge_0.
Qed.
