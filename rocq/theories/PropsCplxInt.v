(** * PropsCplxInt.v - property C101: matrices of Complex<iN>. *)
From Coq Require Import List Arith Bool Lia ZArith.
From Verif Require Import Rust Iter Elem VectorM MatIterM MatrixM ArithM OpsM IntM CplxM SpecCommon SpecAlg Harness.
From Verif Require Import IterProofs OwnProofs ChunkProofs VecProofs MatProofs AccProofs Sim Algebra PropsAlg PropsCross DetSmall PropsConj PropsInt.
Import ListNotations.

(** ** Specification *)
(** Arithmetic of Gaussian integers, [c_arith z_arith] of PropsConj.v: (a+bi)(c+di) = (ac-bd) + (ad+bc)i. *)
Definition gauss : arith (complex Z) := c_arith z_arith.
Definition c_in_range t (z : complex Z) : Prop := in_range t (re z) /\ in_range t (im z).
Definition c_wrap t (z : complex Z) : complex Z := Complex (wrap t (re z)) (wrap t (im z)).
(** With overflow checks the exact value [x] or a panic; without, [x] with both parts reduced modulo 2^w. *)
Definition correct {S} (checks : bool) t (m : M S (complex Z)) (x : complex Z) : Prop :=
  if checks then exact_or_panics m x else returns m (c_wrap t x).
Definition correct_v {S} (checks : bool) t (m : M S (list (complex Z))) (x : list (complex Z)) : Prop :=
  if checks then exact_or_panics m x else returns m (map (c_wrap t) x).
Definition correct_m {S} (checks : bool) t (m : M S (list (list (complex Z)))) (x : list (list (complex Z))) : Prop :=
  if checks then exact_or_panics m x else returns m (map (map (c_wrap t)) x).

(** ** Parts related, numbers related *)
Section Lift.
Context {S T U : Type}.
Variable pa : bool.
Variable R : T -> U -> Prop.
Variables (o : ops S T) (A : arith U).
Hypothesis H : sim_ring pa R o A.
Definition Rc (x : complex T) (y : complex U) : Prop := R (re x) (re y) /\ R (im x) (im y).
Let HS := sm_semi _ _ _ _ H.
Ltac st := eapply sim_bind; [first [apply (sm_add _ _ _ _ HS)|apply (sm_mul _ _ _ _ HS)|apply (sm_sub _ _ _ _ H)|apply (sm_neg _ _ _ _ H)]; eassumption|intros ? ?].
Lemma c_clone_faithful : faithful (complex_clone o).
Proof using H. intros [r i] s. unfold complex_clone, bind. cbn. rewrite (sm_clone _ _ _ _ HS r s), (sm_clone _ _ _ _ HS i s). reflexivity. Qed.
Lemma c_sim : sim_ring pa Rc (complex_ops o) (c_arith A).
Proof using H.
  split; [split|..].
  - split; apply HS.
  - split; apply HS.
  - intros x y x' y' [Hx Ix] [Hy Iy]. cbn [o_add complex_ops]. do 2 st. apply sim_ret. now split.
  - intros x y x' y' [Hx Ix] [Hy Iy]. cbn [o_mul complex_ops]. do 6 st. apply sim_ret. now split.
  - exact c_clone_faithful.
  - intros x y x' y' [Hx Ix] [Hy Iy]. cbn [o_sub complex_ops]. do 2 st. apply sim_ret. now split.
  - intros x x' [Hx Ix]. cbn [o_neg complex_ops]. do 2 st. apply sim_ret. now split.
Qed.
Lemma sim_conj x x' : Rc x x' -> sim pa Rc (conj o x) (cj A x').
Proof using H.
  intros [Hr Hi]. unfold conj. eapply sim_bind; [apply sim_faithful; [apply HS|exact Hr]|intros ? ?].
  eapply sim_bind; [apply sim_faithful; [apply HS|exact Hi]|intros ? ?]. st. apply sim_ret. now split.
Qed.
Lemma f2_indexed {X Y} (Q : X -> Y -> Prop) l l' : Forall2 Q l l' -> Forall2 (fun p q => fst p = fst q /\ Q (snd p) (snd q)) (indexed l) (indexed l').
Proof.
  intros HF. unfold indexed. rewrite <- (Forall2_length _ _ _ HF). generalize 0.
  induction HF as [|x y l l' Hxy HF IH]; intros k; cbn; constructor; auto.
Qed.
Lemma map_indexed {X Y} (g : X -> Y) l : map (fun ja => g (snd ja)) (indexed l) = map g l.
Proof. rewrite <- (map_map snd g). now rewrite indexed_snd. Qed.
Lemma sim_mconjugate c d row col m m' : Forall2 (Forall2 Rc) m m' -> rect row col m -> row < W c -> col < W c ->
  sim pa (Forall2 (Forall2 Rc)) (mconjugate c d o row col m) (m_cj A m').
Proof using H.
  intros Hm Rm H1 H2. eapply sim_ext; [intros s; unfold mconjugate, bind; rewrite mclone_id; [|exact Rm|exact c_clone_faithful];
    apply (mmap_nested c d d row col _ m s Rm H1 H2)|reflexivity|].
  unfold m_cj. rewrite <- (map_indexed (map (cj A)) m').
  apply (sim_in_order_unwind pa (Forall2 Rc) (fun rest => drop_all (vec_ety d) (map snd rest)) (fun ir => in_order_unwind (fun rest => drop_all d (map snd rest)) (fun ja => conj o (snd ja)) (indexed (snd ir)))).
  eapply Forall2_impl'; [|apply f2_indexed; exact Hm]. intros p q [_ Hpq]. rewrite <- (map_indexed (cj A) (snd q)).
  apply (sim_in_order_unwind pa Rc (fun rest => drop_all d (map snd rest)) (fun ja => conj o (snd ja))).
  eapply Forall2_impl'; [|apply f2_indexed; exact Hpq]. intros a b [_ Hab]. now apply sim_conj.
Qed.
Lemma sim_pow_g (HA : ring_laws A) c (d : ety S T) n m m' e : Forall2 (Forall2 R) m m' -> rect n n m -> n < W c ->
  sim pa (Forall2 (Forall2 R)) (mpow c d o n m e) (m_pow A n m' e).
Proof using H.
  intros Hm Rm HW. rewrite <- (pnum_pow_m A (rg_semi _ HA)); [|eapply rect_related; eauto]. now apply sim_mpow.
Qed.
Lemma sim_det_small_g (HA : ring_laws A) (HC : mul_comm A) c (d : ety S T) n m m' : Forall2 (Forall2 R) m m' -> rect n n m -> 1 <= n <= 3 ->
  sim pa R (det c d o n m) (m_det A n m').
Proof using H.
  intros Hm Rm Hn. assert (Rm' : rect n n m') by (eapply rect_F2; eassumption).
  destruct n as [|[|[|[|n]]]]; try lia.
  - rewrite <- det1_laplace by auto. now apply sim_det1.
  - rewrite <- det2_laplace by auto. now apply sim_det2.
  - rewrite <- det3_laplace by auto. now apply sim_det3.
Qed.
End Lift.

Definition Rel (checks : bool) t : complex Z -> complex Z -> Prop := if checks then Rc (Rchk t) else Rc (Rwrap t).
Lemma rel_sim {S} checks t : (1 < i_bits t)%Z -> sim_ring checks (Rel checks t) (complex_ops (int_ops (S:=S) checks t)) gauss.
Proof.
  intros Hb. destruct checks; apply c_sim.
  - apply int_sim_checked; [now apply rng1|apply rng0].
  - apply int_sim_wrap; [now apply rng1|apply rng0].
Qed.
Lemma rel1 checks t x : c_in_range t x -> Rel checks t x x.
Proof. intros [H1 H2]. destruct checks; split; cbn; try (now split); unfold Rwrap; symmetry; now apply wrap_id. Qed.
Lemma relv checks t v : Forall (c_in_range t) v -> Forall2 (Rel checks t) v v.
Proof. induction 1; constructor; auto using rel1. Qed.
Lemma relm checks t v : Forall (Forall (c_in_range t)) v -> Forall2 (Forall2 (Rel checks t)) v v.
Proof. induction 1; constructor; auto using relv. Qed.
Lemma rel_out checks t x y : Rel checks t x y -> if checks then x = y else x = c_wrap t y.
Proof. destruct checks, x, y; intros [H1 H2]; cbn in *; unfold c_wrap; [destruct H1, H2; now subst|now rewrite H1, H2]. Qed.
Lemma rel_outv checks t x y : Forall2 (Rel checks t) x y -> if checks then x = y else x = map (c_wrap t) y.
Proof. intros H. destruct checks; induction H as [|a b l l' Hab HF IH]; cbn; auto; apply rel_out in Hab; cbn in Hab; congruence. Qed.
Lemma rel_outm checks t x y : Forall2 (Forall2 (Rel checks t)) x y -> if checks then x = y else x = map (map (c_wrap t)) y.
Proof. intros H. destruct checks; induction H as [|a b l l' Hab HF IH]; cbn; auto; apply rel_outv in Hab; cbn in Hab; congruence. Qed.
Lemma out1 {S} checks t (m : M S (complex Z)) x : sim checks (Rel checks t) m x -> correct checks t m x.
Proof.
  intros H. destruct checks; intros s; (destruct (H s) as [(a & E & Ha)|(P & Q)]; [apply rel_out in Ha; cbn in Ha; subst a; auto|]); [now right|discriminate].
Qed.
Lemma outv {S} checks t (m : M S (list (complex Z))) x : sim checks (Forall2 (Rel checks t)) m x -> correct_v checks t m x.
Proof.
  intros H. destruct checks; intros s; (destruct (H s) as [(a & E & Ha)|(P & Q)]; [apply rel_outv in Ha; cbn in Ha; subst a; auto|]); [now right|discriminate].
Qed.
Lemma outm {S} checks t (m : M S (list (list (complex Z)))) x : sim checks (Forall2 (Forall2 (Rel checks t))) m x -> correct_m checks t m x.
Proof.
  intros H. destruct checks; intros s; (destruct (H s) as [(a & E & Ha)|(P & Q)]; [apply rel_outm in Ha; cbn in Ha; subst a; auto|]); [now right|discriminate].
Qed.
Lemma g_ring : ring_laws gauss.
Proof. apply c_ring; apply z_ring. Qed.
Lemma g_comm : mul_comm gauss.
Proof. intros x y. unfold gauss. cbn. f_equal; ring. Qed.

(** ** C101 *)
Theorem C101_vector :
  forall S (c : cfg) (d : ety S (complex Z)) (t : ity) (checks : bool) n (a b : list (complex Z)) x,
  (1 < i_bits t)%Z -> length a = n -> length b = n -> n < W c ->
  Forall (c_in_range t) a -> Forall (c_in_range t) b -> c_in_range t x ->
  let o := complex_ops (int_ops checks t) in
  correct_v checks t (vzip_vv c d d d n (o_add o) a b) (v_add gauss n a b) /\
  correct_v checks t (vzip_vv c d d d n (o_sub o) a b) (v_sub gauss n a b) /\
  correct_v checks t (vscale c d d n (o_mul o) (o_clone o) a x) (v_scale gauss n a x) /\
  correct_v checks t (vneg c d d n (o_neg o) a) (v_neg gauss n a) /\
  correct checks t (vdot o n a b) (v_dot gauss n a b) /\
  correct checks t (vsum o n a) (v_sum gauss n a) /\
  (n = 3 -> correct_v checks t (vcross c o a b) (v_cross gauss a b)).
Proof.
  intros S c d t checks n a b x Hb La Lb HW Ra Rb Rx o.
  pose proof (rel_sim (S:=S) checks t Hb) as H. pose proof (sm_semi _ _ _ _ H) as HS.
  apply (relv checks) in Ra, Rb. apply (rel1 checks) in Rx.
  repeat match goal with |- _ /\ _ => split end; try (intros ->; apply outv; apply (sim_vcross checks (Rel checks t)); auto);
    first [apply out1|apply outv].
  - apply sim_vzip_vv; auto. apply HS.
  - apply sim_vzip_vv; auto. apply H.
  - apply sim_vscale; auto; apply HS.
  - apply sim_vneg; auto. apply H.
  - apply sim_vdot; auto.
  - apply sim_vsum; auto.
Qed.
Print Assumptions C101_vector.
Theorem C101_matrix :
  forall S (c : cfg) (d : ety S (complex Z)) (t : ity) (checks : bool) row col (a b : list (list (complex Z))) x,
  (1 < i_bits t)%Z -> rect row col a -> rect row col b -> row < W c -> col < W c ->
  Forall (Forall (c_in_range t)) a -> Forall (Forall (c_in_range t)) b -> c_in_range t x ->
  let o := complex_ops (int_ops checks t) in
  correct_m checks t (mzip_vv c d d d row col (o_add o) a b) (m_add gauss row col a b) /\
  correct_m checks t (mzip_vv c d d d row col (o_sub o) a b) (m_sub gauss row col a b) /\
  correct_m checks t (mscale c d row col (o_mul o) (o_clone o) a x) (m_scale gauss row col a x) /\
  correct_m checks t (mneg c d d row col (o_neg o) a) (m_neg gauss row col a) /\
  correct checks t (msum o row col a) (m_sum gauss row col a) /\
  correct_m checks t (mconjugate c d (int_ops checks t) row col a) (map (map (fun z => Complex (re z) (- im z)%Z)) a).
Proof.
  intros S c d t checks row col a b x Hb Ra Rb HW HW2 Ia Ib Ix o.
  pose proof (rel_sim (S:=S) checks t Hb) as H. pose proof (sm_semi _ _ _ _ H) as HS.
  apply (relm checks) in Ia, Ib. apply (rel1 checks) in Ix.
  repeat match goal with |- _ /\ _ => split end; first [apply out1|apply outm].
  - apply sim_mzip_vv; auto. apply HS.
  - apply sim_mzip_vv; auto. apply H.
  - apply sim_mscale; auto; apply HS.
  - apply sim_mneg; auto. apply H.
  - apply sim_msum; auto.
  - destruct checks.
    + apply (sim_mconjugate true (Rchk t) _ z_arith); auto. apply int_sim_checked; [now apply rng1|apply rng0].
    + apply (sim_mconjugate false (Rwrap t) _ z_arith); auto. apply int_sim_wrap; [now apply rng1|apply rng0].
Qed.
Print Assumptions C101_matrix.
Theorem C101_product :
  forall S (c : cfg) (d : ety S (complex Z)) (t : ity) (checks : bool) l n r (a b : list (list (complex Z))) v,
  (1 < i_bits t)%Z -> rect l n a -> rect n r b -> length v = n -> l < W c -> n < W c -> r < W c ->
  Forall (Forall (c_in_range t)) a -> Forall (Forall (c_in_range t)) b -> Forall (c_in_range t) v ->
  let o := complex_ops (int_ops checks t) in
  correct_m checks t (mmul_vv c d o l n r a b) (m_mul gauss l n r a b) /\
  correct_m checks t (mmul_vr c d o l n r a b) (m_mul gauss l n r a b) /\
  correct_m checks t (mmul_rv c d o l n r a b) (m_mul gauss l n r a b) /\
  correct_m checks t (mmul_rr c d o l n r a b) (m_mul gauss l n r a b) /\
  correct_v checks t (mmulv c d o l n a v) (m_mulv gauss l n a v) /\
  correct_v checks t (mmulv_ref c d o l n a v) (m_mulv gauss l n a v).
Proof.
  intros S c d t checks l n r a b v Hb Ra Rb Lv H1 H2 H3 Ia Ib Iv o.
  pose proof (rel_sim (S:=S) checks t Hb) as H. pose proof (sm_semi _ _ _ _ H) as HS.
  apply (relm checks) in Ia, Ib. apply (relv checks) in Iv.
  repeat match goal with |- _ /\ _ => split end; first [apply outv|apply outm].
  - apply sim_mmul_vv; auto.
  - apply sim_mmul_vr; auto.
  - apply sim_mmul_rv; auto.
  - apply sim_mmul_rr; auto.
  - apply sim_mmulv; auto.
  - apply sim_mmulv_ref; auto.
Qed.
Print Assumptions C101_product.
Theorem C101_square :
  forall S (c : cfg) (d : ety S (complex Z)) (t : ity) (checks : bool) n (a : list (list (complex Z))) e,
  (1 < i_bits t)%Z -> rect n n a -> n < W c -> Forall (Forall (c_in_range t)) a ->
  let o := complex_ops (int_ops checks t) in
  correct_m checks t (mpow c d o n a e) (m_pow gauss n a e) /\
  (1 <= n <= 3 -> correct checks t (det c d o n a) (m_det gauss n a)).
Proof.
  intros S c d t checks n a e Hb Ra H1 Ia o.
  pose proof (rel_sim (S:=S) checks t Hb) as H. apply (relm checks) in Ia. split.
  - apply outm. apply (sim_pow_g checks _ _ _ H g_ring); auto.
  - intros Hn. apply out1. apply (sim_det_small_g checks _ _ _ H g_ring g_comm); auto.
Qed.
Print Assumptions C101_square.
(** (10+3i)(12+2i) + ... in i8: exact, a panic with checks, reduced without. *)
Example C101_ex :
  let a := [Complex 10 3; Complex 1 2]%Z in let b := [Complex 9 1; Complex 2 2]%Z in let e := [Complex 12 2; Complex 3 9]%Z in
  Forall (c_in_range i8) a /\ Forall (c_in_range i8) b /\ Forall (c_in_range i8) e /\
  vdot (complex_ops (int_ops true i8)) 2 a b tt = (Ok (Complex 85 43)%Z, tt) /\
  v_dot gauss 2 a e = Complex 99%Z 71%Z /\
  vdot (complex_ops (int_ops true i8)) 2 [Complex 12 2; Complex 3 9]%Z e tt = (Panic, tt) /\
  vdot (complex_ops (int_ops false i8)) 2 [Complex 12 2; Complex 3 9]%Z e tt = (Ok (Complex 68 102)%Z, tt).
Proof.
  cbv zeta. split; [repeat constructor; vm_compute; congruence|]. split; [repeat constructor; vm_compute; congruence|]. split; [repeat constructor; vm_compute; congruence|].
  repeat split; vm_compute; reflexivity.
Qed.
