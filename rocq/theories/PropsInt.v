(** * PropsInt.v - theorems for C42, C64, C65: machine integers. *)
From Coq Require Import List Arith Bool Lia ZArith.
From Verif Require Import Rust Iter Elem VectorM MatIterM MatrixM ArithM OpsM IntM SpecCommon SpecAlg Harness.
From Verif Require Import IterProofs OwnProofs ChunkProofs VecProofs MatProofs AccProofs Sim Algebra PropsAlg PropsCross DetSmall.
Import ListNotations.

(** ** Specification *)
(** The computation returns exactly [x], or panics. *)
Definition exact_or_panics {S X} (m : M S X) (x : X) : Prop :=
  forall s, m s = (Ok x, s) \/ exists s', m s = (Panic, s').
(** The computation returns [x] (and never panics). *)
Definition returns {S X} (m : M S X) (x : X) : Prop := forall s, m s = (Ok x, s).
Definition v_in_range t (v : list Z) : Prop := Forall (in_range t) v.
Definition m_in_range t (m : list (list Z)) : Prop := Forall (Forall (in_range t)) m.

(** [wrap] is the residue modulo 2^w that is in range. *)
Lemma pow_pos' t : (0 < 2 ^ i_bits t)%Z.
Proof. apply Z.pow_pos_nonneg; [lia|]. pose proof (i_bits_pos t). lia. Qed.
Lemma hi_lo t : (i_hi t = i_lo t + 2 ^ i_bits t)%Z.
Proof.
  unfold i_hi, i_lo. destruct (i_signed t); [|lia]. pose proof (i_bits_pos t).
  replace (i_bits t) with (Z.succ (i_bits t - 1)) at 3 by lia. rewrite Z.pow_succ_r by lia. lia.
Qed.
Lemma wrap_range t z : in_range t (wrap t z).
Proof. unfold in_range, wrap. rewrite hi_lo. pose proof (Z.mod_pos_bound (z - i_lo t) _ (pow_pos' t)). lia. Qed.
Lemma wrap_congr t z : (exists k, wrap t z = z + k * 2 ^ i_bits t)%Z.
Proof.
  exists (- ((z - i_lo t) / 2 ^ i_bits t))%Z. unfold wrap. pose proof (pow_pos' t).
  pose proof (Z.div_mod (z - i_lo t) (2 ^ i_bits t)). lia.
Qed.
Lemma wrap_mod t x y : ((exists k, x = y + k * 2 ^ i_bits t) -> wrap t x = wrap t y)%Z.
Proof.
  intros (k & ->). unfold wrap. f_equal. replace (y + k * 2 ^ i_bits t - i_lo t)%Z with (y - i_lo t + k * 2 ^ i_bits t)%Z by lia.
  apply Z_mod_plus_full.
Qed.
Lemma wrap_id t z : in_range t z -> wrap t z = z.
Proof. intros H. unfold wrap. rewrite Z.mod_small; [lia|]. unfold in_range in H. rewrite hi_lo in H. lia. Qed.
Lemma in_range_b t z : ((i_lo t <=? z) && (z <? i_hi t))%Z = true <-> in_range t z.
Proof. unfold in_range. rewrite andb_true_iff, Z.leb_le, Z.ltb_lt. tauto. Qed.
Lemma chk_rel {S} t z : (chk (S := S) false t z) = ret (wrap t z).
Proof. unfold chk. destruct (_ && _) eqn:E; [|reflexivity]. apply in_range_b in E. now rewrite wrap_id. Qed.

Section Sims.
Context {S : Type}.
Variable t : ity.
Hypothesis One : in_range t 1.
Hypothesis Zero : in_range t 0.
(** Checked: equal and in range, or panic. *)
Definition Rchk (x z : Z) : Prop := x = z /\ in_range t z.
Lemma chk_sim z : sim (S:=S) true Rchk (chk true t z) z.
Proof.
  intros s. unfold chk. destruct (_ && _) eqn:E.
  - apply in_range_b in E. left. exists z. repeat split; apply E.
  - right. split; [reflexivity|]. now exists s.
Qed.
Lemma int_sim_checked : sim_ring true Rchk (int_ops (S:=S) true t) z_arith.
Proof.
  split; [split|..].
  - now split.
  - now split.
  - intros x y ? ? [<- _] [<- _]. apply chk_sim.
  - intros x y ? ? [<- _] [<- _]. apply chk_sim.
  - intros x s. reflexivity.
  - intros x y ? ? [<- _] [<- _]. apply chk_sim.
  - intros x ? [<- _]. apply chk_sim.
Qed.
Definition Rwrap (x z : Z) : Prop := x = wrap t z.
Lemma wrap_sim op (x y x' y' : Z) :
  (forall a b k l, exists j, op (a + k * 2 ^ i_bits t) (b + l * 2 ^ i_bits t) = op a b + j * 2 ^ i_bits t)%Z ->
  Rwrap x x' -> Rwrap y y' -> sim (S:=S) false Rwrap (chk false t (op x y)) (op x' y').
Proof.
  intros H -> ->. rewrite chk_rel. apply sim_ret. unfold Rwrap. apply wrap_mod.
  destruct (wrap_congr t x') as (k & ->), (wrap_congr t y') as (l & ->). apply H.
Qed.
Lemma int_sim_wrap : sim_ring false Rwrap (int_ops (S:=S) false t) z_arith.
Proof.
  split; [split|..].
  - symmetry. now apply wrap_id.
  - symmetry. now apply wrap_id.
  - intros x y x' y'. apply (wrap_sim Z.add). intros a b k l. exists (k + l)%Z. lia.
  - intros x y x' y'. apply (wrap_sim Z.mul). intros a b k l. exists (a * l + k * b + k * l * 2 ^ i_bits t)%Z. ring.
  - intros x s. reflexivity.
  - intros x y x' y'. apply (wrap_sim Z.sub). intros a b k l. exists (k - l)%Z. ring.
  - intros x x' H. apply (wrap_sim (fun a _ => - a)%Z x 0%Z x' 0%Z); [|exact H|symmetry; now apply wrap_id].
    intros a b k l. exists (- k)%Z. ring.
Qed.
End Sims.

(** From simulations to the two specifications. *)
Lemma Rchk_v t v : v_in_range t v -> Forall2 (Rchk t) v v.
Proof. induction 1; constructor; auto. now split. Qed.
Lemma Rchk_m t m : m_in_range t m -> Forall2 (Forall2 (Rchk t)) m m.
Proof. induction 1; constructor; auto. now apply Rchk_v. Qed.
Lemma Rwrap_v t v : v_in_range t v -> Forall2 (Rwrap t) v v.
Proof. induction 1; constructor; auto. symmetry. now apply wrap_id. Qed.
Lemma Rwrap_m t m : m_in_range t m -> Forall2 (Forall2 (Rwrap t)) m m.
Proof. induction 1; constructor; auto. now apply Rwrap_v. Qed.
Lemma chk_out1 {S} t (m : M S Z) x : sim true (Rchk t) m x -> exact_or_panics m x.
Proof. intros H s. destruct (H s) as [(a & E & [-> _])|(_ & P)]; auto. Qed.
Lemma Rchk_eqv t v w : Forall2 (Rchk t) v w -> v = w.
Proof. induction 1 as [|x y v w [-> _] H IH]; [reflexivity|now subst]. Qed.
Lemma chk_outv {S} t (m : M S (list Z)) x : sim true (Forall2 (Rchk t)) m x -> exact_or_panics m x.
Proof. intros H s. destruct (H s) as [(a & E & HR)|(_ & P)]; auto. apply Rchk_eqv in HR. subst. auto. Qed.
Lemma chk_outm {S} t (m : M S (list (list Z))) x : sim true (Forall2 (Forall2 (Rchk t))) m x -> exact_or_panics m x.
Proof.
  intros H s. destruct (H s) as [(a & E & HR)|(_ & P)]; auto. left. rewrite E. f_equal. f_equal.
  clear -HR. induction HR as [|r r' m m' Hr HR IH]; [reflexivity|]. apply Rchk_eqv in Hr. now subst.
Qed.
Lemma wrap_out1 {S} t (m : M S Z) x : sim false (Rwrap t) m x -> returns m (wrap t x).
Proof. intros H s. destruct (H s) as [(a & E & ->)|(P & _)]; [exact E|discriminate]. Qed.
Lemma Rwrap_eqv t v w : Forall2 (Rwrap t) v w -> v = map (wrap t) w.
Proof. induction 1 as [|x y v w -> H IH]; [reflexivity|]. cbn. now subst. Qed.
Lemma wrap_outv {S} t (m : M S (list Z)) x : sim false (Forall2 (Rwrap t)) m x -> returns m (map (wrap t) x).
Proof. intros H s. destruct (H s) as [(a & E & HR)|(P & _)]; [|discriminate]. apply Rwrap_eqv in HR. now subst. Qed.
Lemma Rwrap_eqm t v w : Forall2 (Forall2 (Rwrap t)) v w -> v = map (map (wrap t)) w.
Proof. induction 1 as [|x y v w Hx H IH]; [reflexivity|]. apply Rwrap_eqv in Hx. cbn. now subst. Qed.
Lemma wrap_outm {S} t (m : M S (list (list Z))) x : sim false (Forall2 (Forall2 (Rwrap t))) m x -> returns m (map (map (wrap t)) x).
Proof. intros H s. destruct (H s) as [(a & E & HR)|(P & _)]; [|discriminate]. apply Rwrap_eqm in HR. now subst. Qed.

(** 1 is in the range of every integer type but [i1], which does not exist. *)
Lemma rng0 t : in_range t 0.
Proof.
  unfold in_range, i_lo, i_hi. pose proof (i_bits_pos t). destruct (i_signed t).
  - assert (0 < 2 ^ (i_bits t - 1))%Z by (apply Z.pow_pos_nonneg; lia). lia.
  - assert (0 < 2 ^ i_bits t)%Z by (apply Z.pow_pos_nonneg; lia). lia.
Qed.
Lemma rng1 t : (1 < i_bits t)%Z -> in_range t 1.
Proof.
  intros H. unfold in_range, i_lo, i_hi. assert (2 <= 2 ^ (i_bits t - 1))%Z.
  { change 2%Z with (2 ^ 1)%Z at 1. apply Z.pow_le_mono_r; lia. }
  destruct (i_signed t); [lia|]. assert (2 ^ (i_bits t - 1) <= 2 ^ i_bits t)%Z by (apply Z.pow_le_mono_r; lia). lia.
Qed.

Lemma sim_pow_z {S} pa R (c : cfg) (d : ety S Z) o n m m' e : sim_semi pa R o z_arith ->
  Forall2 (Forall2 R) m m' -> rect n n m -> n < W c ->
  sim pa (Forall2 (Forall2 R)) (mpow c d o n m e) (m_pow z_arith n m' e).
Proof.
  intros H Hm Rm HW. rewrite <- (pnum_pow_m z_arith (rg_semi _ (proj1 z_ring))); [|eapply rect_related; eauto]. now apply sim_mpow.
Qed.
Lemma Forall2_len {X Y} (R : X -> Y -> Prop) l l' : Forall2 R l l' -> length l = length l'.
Proof. induction 1; cbn; congruence. Qed.
Lemma rect_F2 {X Y} (R : X -> Y -> Prop) row col m m' : Forall2 (Forall2 R) m m' -> rect row col m -> rect row col m'.
Proof.
  intros H [H1 H2]. split; [now apply Forall2_len in H; rewrite <- H|]. clear H1.
  induction H as [|v w m m' Hv Hm IH]; [constructor|]. inversion H2; subst. constructor; [now apply Forall2_len in Hv; rewrite <- Hv|auto].
Qed.
Lemma sim_det_small {S} pa R (c : cfg) (d : ety S Z) o n m m' : sim_ring pa R o z_arith ->
  Forall2 (Forall2 R) m m' -> rect n n m -> 1 <= n <= 3 ->
  sim pa R (det c d o n m) (m_det z_arith n m').
Proof.
  intros H Hm Rm Hn. assert (Rm' : rect n n m') by (eapply rect_F2; eassumption).
  destruct n as [|[|[|[|n]]]]; try lia.
  - rewrite <- det1_laplace by (auto; apply z_ring). now apply sim_det1.
  - rewrite <- det2_laplace by (auto; apply z_ring). now apply sim_det2.
  - rewrite <- det3_laplace by (auto; apply z_ring). now apply sim_det3.
Qed.

(** ** C64: overflow checks on.  Every operation returns the exact integer result or panics. *)
Theorem C64_vector :
  forall S (c : cfg) (d : ety S Z) (t : ity) n (a b : list Z) x,
  (1 < i_bits t)%Z -> length a = n -> length b = n -> n < W c ->
  v_in_range t a -> v_in_range t b -> in_range t x ->
  let o := int_ops true t in let A := z_arith in
  exact_or_panics (vzip_vv c d d d n (o_add o) a b) (v_add A n a b) /\
  exact_or_panics (vzip_vr c d d n (o_add o) a b) (v_add A n a b) /\
  exact_or_panics (vzip_rv c d d n (o_add o) a b) (v_add A n a b) /\
  exact_or_panics (vzip_rr c d n (o_add o) a b) (v_add A n a b) /\
  exact_or_panics (vzip_vv c d d d n (o_sub o) a b) (v_sub A n a b) /\
  exact_or_panics (vzip_vr c d d n (o_sub o) a b) (v_sub A n a b) /\
  exact_or_panics (vzip_rv c d d n (o_sub o) a b) (v_sub A n a b) /\
  exact_or_panics (vzip_rr c d n (o_sub o) a b) (v_sub A n a b) /\
  exact_or_panics (vscale c d d n (o_mul o) (o_clone o) a x) (v_scale A n a x) /\
  exact_or_panics (vneg c d d n (o_neg o) a) (v_neg A n a) /\
  exact_or_panics (vdot o n a b) (v_dot A n a b) /\
  exact_or_panics (vsum o n a) (v_sum A n a) /\
  (n = 3 -> exact_or_panics (vcross c o a b) (v_cross A a b)).
Proof.
  intros S c d t n a b x Hb La Lb HW Ra Rb Rx o A.
  pose proof (int_sim_checked (S:=S) t (rng1 t Hb) (rng0 t)) as H. pose proof (sm_semi _ _ _ _ H) as HS.
  apply Rchk_v in Ra, Rb.
  repeat match goal with |- _ /\ _ => split end; try (intros ->; apply (chk_outv t); apply sim_vcross; auto);
    first [apply (chk_out1 t)|apply (chk_outv t)].
  - apply sim_vzip_vv; auto. apply HS.
  - apply sim_vzip_vr; auto. apply HS.
  - apply sim_vzip_rv; auto. apply HS.
  - apply sim_vzip_rr; auto. apply HS.
  - apply sim_vzip_vv; auto. apply H.
  - apply sim_vzip_vr; auto. apply H.
  - apply sim_vzip_rv; auto. apply H.
  - apply sim_vzip_rr; auto. apply H.
  - apply sim_vscale; auto; [apply HS|apply HS|now split].
  - apply sim_vneg; auto. apply H.
  - apply sim_vdot; auto.
  - apply sim_vsum; auto.
Qed.
Print Assumptions C64_vector.
Theorem C64_matrix :
  forall S (c : cfg) (d : ety S Z) (t : ity) row col (a b : list (list Z)) x,
  (1 < i_bits t)%Z -> rect row col a -> rect row col b -> row < W c -> col < W c ->
  m_in_range t a -> m_in_range t b -> in_range t x ->
  let o := int_ops true t in let A := z_arith in
  exact_or_panics (mzip_vv c d d d row col (o_add o) a b) (m_add A row col a b) /\
  exact_or_panics (mzip_vr c d d row col (o_add o) a b) (m_add A row col a b) /\
  exact_or_panics (mzip_rv c d d row col (o_add o) a b) (m_add A row col a b) /\
  exact_or_panics (mzip_rr c d row col (o_add o) a b) (m_add A row col a b) /\
  exact_or_panics (mzip_vv c d d d row col (o_sub o) a b) (m_sub A row col a b) /\
  exact_or_panics (mzip_vr c d d row col (o_sub o) a b) (m_sub A row col a b) /\
  exact_or_panics (mzip_rv c d d row col (o_sub o) a b) (m_sub A row col a b) /\
  exact_or_panics (mzip_rr c d row col (o_sub o) a b) (m_sub A row col a b) /\
  exact_or_panics (mscale c d row col (o_mul o) (o_clone o) a x) (m_scale A row col a x) /\
  exact_or_panics (mscale_ref c d row col (o_mul o) a x) (m_scale A row col a x) /\
  exact_or_panics (mneg c d d row col (o_neg o) a) (m_neg A row col a) /\
  exact_or_panics (msum o row col a) (m_sum A row col a).
Proof.
  intros S c d t row col a b x Hb La Lb HW HW2 Ra Rb Rx o A.
  pose proof (int_sim_checked (S:=S) t (rng1 t Hb) (rng0 t)) as H. pose proof (sm_semi _ _ _ _ H) as HS.
  apply Rchk_m in Ra, Rb.
  repeat match goal with |- _ /\ _ => split end; first [apply (chk_out1 t)|apply (chk_outm t)].
  - apply sim_mzip_vv; auto. apply HS.
  - apply sim_mzip_vr; auto. apply HS.
  - apply sim_mzip_rv; auto. apply HS.
  - apply sim_mzip_rr; auto. apply HS.
  - apply sim_mzip_vv; auto. apply H.
  - apply sim_mzip_vr; auto. apply H.
  - apply sim_mzip_rv; auto. apply H.
  - apply sim_mzip_rr; auto. apply H.
  - apply sim_mscale; auto; [apply HS|apply HS|now split].
  - apply sim_mscale_ref; auto; [apply HS|now split].
  - apply sim_mneg; auto. apply H.
  - apply sim_msum; auto.
Qed.
Print Assumptions C64_matrix.
Theorem C64_product :
  forall S (c : cfg) (d : ety S Z) (t : ity) l n r (a b : list (list Z)) v,
  (1 < i_bits t)%Z -> rect l n a -> rect n r b -> length v = n -> l < W c -> n < W c -> r < W c ->
  m_in_range t a -> m_in_range t b -> v_in_range t v ->
  let o := int_ops true t in let A := z_arith in
  exact_or_panics (mmul_vv c d o l n r a b) (m_mul A l n r a b) /\
  exact_or_panics (mmul_vr c d o l n r a b) (m_mul A l n r a b) /\
  exact_or_panics (mmul_rv c d o l n r a b) (m_mul A l n r a b) /\
  exact_or_panics (mmul_rr c d o l n r a b) (m_mul A l n r a b) /\
  exact_or_panics (mmulv c d o l n a v) (m_mulv A l n a v) /\
  exact_or_panics (mmulv_ref c d o l n a v) (m_mulv A l n a v).
Proof.
  intros S c d t l n r a b v Hb Ra Rb Lv H1 H2 H3 Ia Ib Iv o A.
  pose proof (int_sim_checked (S:=S) t (rng1 t Hb) (rng0 t)) as H. pose proof (sm_semi _ _ _ _ H) as HS.
  apply Rchk_m in Ia, Ib. apply Rchk_v in Iv.
  repeat match goal with |- _ /\ _ => split end; first [apply (chk_outv t)|apply (chk_outm t)].
  - apply sim_mmul_vv; auto.
  - apply sim_mmul_vr; auto.
  - apply sim_mmul_rv; auto.
  - apply sim_mmul_rr; auto.
  - apply sim_mmulv; auto.
  - apply sim_mmulv_ref; auto.
Qed.
Print Assumptions C64_product.
Theorem C64_square :
  forall S (c : cfg) (d : ety S Z) (t : ity) n (a b : list (list Z)) e (s : S),
  (1 < i_bits t)%Z -> rect n n a -> rect n n b -> n < W c -> m_in_range t a -> m_in_range t b ->
  let o := int_ops true t in let A := z_arith in
  exact_or_panics (mpow c d o n a e) (m_pow A n a e) /\
  (1 <= n <= 3 -> exact_or_panics (det c d o n a) (m_det z_arith n a)) /\
  (mmul_assign c d o n b (a, s) = (Ok tt, (m_mul A n n n a b, s)) \/
   exists s', mmul_assign c d o n b (a, s) = (Panic, (a, s'))).
Proof.
  intros S c d t n a b e s Hb Ra Rb H1 Ia Ib o A.
  pose proof (int_sim_checked (S:=S) t (rng1 t Hb) (rng0 t)) as H. pose proof (sm_semi _ _ _ _ H) as HS.
  apply Rchk_m in Ia, Ib. split; [|split].
  - apply (chk_outm t). now apply sim_pow_z.
  - intros Hn. apply (chk_out1 t). now apply sim_det_small.
  - destruct (sim_mmul_assign true (Rchk t) c d o A HS n a a b b s Ia Ib Ra Rb H1) as [(p & E & Hp)|(_ & P)]; [left|now right].
    rewrite E. f_equal. f_equal. clear -Hp. induction Hp as [|r r' m m' Hr HR IH]; [reflexivity|]. apply Rchk_eqv in Hr. now subst.
Qed.
Print Assumptions C64_square.
Lemma bits8 : (0 < 8)%Z. Proof. reflexivity. Qed.
Definition i8 : ity := Ity true 8 bits8.
Example C64_ex :
  vdot (int_ops true i8) 2 [10; 3]%Z [12; 2]%Z tt = (Ok 126%Z, tt) /\
  vdot (int_ops true i8) 2 [10; 4]%Z [12; 2]%Z tt = (Panic, tt) /\ v_in_range i8 [10; 4]%Z.
Proof. split; [vm_compute; reflexivity|]. split; [vm_compute; reflexivity|]. repeat constructor; vm_compute; congruence. Qed.

(** ** C65: overflow checks off.  Every operation returns the exact integer result reduced modulo
    2^w into the range of the type, and never panics. *)
Theorem C65_vector :
  forall S (c : cfg) (d : ety S Z) (t : ity) n (a b : list Z) x,
  (1 < i_bits t)%Z -> length a = n -> length b = n -> n < W c ->
  v_in_range t a -> v_in_range t b -> in_range t x ->
  let o := int_ops false t in let A := z_arith in let red := map (wrap t) in
  returns (vzip_vv c d d d n (o_add o) a b) (red (v_add A n a b)) /\
  returns (vzip_vr c d d n (o_add o) a b) (red (v_add A n a b)) /\
  returns (vzip_rv c d d n (o_add o) a b) (red (v_add A n a b)) /\
  returns (vzip_rr c d n (o_add o) a b) (red (v_add A n a b)) /\
  returns (vzip_vv c d d d n (o_sub o) a b) (red (v_sub A n a b)) /\
  returns (vzip_vr c d d n (o_sub o) a b) (red (v_sub A n a b)) /\
  returns (vzip_rv c d d n (o_sub o) a b) (red (v_sub A n a b)) /\
  returns (vzip_rr c d n (o_sub o) a b) (red (v_sub A n a b)) /\
  returns (vscale c d d n (o_mul o) (o_clone o) a x) (red (v_scale A n a x)) /\
  returns (vneg c d d n (o_neg o) a) (red (v_neg A n a)) /\
  returns (vdot o n a b) (wrap t (v_dot A n a b)) /\
  returns (vsum o n a) (wrap t (v_sum A n a)) /\
  (n = 3 -> returns (vcross c o a b) (red (v_cross A a b))).
Proof.
  intros S c d t n a b x Hb La Lb HW Ra Rb Rx o A red.
  pose proof (int_sim_wrap (S:=S) t (rng1 t Hb) (rng0 t)) as H. pose proof (sm_semi _ _ _ _ H) as HS.
  apply Rwrap_v in Ra, Rb. apply wrap_id in Rx. symmetry in Rx.
  repeat match goal with |- _ /\ _ => split end; try (intros ->; apply (wrap_outv t); apply sim_vcross; auto);
    first [apply (wrap_out1 t)|apply (wrap_outv t)].
  - apply sim_vzip_vv; auto. apply HS.
  - apply sim_vzip_vr; auto. apply HS.
  - apply sim_vzip_rv; auto. apply HS.
  - apply sim_vzip_rr; auto. apply HS.
  - apply sim_vzip_vv; auto. apply H.
  - apply sim_vzip_vr; auto. apply H.
  - apply sim_vzip_rv; auto. apply H.
  - apply sim_vzip_rr; auto. apply H.
  - apply sim_vscale; auto; apply HS.
  - apply sim_vneg; auto. apply H.
  - apply sim_vdot; auto.
  - apply sim_vsum; auto.
Qed.
Print Assumptions C65_vector.
Theorem C65_matrix :
  forall S (c : cfg) (d : ety S Z) (t : ity) row col (a b : list (list Z)) x,
  (1 < i_bits t)%Z -> rect row col a -> rect row col b -> row < W c -> col < W c ->
  m_in_range t a -> m_in_range t b -> in_range t x ->
  let o := int_ops false t in let A := z_arith in let red := map (map (wrap t)) in
  returns (mzip_vv c d d d row col (o_add o) a b) (red (m_add A row col a b)) /\
  returns (mzip_vr c d d row col (o_add o) a b) (red (m_add A row col a b)) /\
  returns (mzip_rv c d d row col (o_add o) a b) (red (m_add A row col a b)) /\
  returns (mzip_rr c d row col (o_add o) a b) (red (m_add A row col a b)) /\
  returns (mzip_vv c d d d row col (o_sub o) a b) (red (m_sub A row col a b)) /\
  returns (mzip_vr c d d row col (o_sub o) a b) (red (m_sub A row col a b)) /\
  returns (mzip_rv c d d row col (o_sub o) a b) (red (m_sub A row col a b)) /\
  returns (mzip_rr c d row col (o_sub o) a b) (red (m_sub A row col a b)) /\
  returns (mscale c d row col (o_mul o) (o_clone o) a x) (red (m_scale A row col a x)) /\
  returns (mscale_ref c d row col (o_mul o) a x) (red (m_scale A row col a x)) /\
  returns (mneg c d d row col (o_neg o) a) (red (m_neg A row col a)) /\
  returns (msum o row col a) (wrap t (m_sum A row col a)).
Proof.
  intros S c d t row col a b x Hb La Lb HW HW2 Ra Rb Rx o A red.
  pose proof (int_sim_wrap (S:=S) t (rng1 t Hb) (rng0 t)) as H. pose proof (sm_semi _ _ _ _ H) as HS.
  apply Rwrap_m in Ra, Rb. apply wrap_id in Rx. symmetry in Rx.
  repeat match goal with |- _ /\ _ => split end; first [apply (wrap_out1 t)|apply (wrap_outm t)].
  - apply sim_mzip_vv; auto. apply HS.
  - apply sim_mzip_vr; auto. apply HS.
  - apply sim_mzip_rv; auto. apply HS.
  - apply sim_mzip_rr; auto. apply HS.
  - apply sim_mzip_vv; auto. apply H.
  - apply sim_mzip_vr; auto. apply H.
  - apply sim_mzip_rv; auto. apply H.
  - apply sim_mzip_rr; auto. apply H.
  - apply sim_mscale; auto; apply HS.
  - apply sim_mscale_ref; auto; apply HS.
  - apply sim_mneg; auto. apply H.
  - apply sim_msum; auto.
Qed.
Print Assumptions C65_matrix.
Theorem C65_product :
  forall S (c : cfg) (d : ety S Z) (t : ity) l n r (a b : list (list Z)) v,
  (1 < i_bits t)%Z -> rect l n a -> rect n r b -> length v = n -> l < W c -> n < W c -> r < W c ->
  m_in_range t a -> m_in_range t b -> v_in_range t v ->
  let o := int_ops false t in let A := z_arith in
  returns (mmul_vv c d o l n r a b) (map (map (wrap t)) (m_mul A l n r a b)) /\
  returns (mmul_vr c d o l n r a b) (map (map (wrap t)) (m_mul A l n r a b)) /\
  returns (mmul_rv c d o l n r a b) (map (map (wrap t)) (m_mul A l n r a b)) /\
  returns (mmul_rr c d o l n r a b) (map (map (wrap t)) (m_mul A l n r a b)) /\
  returns (mmulv c d o l n a v) (map (wrap t) (m_mulv A l n a v)) /\
  returns (mmulv_ref c d o l n a v) (map (wrap t) (m_mulv A l n a v)).
Proof.
  intros S c d t l n r a b v Hb Ra Rb Lv H1 H2 H3 Ia Ib Iv o A.
  pose proof (int_sim_wrap (S:=S) t (rng1 t Hb) (rng0 t)) as H. pose proof (sm_semi _ _ _ _ H) as HS.
  apply Rwrap_m in Ia, Ib. apply Rwrap_v in Iv.
  repeat match goal with |- _ /\ _ => split end; first [apply (wrap_outv t)|apply (wrap_outm t)].
  - apply sim_mmul_vv; auto.
  - apply sim_mmul_vr; auto.
  - apply sim_mmul_rv; auto.
  - apply sim_mmul_rr; auto.
  - apply sim_mmulv; auto.
  - apply sim_mmulv_ref; auto.
Qed.
Print Assumptions C65_product.
Theorem C65_square :
  forall S (c : cfg) (d : ety S Z) (t : ity) n (a b : list (list Z)) e (s : S),
  (1 < i_bits t)%Z -> rect n n a -> rect n n b -> n < W c -> m_in_range t a -> m_in_range t b ->
  let o := int_ops false t in let A := z_arith in
  returns (mpow c d o n a e) (map (map (wrap t)) (m_pow A n a e)) /\
  (1 <= n <= 3 -> returns (det c d o n a) (wrap t (m_det z_arith n a))) /\
  mmul_assign c d o n b (a, s) = (Ok tt, (map (map (wrap t)) (m_mul A n n n a b), s)).
Proof.
  intros S c d t n a b e s Hb Ra Rb H1 Ia Ib o A.
  pose proof (int_sim_wrap (S:=S) t (rng1 t Hb) (rng0 t)) as H. pose proof (sm_semi _ _ _ _ H) as HS.
  apply Rwrap_m in Ia, Ib. split; [|split].
  - apply (wrap_outm t). now apply sim_pow_z.
  - intros Hn. apply (wrap_out1 t). now apply sim_det_small.
  - destruct (sim_mmul_assign false (Rwrap t) c d o A HS n a a b b s Ia Ib Ra Rb H1) as [(p & E & Hp)|(P & _)]; [|discriminate].
    apply Rwrap_eqm in Hp. now subst.
Qed.
Print Assumptions C65_square.
(** [wrap t z] is the one value in range that differs from [z] by a multiple of 2^w. *)
Theorem C65_wrap :
  forall t z, in_range t (wrap t z) /\ (exists k, wrap t z = z + k * 2 ^ i_bits t)%Z /\
    forall y, in_range t y -> (exists k, y = z + k * 2 ^ i_bits t)%Z -> y = wrap t z.
Proof.
  intros t z. split; [apply wrap_range|]. split; [apply wrap_congr|].
  intros y R K. rewrite <- (wrap_id t y R). now apply wrap_mod.
Qed.
Print Assumptions C65_wrap.
Example C65_ex : vdot (int_ops false i8) 2 [10; 4]%Z [12; 2]%Z tt = (Ok (-128)%Z, tt).
Proof. vm_compute. reflexivity. Qed.

(** ** C42 *)
Fixpoint fib (n : nat) : Z := match n with 0 => 0%Z | 1 => 1%Z | S (S n'' as n') => (fib n' + fib n'')%Z end.
Lemma fib_SS n : fib (S (S n)) = (fib (S n) + fib n)%Z.
Proof. reflexivity. Qed.
Lemma fib_pow n : m_mulv z_arith 2 2 (m_pow z_arith 2 fib_a n) fib_f = [fib (S n); fib n].
Proof.
  induction n as [|n IH]; [reflexivity|]. cbn [m_pow]. rewrite (m_mulv_assoc z_arith (rg_semi _ (proj1 z_ring))).
  rewrite IH. cbn [m_mulv vec seq map]. unfold m_mulv, vec, sum, at1, at2, fib_a. cbn [seq map fold_left nth a_add a_mul a_zero z_arith].
  rewrite fib_SS. f_equal; [|f_equal]; ring.
Qed.
Lemma sim_vindex {S} pa (R : Z -> Z -> Prop) v v' i x : Forall2 R v v' -> nth_error v' i = Some x -> sim (S:=S) pa R (vindex v i) x.
Proof.
  intros H E s. left. revert i E. induction H as [|y y' v v' Hy H IH]; intros [|i] E; try discriminate.
  - injection E as <-. exists y. split; [reflexivity|exact Hy].
  - destruct (IH i E) as (a & E2 & Ha). exists a. split; [|exact Ha]. exact E2.
Qed.
Section Fib.
Context {S : Type} (pa : bool) (R : Z -> Z -> Prop) (c : cfg) (d : ety S Z) (o : ops S Z).
Hypothesis H : sim_semi pa R o z_arith.
Hypothesis R0 : R 0%Z 0%Z.
Hypothesis R1 : R 1%Z 1%Z.
Lemma Rf : Forall2 R fib_f fib_f.
Proof. repeat constructor; auto. Qed.
Lemma Ra : Forall2 (Forall2 R) fib_a fib_a.
Proof. repeat constructor; auto. Qed.
Lemma two_lt : 2 < W c.
Proof. pose proof (W_gt c). lia. Qed.
Lemma fib_a_rect : rect 2 2 fib_a.
Proof. repeat constructor. Qed.
Lemma sim_fib_doc n : sim pa R (fib_doc c d o n) (fib n).
Proof.
  unfold fib_doc. eapply sim_bind; [apply sim_pow_z; [exact H|exact Ra|exact fib_a_rect|exact two_lt]|]. intros p Hp.
  eapply sim_bind; [apply (sim_mmulv pa R c d o z_arith H 2 2 p _ fib_f _ Hp Rf)|].
  - eapply rect_related'; [exact Hp|apply m_pow_rect].
  - reflexivity.
  - exact two_lt.
  - rewrite fib_pow. intros v Hv. eapply sim_vindex; [exact Hv|reflexivity].
Qed.
Lemma sim_fib_main k : sim pa (Forall2 R) (fib_main c d o k) (map fib (seq 0 k)).
Proof.
  unfold fib_main. eapply sim_bind; [apply (sim_midentity pa R c d o z_arith H 2)|]. intros p0 Hp0.
  set (body := fun (_ : nat) (po : list (list Z) * list Z) => _).
  assert (G : forall k i p out, Forall2 (Forall2 R) p (m_pow z_arith 2 fib_a i) -> Forall2 R out (map fib (seq 0 i)) ->
     sim pa (fun st st' => Forall2 (Forall2 R) (fst st) (fst st') /\ Forall2 R (snd st) (snd st'))
       (for_n k i body (p, out)) (m_pow z_arith 2 fib_a (i + k), map fib (seq 0 (i + k)))).
  { clear p0 Hp0 k. induction k as [|k IH]; intros i p out Hp Ho; cbn [for_n].
    - rewrite Nat.add_0_r. apply sim_ret. now split.
    - replace (i + Datatypes.S k) with (i + 1 + k) by lia.
      assert (Rp : rect 2 2 p) by (eapply rect_related'; [exact Hp|apply m_pow_rect]).
      apply (sim_bind pa (fun st st' => Forall2 (Forall2 R) (fst st) (fst st') /\ Forall2 R (snd st) (snd st')) _ _ _
        (m_pow z_arith 2 fib_a (i + 1), map fib (seq 0 (i + 1)))).
      + unfold body. eapply sim_bind; [apply (sim_mmulv pa R c d o z_arith H 2 2 p _ fib_f _ Hp Rf); [exact Rp|reflexivity|exact two_lt]|].
        rewrite fib_pow. intros v Hv. eapply sim_bind; [eapply sim_vindex; [exact Hv|reflexivity]|]. intros x Hx.
        apply (sim_bind pa (Forall2 (Forall2 R)) _ _ _ (m_pow z_arith 2 fib_a (i + 1))).
        * intros s. destruct (sim_mmul_assign pa R c d o z_arith H 2 p _ fib_a _ s Hp Ra Rp fib_a_rect two_lt) as [(q & E & Hq)|(P & s' & E)];
            rewrite E; [left|right; eauto].
          exists q. split; [reflexivity|]. rewrite (m_pow_add z_arith (rg_semi _ (proj1 z_ring))) by exact fib_a_rect.
          now rewrite (m_pow_1 z_arith (rg_semi _ (proj1 z_ring))) by exact fib_a_rect.
        * intros q Hq. apply sim_ret. split; [exact Hq|]. cbn [snd]. rewrite seq_app, map_app. apply Forall2_app; [exact Ho|].
          cbn. repeat constructor. exact Hx.
      + intros [p1 out1] [Hp1 Ho1]. apply IH; assumption. }
  eapply sim_bind; [unfold for_range; rewrite Nat.sub_0_r; apply (G k 0 p0 []); [exact Hp0|constructor]|].
  intros [p out] [Hp Ho]. apply sim_ret. exact Ho.
Qed.
End Fib.
(** Overflow checks on: the exact Fibonacci number, or a panic. *)
Theorem C42_fib_checked :
  forall S (c : cfg) (d : ety S Z) n,
  exact_or_panics (fib_doc c d (int_ops true u64) n) (fib n) /\
  exact_or_panics (fib_main c d (int_ops true u64) n) (map fib (seq 0 n)).
Proof.
  intros S c d n. assert (B : (1 < i_bits u64)%Z) by reflexivity.
  pose proof (sm_semi _ _ _ _ (int_sim_checked (S:=S) u64 (rng1 _ B) (rng0 _))) as H. split.
  - apply (chk_out1 u64). apply sim_fib_doc; [exact H|apply H|apply H].
  - apply (chk_outv u64). apply sim_fib_main; [exact H|apply H|apply H].
Qed.
Print Assumptions C42_fib_checked.
(** Overflow checks off: the Fibonacci number modulo 2^64. *)
Theorem C42_fib_release :
  forall S (c : cfg) (d : ety S Z) n,
  returns (fib_doc c d (int_ops false u64) n) (fib n mod 2 ^ 64)%Z /\
  returns (fib_main c d (int_ops false u64) n) (map (fun k => fib k mod 2 ^ 64)%Z (seq 0 n)).
Proof.
  intros S c d n. assert (B : (1 < i_bits u64)%Z) by reflexivity.
  pose proof (sm_semi _ _ _ _ (int_sim_wrap (S:=S) u64 (rng1 _ B) (rng0 _))) as H.
  assert (Wr : forall z, wrap u64 z = (z mod 2 ^ 64)%Z) by (intros; unfold wrap; cbn [i_lo u64 i_signed i_bits]; now rewrite Z.sub_0_r). split.
  - rewrite <- Wr. apply (wrap_out1 u64). apply sim_fib_doc; [exact H|apply H|apply H].
  - rewrite (map_ext _ (fun k => wrap u64 (fib k))) by (intros; symmetry; apply Wr). rewrite <- (map_map fib (wrap u64)).
    apply (wrap_outv u64). apply sim_fib_main; [exact H|apply H|apply H].
Qed.
Print Assumptions C42_fib_release.
(** Unbounded integers. *)
Theorem C42_fib_exact :
  forall S (c : cfg) (d : ety S Z) n,
  returns (fib_doc c d z_ops n) (fib n) /\ returns (fib_main c d z_ops n) (map fib (seq 0 n)).
Proof.
  intros S c d n. pose proof (exact_sim_semi _ _ (ex_semi _ _ (z_exact S))) as H. split.
  - intros s. apply sim_eq. apply sim_fib_doc; [exact H|reflexivity|reflexivity].
  - intros s. apply sim_eqv. apply sim_fib_main; [exact H|reflexivity|reflexivity].
Qed.
Print Assumptions C42_fib_exact.
(** The documented values, and the example program as written (50 iterations), also with
    overflow checks. *)
Example C42_ex :
  fib_doc dbg ref_ety (int_ops true u64) 0 tt = (Ok 0%Z, tt) /\
  fib_doc dbg ref_ety (int_ops true u64) 10 tt = (Ok 55%Z, tt) /\
  fib_doc dbg ref_ety (int_ops true u64) 50 tt = (Ok 12586269025%Z, tt) /\
  fib_main dbg ref_ety (int_ops true u64) 5 tt = (Ok [0; 1; 1; 2; 3]%Z, tt).
Proof. vm_compute. auto. Qed.
