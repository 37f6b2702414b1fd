(** * PropsCF.v - C97: matrices of complex numbers with f32 or f64 parts. *)
From Coq Require Import List Arith Bool Lia ZArith Reals Lra.
From Flocq Require Import Core BinarySingleNaN.
From Verif Require Import Rust Iter Elem VectorM MatIterM MatrixM ArithM OpsM CplxM SpecCommon SpecAlg FloatM SpecReal SpecPost SpecSign SpecCF.
From Verif Require Import Harness IterProofs OwnProofs VecProofs MatProofs Sim OpsSim OpsPure Algebra PropsAlg PropsCross PropsFloat FloatErr PropsFloatErr FloatPost PropsPost SignProofs PropsSign PropsConj CFProofs.
Import ListNotations.

(** ** Conjugation *)
(** [conjugate] negates the imaginary parts and changes nothing else, bit for bit; conjugating twice
    gives back the matrix; conjugation and transposition commute. *)
Theorem C97_conjugate : forall (t : float_type) S (c : cfg) (d : ety S (complex (float t))) row col m (s : S),
  rect row col m -> row < W c -> col < W c ->
  exists p, mconjugate c d (float_ops t) row col m s = (Ok p, s) /\ rect row col p /\
    (forall i j, i < row -> j < col -> cat2 p i j = conjugate_of (cat2 m i j)) /\
    mconjugate c d (float_ops t) row col p s = (Ok m, s) /\
    exists q, mtransposed c d (complex_clone (float_ops t)) row col p s = (Ok q, s) /\
      (x <- mtransposed c d (complex_clone (float_ops t)) row col m ;; mconjugate c d (float_ops t) col row x) s = (Ok q, s).
Proof.
  intros t S c d row col m s R Hr Hc. exists (m_cj (float_arith t) m).
  split; [exact (conj_m _ _ fex c d row col m s R Hr Hc)|]. pose proof (cj_rect row col m R) as R'. split; [exact R'|].
  split; [intros; now apply (cj_in row col)|]. split.
  - rewrite (conj_m _ _ fex c d row col _ s R' Hr Hc). f_equal. f_equal. unfold m_cj. rewrite map_map.
    rewrite (map_ext _ (fun r => r)); [apply map_id|]. intros r. rewrite map_map.
    rewrite (map_ext _ (fun x => x)); [apply map_id|]. intros [x y]. unfold cj. cbn [re im]. f_equal. apply opp_opp.
  - pose proof (ex_clone _ _ (@cse t S)) as HC. eexists. split; [exact (trm c d (c_arith (float_arith t)) _ row col _ s HC R' Hc)|].
    rewrite (bind_ok (trm c d (c_arith (float_arith t)) _ row col m s HC R Hc)).
    etransitivity; [exact (conj_m _ _ fex c d col row _ s (mat_rect _ _ _) Hc Hr)|]. f_equal. f_equal. unfold m_tr. rewrite m_cj_mat. apply mat_ext'.
    intros i j Hi Hj. symmetry. exact (cj_in row col m j i R Hj Hi).
Qed.
Print Assumptions C97_conjugate.
(** Conjugate operands give the conjugate of the result, up to the signs of zeros, whatever is
    rounded, overflows or is NaN on the way: sums and differences of matrices, products of matrices,
    of a matrix and a vector and of vectors, sums of components. *)
Theorem C97_arithmetic : forall (t : float_type) S (c : cfg) (d : ety S (complex (float t))) l n r a a' (s : S),
  let o := complex_ops (float_ops t) in
  rect l n a -> l < W c -> n < W c -> r < W c -> conjugates2 l n a a' ->
  (forall b b', rect l n b -> conjugates2 l n b b' ->
     (exists p q, mzip_vv c d d d l n (o_add o) a b s = (Ok p, s) /\ mzip_vv c d d d l n (o_add o) a' b' s = (Ok q, s) /\ conjugates2 l n p q) /\
     (exists p q, mzip_vv c d d d l n (o_sub o) a b s = (Ok p, s) /\ mzip_vv c d d d l n (o_sub o) a' b' s = (Ok q, s) /\ conjugates2 l n p q)) /\
  (forall b b', rect n r b -> conjugates2 n r b b' ->
     exists p q, mmul_vv c d o l n r a b s = (Ok p, s) /\ mmul_vv c d o l n r a' b' s = (Ok q, s) /\ conjugates2 l r p q) /\
  (forall v v', length v = n -> conjugates1 n v v' ->
     (exists p q, mmulv c d o l n a v s = (Ok p, s) /\ mmulv c d o l n a' v' s = (Ok q, s) /\ conjugates1 l p q) /\
     (exists x y, vsum o n v s = (Ok x, s) /\ vsum o n v' s = (Ok y, s) /\ csame y (conjugate_of x)) /\
     (forall w w', length w = n -> conjugates1 n w w' ->
        exists x y, vdot o n v w s = (Ok x, s) /\ vdot o n v' w' s = (Ok y, s) /\ csame y (conjugate_of x))).
Proof.
  intros t S c d l n r a a' s o Ra Hl Hn Hr Fa. pose proof (rect_conj _ _ _ _ Fa) as Ra'. split; [|split].
  - intros b b' Rb Fb. pose proof (rect_conj _ _ _ _ Fb) as Rb'. split.
    + do 2 eexists. split; [exact (addm c d _ _ cse l n a b s Ra Rb Hl Hn)|]. split; [exact (addm c d _ _ cse l n a' b' s Ra' Rb' Hl Hn)|].
      apply conj_mat; [apply mat_rect|]. intros i j Hi Hj. unfold m_add. rewrite !at2_mat by assumption.
      apply (g_add _ _ _ _ (c_graded true)); now apply (conj_get l n).
    + exists (m_sub (c_arith (float_arith t)) l n a b), (m_sub (c_arith (float_arith t)) l n a' b').
      split; [apply sim_eqm; apply sim_mzip_vv; auto using Forall2_eq2; apply (exact_sim _ _ cex)|]. split; [apply sim_eqm; apply sim_mzip_vv; auto using Forall2_eq2; apply (exact_sim _ _ cex)|].
      apply conj_mat; [apply mat_rect|]. intros i j Hi Hj. unfold m_sub. rewrite !at2_mat by assumption.
      apply (g_sub _ _ _ _ (c_graded true)); now apply (conj_get l n).
  - intros b b' Rb Fb. pose proof (rect_conj _ _ _ _ Fb) as Rb'. do 2 eexists.
    split; [exact (mulm c d _ _ cse l n r a b s Ra Rb Hl Hn Hr)|]. split; [exact (mulm c d _ _ cse l n r a' b' s Ra' Rb' Hl Hn Hr)|].
    apply conj_mat; [apply mat_rect|]. intros i j Hi Hj. unfold m_mul. rewrite !at2_mat by assumption. apply csum. intros k Hk.
    apply cmul; [now apply (conj_get l n)|now apply (conj_get n r)].
  - intros v v' Lv Fv. destruct (Fv) as [Lv' _]. split; [|split].
    + do 2 eexists. split; [exact (mulmv c d _ _ cse l n a v s Ra Lv Hl Hn)|]. split; [exact (mulmv c d _ _ cse l n a' v' s Ra' Lv' Hl Hn)|].
      apply conj_vec; [apply vec_length|]. intros i Hi. unfold m_mulv. rewrite !at1_vec by assumption. apply csum. intros k Hk.
      apply cmul; [now apply (conj_get l n)|now apply (conj_get1 n)].
    + do 2 eexists. split; [exact (sumv _ _ cse n v s Lv)|]. split; [exact (sumv _ _ cse n v' s Lv')|]. apply crel_conj. apply csum. intros k Hk. now apply (conj_get1 n).
    + intros w w' Lw Fw. destruct (Fw) as [Lw' _]. do 2 eexists. split; [exact (dotv _ _ cse n v w s Lv Lw)|]. split; [exact (dotv _ _ cse n v' w' s Lv' Lw')|].
      apply crel_conj. apply csum. intros k Hk. apply cmul; now apply (conj_get1 n).
Qed.
Print Assumptions C97_arithmetic.
(** Determinants and cofactors of any size. *)
Theorem C97_determinant : forall (t : float_type) S (c : cfg) (d : ety S (complex (float t))) n m m' (s : S),
  let o := complex_ops (float_ops t) in
  1 <= n -> n + n <= W c -> rect n n m -> conjugates2 n n m m' ->
  (exists x y, det c d o n m s = (Ok x, s) /\ det c d o n m' s = (Ok y, s) /\ csame y (conjugate_of x)) /\
  (forall i j, 2 <= n -> i < n -> j < n -> exists x y,
     cofactor c d o n m (i, j) s = (Ok x, s) /\ cofactor c d o n m' (i, j) s = (Ok y, s) /\ csame y (conjugate_of x)).
Proof.
  intros t S c d n m m' s o Hn HW R F. pose proof (rect_conj _ _ _ _ F) as R'.
  assert (M : mrel (c_arith (float_arith t)) (crel true) n (fun _ => false) (fun _ => false) m m') by (intros i j Hi Hj; now apply (conj_get n n)).
  assert (O : forall k, odd_many k (fun _ => false) = false) by (induction k as [|k IH]; [reflexivity|cbn; now rewrite IH]).
  split.
  - do 2 eexists. split; [exact (det_p _ cdiv _ c d o cex cdv ciz_eq n m s Hn HW R)|]. split; [exact (det_p _ cdiv _ c d o cex cdv ciz_eq n m' s Hn HW R')|].
    apply crel_conj. pose proof (det_rel _ _ _ _ (c_graded true) n _ _ m m' Hn M) as H. rewrite !O in H. exact H.
  - intros i j Hn2 Hi Hj. do 2 eexists. split; [exact (cofactor_p _ cdiv _ c d o cex cdv ciz_eq n m i j s Hn2 HW R Hi Hj)|].
    split; [exact (cofactor_p _ cdiv _ c d o cex cdv ciz_eq n m' i j s Hn2 HW R' Hi Hj)|].
    apply crel_conj. pose proof (cof_rel _ _ _ _ (c_graded true) n _ _ m m' i j Hn2 Hi Hj M) as H. rewrite !O in H. exact H.
Qed.
Print Assumptions C97_determinant.
(** Inverses of any size: refused for both or for none. *)
Theorem C97_inverse : forall (t : float_type) S (c : cfg) (d : ety S (complex (float t))) n m m' (s : S),
  let o := complex_ops (float_ops t) in
  1 <= n -> rect n n m -> conjugates2 n n m m' ->
  (inverse c d o n m s = (Ok None, s) /\ inverse c d o n m' s = (Ok None, s)) \/
  exists y y', inverse c d o n m s = (Ok (Some y), s) /\ inverse c d o n m' s = (Ok (Some y'), s) /\ rect n n y /\ conjugates2 n n y y'.
Proof.
  intros t S c d n m m' s o Hn R F. pose proof (rect_conj _ _ _ _ F) as R'.
  assert (M : mrel (c_arith (float_arith t)) (crel true) n (fun _ => false) (fun _ => false) m m') by (intros i j Hi Hj; now apply (conj_get n n)).
  pose proof (inverse_p (c_arith (float_arith t)) cdiv ciz c d o cex cdv ciz_eq n m s Hn R) as E.
  pose proof (inverse_p (c_arith (float_arith t)) cdiv ciz c d o cex cdv ciz_eq n m' s Hn R') as E'.
  pose proof (inv_rel _ _ _ _ (c_graded true) n _ _ m m' Hn M) as H.
  pose proof (fun x => p_inverse_rect (c_arith (float_arith t)) cdiv ciz n m' x Hn R') as RR.
  pose proof (fun x => p_inverse_rect (c_arith (float_arith t)) cdiv ciz n m x Hn R) as RR1.
  revert E E' H RR RR1. generalize (p_inverse (c_arith (float_arith t)) cdiv ciz n m) as z. generalize (p_inverse (c_arith (float_arith t)) cdiv ciz n m') as z'.
  intros [y'|] [y|] E E' H RR RR1; try contradiction; [right|left; now split].
  exists y, y'. split; [exact E|]. split; [exact E'|]. split; [exact (RR1 y eq_refl)|]. apply conj_mat; [exact (RR y' eq_refl)|exact H].
Qed.
Print Assumptions C97_inverse.
(** Powers. *)
Theorem C97_pow : forall (t : float_type) S (c : cfg) (d : ety S (complex (float t))) n m m' e (s : S),
  let o := complex_ops (float_ops t) in
  rect n n m -> n < W c -> conjugates2 n n m m' ->
  exists p q, mpow c d o n m e s = (Ok p, s) /\ mpow c d o n m' e s = (Ok q, s) /\ rect n n p /\ conjugates2 n n p q.
Proof.
  intros t S c d n m m' e s o R HW F. pose proof (rect_conj _ _ _ _ F) as R'.
  set (A := c_arith (float_arith t)). set (mul := m_mul A n n n). set (one := m_id A n).
  set (Q0 := fun (x y : list (list (complex (float t)))) => x = y /\ rect n n x).
  set (Q1 := fun (x y : list (list (complex (float t)))) => conjugates2 n n y x /\ rect n n y).
  assert (HC : forall Q : list (list (complex (float t))) -> list (list (complex (float t))) -> Prop, (forall x y, Q x y -> rect n n x) ->
    forall x y, Q x y -> sim (S:=S) false Q (mclone c d (o_clone o) n n x) y).
  { intros Q HQ x y Hx s0. left. exists x. split; [|exact Hx]. apply mclone_id; [eapply HQ; exact Hx|apply (ex_clone _ _ cse)]. }
  assert (C0 : forall x y, Q0 x y -> rect n n x) by (intros x y [_ H]; exact H).
  assert (C1 : forall x y, Q1 x y -> rect n n x) by (intros x y [H _]; exact (rect_conj _ _ _ _ H)).
  assert (K0 : sim false Q0 (mpow c d o n m e) (pnum_pow mul one m e)).
  { unfold mpow. eapply sim_bind; [apply (HC Q0 C0 m m); split; auto|]. intros x Hx. apply sim_num_pow; [|exact (HC Q0 C0)| |exact Hx].
    - intros x1 x2 y1 y2 [-> H1] [-> H2] s0. left. eexists. split; [exact (mulm c d _ _ cse n n n _ _ s0 H1 H2 HW HW HW)|]. split; [reflexivity|apply mat_rect].
    - intros s0. left. eexists. split; [exact (idm c d _ _ cse n s0)|]. split; [reflexivity|apply mat_rect]. }
  assert (K1 : sim false Q1 (mpow c d o n m' e) (pnum_pow mul one m e)).
  { unfold mpow. eapply sim_bind; [apply (HC Q1 C1 m' m); split; auto|]. intros x Hx. apply sim_num_pow; [|exact (HC Q1 C1)| |exact Hx].
    - intros x1 x2 y1 y2 H1 H2 s0. left. eexists. split; [exact (mulm c d _ _ cse n n n _ _ s0 (C1 _ _ H1) (C1 _ _ H2) HW HW HW)|].
      destruct H1 as [H1 _], H2 as [H2 _]. split; [|apply mat_rect]. apply conj_mat; [apply mat_rect|]. intros i j Hi Hj. unfold mul, m_mul, A.
      rewrite !at2_mat by assumption. apply csum. intros k Hk. apply cmul; now apply (conj_get n n).
    - intros s0. left. eexists. split; [exact (idm c d _ _ cse n s0)|]. split; [|apply mat_rect]. apply conj_mat; [apply mat_rect|]. intros i j Hi Hj. unfold one, m_id, A.
      rewrite !at2_mat by assumption. destruct (Nat.eqb_spec i j) as [->|]; [apply (g_one _ _ _ _ (c_graded true))|apply (g_zero _ _ _ _ (c_graded true))]. }
  destruct (K0 s) as [(p & E0 & H0 & H0')|(? & _)]; [|discriminate]. destruct (K1 s) as [(q & E1 & H1 & _)|(? & _)]; [|discriminate].
  exists p, q. split; [exact E0|]. split; [exact E1|]. split; [exact H0'|]. rewrite H0. exact H1.
Qed.
Print Assumptions C97_pow.

(** ** M M^H *)
Section Pos.
Context {t : float_type}.
Definition sum_ok (x : float t) : Prop := x = B754_nan \/ Bsign x = false.
Lemma ovf_pos (z : float t) : B2SF z = binary_overflow (fprec t) (femax t) mode_NE false -> Bsign z = false /\ z <> B754_nan.
Proof. unfold binary_overflow. cbn [overflow_to_inf]. destruct z as [?|z| |]; cbn; try discriminate. intros H. injection H as ->. split; [reflexivity|discriminate]. Qed.
Lemma fin_nn (z : float t) : is_finite z = true -> z <> B754_nan.
Proof. intros F E. now rewrite E in F. Qed.
Lemma plus_ok (x y : float t) : sum_ok x -> sum_ok y -> sum_ok (Bplus mode_NE x y) /\ (x <> B754_nan -> y <> B754_nan -> Bplus mode_NE x y <> B754_nan).
Proof.
  intros [->|Hx]; [intros _; split; [now left|congruence]|]. intros [->|Hy].
  { split; [destruct x; now left|congruence]. }
  destruct (is_finite x) eqn:Fx; [|destruct x as [|sx| |]; try discriminate Fx; [|destruct y; (split; [now left|congruence])]].
  2:{ cbn in Hx. subst. destruct y as [|sy| |]; cbn in Hy |- *; subst; (split; [|congruence || discriminate]); try (now right); now left. }
  destruct (is_finite y) eqn:Fy; [|destruct y as [|sy| |]; try discriminate Fy; [|destruct x; (split; [now left|congruence])]].
  2:{ cbn in Hy. subst. destruct x as [|sx| |]; cbn in Hx |- *; try discriminate; subst; (split; [|discriminate]); now right. }
  enough (K : Bsign (Bplus mode_NE x y) = false /\ Bplus mode_NE x y <> B754_nan) by (destruct K as [K1 K2]; split; [now right|now intros]).
  pose proof (Bplus_correct (fprec t) (femax t) _ _ mode_NE x y Fx Fy) as K. destruct (Rlt_bool _ _).
  - destruct K as (_ & K2 & K3). split; [|now apply fin_nn]. rewrite K3, Hx, Hy. destruct (Rcompare_spec (B2R x + B2R y) 0) as [L|L|L]; try reflexivity.
    exfalso. assert (P : forall z : float t, Bsign z = false -> (0 <= B2R z)%R).
    { intros [z|z| |z mm e hh] Hz; cbn in Hz; try apply Rle_refl. subst. apply F2R_ge_0. discriminate. }
    pose proof (P x Hx). pose proof (P y Hy). lra.
  - destruct K as [K _]. rewrite Hx in K. now apply ovf_pos.
Qed.
Lemma sq_ok (x : float t) : sum_ok (Bmult mode_NE x x) /\ (x <> B754_nan -> Bmult mode_NE x x <> B754_nan).
Proof.
  destruct (is_finite x) eqn:Fx.
  2:{ destruct x as [|sx| |]; try discriminate Fx; [destruct sx; (split; [now right|discriminate])|split; [now left|congruence]]. }
  enough (K : Bsign (Bmult mode_NE x x) = false /\ Bmult mode_NE x x <> B754_nan) by (destruct K as [K1 K2]; split; [now right|now intros]).
  pose proof (Bmult_correct (fprec t) (femax t) _ _ mode_NE x x) as K. rewrite Fx, xorb_nilpotent in K. destruct (Rlt_bool _ _); [|now apply ovf_pos].
  destruct K as (_ & K2 & K3). split; [|now apply fin_nn]. apply K3. destruct (Bmult mode_NE x x); try discriminate K2; reflexivity.
Qed.
End Pos.
(** The product of a matrix with its conjugate transpose is Hermitian although every entry has been
    rounded: opposite entries have equal real parts and opposite imaginary parts.  On the diagonal the
    imaginary part is zero (or NaN, when parts overflowed), the real part is not negative, and not NaN
    unless the row has a NaN. *)
Theorem C97_hermitian : forall (t : float_type) S (c : cfg) (d : ety S (complex (float t))) l n m (s : S),
  let o := complex_ops (float_ops t) in
  rect l n m -> l < W c -> n < W c ->
  exists p, (x <- mconjugate c d (float_ops t) l n m ;; y <- mtransposed c d (o_clone o) l n x ;; mmul_vv c d o l n l m y) s = (Ok p, s) /\ rect l l p /\
  (forall i j, i < l -> j < l -> re (cat2 p i j) = re (cat2 p j i) /\ same (im (cat2 p i j)) (Bopp (im (cat2 p j i)))) /\
  (forall i, i < l -> (im (cat2 p i i) = B754_nan \/ exists z, im (cat2 p i i) = B754_zero z) /\
     (re (cat2 p i i) = B754_nan \/ Bsign (re (cat2 p i i)) = false) /\
     ((forall k, k < n -> re (cat2 m i k) <> B754_nan /\ im (cat2 m i k) <> B754_nan) -> re (cat2 p i i) <> B754_nan)).
Proof.
  intros t S c d l n m s o R Hl Hn. pose proof (ex_clone _ _ (@cse t S)) as HC. pose proof (cj_rect l n m R) as R'.
  set (A := c_arith (float_arith t)). set (p := m_mul A l n l m (m_tr A l n (m_cj (float_arith t) m))). exists p. split.
  { rewrite (bind_ok (conj_m _ _ fex c d l n m s R Hl Hn)). rewrite (bind_ok (trm c d A _ l n _ s HC R' Hn)).
    exact (mulm c d _ _ cse l n l m _ s R (mat_rect _ _ _) Hl Hn Hl). }
  split; [apply mat_rect|].
  assert (E : forall i j, i < l -> j < l -> cat2 p i j = sum A n (fun k => a_mul A (cat2 m i k) (conjugate_of (cat2 m j k)))).
  { intros i j Hi Hj. change (cat2 p i j) with (at2 A p i j). unfold p, m_mul. rewrite at2_mat by assumption. apply sum_ext. intros k Hk. f_equal. unfold m_tr. rewrite at2_mat by assumption.
    exact (cj_in l n m j k R Hj Hk). }
  assert (H : forall i j, i < l -> j < l -> re (cat2 p i j) = re (cat2 p j i) /\ same (im (cat2 p i j)) (Bopp (im (cat2 p j i)))).
  { intros i j Hi Hj. rewrite !E by assumption. unfold A. rewrite !sum_re, !sum_im. split.
    - apply sum_ext. intros k Hk. generalize (cat2 m i k) (cat2 m j k). intros [a b] [x y]. cbn -[Bmult Bminus Bplus Bopp]. rewrite !mul_neg_r. now rewrite (mul_comm_f a), (mul_comm_f b).
    - apply (fsum t true n). intros k Hk. generalize (cat2 m i k) (cat2 m j k). intros [a b] [x y]. cbn -[Bmult Bminus Bplus Bopp]. rewrite !mul_neg_r.
      rewrite (mul_comm_f x b), (mul_comm_f y a), add_comm_f. apply (g_add _ _ _ _ float_graded); unfold frel; cbn [flip]; rewrite ?opp_opp; apply same_refl. }
  split; [exact H|]. intros i Hi. split; [|].
  - destruct (H i i Hi Hi) as [_ [K|(s1 & s2 & K & _)]]; [|right; now exists s1]. destruct (im (cat2 p i i)) as [z|z| |z mm e hh]; [right; now exists z| |now left|]; destruct z; discriminate K.
  - rewrite E by assumption. unfold A. rewrite sum_re.
    assert (T : sum_ok (sum (float_arith t) n (fun k => re (a_mul (c_arith (float_arith t)) (cat2 m i k) (conjugate_of (cat2 m i k))))) /\
      ((forall k, k < n -> re (cat2 m i k) <> B754_nan /\ im (cat2 m i k) <> B754_nan) -> sum (float_arith t) n (fun k => re (a_mul (c_arith (float_arith t)) (cat2 m i k) (conjugate_of (cat2 m i k)))) <> B754_nan)); [|exact T].
    clear E H p R R' Hn. induction n as [|k IH]; [split; [now right|discriminate]|]. rewrite (sum_S (float_arith t)).
    set (f := fun k => _) in *. assert (F : sum_ok (f k) /\ (re (cat2 m i k) <> B754_nan /\ im (cat2 m i k) <> B754_nan -> f k <> B754_nan)).
    { unfold f. generalize (cat2 m i k). intros [a b]. cbn -[Bmult Bminus Bplus Bopp]. rewrite mul_neg_r, sub_add, opp_opp.
      destruct (sq_ok a) as [A1 A2], (sq_ok b) as [B1 B2]. destruct (plus_ok _ _ A1 B1) as [C1 C2]. split; [exact C1|]. intros [N1 N2]. apply C2; auto. }
    destruct F as [F1 F2], IH as [I1 I2]. destruct (plus_ok _ _ I1 F1) as [J1 J2]. split; [exact J1|]. intros N. apply J2; [apply I2; intros; apply N; lia|apply F2, N; lia].
Qed.
Print Assumptions C97_hermitian.

(** ** Accuracy *)
Section Acc.
Context {prec emax : Z} {Hgt : Prec_gt_0 prec} {Hlt : Prec_lt_emax prec emax} {OK : fmt_ok prec emax}.
Local Notation FL := (fl prec emax).
Local Notation AR := (fl_arith prec emax Hgt Hlt).
Local Notation CA := (c_arith (fl_arith prec emax Hgt Hlt)).
Local Notation au := (apu prec).
Local Notation emin := (3 - emax - prec)%Z.
Local Notation eta := (hs prec emax).
Local Open Scope R_scope.
Lemma ma_post (a b x y : FL) : let z := a_add AR (a_mul AR a b) (a_mul AR x y) in is_finite z = true ->
  (is_finite a = true /\ is_finite b = true /\ is_finite x = true /\ is_finite y = true) /\
  au 2 (Rabs (B2R a * B2R b) + Rabs (B2R x * B2R y)) (2 * eta) (B2R a * B2R b + B2R x * B2R y) (B2R z).
Proof.
  intros z F. destruct (nf_add _ _ F) as [F1 F2]. destruct (nf_mul _ _ F1), (nf_mul _ _ F2). split; [tauto|].
  replace (2 * eta) with (eta + eta) by ring. apply au_add; [now apply au_prod|now apply au_prod|exact F].
Qed.
Lemma cre_post n (f g : nat -> complex FL) : (Z.of_nat n <= 2 ^ (prec - 3))%Z ->
  let z := re (sum CA n (fun k => a_mul CA (f k) (g k))) in is_finite z = true ->
  (forall k, (k < n)%nat -> is_finite (re (f k)) = true /\ is_finite (re (g k)) = true /\ is_finite (im (f k)) = true /\ is_finite (im (g k)) = true) /\
  Rabs (B2R z - rsum n (fun k => B2R (re (f k)) * B2R (re (g k)) - B2R (im (f k)) * B2R (im (g k)))) <=
    INR (n + 2) * b2 (1 - prec) * rsum n (fun k => Rabs (B2R (re (f k)) * B2R (re (g k))) + Rabs (B2R (im (f k)) * B2R (im (g k)))) + 2 * INR n * b2 emin.
Proof.
  intros Hn z. assert (E : z = sum AR n (fun k => re (a_mul CA (f k) (g k)))).
  { unfold z. clear. induction n as [|n IH]; [reflexivity|]. rewrite !sum_S. cbn [c_arith a_add re]. now rewrite IH. }
  intros F. rewrite E in F |- *.
  destruct (fsum_post n (fun k => re (a_mul CA (f k) (g k))) (fun k => B2R (re (f k)) * B2R (re (g k)) - B2R (im (f k)) * B2R (im (g k)))
    (fun k => Rabs (B2R (re (f k)) * B2R (re (g k))) + Rabs (B2R (im (f k)) * B2R (im (g k)))) (fun _ => 2 * eta) 2 F) as [H1 H2].
  - intros i Hi Fi. exact (proj2 (ms_post _ _ _ _ Fi)).
  - split; [intros k Hk; exact (proj1 (ms_post _ _ _ _ (H1 k Hk)))|]. rewrite Nat.add_comm in H2. apply (au_err n 2) in H2; [|exact Hn|lia].
    rewrite rsum_const in H2. replace (2 * (INR n * (2 * eta))) with (2 * INR n * b2 emin) in H2 by (unfold hs; lra). exact H2.
Qed.
Lemma cim_post n (f g : nat -> complex FL) : (Z.of_nat n <= 2 ^ (prec - 3))%Z ->
  let z := im (sum CA n (fun k => a_mul CA (f k) (g k))) in is_finite z = true ->
  (forall k, (k < n)%nat -> is_finite (re (f k)) = true /\ is_finite (im (g k)) = true /\ is_finite (im (f k)) = true /\ is_finite (re (g k)) = true) /\
  Rabs (B2R z - rsum n (fun k => B2R (re (f k)) * B2R (im (g k)) + B2R (im (f k)) * B2R (re (g k)))) <=
    INR (n + 2) * b2 (1 - prec) * rsum n (fun k => Rabs (B2R (re (f k)) * B2R (im (g k))) + Rabs (B2R (im (f k)) * B2R (re (g k)))) + 2 * INR n * b2 emin.
Proof.
  intros Hn z. assert (E : z = sum AR n (fun k => im (a_mul CA (f k) (g k)))).
  { unfold z. clear. induction n as [|n IH]; [reflexivity|]. rewrite !sum_S. cbn [c_arith a_add im]. now rewrite IH. }
  intros F. rewrite E in F |- *.
  destruct (fsum_post n (fun k => im (a_mul CA (f k) (g k))) (fun k => B2R (re (f k)) * B2R (im (g k)) + B2R (im (f k)) * B2R (re (g k)))
    (fun k => Rabs (B2R (re (f k)) * B2R (im (g k))) + Rabs (B2R (im (f k)) * B2R (re (g k)))) (fun _ => 2 * eta) 2 F) as [H1 H2].
  - intros i Hi Fi. exact (proj2 (ma_post _ _ _ _ Fi)).
  - split; [intros k Hk; exact (proj1 (ma_post _ _ _ _ (H1 k Hk)))|]. rewrite Nat.add_comm in H2. apply (au_err n 2) in H2; [|exact Hn|lia].
    rewrite rsum_const in H2. replace (2 * (INR n * (2 * eta))) with (2 * INR n * b2 emin) in H2 by (unfold hs; lra). exact H2.
Qed.
End Acc.

(** The real part and the imaginary part of an inner product, and of an entry of a matrix product, of
    complex numbers: whichever is finite is within (n + 2) epsilon times the sum of the absolute values
    of its 2 n terms of the exact value, and 2 n times the smallest positive number more. *)
Definition re_close (t : float_type) (n : nat) (f g : nat -> complex (float t)) (z : complex (float t)) : Prop :=
  finite (re z) -> (Rabs (B2R (re z) - rsum n (fun k => re_prod (f k) (g k))) <=
    INR (n + 2) * epsilon t * rsum n (fun k => re_size (f k) (g k)) + 2 * INR n * smallest t)%R.
Definition im_close (t : float_type) (n : nat) (f g : nat -> complex (float t)) (z : complex (float t)) : Prop :=
  finite (im z) -> (Rabs (B2R (im z) - rsum n (fun k => im_prod (f k) (g k))) <=
    INR (n + 2) * epsilon t * rsum n (fun k => im_size (f k) (g k)) + 2 * INR n * smallest t)%R.
Theorem C97_accurate : forall (t : float_type) S (c : cfg) (d : ety S (complex (float t))) n (s : S),
  let o := complex_ops (float_ops t) in
  (Z.of_nat n <= 2 ^ (fprec t - 3))%Z -> n < W c ->
  (forall v w, length v = n -> length w = n -> exists z, vdot o n v w s = (Ok z, s) /\ re_close t n (cat1 v) (cat1 w) z /\ im_close t n (cat1 v) (cat1 w) z) /\
  (forall l r a b, rect l n a -> rect n r b -> l < W c -> r < W c -> exists p, mmul_vv c d o l n r a b s = (Ok p, s) /\ rect l r p /\
     forall i j, i < l -> j < r -> re_close t n (cat2 a i) (fun k => cat2 b k j) (cat2 p i j) /\ im_close t n (cat2 a i) (fun k => cat2 b k j) (cat2 p i j)) /\
  (forall l a v, rect l n a -> length v = n -> l < W c -> exists w, mmulv c d o l n a v s = (Ok w, s) /\ length w = l /\
     forall i, i < l -> re_close t n (cat2 a i) (cat1 v) (cat1 w i) /\ im_close t n (cat2 a i) (cat1 v) (cat1 w i)).
Proof.
  intros t S c d n s o Hn HW.
  assert (K : forall f g, re_close t n f g (sum (c_arith (float_arith t)) n (fun k => a_mul (c_arith (float_arith t)) (f k) (g k))) /\
    im_close t n f g (sum (c_arith (float_arith t)) n (fun k => a_mul (c_arith (float_arith t)) (f k) (g k)))).
  { intros f g. split; intros F; [exact (proj2 (cre_post n f g Hn F))|exact (proj2 (cim_post n f g Hn F))]. }
  split; [|split].
  - intros v w Lv Lw. eexists. split; [exact (dotv _ _ cse n v w s Lv Lw)|]. apply K.
  - intros l r a b Ra Rb Hl Hr. eexists. split; [exact (mulm c d _ _ cse l n r a b s Ra Rb Hl HW Hr)|]. split; [apply mat_rect|]. intros i j Hi Hj.
    assert (E : cat2 (m_mul (c_arith (float_arith t)) l n r a b) i j = sum (c_arith (float_arith t)) n (fun k => a_mul (c_arith (float_arith t)) (cat2 a i k) (cat2 b k j))) by (exact (at2_mat (c_arith (float_arith t)) l r _ i j Hi Hj)).
    rewrite E. apply K.
  - intros l a v Ra Lv Hl. eexists. split; [exact (mulmv c d _ _ cse l n a v s Ra Lv Hl HW)|]. split; [apply vec_length|]. intros i Hi.
    assert (E : cat1 (m_mulv (c_arith (float_arith t)) l n a v) i = sum (c_arith (float_arith t)) n (fun k => a_mul (c_arith (float_arith t)) (cat2 a i k) (cat1 v k))) by (exact (at1_vec (c_arith (float_arith t)) l _ i Hi)).
    rewrite E. apply K.
Qed.
Print Assumptions C97_accurate.

(** [[1/3 + 2/3 i, 1/3], [i, -2/3 - 1/3 i]] and its conjugate; two parts of entries of their product. *)
Definition th (k : nat) : float F64 := Bdiv mode_NE (binary_normalize _ _ _ _ mode_NE (Z.of_nat k) 0 false) (binary_normalize _ _ _ _ mode_NE 3 0 false).
Definition m97 : list (list (complex (float F64))) := [[Complex (th 1) (th 2); Complex (th 1) (th 0)]; [Complex (th 0) Bone; Complex (Bopp (th 2)) (Bopp (th 1))]].
Definition p97 : list (list (complex (float F64))) := map (map conjugate_of) m97.
Example C97_ex : forall c (d : ety unit (complex (float F64))),
  rect 2 2 m97 /\ conjugates2 2 2 m97 p97 /\ mconjugate c d (float_ops F64) 2 2 m97 tt = (Ok p97, tt) /\
  exists p, mmul_vv c d (complex_ops (float_ops F64)) 2 2 2 m97 p97 tt = (Ok p, tt) /\ is_finite (re (cat2 p 1 1)) = true /\ is_finite (im (cat2 p 1 0)) = true.
Proof.
  intros c d. assert (R : rect 2 2 m97) by (split; [reflexivity|repeat constructor]). assert (H : 2 < W c) by (pose proof (W_big c); lia).
  assert (R' : rect 2 2 p97) by (split; [reflexivity|repeat constructor]).
  split; [exact R|]. split.
  { split; [reflexivity|]. split; [intros i Hi; destruct i as [|[|i]]; try lia; reflexivity|]. intros i j Hi Hj. destruct i as [|[|i]]; try lia; destruct j as [|[|j]]; try lia; split; apply same_refl. }
  split; [exact (conj_m _ _ fex c d 2 2 m97 tt R H H)|].
  eexists. split; [exact (mulm c d _ _ cse 2 2 2 m97 p97 tt R R' H H H)|]. split; vm_compute; reflexivity.
Qed.
