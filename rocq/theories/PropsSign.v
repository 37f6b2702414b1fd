(** * PropsSign.v - C94: what rounding leaves intact in f32 and f64: order of operands, signs. *)
From Coq Require Import List Arith Bool Lia ZArith Reals.
From Flocq Require Import Core BinarySingleNaN.
From Verif Require Import Rust Iter Elem VectorM MatIterM MatrixM ArithM OpsM SpecCommon SpecAlg FloatM SpecSign.
From Verif Require Import Harness IterProofs OwnProofs VecProofs MatProofs Sim OpsSim OpsPure Algebra PropsAlg PropsCross PropsFloat PropsFloatErr SignProofs.
Import ListNotations.

Section Run.
Context (t : float_type) (S : Type).
Notation AR := (float_arith t).
Notation FL := (float t).
Notation OP := (float_ops t).
Definition fex : exact (S:=S) OP AR := proj1 (fl_exact (fprec t) (femax t) _ _).
Definition fdiv : pure2 (S:=S) (o_div OP) (Bdiv mode_NE) := proj2 (fl_exact (fprec t) (femax t) _ _).
Definition fse : exact_semi (S:=S) OP AR := ex_semi _ _ fex.
Lemma rect_flip row col f g (m p : list (list FL)) : flipped2 row col f g m p -> rect row col p.
Proof.
  intros (H1 & H2 & _). split; [exact H1|]. apply Forall_forall. intros r Hr. apply In_nth with (d := []) in Hr. destruct Hr as (i & Hi & <-).
  apply H2. now rewrite <- H1.
Qed.
Lemma flip_mat row col f g (m p : list (list FL)) : rect row col p ->
  (forall i j, i < row -> j < col -> frel (xorb (f i) (g j)) (at2 AR m i j) (at2 AR p i j)) -> flipped2 row col f g m p.
Proof.
  intros [R1 R2] H. split; [exact R1|]. split; [|exact H]. intros i Hi. rewrite Forall_forall in R2. apply R2. apply nth_In. now rewrite R1.
Qed.
Lemma flip_get row col f g (m p : list (list FL)) i j : flipped2 row col f g m p -> i < row -> j < col ->
  frel (xorb (f i) (g j)) (at2 AR m i j) (at2 AR p i j).
Proof. intros (_ & _ & H). exact (H i j). Qed.
Lemma flip_get1 n f (v w : list FL) i : flipped n f v w -> i < n -> frel (f i) (at1 AR v i) (at1 AR w i).
Proof. intros (_ & H). exact (H i). Qed.
Lemma fsum b n f g : (forall k, k < n -> frel b (f k) (g k)) -> frel b (sum AR n f) (sum AR n g).
Proof. apply (g_sum AR _ _ _ float_graded). Qed.
Lemma fmul b b1 b2 (x y x' y' : FL) : b = xorb b1 b2 -> frel b1 x y -> frel b2 x' y' -> frel b (a_mul AR x x') (a_mul AR y y').
Proof. apply (g_mul' AR _ _ _ float_graded). Qed.
Lemma fsub b (x y x' y' : FL) : frel b x y -> frel b x' y' -> frel b (a_sub AR x x') (a_sub AR y y').
Proof. apply (g_sub AR _ _ _ float_graded). Qed.
Lemma negM (c : cfg) (d : ety S FL) row col a s : rect row col a -> row < W c -> col < W c -> mneg c d d row col (o_neg OP) a s = (Ok (m_neg AR row col a), s).
Proof. intros. apply sim_eqm. apply sim_mneg; auto using Forall2_eq2. apply (exact_sim OP AR fex). Qed.
Lemma subM (c : cfg) (d : ety S FL) row col a b s : rect row col a -> rect row col b -> row < W c -> col < W c -> mzip_vv c d d d row col (o_sub OP) a b s = (Ok (m_sub AR row col a b), s).
Proof. intros. apply sim_eqm. apply sim_mzip_vv; auto using Forall2_eq2. apply (exact_sim OP AR fex). Qed.
End Run.
Arguments fex {t S}. Arguments fdiv {t S}. Arguments fse {t S}.

(** ** Bit for bit *)
(** The sum of two vectors or matrices and the dot product do not depend on the order of the
    operands; the transpose of a product is the product of the transposes; negating twice changes
    nothing: for all values, infinities and NaN included. *)
Theorem C94_commute : forall (t : float_type) S (c : cfg) (d : ety S (float t)) (s : S),
  (forall n a b, length a = n -> length b = n -> n < W c ->
     vzip_vv c d d d n (o_add (float_ops t)) a b s = vzip_vv c d d d n (o_add (float_ops t)) b a s /\
     vdot (float_ops t) n a b s = vdot (float_ops t) n b a s /\
     exists v, vneg c d d n (o_neg (float_ops t)) a s = (Ok v, s) /\ vneg c d d n (o_neg (float_ops t)) v s = (Ok a, s)) /\
  (forall row col a b, rect row col a -> rect row col b -> row < W c -> col < W c ->
     mzip_vv c d d d row col (o_add (float_ops t)) a b s = mzip_vv c d d d row col (o_add (float_ops t)) b a s /\
     exists m, mneg c d d row col (o_neg (float_ops t)) a s = (Ok m, s) /\ mneg c d d row col (o_neg (float_ops t)) m s = (Ok a, s)) /\
  (forall l n r a b, rect l n a -> rect n r b -> l < W c -> n < W c -> r < W c ->
     exists p ta tb q,
       mmul_vv c d (float_ops t) l n r a b s = (Ok p, s) /\
       mtransposed c d (o_clone (float_ops t)) l n a s = (Ok ta, s) /\ mtransposed c d (o_clone (float_ops t)) n r b s = (Ok tb, s) /\
       mtransposed c d (o_clone (float_ops t)) l r p s = (Ok q, s) /\ mmul_vv c d (float_ops t) r n l tb ta s = (Ok q, s)).
Proof.
  intros t S c d s. split; [|split].
  - intros n a b La Lb H. split; [|split].
    + rewrite !(addv c d _ _ fse) by assumption. f_equal. f_equal. apply vec_ext. intros. apply add_comm_f.
    + rewrite !(dotv _ _ fse) by assumption. f_equal. f_equal. apply sum_ext. intros. apply mul_comm_f.
    + eexists. split; [exact (negv c d _ _ fex n a s La H)|].
      etransitivity; [exact (negv c d _ _ fex n (v_neg (float_arith t) n a) s (vec_length _ _) H)|]. f_equal. f_equal.
      transitivity (vec n (fun i => at1 (float_arith t) a i)); [|now apply vec_at1].
      apply vec_ext. intros i Hi. unfold v_neg. rewrite at1_vec by exact Hi. apply opp_opp.
  - intros row col a b Ra Rb Hr Hc. split.
    + rewrite !(addm c d _ _ fse) by assumption. f_equal. f_equal. apply mat_ext'. intros. apply add_comm_f.
    + eexists. split; [exact (negM t S c d row col a s Ra Hr Hc)|].
      etransitivity; [exact (negM t S c d row col (m_neg (float_arith t) row col a) s (mat_rect _ _ _) Hr Hc)|]. f_equal. f_equal.
      transitivity (mat row col (fun i j => at2 (float_arith t) a i j)); [|now apply mat_at2].
      apply mat_ext'. intros i j Hi Hj. unfold m_neg. rewrite at2_mat by assumption. apply opp_opp.
  - intros l n r a b Ra Rb Hl Hn Hr. do 4 eexists.
    split; [exact (mulm c d _ _ fse l n r a b s Ra Rb Hl Hn Hr)|].
    split; [exact (trm c d (float_arith t) (o_clone (float_ops t)) l n a s (fun _ _ => eq_refl) Ra Hn)|].
    split; [exact (trm c d (float_arith t) (o_clone (float_ops t)) n r b s (fun _ _ => eq_refl) Rb Hr)|].
    split; [exact (trm c d (float_arith t) (o_clone (float_ops t)) l r _ s (fun _ _ => eq_refl) (mat_rect _ _ _) Hr)|].
    etransitivity; [apply (mulm c d _ _ fse r n l _ _ s (mat_rect _ _ _) (mat_rect _ _ _)); assumption|]. f_equal. f_equal.
    apply mat_ext'. intros i j Hi Hj. unfold m_mul, m_tr. rewrite at2_mat by assumption. apply sum_ext. intros k Hk. rewrite !at2_mat by assumption. apply mul_comm_f.
Qed.
Print Assumptions C94_commute.

(** ** Signs *)
(** Flipping the sign of every component flips the sum; flipping components of one factor or of
    both flips the dot product if it flips each product; flipping both operands flips sums and
    differences of vectors componentwise. *)
Theorem C94_vectors : forall (t : float_type) S (c : cfg) (d : ety S (float t)) n (f g : nat -> bool) (e : bool) v v' w w' (s : S),
  length v = n -> length w = n -> n < W c -> flipped n f v v' -> flipped n g w w' ->
  ((forall i, i < n -> f i = e) -> exists x y, vsum (float_ops t) n v s = (Ok x, s) /\ vsum (float_ops t) n v' s = (Ok y, s) /\ same y (flip e x)) /\
  ((forall i, i < n -> xorb (f i) (g i) = e) ->
     exists x y, vdot (float_ops t) n v w s = (Ok x, s) /\ vdot (float_ops t) n v' w' s = (Ok y, s) /\ same y (flip e x)) /\
  ((forall i, i < n -> f i = g i) ->
     (exists p q, vzip_vv c d d d n (o_add (float_ops t)) v w s = (Ok p, s) /\ vzip_vv c d d d n (o_add (float_ops t)) v' w' s = (Ok q, s) /\ flipped n f p q) /\
     (exists p q, vzip_vv c d d d n (o_sub (float_ops t)) v w s = (Ok p, s) /\ vzip_vv c d d d n (o_sub (float_ops t)) v' w' s = (Ok q, s) /\ flipped n f p q)).
Proof.
  intros t S c d n f g e v v' w w' s Lv Lw HW Fv Fw. destruct (Fv) as [Lv' _]. destruct (Fw) as [Lw' _]. split; [|split; [|intros Hfg; split]].
  - intros He. do 2 eexists. split; [exact (sumv _ _ fse n v s Lv)|]. split; [exact (sumv _ _ fse n v' s Lv')|].
    apply (fsum t e n). intros k Hk. rewrite <- (He k Hk). now apply (flip_get1 t n f).
  - intros He. do 2 eexists. split; [exact (dotv _ _ fse n v w s Lv Lw)|]. split; [exact (dotv _ _ fse n v' w' s Lv' Lw')|].
    apply (fsum t e n). intros k Hk. apply (fmul t e (f k) (g k)); [symmetry; now apply He|now apply (flip_get1 t n f)|now apply (flip_get1 t n g)].
  - do 2 eexists. split; [exact (addv c d _ _ fse n v w s Lv Lw HW)|]. split; [exact (addv c d _ _ fse n v' w' s Lv' Lw' HW)|].
    split; [apply vec_length|]. intros i Hi. change (frel (f i) (at1 (float_arith t) (v_add (float_arith t) n v w) i) (at1 (float_arith t) (v_add (float_arith t) n v' w') i)).
    unfold v_add. rewrite !at1_vec by exact Hi. apply (g_add _ _ _ _ float_graded); [now apply (flip_get1 t n f)|]. rewrite Hfg by exact Hi. now apply (flip_get1 t n g).
  - exists (v_sub (float_arith t) n v w), (v_sub (float_arith t) n v' w').
    split; [apply sim_eqv; apply sim_vzip_vv; auto using Forall2_eq; apply (exact_sim _ _ fex)|]. split; [apply sim_eqv; apply sim_vzip_vv; auto using Forall2_eq; apply (exact_sim _ _ fex)|].
    split; [apply vec_length|]. intros i Hi. change (frel (f i) (at1 (float_arith t) (v_sub (float_arith t) n v w) i) (at1 (float_arith t) (v_sub (float_arith t) n v' w') i)).
    unfold v_sub. rewrite !at1_vec by exact Hi. apply (fsub t); [now apply (flip_get1 t n f)|]. rewrite Hfg by exact Hi. now apply (flip_get1 t n g).
Qed.
Print Assumptions C94_vectors.
(** Sign flips of rows and columns go through products: (D A E) (E B F) = D (A B) F and
    (D A E) (E v) = D (A v) for diagonal matrices D, E, F of signs. *)
Theorem C94_products : forall (t : float_type) S (c : cfg) (d : ety S (float t)) l n r (f g h : nat -> bool) a a' (s : S),
  rect l n a -> l < W c -> n < W c -> r < W c -> flipped2 l n f g a a' ->
  (forall b b', rect n r b -> flipped2 n r g h b b' ->
     exists p q, mmul_vv c d (float_ops t) l n r a b s = (Ok p, s) /\ mmul_vv c d (float_ops t) l n r a' b' s = (Ok q, s) /\ flipped2 l r f h p q) /\
  (forall v v', length v = n -> flipped n g v v' ->
     exists p q, mmulv c d (float_ops t) l n a v s = (Ok p, s) /\ mmulv c d (float_ops t) l n a' v' s = (Ok q, s) /\ flipped l f p q) /\
  (forall b b', rect l n b -> flipped2 l n f g b b' ->
     (exists p q, mzip_vv c d d d l n (o_add (float_ops t)) a b s = (Ok p, s) /\ mzip_vv c d d d l n (o_add (float_ops t)) a' b' s = (Ok q, s) /\ flipped2 l n f g p q) /\
     (exists p q, mzip_vv c d d d l n (o_sub (float_ops t)) a b s = (Ok p, s) /\ mzip_vv c d d d l n (o_sub (float_ops t)) a' b' s = (Ok q, s) /\ flipped2 l n f g p q)).
Proof.
  intros t S c d l n r f g h a a' s Ra Hl Hn Hr Fa. pose proof (rect_flip t l n f g a a' Fa) as Ra'. split; [|split].
  - intros b b' Rb Fb. pose proof (rect_flip t n r g h b b' Fb) as Rb'. do 2 eexists.
    split; [exact (mulm c d _ _ fse l n r a b s Ra Rb Hl Hn Hr)|]. split; [exact (mulm c d _ _ fse l n r a' b' s Ra' Rb' Hl Hn Hr)|].
    apply flip_mat; [apply mat_rect|]. intros i j Hi Hj. unfold m_mul. rewrite !at2_mat by assumption. apply (fsum t). intros k Hk.
    apply (fmul t _ (xorb (f i) (g k)) (xorb (g k) (h j))); [destruct (f i), (g k), (h j); reflexivity|now apply (flip_get t l n f g)|now apply (flip_get t n r g h)].
  - intros v v' Lv Fv. destruct (Fv) as [Lv' _]. do 2 eexists.
    split; [exact (mulmv c d _ _ fse l n a v s Ra Lv Hl Hn)|]. split; [exact (mulmv c d _ _ fse l n a' v' s Ra' Lv' Hl Hn)|].
    split; [apply vec_length|]. intros i Hi.
    change (frel (f i) (at1 (float_arith t) (m_mulv (float_arith t) l n a v) i) (at1 (float_arith t) (m_mulv (float_arith t) l n a' v') i)).
    unfold m_mulv. rewrite !at1_vec by assumption. apply (fsum t). intros k Hk.
    apply (fmul t _ (xorb (f i) (g k)) (g k)); [destruct (f i), (g k); reflexivity|now apply (flip_get t l n f g)|now apply (flip_get1 t n g)].
  - intros b b' Rb Fb. pose proof (rect_flip t l n f g b b' Fb) as Rb'. split; do 2 eexists.
    + split; [exact (addm c d _ _ fse l n a b s Ra Rb Hl Hn)|]. split; [exact (addm c d _ _ fse l n a' b' s Ra' Rb' Hl Hn)|].
      apply flip_mat; [apply mat_rect|]. intros i j Hi Hj. unfold m_add. rewrite !at2_mat by assumption.
      apply (g_add _ _ _ _ float_graded); now apply (flip_get t l n f g).
    + split; [exact (subM t S c d l n a b s Ra Rb Hl Hn)|]. split; [exact (subM t S c d l n a' b' s Ra' Rb' Hl Hn)|].
      apply flip_mat; [apply mat_rect|]. intros i j Hi Hj. unfold m_sub. rewrite !at2_mat by assumption.
      apply (fsub t); now apply (flip_get t l n f g).
Qed.
Print Assumptions C94_products.
(** The cross product of two vectors reflected in coordinate planes (the signs [f] flipped in both),
    one or both negated ([b1], [b2]), is the reflected cross product, once more negated for every
    reflection and negation; exchanging the operands negates it. *)
Theorem C94_cross : forall (t : float_type) S (c : cfg) (f : nat -> bool) (b1 b2 : bool) v v' w w' (s : S),
  length v = 3 -> length w = 3 ->
  (flipped 3 (fun i => xorb (f i) b1) v v' -> flipped 3 (fun i => xorb (f i) b2) w w' ->
   exists x y, vcross c (float_ops t) v w s = (Ok x, s) /\ vcross c (float_ops t) v' w' s = (Ok y, s) /\
   flipped 3 (fun i => xorb (f i) (xorb (odd_many 3 f) (xorb b1 b2))) x y) /\
  (exists x y, vcross c (float_ops t) v w s = (Ok x, s) /\ vcross c (float_ops t) w v s = (Ok y, s) /\ flipped 3 (fun _ => true) x y).
Proof.
  intros t S c f b1 b2 v v' w w' s Lv Lw. split.
  - intros Fv Fw. destruct (Fv) as [Lv' _]. destruct (Fw) as [Lw' _]. do 2 eexists.
    split; [exact (crossv c _ _ v w s fex Lv Lw)|]. split; [exact (crossv c _ _ v' w' s fex Lv' Lw')|]. split; [apply vec_length|].
    intros i Hi. change (frel (xorb (f i) (xorb (odd_many 3 f) (xorb b1 b2))) (at1 (float_arith t) (v_cross (float_arith t) v w) i) (at1 (float_arith t) (v_cross (float_arith t) v' w') i)).
    unfold v_cross. rewrite !at1_vec by exact Hi. cbn [odd_many].
    assert (P : forall j k e, j < 3 -> k < 3 -> e = xorb (xorb (f j) b1) (xorb (f k) b2) ->
      frel e (a_mul (float_arith t) (at1 (float_arith t) v j) (at1 (float_arith t) w k)) (a_mul (float_arith t) (at1 (float_arith t) v' j) (at1 (float_arith t) w' k))).
    { intros j k e Hj Hk He. eapply (fmul t); [exact He|exact (flip_get1 t 3 _ v v' j Fv Hj)|exact (flip_get1 t 3 _ w w' k Fw Hk)]. }
    destruct i as [|[|[|i]]]; try lia; apply (fsub t); apply P; try lia; destruct (f 0), (f 1), (f 2), b1, b2; reflexivity.
  - do 2 eexists. split; [exact (crossv c _ _ v w s fex Lv Lw)|]. split; [exact (crossv c _ _ w v s fex Lw Lv)|]. split; [apply vec_length|].
    intros i Hi. change (frel true (at1 (float_arith t) (v_cross (float_arith t) v w) i) (at1 (float_arith t) (v_cross (float_arith t) w v) i)).
    unfold v_cross. rewrite !at1_vec by exact Hi.
    assert (P : forall x y : float t, frel true (Bminus mode_NE x y) (Bminus mode_NE y x)).
    { intros x y. unfold frel. rewrite !sub_add. cbn [flip]. apply same_trans with (Bplus mode_NE (Bopp x) (Bopp (Bopp y))); [rewrite opp_opp, add_comm_f; apply same_refl|apply add_neg]. }
    destruct i as [|[|[|i]]]; try lia; cbn -[Bminus Bmult]; rewrite (mul_comm_f (at1 _ w _)), (mul_comm_f (at1 _ w _)); apply P.
Qed.
Print Assumptions C94_cross.
(** The norm does not depend on the signs of the components (bit for bit); the signs of the
    normalized vector follow them. *)
Theorem C94_norm : forall (t : float_type) S (c : cfg) (d : ety S (float t)) n (f : nat -> bool) v v' (s : S),
  length v = n -> n < W c -> flipped n f v v' ->
  (exists x, vnorm (float_fops t) n v s = (Ok x, s) /\ vnorm (float_fops t) n v' s = (Ok x, s)) /\
  (exists p q, vnormalized c d (float_fops t) n v s = (Ok p, s) /\ vnormalized c d (float_fops t) n v' s = (Ok q, s) /\ flipped n f p q).
Proof.
  intros t S c d n f v v' s Lv HW Fv. destruct (Fv) as [Lv' _].
  set (q := fun v : list (float t) => sum (float_arith t) n (fun i => a_mul (float_arith t) (at1 (float_arith t) v i) (at1 (float_arith t) v i))).
  assert (E : forall u (s : S), length u = n -> vnorm (float_fops t) n u s = (Ok (Bsqrt mode_NE (q u)), s)) by (intros u s0 Lu; exact (norm_run64 S n u s0 Lu)).
  assert (Q : q v' = q v).
  { apply sum_ext. intros k Hk. pose proof (flip_get1 t n f v v' k Fv Hk) as [H|(s1 & s2 & H1 & H2)].
    - rewrite H. unfold flip. destruct (f k); [|reflexivity]. etransitivity; [apply mul_neg_l|]. etransitivity; [apply f_equal, mul_neg_r|]. apply opp_opp.
    - rewrite H1. destruct (f k); cbn [flip] in H2; destruct (at1 (float_arith t) v k) as [b| | |]; try discriminate H2; cbn; now rewrite !xorb_nilpotent. }
  assert (N : forall u (s : S), length u = n -> vnormalized c d (float_fops t) n u s = (Ok (map (fun e => Bdiv mode_NE e (Bsqrt mode_NE (q u))) u), s)).
  { intros u s0 Lu. unfold vnormalized, bind. rewrite vclone_spec by assumption. rewrite (in_order_pure _ (fun e => e)) by reflexivity.
    rewrite map_id, (E u s0 Lu). rewrite vscale_spec by assumption. rewrite (unwind_pure _ _ (fun e => Bdiv mode_NE e (Bsqrt mode_NE (q u)))); reflexivity. }
  split.
  - exists (Bsqrt mode_NE (q v)). split; [now apply E|]. rewrite <- Q. now apply E.
  - do 2 eexists. split; [now apply N|]. split; [now apply N|]. rewrite Q. split; [now rewrite map_length|]. intros i Hi.
    assert (M : forall u : list (float t), length u = n -> nth i (map (fun e => Bdiv mode_NE e (Bsqrt mode_NE (q v))) u) zero_at = Bdiv mode_NE (at1 (float_arith t) u i) (Bsqrt mode_NE (q v))).
    { intros u Lu. rewrite (nth_indep _ _ (Bdiv mode_NE (a_zero (float_arith t)) (Bsqrt mode_NE (q v)))) by (rewrite map_length; apply Nat.lt_le_trans with n; [exact Hi|apply Nat.eq_le_incl; symmetry; exact Lu]).
      exact (map_nth (fun e => Bdiv mode_NE e (Bsqrt mode_NE (q v))) u (a_zero (float_arith t)) i). }
    rewrite !M by assumption. pose proof (flip_get1 t n f v v' i Fv Hi) as H. apply (same_div_l _ _ (Bsqrt mode_NE (q v))) in H.
    eapply same_trans; [exact H|]. pose proof (flip_div (f i) false (at1 (float_arith t) v i) (Bsqrt mode_NE (q v))) as K. cbn [flip] in K. rewrite K, xorb_false_r. apply same_refl.
Qed.
Print Assumptions C94_norm.
(** The determinant, of any size: one negation for every row and column flipped.  A cofactor: for
    every one but those it leaves out. *)
Theorem C94_determinant : forall (t : float_type) S (c : cfg) (d : ety S (float t)) n (f g : nat -> bool) m m' (s : S),
  1 <= n -> n + n <= W c -> rect n n m -> flipped2 n n f g m m' ->
  (exists x y, det c d (float_ops t) n m s = (Ok x, s) /\ det c d (float_ops t) n m' s = (Ok y, s) /\ same y (flip (xorb (odd_many n f) (odd_many n g)) x)) /\
  (forall i j, 2 <= n -> i < n -> j < n -> exists x y,
     cofactor c d (float_ops t) n m (i, j) s = (Ok x, s) /\ cofactor c d (float_ops t) n m' (i, j) s = (Ok y, s) /\
     same y (flip (xorb (xorb (odd_many n f) (f i)) (xorb (odd_many n g) (g j))) x)).
Proof.
  intros t S c d n f g m m' s Hn HW R F. pose proof (rect_flip t n n f g m m' F) as R'. split.
  - do 2 eexists. split; [exact (det_p (float_arith t) (Bdiv mode_NE) _ c d (float_ops t) fex fdiv (fun _ => eq_refl) n m s Hn HW R)|].
    split; [exact (det_p (float_arith t) (Bdiv mode_NE) _ c d (float_ops t) fex fdiv (fun _ => eq_refl) n m' s Hn HW R')|].
    apply (det_rel _ _ _ _ float_graded); [exact Hn|]. intros i j Hi Hj. now apply (flip_get t n n f g).
  - intros i j Hn2 Hi Hj. do 2 eexists. split; [exact (cofactor_p (float_arith t) (Bdiv mode_NE) _ c d (float_ops t) fex fdiv (fun _ => eq_refl) n m i j s Hn2 HW R Hi Hj)|].
    split; [exact (cofactor_p (float_arith t) (Bdiv mode_NE) _ c d (float_ops t) fex fdiv (fun _ => eq_refl) n m' i j s Hn2 HW R' Hi Hj)|].
    apply (cof_rel _ _ _ _ float_graded); [exact Hn2|exact Hi|exact Hj|]. intros a b Ha Hb. now apply (flip_get t n n f g).
Qed.
Print Assumptions C94_determinant.
(** The inverse, of any size: refused for both or for none; flipping rows of the matrix flips columns
    of the inverse and the other way round. *)
Theorem C94_inverse : forall (t : float_type) S (c : cfg) (d : ety S (float t)) n (f g : nat -> bool) m m' (s : S),
  1 <= n -> rect n n m -> flipped2 n n f g m m' ->
  (inverse c d (float_ops t) n m s = (Ok None, s) /\ inverse c d (float_ops t) n m' s = (Ok None, s)) \/
  exists y y', inverse c d (float_ops t) n m s = (Ok (Some y), s) /\ inverse c d (float_ops t) n m' s = (Ok (Some y'), s) /\ flipped2 n n g f y y'.
Proof.
  intros t S c d n f g m m' s Hn R F. pose proof (rect_flip t n n f g m m' F) as R'.
  pose proof (inverse_p (float_arith t) (Bdiv mode_NE) (fl_is_zero (fprec t) (femax t)) c d (float_ops t) fex fdiv (fun _ => eq_refl) n m s Hn R) as E.
  pose proof (inverse_p (float_arith t) (Bdiv mode_NE) (fl_is_zero (fprec t) (femax t)) c d (float_ops t) fex fdiv (fun _ => eq_refl) n m' s Hn R') as E'.
  pose proof (inv_rel (float_arith t) (Bdiv mode_NE) (fl_is_zero (fprec t) (femax t)) _ float_graded n f g m m' Hn (fun i j Hi Hj => flip_get t n n f g m m' i j F Hi Hj)) as H.
  pose proof (fun x => p_inverse_rect (float_arith t) (Bdiv mode_NE) (fl_is_zero (fprec t) (femax t)) n m' x Hn R') as RR.
  revert E E' H RR. generalize (p_inverse (float_arith t) (Bdiv mode_NE) (fl_is_zero (fprec t) (femax t)) n m) as z.
  generalize (p_inverse (float_arith t) (Bdiv mode_NE) (fl_is_zero (fprec t) (femax t)) n m') as z'.
  intros [y'|] [y|] E E' H RR; try contradiction; [right|left; now split].
  exists y, y'. split; [exact E|]. split; [exact E'|]. apply flip_mat; [|exact H]. exact (RR y' eq_refl).
Qed.
Print Assumptions C94_inverse.
Lemma pow_hom {X Y} (h : X -> Y) mx my ox oy b e : (forall x y, h (mx x y) = my (h x) (h y)) -> h ox = oy -> h (pnum_pow mx ox b e) = pnum_pow my oy (h b) e.
Proof.
  intros Hm Ho.
  assert (L1 : forall k b e, ppow_loop1 my k (h b) e = let (b', e') := ppow_loop1 mx k b e in (h b', e')).
  { induction k as [|k IH]; intros b0 e0; [reflexivity|]. cbn. destruct (Nat.even e0); [rewrite <- Hm; apply IH|reflexivity]. }
  assert (L2 : forall k b a e, ppow_loop2 my k (h b) (h a) e = h (ppow_loop2 mx k b a e)).
  { induction k as [|k IH]; intros b0 a0 e0; [reflexivity|]. cbn [ppow_loop2]. destruct (1 <? e0); [|reflexivity]. rewrite <- Hm. destruct (Nat.odd _); [rewrite <- Hm|]; apply IH. }
  unfold pnum_pow. destruct (e =? 0); [exact Ho|]. rewrite L1. destruct (ppow_loop1 mx e b e) as [b' e']. destruct (e' =? 1); [reflexivity|]. symmetry. apply L2.
Qed.
Lemma odd_pow b e : pnum_pow xorb false b e = odd_many e (fun _ => b).
Proof.
  rewrite (pnum_pow_spec xorb false (fun _ => True)); auto; [|intros; now rewrite xorb_assoc|intros x _; apply xorb_false_r].
  induction e as [|e IH]; [reflexivity|]. cbn [odd_many]. rewrite <- IH. destruct e; cbn; [destruct b; reflexivity|]. apply xorb_comm.
Qed.
(** Powers: (D A D)^e = D (A^e) D, and (-A)^e = (-1)^e A^e. *)
Theorem C94_pow : forall (t : float_type) S (c : cfg) (d : ety S (float t)) n (f : nat -> bool) (b : bool) m m' e (s : S),
  rect n n m -> n < W c -> flipped2 n n (fun i => xorb (f i) b) f m m' ->
  exists p q, mpow c d (float_ops t) n m e s = (Ok p, s) /\ mpow c d (float_ops t) n m' e s = (Ok q, s) /\
  flipped2 n n (fun i => xorb (f i) (odd_many e (fun _ => b))) f p q.
Proof.
  intros t S c d n f b m m' e s R HW F. pose proof (rect_flip t n n _ f m m' F) as R'.
  set (mul := m_mul (float_arith t) n n n). set (one := m_id (float_arith t) n).
  set (pm := fun x y : list (list (float t)) * bool => (mul (fst x) (fst y), xorb (snd x) (snd y))).
  set (Q0 := fun (x : list (list (float t))) (y : list (list (float t)) * bool) => x = fst y /\ rect n n x).
  set (Q1 := fun (x : list (list (float t))) (y : list (list (float t)) * bool) => flipped2 n n (fun i => xorb (f i) (snd y)) f (fst y) x /\ rect n n (fst y)).
  assert (HC : forall Q : list (list (float t)) -> list (list (float t)) * bool -> Prop, (forall x y, Q x y -> rect n n x) ->
    forall x y, Q x y -> sim false Q (mclone c d (o_clone (float_ops t)) n n x) y).
  { intros Q HQ x y Hx s0. left. exists x. split; [|exact Hx]. apply mclone_id; [eapply HQ; exact Hx|apply (ex_clone _ _ fse)]. }
  assert (C0 : forall x y, Q0 x y -> rect n n x) by (intros x y [_ H]; exact H).
  assert (C1 : forall x y, Q1 x y -> rect n n x) by (intros x y [H _]; exact (rect_flip t n n _ f _ _ H)).
  assert (K0 : sim false Q0 (mpow c d (float_ops t) n m e) (pnum_pow pm (one, false) (m, b) e)).
  { unfold mpow. eapply sim_bind; [apply (HC Q0 C0 m (m, b)); split; auto|]. intros x Hx. apply sim_num_pow; [|exact (HC Q0 C0)| |exact Hx].
    - intros x1 x2 y1 y2 [-> H1] [-> H2] s0. left. eexists. split; [exact (mulm c d _ _ fse n n n _ _ s0 H1 H2 HW HW HW)|]. split; [reflexivity|apply mat_rect].
    - intros s0. left. eexists. split; [exact (idm c d _ _ fse n s0)|]. split; [reflexivity|apply mat_rect]. }
  assert (K1 : sim false Q1 (mpow c d (float_ops t) n m' e) (pnum_pow pm (one, false) (m, b) e)).
  { unfold mpow. eapply sim_bind; [apply (HC Q1 C1 m' (m, b)); split; auto|]. intros x Hx. apply sim_num_pow; [|exact (HC Q1 C1)| |exact Hx].
    - intros x1 x2 [y1 b1] [y2 b2] H1 H2 s0. left. eexists. split; [exact (mulm c d _ _ fse n n n _ _ s0 (C1 _ _ H1) (C1 _ _ H2) HW HW HW)|].
      destruct H1 as [H1 _], H2 as [H2 _]. cbn [fst snd] in H1, H2. split; [|apply mat_rect]. apply flip_mat; [apply mat_rect|]. intros i j Hi Hj. cbn [pm fst snd]. unfold mul, m_mul.
      rewrite !at2_mat by assumption. apply (fsum t). intros k Hk. eapply (fmul t); [|exact (flip_get t n n _ f _ _ i k H1 Hi Hk)|exact (flip_get t n n _ f _ _ k j H2 Hk Hj)].
      cbn beta. destruct (f i), (f j), (f k), b1, b2; reflexivity.
    - intros s0. left. eexists. split; [exact (idm c d _ _ fse n s0)|]. split; [|apply mat_rect]. apply flip_mat; [apply mat_rect|]. intros i j Hi Hj. cbn [fst snd]. unfold one, m_id.
      rewrite !at2_mat by assumption. destruct (Nat.eqb_spec i j) as [->|].
      + replace (xorb _ _) with false by (destruct (f j); reflexivity). apply same_refl.
      + unfold frel. destruct (xorb _ _); [right; exists false, true; split; reflexivity|apply same_refl]. }
  destruct (K0 s) as [(p & E0 & H0 & _)|(? & _)]; [|discriminate]. destruct (K1 s) as [(q & E1 & H1 & _)|(? & _)]; [|discriminate].
  exists p, q. split; [exact E0|]. split; [exact E1|]. rewrite H0.
  pose proof (pow_hom snd pm xorb (one, false) false (m, b) e (fun _ _ => eq_refl) eq_refl) as HS. rewrite HS in H1. cbn [snd] in H1. rewrite odd_pow in H1. exact H1.
Qed.
Print Assumptions C94_pow.

(** ** Neutral elements *)
Section Neutral.
Context {t : float_type}.
Notation FL := (float t).
Lemma mul_one (x : FL) : Bmult mode_NE x Bone = x.
Proof.
  destruct x as [b|b| |b m e H]; try (destruct t, b; reflexivity); [destruct t; reflexivity|].
  set (x := B754_finite b m e H : FL).
  pose proof (Bmult_correct (fprec t) (femax t) _ _ mode_NE x Bone) as K. rewrite (Bone_correct (fprec t) (femax t)) in K. rewrite Rmult_1_r in K.
  rewrite round_generic in K; [|apply valid_rnd_round_mode|apply generic_format_B2R]. rewrite (Rlt_bool_true _ _ (abs_B2R_lt_emax (fprec t) (femax t) x)) in K. destruct K as (K1 & K2 & K3).
  assert (F : is_finite (Bmult mode_NE x Bone) = true). { rewrite K2. rewrite is_finite_Bone. reflexivity. }
  apply B2R_Bsign_inj; [exact F|reflexivity|exact K1|]. rewrite K3; [rewrite Bsign_Bone; apply xorb_false_r|]. revert F. generalize (Bmult mode_NE x Bone). intros []; cbn; congruence.
Qed.
Lemma add_zero_l (z y : FL) : (exists s, z = B754_zero s) -> same (Bplus mode_NE z y) y.
Proof. intros [s ->]. destruct y as [s'|s'| |s' m e H]; try (now left). right. destruct s, s'; do 2 eexists; split; reflexivity. Qed.
Lemma add_zero_r (z y : FL) : (exists s, z = B754_zero s) -> same (Bplus mode_NE y z) y.
Proof. intros H. rewrite add_comm_f. now apply add_zero_l. Qed.
Lemma sub_self (x : FL) : is_finite x = true -> exists s, Bminus mode_NE x x = B754_zero s.
Proof.
  intros F. pose proof (Bminus_correct (fprec t) (femax t) _ _ mode_NE x x F F) as K. rewrite Rminus_diag_eq in K by reflexivity. rewrite round_0 in K by apply valid_rnd_round_mode.
  rewrite Rabs_R0, Rlt_bool_true in K by apply bpow_gt_0. destruct K as (K1 & K2 & _).
  destruct (Bminus mode_NE x x) as [s|s| |s m e H]; try discriminate K2; [now exists s|]. exfalso. cbn in K1.
  apply (F2R_neq_0 radix2 (Float radix2 (SpecFloat.cond_Zopp s (Zpos m)) e)); [destruct s; discriminate|exact K1].
Qed.
Lemma sum_pick n (f : nat -> FL) j : j < n -> (forall k, k < n -> k <> j -> exists s, f k = B754_zero s) -> same (sum (float_arith t) n f) (f j).
Proof.
  assert (Z : forall q, (forall k, k < q -> exists s, f k = B754_zero s) -> exists s, sum (float_arith t) q f = B754_zero s).
  { induction q as [|k IH]; intros H; [exists false; reflexivity|]. rewrite (sum_S (float_arith t)). destruct IH as [s1 E1]; [intros; apply H; lia|]. destruct (H k ltac:(lia)) as [s2 E2].
    rewrite E1, E2. destruct s1, s2; eexists; reflexivity. }
  induction n as [|n IH]; intros Hj H; [lia|]. rewrite (sum_S (float_arith t)). destruct (Nat.eq_dec j n) as [->|Hne].
  - apply add_zero_l. apply Z. intros k Hk. apply H; lia.
  - apply same_trans with (sum (float_arith t) n f); [|apply IH; [lia|intros k Hk Hk'; apply H; [lia|exact Hk']]]. apply add_zero_r. apply H; [lia|intros E; apply Hne; now symmetry].
Qed.
Lemma zero_mul_l (x : FL) : is_finite x = true -> exists s, Bmult mode_NE (B754_zero false) x = B754_zero s.
Proof. destruct x; try discriminate; intros _; eexists; reflexivity. Qed.
Lemma zero_mul_r (x : FL) : is_finite x = true -> exists s, Bmult mode_NE x (B754_zero false) = B754_zero s.
Proof. destruct x; try discriminate; intros _; eexists; reflexivity. Qed.
End Neutral.
(** Adding the zero matrix changes nothing (for all values); nor does, for a matrix of finite
    entries, multiplying by the identity on either side; and such a matrix minus itself is zero. *)
Theorem C94_neutral : forall (t : float_type) S (c : cfg) (d : ety S (float t)) l n m (s : S),
  rect l n m -> l < W c -> n < W c ->
  (exists z p, mzero c d (float_ops t) l n s = (Ok z, s) /\ mzip_vv c d d d l n (o_add (float_ops t)) m z s = (Ok p, s) /\ flipped2 l n (fun _ => false) (fun _ => false) m p) /\
  ((forall i j, i < l -> j < n -> is_finite (nth j (nth i m []) zero_at) = true) ->
   (exists e p, midentity c d (float_ops t) n s = (Ok e, s) /\ mmul_vv c d (float_ops t) l n n m e s = (Ok p, s) /\ flipped2 l n (fun _ => false) (fun _ => false) m p) /\
   (exists e p, midentity c d (float_ops t) l s = (Ok e, s) /\ mmul_vv c d (float_ops t) l l n e m s = (Ok p, s) /\ flipped2 l n (fun _ => false) (fun _ => false) m p) /\
   (exists z p, mzero c d (float_ops t) l n s = (Ok z, s) /\ mzip_vv c d d d l n (o_sub (float_ops t)) m m s = (Ok p, s) /\ flipped2 l n (fun _ => false) (fun _ => false) z p)).
Proof.
  intros t S c d l n m s R Hl Hn.
  assert (EZ : mzero c d (float_ops t) l n s = (Ok (m_zero (float_arith t) l n), s)) by (unfold mzero; rewrite (mgenerate_pure _ _ _ _ _ (fun _ _ => a_zero (float_arith t))); reflexivity).
  split; [|intros F; split; [|split]].
  - do 2 eexists. split; [exact EZ|]. split; [exact (addm c d _ _ fse l n m _ s R (mat_rect _ _ _) Hl Hn)|]. apply flip_mat; [apply mat_rect|]. intros i j Hi Hj. unfold m_add, m_zero.
    rewrite !at2_mat by assumption. apply add_zero_r. now exists false.
  - do 2 eexists. split; [exact (idm c d _ _ fse n s)|]. split; [exact (mulm c d _ _ fse l n n m _ s R (mat_rect _ _ _) Hl Hn Hn)|]. apply flip_mat; [apply mat_rect|]. intros i j Hi Hj. unfold m_mul, m_id.
    rewrite at2_mat by assumption. change (same (sum (float_arith t) n (fun k => a_mul (float_arith t) (at2 (float_arith t) m i k) (at2 (float_arith t) (mat n n (fun i j => if i =? j then a_one (float_arith t) else a_zero (float_arith t))) k j))) (at2 (float_arith t) m i j)).
    eapply same_trans; [apply (sum_pick n _ j Hj)|].
    + intros k Hk Hne. rewrite at2_mat by assumption. destruct (Nat.eqb_spec k j); [contradiction|]. apply zero_mul_r. now apply F.
    + rewrite at2_mat, Nat.eqb_refl by assumption. left. apply mul_one.
  - do 2 eexists. split; [exact (idm c d _ _ fse l s)|]. split; [exact (mulm c d _ _ fse l l n _ m s (mat_rect _ _ _) R Hl Hl Hn)|]. apply flip_mat; [apply mat_rect|]. intros i j Hi Hj. unfold m_mul, m_id.
    rewrite at2_mat by assumption. change (same (sum (float_arith t) l (fun k => a_mul (float_arith t) (at2 (float_arith t) (mat l l (fun i j => if i =? j then a_one (float_arith t) else a_zero (float_arith t))) i k) (at2 (float_arith t) m k j))) (at2 (float_arith t) m i j)).
    eapply same_trans; [apply (sum_pick l _ i Hi)|].
    + intros k Hk Hne. rewrite at2_mat by assumption. destruct (Nat.eqb_spec i k); [subst; contradiction|]. apply zero_mul_l. now apply F.
    + rewrite at2_mat, Nat.eqb_refl by assumption. left. etransitivity; [apply mul_comm_f|]. apply mul_one.
  - do 2 eexists. split; [exact EZ|]. split; [exact (subM t S c d l n m m s R R Hl Hn)|]. apply flip_mat; [apply mat_rect|]. intros i j Hi Hj. unfold m_sub, m_zero.
    rewrite !at2_mat by assumption. destruct (sub_self (at2 (float_arith t) m i j)) as [s1 E1]; [now apply F|]. right. exists s1, false. split; [exact E1|reflexivity].
Qed.
Print Assumptions C94_neutral.

(** A 4 x 4 matrix with an infinity and a NaN; rows 1 and 2 and column 3 flipped. *)
Definition x94 (i j : nat) : float F64 := match i, j with 0, 3 => B754_infinity false | 2, 2 => B754_nan | _, _ => if i =? j then Bone else B754_zero false end.
Definition m94 : list (list (float F64)) := mat 4 4 x94.
Definition f94 (i : nat) : bool := (i =? 1) || (i =? 2).
Definition g94 (j : nat) : bool := j =? 3.
Definition p94 : list (list (float F64)) := mat 4 4 (fun i j => flip (xorb (f94 i) (g94 j)) (x94 i j)).
Example C94_ex : flipped2 4 4 f94 g94 m94 p94 /\ rect 4 4 m94 /\ xorb (odd_many 4 f94) (odd_many 4 g94) = true /\
  nth 3 (nth 0 p94 []) zero_at = B754_infinity true /\ nth 1 (nth 1 p94 []) zero_at = Bopp Bone.
Proof.
  split; [|split; [apply mat_rect|repeat split]]. apply flip_mat; [apply mat_rect|]. intros i j Hi Hj. unfold m94, p94. rewrite !at2_mat by assumption. apply same_refl.
Qed.
