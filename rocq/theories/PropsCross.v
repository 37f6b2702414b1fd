(** * PropsCross.v - theorems for C21 (cross product), over every commutative ring. *)
From Coq Require Import List Arith Bool Lia ZArith Ring.
From Verif Require Import Rust Iter Elem VectorM MatIterM MatrixM ArithM OpsM SpecCommon SpecAlg Harness.
From Verif Require Import IterProofs OwnProofs ChunkProofs VecProofs MatProofs AccProofs Sim Algebra PropsAlg.
Import ListNotations.

Lemma to_ring_theory {T} (A : arith T) : ring_laws A -> mul_comm A ->
  ring_theory (a_zero A) (a_one A) (a_add A) (a_mul A) (a_sub A) (a_neg A) eq.
Proof.
  intros [L N Sb] C. split; try apply L; auto.
Qed.

Section Pure.
Context {T : Type} (A : arith T) (L : ring_laws A) (C : mul_comm A).
Add Ring TR : (to_ring_theory A L C).
Lemma vec3 (v : list T) : length v = 3 -> exists x y z, v = [x; y; z].
Proof. destruct v as [|x [|y [|z [|]]]]; try discriminate. eauto. Qed.
Ltac comps := repeat match goal with H : length ?v = 3 |- _ => apply vec3 in H; destruct H as (? & ? & ? & ->) end;
  unfold v_dot, v_cross, v_add, v_neg, v_scale, v_zero, v_sub, sum, vec; cbn [seq map fold_left at1 nth].
Lemma p_orth_l a b : length a = 3 -> length b = 3 -> v_dot A 3 a (v_cross A a b) = a_zero A.
Proof. intros La Lb. comps. ring. Qed.
Lemma p_orth_r a b : length a = 3 -> length b = 3 -> v_dot A 3 b (v_cross A a b) = a_zero A.
Proof. intros La Lb. comps. ring. Qed.
Ltac comps3 := comps; f_equal; [ring|f_equal; [ring|f_equal; ring]].
Lemma p_anti a b : length a = 3 -> length b = 3 -> v_cross A b a = v_neg A 3 (v_cross A a b).
Proof. intros La Lb. comps3. Qed.
Lemma p_self a : length a = 3 -> v_cross A a a = v_zero A 3.
Proof. intros La. comps3. Qed.
Lemma p_add a b e : length a = 3 -> length b = 3 -> length e = 3 ->
  v_cross A (v_add A 3 a b) e = v_add A 3 (v_cross A a e) (v_cross A b e).
Proof. intros La Lb Le. comps3. Qed.
Lemma p_add_r a b e : length a = 3 -> length b = 3 -> length e = 3 ->
  v_cross A e (v_add A 3 a b) = v_add A 3 (v_cross A e a) (v_cross A e b).
Proof. intros La Lb Le. comps3. Qed.
Lemma p_scale a b x : length a = 3 -> length b = 3 -> v_cross A (v_scale A 3 a x) b = v_scale A 3 (v_cross A a b) x.
Proof. intros La Lb. comps3. Qed.
Lemma p_scale_r a b x : length a = 3 -> length b = 3 -> v_cross A a (v_scale A 3 b x) = v_scale A 3 (v_cross A a b) x.
Proof. intros La Lb. comps3. Qed.
Lemma p_jacobi a b e : length a = 3 -> length b = 3 -> length e = 3 ->
  v_add A 3 (v_add A 3 (v_cross A a (v_cross A b e)) (v_cross A b (v_cross A e a))) (v_cross A e (v_cross A a b)) = v_zero A 3.
Proof. intros La Lb Le. comps3. Qed.
Lemma p_lagrange a b : length a = 3 -> length b = 3 ->
  v_dot A 3 (v_cross A a b) (v_cross A a b)
  = a_sub A (a_mul A (v_dot A 3 a a) (v_dot A 3 b b)) (a_mul A (v_dot A 3 a b) (v_dot A 3 a b)).
Proof. intros La Lb. comps. ring. Qed.
End Pure.

(** ** C21 *)
(** (a1 b2 - a2 b1, a2 b0 - a0 b2, a0 b1 - a1 b0). *)
Theorem C21_cross :
  forall S T (c : cfg) (o : ops S T) (A : arith T) a0 a1 a2 b0 b1 b2 (s : S), exact o A ->
  let term x y z w := a_sub A (a_mul A x y) (a_mul A z w) in
  vcross c o [a0; a1; a2] [b0; b1; b2] s = (Ok [term a1 b2 a2 b1; term a2 b0 a0 b2; term a0 b1 a1 b0], s).
Proof.
  intros S T c o A a0 a1 a2 b0 b1 b2 s E term.
  exact (sim_eqv _ _ (sim_vcross false eq c o A (exact_sim o A E) [a0; a1; a2] _ [b0; b1; b2] _ (Forall2_eq _) (Forall2_eq _) eq_refl eq_refl) s).
Qed.
Print Assumptions C21_cross.
Lemma crossv {S T} (c : cfg) (o : ops S T) (A : arith T) a b s : exact o A -> length a = 3 -> length b = 3 ->
  vcross c o a b s = (Ok (v_cross A a b), s).
Proof. intros E La Lb. exact (sim_eqv _ _ (sim_vcross false eq c o A (exact_sim o A E) _ _ _ _ (Forall2_eq _) (Forall2_eq _) La Lb) s). Qed.
Section C21.
Context {S T : Type} (c : cfg) (d : ety S T) (o : ops S T) (A : arith T).
Hypothesis E : exact o A.
Hypothesis L : ring_laws A.
Hypothesis C : mul_comm A.
Hypothesis HW : 3 < W c.
Let ES := ex_semi _ _ E.
Lemma cl a b : length (v_cross A a b) = 3.
Proof. apply vec_length. Qed.
Hint Resolve cl : core.
Lemma negv n a s : length a = n -> n < W c -> vneg c d d n (o_neg o) a s = (Ok (v_neg A n a), s).
Proof. intros La H. exact (sim_eqv _ _ (sim_vneg false eq c d A _ _ (sm_neg _ _ _ _ (exact_sim o A E)) n a a (Forall2_eq _) La H) s). Qed.
Lemma zerov n s : vzero c d o n s = (Ok (v_zero A n), s).
Proof.
  change (vzero c d o n s) with (vdefault c d n (ret (o_zero o)) s). rewrite vdefault_const. f_equal. f_equal.
  unfold v_zero, vec. rewrite <- (ex_zero _ _ ES). clear. generalize 0. induction n; intros k; cbn; congruence.
Qed.
Lemma l_orth a b s : length a = 3 -> length b = 3 ->
  (x <- vcross c o a b ;; vdot o 3 a x) s = (Ok (o_zero o), s) /\ (x <- vcross c o a b ;; vdot o 3 b x) s = (Ok (o_zero o), s).
Proof.
  intros La Lb. rewrite (ex_zero _ _ ES). split; (eapply bind_run; [apply (crossv c o A); assumption|]).
  - rewrite <- (p_orth_l A L C a b La Lb). now apply (dotv o A ES).
  - rewrite <- (p_orth_r A L C a b La Lb). now apply (dotv o A ES).
Qed.
Lemma l_anti a b s : length a = 3 -> length b = 3 ->
  vcross c o b a s = (x <- vcross c o a b ;; vneg c d d 3 (o_neg o) x) s.
Proof.
  intros La Lb. symmetry. eapply bind_run; [apply (crossv c o A); assumption|]. rewrite (crossv c o A) by assumption.
  rewrite (p_anti A L C a b La Lb). now apply negv.
Qed.
Lemma l_self a s : length a = 3 -> vcross c o a a s = vzero c d o 3 s.
Proof. intros La. rewrite zerov, (crossv c o A) by assumption. now rewrite (p_self A L C). Qed.
Lemma l_bilin a b e x s : length a = 3 -> length b = 3 -> length e = 3 ->
  let add := vzip_vv c d d d 3 (o_add o) in
  let scale := vscale c d d 3 (o_mul o) (o_clone o) in
  (ab <- add a b ;; vcross c o ab e) s = (p <- vcross c o a e ;; q <- vcross c o b e ;; add p q) s /\
  (ab <- add a b ;; vcross c o e ab) s = (p <- vcross c o e a ;; q <- vcross c o e b ;; add p q) s /\
  (ax <- scale a x ;; vcross c o ax e) s = (p <- vcross c o a e ;; scale p x) s /\
  (ax <- scale a x ;; vcross c o e ax) s = (p <- vcross c o e a ;; scale p x) s.
Proof.
  intros La Lb Le add scale. unfold add, scale. split; [|split; [|split]].
  - etransitivity; [eapply bind_run; [apply (addv c d o A ES); assumption|]; apply (crossv c o A); auto; apply vec_length|].
    symmetry. do 2 (eapply bind_run; [apply (crossv c o A); assumption|]). rewrite (p_add A L C) by assumption. apply (addv c d o A ES); auto.
  - etransitivity; [eapply bind_run; [apply (addv c d o A ES); assumption|]; apply (crossv c o A); auto; apply vec_length|].
    symmetry. do 2 (eapply bind_run; [apply (crossv c o A); assumption|]). rewrite (p_add_r A L C) by assumption. apply (addv c d o A ES); auto.
  - etransitivity; [eapply bind_run; [apply (scalev c d o A ES); assumption|]; apply (crossv c o A); auto; apply vec_length|].
    symmetry. eapply bind_run; [apply (crossv c o A); assumption|]. rewrite (p_scale A L C) by assumption. apply (scalev c d o A ES); auto.
  - etransitivity; [eapply bind_run; [apply (scalev c d o A ES); assumption|]; apply (crossv c o A); auto; apply vec_length|].
    symmetry. eapply bind_run; [apply (crossv c o A); assumption|]. rewrite (p_scale_r A L C) by assumption. apply (scalev c d o A ES); auto.
Qed.
Lemma l_jacobi a b e s : length a = 3 -> length b = 3 -> length e = 3 ->
  let add := vzip_vv c d d d 3 (o_add o) in
  let x2 := fun a b e => (be <- vcross c o b e ;; vcross c o a be) in
  (p <- x2 a b e ;; q <- x2 b e a ;; r <- x2 e a b ;; pq <- add p q ;; add pq r) s = vzero c d o 3 s.
Proof.
  intros La Lb Le add x2.
  assert (X : forall a b e s, length a = 3 -> length b = 3 -> length e = 3 -> x2 a b e s = (Ok (v_cross A a (v_cross A b e)), s)).
  { intros. unfold x2. eapply bind_run; [apply (crossv c o A); assumption|]. apply (crossv c o A); auto. }
  unfold add. do 3 (eapply bind_run; [apply X; assumption|]). eapply bind_run; [apply (addv c d o A ES); auto|].
  rewrite zerov, <- (p_jacobi A L C a b e) by assumption. apply (addv c d o A ES); auto.
Qed.
Lemma l_lagrange a b s : length a = 3 -> length b = 3 ->
  (x <- vcross c o a b ;; vdot o 3 x x) s
  = (aa <- vdot o 3 a a ;; bb <- vdot o 3 b b ;; ab <- vdot o 3 a b ;; p <- o_mul o aa bb ;; q <- o_mul o ab ab ;; o_sub o p q) s.
Proof.
  intros La Lb. etransitivity; [eapply bind_run; [apply (crossv c o A); assumption|]; apply (dotv o A ES); auto|].
  symmetry. do 3 (eapply bind_run; [apply (dotv o A ES); assumption|]). do 2 (eapply bind_run; [apply (ex_mul _ _ ES)|]).
  rewrite (p_lagrange A L C) by assumption. apply (ex_sub _ _ E).
Qed.
End C21.
(** Orthogonality, anticommutativity, a x a = 0. *)
Theorem C21_orthogonal :
  forall S T (c : cfg) (d : ety S T) (o : ops S T) (A : arith T) a b (s : S),
  exact o A -> ring_laws A -> mul_comm A -> length a = 3 -> length b = 3 ->
  (x <- vcross c o a b ;; vdot o 3 a x) s = (Ok (o_zero o), s) /\
  (x <- vcross c o a b ;; vdot o 3 b x) s = (Ok (o_zero o), s) /\
  vcross c o b a s = (x <- vcross c o a b ;; vneg c d d 3 (o_neg o) x) s /\
  vcross c o a a s = vzero c d o 3 s.
Proof.
  intros S T c d o A a b s E L C La Lb. pose proof (W_gt c).
  split; [now apply (l_orth c o A)|]. split; [now apply (l_orth c o A)|]. split; [apply (l_anti c d o A); auto; lia|now apply (l_self c d o A)].
Qed.
Print Assumptions C21_orthogonal.
Theorem C21_bilinear :
  forall S T (c : cfg) (d : ety S T) (o : ops S T) (A : arith T) a b e x (s : S),
  exact o A -> ring_laws A -> mul_comm A -> length a = 3 -> length b = 3 -> length e = 3 ->
  let add := vzip_vv c d d d 3 (o_add o) in
  let scale := vscale c d d 3 (o_mul o) (o_clone o) in
  (ab <- add a b ;; vcross c o ab e) s = (p <- vcross c o a e ;; q <- vcross c o b e ;; add p q) s /\
  (ab <- add a b ;; vcross c o e ab) s = (p <- vcross c o e a ;; q <- vcross c o e b ;; add p q) s /\
  (ax <- scale a x ;; vcross c o ax e) s = (p <- vcross c o a e ;; scale p x) s /\
  (ax <- scale a x ;; vcross c o e ax) s = (p <- vcross c o e a ;; scale p x) s.
Proof. intros S T c d o A a b e x s E L C La Lb Le. pose proof (W_gt c). apply (l_bilin c d o A); auto; lia. Qed.
Print Assumptions C21_bilinear.
Theorem C21_jacobi :
  forall S T (c : cfg) (d : ety S T) (o : ops S T) (A : arith T) a b e (s : S),
  exact o A -> ring_laws A -> mul_comm A -> length a = 3 -> length b = 3 -> length e = 3 ->
  let add := vzip_vv c d d d 3 (o_add o) in
  let x2 := fun a b e => (be <- vcross c o b e ;; vcross c o a be) in
  (p <- x2 a b e ;; q <- x2 b e a ;; r <- x2 e a b ;; pq <- add p q ;; add pq r) s = vzero c d o 3 s.
Proof. intros S T c d o A a b e s E L C La Lb Le. pose proof (W_gt c). apply (l_jacobi c d o A); auto; lia. Qed.
Print Assumptions C21_jacobi.
Theorem C21_lagrange :
  forall S T (c : cfg) (o : ops S T) (A : arith T) a b (s : S),
  exact o A -> ring_laws A -> mul_comm A -> length a = 3 -> length b = 3 ->
  (x <- vcross c o a b ;; vdot o 3 x x) s
  = (aa <- vdot o 3 a a ;; bb <- vdot o 3 b b ;; ab <- vdot o 3 a b ;; p <- o_mul o aa bb ;; q <- o_mul o ab ab ;; o_sub o p q) s.
Proof. intros S T c o A a b s E L C La Lb. now apply (l_lagrange c o A). Qed.
Print Assumptions C21_lagrange.
Example C21_ex : vcross dbg z_ops [1; 2; 3]%Z [4; 5; 6]%Z tt = (Ok [-3; 6; -3]%Z, tt).
Proof. vm_compute. reflexivity. Qed.
