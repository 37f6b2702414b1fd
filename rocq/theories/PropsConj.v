(** * PropsConj.v - theorems for C56 (conjugate), over every commutative ring. *)
From Coq Require Import List Arith Bool Lia ZArith Ring.
From Verif Require Import Rust Iter Elem VectorM MatIterM MatrixM ArithM OpsM CplxM SpecCommon SpecAlg Harness.
From Verif Require Import IterProofs OwnProofs ChunkProofs VecProofs MatProofs AccProofs Sim Algebra PropsAlg PropsCross DetSmall DetLoop.
Import ListNotations.

(** ** Specification: complex numbers over [A] *)
Definition c_arith {T} (A : arith T) : arith (complex T) :=
  Arith (Complex (a_zero A) (a_zero A)) (Complex (a_one A) (a_zero A))
    (fun x y => Complex (a_add A (re x) (re y)) (a_add A (im x) (im y)))
    (fun x y => Complex (a_sub A (re x) (re y)) (a_sub A (im x) (im y)))
    (fun x y => Complex (a_sub A (a_mul A (re x) (re y)) (a_mul A (im x) (im y)))
                        (a_add A (a_mul A (re x) (im y)) (a_mul A (im x) (re y))))
    (fun x => Complex (a_neg A (re x)) (a_neg A (im x))).
(** The conjugate of a number, of a matrix. *)
Definition cj {T} (A : arith T) (x : complex T) : complex T := Complex (re x) (a_neg A (im x)).
Definition m_cj {T} (A : arith T) (m : list (list (complex T))) := map (map (cj A)) m.

Section Facts.
Context {S T : Type} (o : ops S T) (A : arith T) (E : exact o A).
Lemma c_exact : exact (complex_ops o) (c_arith A).
Proof.
  destruct E as [[E0 E1 EA EM EC] ES EN].
  assert (HC : faithful (complex_clone o)).
  { intros [r i] s. unfold complex_clone, bind. cbn. now rewrite !EC. }
  split; [split|..]; try exact HC; cbn.
  - now rewrite E0.
  - now rewrite E0, E1.
  - intros x y s. unfold bind. now rewrite !EA.
  - intros x y s. unfold bind. rewrite EM, EM, ES, EM, EM, EA. reflexivity.
  - intros x y s. unfold bind. now rewrite !ES.
  - intros x s. unfold bind. now rewrite !EN.
Qed.
Context (L : ring_laws A) (C : mul_comm A).
Add Ring TR : (to_ring_theory A L C).
Ltac cring := intros; repeat match goal with x : complex _ |- _ => destruct x end; unfold cj, c_arith; cbn [a_zero a_one a_add a_sub a_mul a_neg re im]; match goal with |- Complex ?a ?b = Complex ?e ?f => replace a with e by ring; replace b with f by ring; reflexivity end.
Lemma c_ring : ring_laws (c_arith A).
Proof. split; [split|..]; cring. Qed.
Lemma c_comm : mul_comm (c_arith A).
Proof. unfold mul_comm. cring. Qed.
Lemma cj_cj x : cj A (cj A x) = x.
Proof. destruct x. unfold cj. cbn. f_equal. ring. Qed.
Lemma cj_zero : cj A (a_zero (c_arith A)) = a_zero (c_arith A).
Proof. cring. Qed.
Lemma cj_one : cj A (a_one (c_arith A)) = a_one (c_arith A).
Proof. cring. Qed.
Lemma cj_add x y : cj A (a_add (c_arith A) x y) = a_add (c_arith A) (cj A x) (cj A y).
Proof. cring. Qed.
Lemma cj_mul x y : cj A (a_mul (c_arith A) x y) = a_mul (c_arith A) (cj A x) (cj A y).
Proof. cring. Qed.
Lemma cj_sub x y : cj A (a_sub (c_arith A) x y) = a_sub (c_arith A) (cj A x) (cj A y).
Proof. cring. Qed.
Lemma cj_sum n f : cj A (sum (c_arith A) n f) = sum (c_arith A) n (fun k => cj A (f k)).
Proof.
  induction n as [|n IH]; [apply cj_zero|]. now rewrite !sum_S, cj_add, IH.
Qed.
Lemma m_cj_rect row col m : rect row col m -> rect row col (m_cj A m).
Proof.
  intros [H1 H2]. split; [unfold m_cj; now rewrite map_length|]. unfold m_cj. apply Forall_forall. intros r Hr.
  apply in_map_iff in Hr as (r' & <- & Hr). rewrite Forall_forall in H2. rewrite map_length. now apply H2.
Qed.
Lemma at2_cj m i j : at2 (c_arith A) (m_cj A m) i j = cj A (at2 (c_arith A) m i j).
Proof.
  unfold at2, m_cj. change (@nil (complex T)) with (map (cj A) []) at 1. rewrite map_nth.
  rewrite <- cj_zero at 1. apply map_nth.
Qed.
Lemma m_cj_mat row col f : m_cj A (mat row col f) = mat row col (fun i j => cj A (f i j)).
Proof. unfold m_cj, mat. rewrite map_map. apply map_ext. intros i. now rewrite map_map. Qed.

Variables (c : cfg) (d : ety S (complex T)).
Lemma conj_m row col m s : rect row col m -> row < W c -> col < W c ->
  mconjugate c d o row col m s = (Ok (m_cj A m), s).
Proof.
  intros R H1 H2. unfold mconjugate, bind. rewrite mclone_id; [|exact R|apply (ex_clone _ _ (ex_semi _ _ c_exact))].
  rewrite (mmap_nested c d d row col _ m s R H1 H2).
  assert (G : forall X Y (g : X -> Y) l, map (fun ja => g (snd ja)) (indexed l) = map g l).
  { intros X Y g l. unfold indexed. rewrite <- map_map. f_equal. generalize 0. induction l; intros k; cbn; congruence. }
  rewrite (unwind_pure _ _ (fun ir => map (cj A) (snd ir))).
  - now rewrite G.
  - intros ir s0 _. rewrite (unwind_pure _ _ (fun ja => cj A (snd ja))); [now rewrite G|].
    intros ja s1 _. unfold conj, bind. rewrite !(ex_clone _ _ (ex_semi _ _ E)), (ex_neg _ _ E). reflexivity.
Qed.
End Facts.

(** ** C56 *)
(** Every entry is conjugated. *)
Theorem C56_entries :
  forall S T (c : cfg) (d : ety S (complex T)) (o : ops S T) (A : arith T) row col m (s : S),
  exact o A -> rect row col m -> row < W c -> col < W c ->
  mconjugate c d o row col m s = (Ok (map (map (fun x => Complex (re x) (a_neg A (im x)))) m), s).
Proof. intros. now rewrite (conj_m o A). Qed.
Print Assumptions C56_entries.
Theorem C56_involution :
  forall S T (c : cfg) (d : ety S (complex T)) (o : ops S T) (A : arith T) row col m (s : S),
  exact o A -> ring_laws A -> mul_comm A -> rect row col m -> row < W c -> col < W c ->
  (x <- mconjugate c d o row col m ;; mconjugate c d o row col x) s = (Ok m, s).
Proof.
  intros S T c d o A row col m s E L C R H1 H2. rewrite (bind_ok (conj_m o A E c d row col m s R H1 H2)).
  rewrite (conj_m o A E) by (auto using m_cj_rect). f_equal. f_equal. unfold m_cj. rewrite map_map.
  rewrite (map_ext _ (fun r => r)); [apply map_id|]. intros r. rewrite map_map.
  rewrite (map_ext _ (fun x => x)); [apply map_id|]. intros x. now apply cj_cj.
Qed.
Print Assumptions C56_involution.
(** The conjugate of a sum / product is the sum / product of the conjugates (operators on owned
    matrices of complex numbers, as in [m.conjugate() + m]). *)
Theorem C56_additive :
  forall S T (c : cfg) (d : ety S (complex T)) (o : ops S T) (A : arith T) row col a b (s : S),
  exact o A -> ring_laws A -> mul_comm A -> rect row col a -> rect row col b -> row < W c -> col < W c ->
  let add := mzip_vv c d d d row col (o_add (complex_ops o)) in
  (x <- add a b ;; mconjugate c d o row col x) s
  = (x <- mconjugate c d o row col a ;; y <- mconjugate c d o row col b ;; add x y) s.
Proof.
  intros S T c d o A row col a b s E L C Ra Rb H1 H2 add. pose proof (c_exact o A E) as CE. unfold add.
  rewrite (bind_ok (addm c d (complex_ops o) (c_arith A) (ex_semi _ _ CE) row col a b s Ra Rb H1 H2)).
  rewrite (bind_ok (conj_m o A E c d row col a s Ra H1 H2)), (bind_ok (conj_m o A E c d row col b s Rb H1 H2)).
  rewrite (conj_m o A E) by (auto; apply mat_rect).
  rewrite (addm c d (complex_ops o) (c_arith A) (ex_semi _ _ CE)) by (auto using m_cj_rect).
  f_equal. f_equal. unfold m_add. rewrite m_cj_mat. apply mat_ext'. intros i j _ _. rewrite !at2_cj by assumption. now apply cj_add.
Qed.
Print Assumptions C56_additive.
Theorem C56_multiplicative :
  forall S T (c : cfg) (d : ety S (complex T)) (o : ops S T) (A : arith T) l n r a b (s : S),
  exact o A -> ring_laws A -> mul_comm A -> rect l n a -> rect n r b -> l < W c -> n < W c -> r < W c ->
  (x <- mmul_vv c d (complex_ops o) l n r a b ;; mconjugate c d o l r x) s
  = (x <- mconjugate c d o l n a ;; y <- mconjugate c d o n r b ;; mmul_vv c d (complex_ops o) l n r x y) s.
Proof.
  intros S T c d o A l n r a b s E L C Ra Rb H1 H2 H3. pose proof (c_exact o A E) as CE.
  rewrite (bind_ok (mulm c d (complex_ops o) (c_arith A) (ex_semi _ _ CE) l n r a b s Ra Rb H1 H2 H3)).
  rewrite (bind_ok (conj_m o A E c d l n a s Ra H1 H2)), (bind_ok (conj_m o A E c d n r b s Rb H2 H3)).
  rewrite (conj_m o A E) by (auto; apply mat_rect).
  rewrite (mulm c d (complex_ops o) (c_arith A) (ex_semi _ _ CE)) by (auto using m_cj_rect).
  f_equal. f_equal. unfold m_mul. rewrite m_cj_mat. apply mat_ext'. intros i j _ _.
  rewrite (cj_sum A L C). apply sum_ext. intros k _. rewrite !at2_cj by assumption. now apply cj_mul.
Qed.
Print Assumptions C56_multiplicative.
(** [m.conjugate() + m] has zero imaginary parts, and twice the real parts. *)
Theorem C56_plus_conjugate_is_real :
  forall S T (c : cfg) (d : ety S (complex T)) (o : ops S T) (A : arith T) row col m (s : S),
  exact o A -> ring_laws A -> mul_comm A -> rect row col m -> row < W c -> col < W c ->
  exists p, (x <- mconjugate c d o row col m ;; mzip_vv c d d d row col (o_add (complex_ops o)) x m) s = (Ok p, s) /\
    rect row col p /\
    forall i j, i < row -> j < col -> exists x, entry m i j = Some x /\
      entry p i j = Some (Complex (a_add A (re x) (re x)) (a_zero A)).
Proof.
  intros S T c d o A row col m s E L C R H1 H2. pose proof (c_exact o A E) as CE. eexists. split; [|split].
  - rewrite (bind_ok (conj_m o A E c d row col m s R H1 H2)).
    rewrite (addm c d (complex_ops o) (c_arith A) (ex_semi _ _ CE)) by (auto using m_cj_rect). reflexivity.
  - apply mat_rect.
  - intros i j Hi Hj. exists (at2 (c_arith A) m i j). split.
    + rewrite <- (mat_at2 (c_arith A) row col m R) at 1. now apply entry_mat.
    + unfold m_add. rewrite entry_mat by assumption. rewrite at2_cj by assumption. cbn. f_equal. f_equal.
      rewrite (sr_add_comm _ (rg_semi _ L)). apply L.
Qed.
Print Assumptions C56_plus_conjugate_is_real.
(** Conjugation commutes with transposition. *)
Theorem C56_transpose :
  forall S T (c : cfg) (d : ety S (complex T)) (o : ops S T) (A : arith T) row col m (s : S),
  exact o A -> ring_laws A -> mul_comm A -> rect row col m -> row < W c -> col < W c ->
  (x <- mtransposed c d (complex_clone o) row col m ;; mconjugate c d o col row x) s
  = (x <- mconjugate c d o row col m ;; mtransposed c d (complex_clone o) row col x) s.
Proof.
  intros S T c d o A row col m s E L C R H1 H2. pose proof (ex_clone _ _ (ex_semi _ _ (c_exact o A E))) as HC.
  rewrite (bind_ok (trm c d (c_arith A) _ row col m s HC R H2)).
  rewrite (bind_ok (conj_m o A E c d row col m s R H1 H2)).
  rewrite (conj_m o A E) by (auto; apply mat_rect). rewrite (trm c d (c_arith A)) by (auto using m_cj_rect).
  f_equal. f_equal. unfold m_tr. rewrite m_cj_mat. apply mat_ext'. intros. now rewrite at2_cj.
Qed.
Print Assumptions C56_transpose.
Example C56_ex : forall (c : cfg) (d : ety unit (complex Z)),
  mconjugate c d z_ops 1 2 [[Complex 1 1; Complex (-2) 3]]%Z tt = (Ok [[Complex 1 (-1); Complex (-2) (-3)]]%Z, tt).
Proof.
  intros. assert (16 <= wbits c) by apply wbits_ok. assert (32 < W c) by apply W_gt.
  rewrite (C56_entries _ _ c d z_ops z_arith); auto using z_exact; try lia. split; [reflexivity|repeat constructor].
Qed.
