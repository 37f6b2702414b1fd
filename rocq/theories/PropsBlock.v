(** * PropsBlock.v - C88: matrices of matrices.  [flat] is in SpecBlock.v. *)
From Coq Require Import List Arith Bool Lia ZArith.
From Verif Require Import Rust Iter Elem VectorM MatIterM MatrixM ArithM OpsM SpecCommon SpecAlg SpecRel SpecBlock BlockM Harness.
From Verif Require Import IterProofs OwnProofs ChunkProofs VecProofs MatProofs AccProofs Sim Algebra PropsAlg RelProofs RelLib RelMat BlockProofs.
Import ListNotations.
Local Opaque mmul_vv mmul_vr mmul_rv mmul_rr mmulv mzip_vv mscale mneg vzip_vv vscale vdot vsum msum mtransposed mpow vzero.

(** The ring operations on blocks are the crate's: [bo] calls [Matrix * Matrix] on its elements,
    [bor] calls [Matrix * &Matrix]. *)
Notation bo c d o p := (block_ops c d o p (mmul_vv c d o p p p)).
Notation bor c d o p := (block_ops c d o p (mmul_vr c d o p p p)).

(** ** C88: the constants stored in [block_ops] are what the crate's functions return *)
Theorem C88_constants : forall S T (c : cfg) (d : ety S T) (o : ops S T) p mul (s : S),
  mzero c d o p p s = (Ok (o_zero (block_ops c d o p mul)), s) /\
  mone c d o p s = (Ok (o_one (block_ops c d o p mul)), s) /\
  forall m, rect p p m -> mis_zero o p p m s = (Ok (o_is_zero (block_ops c d o p mul) m), s).
Proof.
  intros S T c d o p mul s. split; [|split].
  - unfold mzero. rewrite (mgenerate_pure _ _ _ _ _ (fun _ _ => o_zero o)) by reflexivity. cbn [block_ops o_zero]. repeat f_equal.
    assert (G : forall X (x : X) n k, map (fun _ => x) (seq k n) = repeat x n) by (intros X x n; induction n; intros k; cbn; congruence).
    rewrite (G _ (o_zero o) p 0). apply G.
  - unfold mone, midentity. rewrite (mgenerate_pure _ _ _ _ _ (fun i j => if i =? j then o_one o else o_zero o)); [reflexivity|].
    intros i j s0 _ _. now destruct (i =? j).
  - intros m R. now rewrite mis_zero_spec.
Qed.
Print Assumptions C88_constants.

Section C88.
Context {S T : Type} (c : cfg) (d : ety S T) (o : ops S T) (A : arith T) (p : nat).
Hypothesis E : exact o A.
Hypothesis Hp : p < W c.
Let HV := block_alike c d o A p E Hp _ (product_vv c d o A p E Hp).
Let HR := block_alike c d o A p E Hp _ (product_vr c d o A p E Hp).
Let HD := bety_alike d p (S := S).
Notation B := (list (list T)).
Lemma done_m (m1 m2 : M S (list (list B))) l n v s : alike eq (mat_rel (bsame p)) m1 m2 -> m2 s = (Ok v, s) -> rect l n v ->
  m1 s = (Ok v, s) /\ blocks l n p v.
Proof.
  intros H H' R. destruct (alike_run _ _ _ _ _ H H') as (x & Ex & Hx). pose proof (mat_bsame p x v Hx) as <-.
  split; [exact Ex|]. split; [exact R|]. eapply mat_bsame_rect; eauto.
Qed.
Let P1 := ex_semi _ _ (bpure_exact A p S).
Lemma blk_mul l n r a b s : blocks l n p a -> blocks n r p b -> l < W c -> n < W c -> r < W c ->
  let ab := m_mul (barith A p) l n r a b in
  blocks l r p ab /\
  mmul_vv c (block_ety d) (bo c d o p) l n r a b s = (Ok ab, s) /\
  mmul_rv c (block_ety d) (bo c d o p) l n r a b s = (Ok ab, s) /\
  mmul_vr c (block_ety d) (bor c d o p) l n r a b s = (Ok ab, s) /\
  mmul_rr c (block_ety d) (bor c d o p) l n r a b s = (Ok ab, s).
Proof.
  intros [Ra Fa] [Rb Fb] Hl Hn Hr ab.
  pose proof (mulm c (block_ety d) (bpure A p) (barith A p) P1 l n r a b s Ra Rb Hl Hn Hr) as M1.
  destruct (C38_forms_agree S B c (block_ety d) (bpure A p) l n r a b s ltac:(intros ? ?; reflexivity) Ra Rb Hl Hn Hr) as (M2 & M3 & M4).
  rewrite M1 in M2, M3, M4. apply bsame_mat in Fa, Fb. pose proof (mat_rect l r _ : rect l r ab) as RR.
  pose proof (done_m _ _ l r ab s (r_mmul_vv eq c _ _ _ _ _ HD HV l n r a a b b Fa Fb) M1 RR) as [Q1 Q0].
  pose proof (done_m _ _ l r ab s (r_mmul_rv eq c _ _ _ _ _ HD HV l n r a a b b Fa Fb) M3 RR) as [Q2 _].
  pose proof (done_m _ _ l r ab s (r_mmul_vr eq c _ _ _ _ _ HD HR l n r a a b b Fa Fb) M2 RR) as [Q3 _].
  pose proof (done_m _ _ l r ab s (r_mmul_rr eq c _ _ _ _ _ HD HR l n r a a b b Fa Fb) M4 RR) as [Q4 _].
  auto 6.
Qed.

Lemma blk_mul_assign n a b s : blocks n n p a -> blocks n n p b -> n < W c ->
  mmul_assign c (block_ety d) (bo c d o p) n b (a, s) = (Ok tt, (m_mul (barith A p) n n n a b, s)).
Proof.
  intros [Ra Fa] [Rb Fb] Hn. apply bsame_mat in Fa, Fb.
  pose proof (r_mmul_assign eq c _ _ _ _ _ HD HV n b b Fb (a, s) (a, s) (Logic.conj Fa eq_refl)) as H.
  rewrite (mmul_assign_spec c (block_ety d) (bpure A p) n a b s ltac:(intros ? ?; reflexivity) Ra Rb Hn) in H.
  rewrite <- (mmul_vv_spec c (block_ety d) (bpure A p) n n n a b ltac:(intros ? ?; reflexivity) Ra Rb Hn Hn Hn s) in H.
  rewrite (mulm c (block_ety d) (bpure A p) (barith A p) P1 n n n a b s Ra Rb Hn Hn Hn) in H.
  destruct (mmul_assign c (block_ety d) (bo c d o p) n b (a, s)) as [[[]| | |] [m s']]; cbn in H; destruct H as [H1 [H2 H3]]; try contradiction.
  cbn in H2, H3. subst s'. now rewrite (mat_bsame p m _ H2).
Qed.
Lemma blk_add l n a b s : blocks l n p a -> blocks l n p b -> l < W c -> n < W c ->
  mzip_vv c (block_ety d) (block_ety d) (block_ety d) l n (o_add (bo c d o p)) a b s = (Ok (m_add (barith A p) l n a b), s) /\
  blocks l n p (m_add (barith A p) l n a b).
Proof.
  intros [Ra Fa] [Rb Fb] Hl Hn. apply bsame_mat in Fa, Fb.
  eapply done_m; [|apply (addm c (block_ety d) (bpure A p) (barith A p) P1); auto|apply mat_rect].
  apply (r_mzip_vv eq c (bsame p) (bsame p) (bsame p)); auto. apply HV.
Qed.
Lemma blk_sub l n a b s : blocks l n p a -> blocks l n p b -> l < W c -> n < W c ->
  mzip_vv c (block_ety d) (block_ety d) (block_ety d) l n (o_sub (bo c d o p)) a b s = (Ok (m_sub (barith A p) l n a b), s) /\
  blocks l n p (m_sub (barith A p) l n a b).
Proof.
  intros [Ra Fa] [Rb Fb] Hl Hn. apply bsame_mat in Fa, Fb.
  assert (G : mzip_vv c (block_ety d) (block_ety d) (block_ety d) l n (o_sub (bpure A p)) a b s = (Ok (m_sub (barith A p) l n a b), s)).
  { apply sim_eqm. apply sim_mzip_vv; auto using Forall2_eq2. apply (exact_sim _ _ (bpure_exact A p S)). }
  eapply done_m; [|exact G|apply mat_rect].
  apply (r_mzip_vv eq c (bsame p) (bsame p) (bsame p)); auto. apply HV.
Qed.
Lemma blk_neg l n a s : blocks l n p a -> l < W c -> n < W c ->
  mneg c (block_ety d) (block_ety d) l n (o_neg (bo c d o p)) a s = (Ok (m_neg (barith A p) l n a), s) /\
  blocks l n p (m_neg (barith A p) l n a).
Proof.
  intros [Ra Fa] Hl Hn. apply bsame_mat in Fa.
  assert (G : mneg c (block_ety d) (block_ety d) l n (o_neg (bpure A p)) a s = (Ok (m_neg (barith A p) l n a), s)).
  { apply sim_eqm. apply sim_mneg; auto using Forall2_eq2. apply (exact_sim _ _ (bpure_exact A p S)). }
  eapply done_m; [|exact G|apply mat_rect]. apply (r_mneg eq c (bsame p) (bsame p)); auto. apply HV.
Qed.
Lemma blk_id n s : midentity c (block_ety d) (bo c d o p) n s = (Ok (m_id (barith A p) n), s) /\ blocks n n p (m_id (barith A p) n).
Proof.
  eapply done_m; [|apply (idm c (block_ety d) (bpure A p) (barith A p) P1)|apply mat_rect].
  exact (r_midentity eq c _ _ _ _ _ HD HV n).
Qed.
Lemma blk_zero l n s : mzero c (block_ety d) (bo c d o p) l n s = (Ok (m_zero (barith A p) l n), s) /\ blocks l n p (m_zero (barith A p) l n).
Proof.
  assert (G : mzero c (block_ety d) (bpure A p) l n s = (Ok (m_zero (barith A p) l n), s)).
  { unfold mzero. now rewrite (mgenerate_pure _ _ _ _ _ (fun _ _ => o_zero (bpure (S := S) A p))) by reflexivity. }
  eapply done_m; [|exact G|apply mat_rect]. apply (r_mgenerate eq c (bsame p) _ _ HD). intros _. apply r_ret. apply HV.
Qed.
Lemma blk_clone l n m s : blocks l n p m -> mclone c (block_ety d) (o_clone (bo c d o p)) l n m s = (Ok m, s).
Proof.
  intros [R F]. apply bsame_mat in F.
  refine (proj1 (done_m _ (mclone c (block_ety d) ret l n m) l n m s _ _ R)); [|now apply mclone_id].
  apply (r_mclone eq c (bsame p) _ _ HD); [apply HV|exact F].
Qed.
Lemma blk_scale l n m b s : blocks l n p m -> rect p p b -> l < W c -> n < W c ->
  mscale c (block_ety d) l n (o_mul (bo c d o p)) (o_clone (bo c d o p)) m b s = (Ok (m_scale (barith A p) l n m b), s) /\
  mscale_ref c (block_ety d) l n (o_mul (bor c d o p)) m b s = (Ok (m_scale (barith A p) l n m b), s) /\
  blocks l n p (m_scale (barith A p) l n m b).
Proof.
  intros [R F] Rb Hl Hn. apply bsame_mat in F. assert (Hb : bsame p b b) by now split.
  pose proof (scalem c (block_ety d) (bpure A p) (barith A p) P1 l n m b s R Hl Hn) as M1.
  assert (M2 : mscale_ref c (block_ety d) l n (o_mul (bpure A p)) m b s = (Ok (m_scale (barith A p) l n m b), s)).
  { apply sim_eqm. apply sim_mscale_ref; auto using Forall2_eq2; apply (exact_sim_semi _ _ P1). }
  pose proof (mat_rect l n _ : rect l n (m_scale (barith A p) l n m b)) as RR.
  pose proof (done_m _ _ l n _ s (r_mscale eq c _ _ _ _ _ HD HV l n _ _ (ra_mul _ _ _ _ HV) m m b b F Hb) M1 RR) as [Q1 Q0].
  pose proof (done_m _ _ l n _ s (r_mscale_ref eq c _ _ _ HD l n _ _ (ra_mul _ _ _ _ HR) m m b b F Hb) M2 RR) as [Q2 _].
  auto.
Qed.
Lemma blk_mulv l n m v s : blocks l n p m -> block_vec n p v -> l < W c -> n < W c ->
  let w := m_mulv (barith A p) l n m v in
  block_vec l p w /\
  mmulv c (block_ety d) (bo c d o p) l n m v s = (Ok w, s) /\
  mmulv_ref c (block_ety d) (bor c d o p) l n m v s = (Ok w, s).
Proof.
  intros [R F] [Lv Fv] Hl Hn w. apply bsame_mat in F. apply bsame_vec in Fv.
  pose proof (mulmv c (block_ety d) (bpure A p) (barith A p) P1 l n m v s R Lv Hl Hn) as M1.
  assert (M2 : mmulv_ref c (block_ety d) (bpure A p) l n m v s = (Ok w, s)).
  { apply sim_eqv. apply sim_mmulv_ref; auto using Forall2_eq, Forall2_eq2. apply (exact_sim_semi _ _ P1). }
  destruct (alike_run _ _ _ _ _ (r_mmulv eq c _ _ _ _ _ HD HV l n m m v v F Fv) M1) as (x & Ex & Hx).
  destruct (alike_run _ _ _ _ _ (r_mmulv_ref eq c _ _ _ _ _ HD HR l n m m v v F Fv) M2) as (y & Ey & Hy).
  pose proof (vec_bsame_rect _ _ _ Hx) as FX. apply vec_bsame in Hx, Hy. subst x y.
  split; [split; [apply vec_length|exact FX]|]. now split.
Qed.
Lemma blk_tr l n m s : blocks l n p m -> l < W c -> n < W c ->
  let t := mat n l (fun i j => m_tr A p p (at2 (barith A p) m j i)) in
  (x <- mtransposed c (block_ety d) (o_clone (bo c d o p)) l n m ;;
   mmap c (block_ety d) (block_ety d) n l (fun _ b => mtransposed c d (o_clone o) p p b) x) s = (Ok t, s) /\
  blocks n l p t.
Proof.
  intros [R F] Hl Hn t. apply bsame_mat in F. pose proof E as E0. destruct E0 as [E0 _ _].
  pose proof (trm c (block_ety d) (barith A p) ret l n m s ltac:(intros ? ?; reflexivity) R Hn) as M1.
  pose proof (mat_rect n l _ : rect n l (m_tr (barith A p) l n m)) as RR.
  destruct (done_m _ _ n l _ s (r_mtransposed eq c _ _ _ HD (o_clone (bo c d o p)) ret l n m m ltac:(apply HV) F) M1 RR) as [Q1 Q2].
  rewrite (bind_ok Q1). set (x := m_tr (barith A p) l n m) in *.
  rewrite mmap_nested by assumption.
  rewrite (unwind_pure _ _ (fun ir => map (m_tr A p p) (snd ir))).
  2:{ intros [i r] s0 Hin. cbn [fst snd]. apply indexed_in, nth_error_In in Hin.
      rewrite (unwind_pure _ _ (fun ja => m_tr A p p (snd ja))).
      - now rewrite <- map_map, indexed_snd.
      - intros [j b] s1 Hb. cbn [fst snd]. apply indexed_in, nth_error_In in Hb.
        apply (trm c d A); [apply E0| |exact Hp].
        destruct Q2 as [_ Q2]. rewrite Forall_forall in Q2. specialize (Q2 _ Hin). rewrite Forall_forall in Q2. now apply Q2. }
  rewrite <- map_map, indexed_snd.
  assert (Et : map (map (m_tr A p p)) x = t).
  { change x with (mat n l (fun i j => at2 (barith A p) m j i)). unfold t, mat at 1 2. rewrite map_map. apply map_ext. intros i. rewrite map_map. reflexivity. }
  rewrite Et. split; [reflexivity|]. split; [apply mat_rect|]. rewrite <- Et. apply Forall_forall. intros r Hr.
  apply in_map_iff in Hr. destruct Hr as (r' & <- & _). apply Forall_forall. intros b Hb. apply in_map_iff in Hb. destruct Hb as (b' & <- & _). apply mat_rect.
Qed.
End C88.

(** ** C88: the product of block matrices is the product of the matrices of numbers *)
Theorem C88_product : forall S T (c : cfg) (d : ety S T) (o : ops S T) (A : arith T) l n r p a b (s : S),
  exact o A -> semiring A -> blocks l n p a -> blocks n r p b ->
  p < W c -> l < W c -> n < W c -> r < W c -> l * p < W c -> n * p < W c -> r * p < W c ->
  exists ab, blocks l r p ab /\
    mmul_vv c (block_ety d) (bo c d o p) l n r a b s = (Ok ab, s) /\
    mmul_rv c (block_ety d) (bo c d o p) l n r a b s = (Ok ab, s) /\
    mmul_vr c (block_ety d) (bor c d o p) l n r a b s = (Ok ab, s) /\
    mmul_rr c (block_ety d) (bor c d o p) l n r a b s = (Ok ab, s) /\
    mmul_vv c d o (l * p) (n * p) (r * p) (flat A l n p a) (flat A n r p b) s = (Ok (flat A l r p ab), s).
Proof.
  intros S T c d o A l n r p a b s E L Ha Hb H1 H2 H3 H4 H5 H6 H7. exists (m_mul (barith A p) l n r a b).
  destruct (blk_mul c d o A p E H1 l n r a b s Ha Hb H2 H3 H4) as (Q0 & Q1 & Q2 & Q3 & Q4).
  do 5 (split; [assumption|]). rewrite (mulm c d o A) by (auto using flat_rect; apply E).
  now rewrite flat_mul by (apply L || apply Ha || apply Hb).
Qed.
Print Assumptions C88_product.
Theorem C88_mul_assign : forall S T (c : cfg) (d : ety S T) (o : ops S T) (A : arith T) n p a b (s : S),
  exact o A -> semiring A -> blocks n n p a -> blocks n n p b -> p < W c -> n < W c -> n * p < W c ->
  exists ab, blocks n n p ab /\
    mmul_assign c (block_ety d) (bo c d o p) n b (a, s) = (Ok tt, (ab, s)) /\
    mmul_assign c d o (n * p) (flat A n n p b) (flat A n n p a, s) = (Ok tt, (flat A n n p ab, s)).
Proof.
  intros S T c d o A n p a b s E L Ha Hb H1 H2 H3. exists (m_mul (barith A p) n n n a b).
  split; [exact (proj1 (blk_mul c d o A p E H1 n n n a b s Ha Hb H2 H2 H2))|]. split; [now apply blk_mul_assign|].
  rewrite C38_mul_assign by (auto using flat_rect; apply E). rewrite (mulm c d o A) by (auto using flat_rect; apply E).
  now rewrite flat_mul by (apply L || apply Ha || apply Hb).
Qed.
Print Assumptions C88_mul_assign.

(** ** C88: sums, differences, negation *)
Theorem C88_entrywise : forall S T (c : cfg) (d : ety S T) (o : ops S T) (A : arith T) l n p a b (s : S),
  exact o A -> blocks l n p a -> blocks l n p b -> p < W c -> l < W c -> n < W c -> l * p < W c -> n * p < W c ->
  (exists x, blocks l n p x /\
     mzip_vv c (block_ety d) (block_ety d) (block_ety d) l n (o_add (bo c d o p)) a b s = (Ok x, s) /\
     mzip_vv c d d d (l * p) (n * p) (o_add o) (flat A l n p a) (flat A l n p b) s = (Ok (flat A l n p x), s)) /\
  (exists x, blocks l n p x /\
     mzip_vv c (block_ety d) (block_ety d) (block_ety d) l n (o_sub (bo c d o p)) a b s = (Ok x, s) /\
     mzip_vv c d d d (l * p) (n * p) (o_sub o) (flat A l n p a) (flat A l n p b) s = (Ok (flat A l n p x), s)) /\
  (exists x, blocks l n p x /\
     mneg c (block_ety d) (block_ety d) l n (o_neg (bo c d o p)) a s = (Ok x, s) /\
     mneg c d d (l * p) (n * p) (o_neg o) (flat A l n p a) s = (Ok (flat A l n p x), s)).
Proof.
  intros S T c d o A l n p a b s E Ha Hb H1 H2 H3 H4 H5. split; [|split].
  - destruct (blk_add c d o A p E H1 l n a b s Ha Hb H2 H3) as [Q1 Q2]. eexists. split; [exact Q2|]. split; [exact Q1|].
    rewrite flat_add by (apply Ha || apply Hb). apply addm; auto using flat_rect. apply E.
  - destruct (blk_sub c d o A p E H1 l n a b s Ha Hb H2 H3) as [Q1 Q2]. eexists. split; [exact Q2|]. split; [exact Q1|].
    rewrite flat_sub by (apply Ha || apply Hb). apply sim_eqm. apply sim_mzip_vv; auto using Forall2_eq2, flat_rect. apply (exact_sim o A E).
  - destruct (blk_neg c d o A p E H1 l n a s Ha H2 H3) as [Q1 Q2]. eexists. split; [exact Q2|]. split; [exact Q1|].
    rewrite flat_neg by apply Ha. apply sim_eqm. apply sim_mneg; auto using Forall2_eq2, flat_rect. apply (exact_sim o A E).
Qed.
Print Assumptions C88_entrywise.

(** ** C88: zero, identity and powers *)
Theorem C88_identity : forall S T (c : cfg) (d : ety S T) (o : ops S T) (A : arith T) l n p (s : S),
  exact o A -> p < W c ->
  (exists z, blocks l n p z /\ mzero c (block_ety d) (bo c d o p) l n s = (Ok z, s) /\
     mzero c d o (l * p) (n * p) s = (Ok (flat A l n p z), s)) /\
  (exists e, blocks n n p e /\ midentity c (block_ety d) (bo c d o p) n s = (Ok e, s) /\
     midentity c d o (n * p) s = (Ok (flat A n n p e), s)).
Proof.
  intros S T c d o A l n p s E Hp. split.
  - destruct (blk_zero c d o A p E Hp l n s) as [Q1 Q2]. eexists. split; [exact Q2|]. split; [exact Q1|]. rewrite flat_zero.
    unfold mzero. rewrite (mgenerate_pure _ _ _ _ _ (fun _ _ => o_zero o)) by reflexivity. rewrite (ex_zero _ _ (ex_semi _ _ E)). reflexivity.
  - destruct (blk_id c d o A p E Hp n s) as [Q1 Q2]. eexists. split; [exact Q2|]. split; [exact Q1|]. rewrite flat_id.
    apply idm. apply E.
Qed.
Print Assumptions C88_identity.
Theorem C88_pow : forall S T (c : cfg) (d : ety S T) (o : ops S T) (A : arith T) n p m e (s : S),
  exact o A -> semiring A -> blocks n n p m -> p < W c -> n < W c -> n * p < W c ->
  exists x, blocks n n p x /\ mpow c (block_ety d) (bo c d o p) n m e s = (Ok x, s) /\
    mpow c d o (n * p) (flat A n n p m) e s = (Ok (flat A n n p x), s).
Proof.
  intros S T c d o A n p m e s E L Hm H1 H2 H3.
  assert (G : sim (S := S) false (fun x x' => blocks n n p x /\ flat A n n p x = x') (mpow c (block_ety d) (bo c d o p) n m e)
                (pnum_pow (m_mul A (n * p) (n * p) (n * p)) (m_id A (n * p)) (flat A n n p m) e)).
  { Transparent mpow. unfold mpow.
    assert (HC : forall x x', blocks n n p x /\ flat A n n p x = x' ->
       sim (S := S) false (fun x x' => blocks n n p x /\ flat A n n p x = x') (mclone c (block_ety d) (o_clone (bo c d o p)) n n x) x').
    { intros x x' Hx s0. left. exists x. split; [|exact Hx]. apply (blk_clone c d o A p E H1). apply Hx. }
    eapply sim_bind; [apply HC; split; [exact Hm|reflexivity]|]. intros a Ha. apply sim_num_pow; [|exact HC| |exact Ha].
    - intros x y x' y' [Bx <-] [By <-] s0. left. destruct (blk_mul c d o A p E H1 n n n x y s0 Bx By H2 H2 H2) as (Q0 & Q1 & _).
      eexists. split; [exact Q1|]. split; [exact Q0|]. apply flat_mul; [exact L|apply Bx|apply By].
    - intros s0. left. destruct (blk_id c d o A p E H1 n s0) as [Q1 Q2]. eexists. split; [exact Q1|]. split; [exact Q2|apply flat_id]. }
  destruct (G s) as [(x & Ex & Bx & Fx)|[? _]]; [|discriminate]. exists x. split; [exact Bx|]. split; [exact Ex|].
  rewrite Fx, (pnum_pow_m A L) by apply flat_rect. apply C41_pow; auto using flat_rect. apply E.
Qed.
Print Assumptions C88_pow.

(** ** C88: matrix times vector of blocks; matrix times one block; transposition *)
Theorem C88_vector : forall S T (c : cfg) (d : ety S T) (o : ops S T) (A : arith T) l n p m v (s : S),
  exact o A -> semiring A -> blocks l n p m -> block_vec n p v ->
  p < W c -> l < W c -> n < W c -> l * p < W c -> n * p < W c ->
  exists w, block_vec l p w /\
    mmulv c (block_ety d) (bo c d o p) l n m v s = (Ok w, s) /\
    mmulv_ref c (block_ety d) (bor c d o p) l n m v s = (Ok w, s) /\
    mmul_vv c d o (l * p) (n * p) (1 * p) (flat A l n p m) (flat_vec A n p v) s = (Ok (flat_vec A l p w), s).
Proof.
  intros S T c d o A l n p m v s E L Hm Hv H1 H2 H3 H4 H5.
  destruct (blk_mulv c d o A p E H1 l n m v s Hm Hv H2 H3) as (Q0 & Q1 & Q2).
  exists (m_mulv (barith A p) l n m v). do 3 (split; [assumption|]).
  rewrite (mulm c d o A) by (auto using flat_rect; try apply E; try (unfold flat_vec; apply flat_rect); lia).
  f_equal. f_equal.
  rewrite (flat_vec_at A p l (m_mulv (barith A p) l n m v) (fun i => sum (barith A p) n (fun k => a_mul (barith A p) (at2 (barith A p) m i k) (at1 (barith A p) v k)))).
  3:{ intros k Hk. rewrite (nth_indep _ [] (a_zero (barith A p))) by (unfold m_mulv; now rewrite vec_length).
      apply (at1_vec (barith A p)). exact Hk. }
  2:{ apply vec_length. }
  rewrite (flat_vec_at A p n v (at1 (barith A p) v)).
  3:{ intros k Hk. apply nth_indep. destruct Hv as [-> _]. exact Hk. }
  2:{ apply Hv. }
  rewrite <- (flat_mul A p L l n 1); [|apply Hm|apply mat_rect]. unfold m_mul. f_equal. apply mat_ext'. intros i j Hi Hj.
  apply sum_ext. intros k Hk. rewrite at2_mat by assumption. reflexivity.
Qed.
Print Assumptions C88_vector.
Theorem C88_scale : forall S T (c : cfg) (d : ety S T) (o : ops S T) (A : arith T) l n p m b (s : S),
  exact o A -> semiring A -> blocks l n p m -> rect p p b ->
  p < W c -> l < W c -> n < W c -> l * p < W c -> n * p < W c ->
  exists x, blocks l n p x /\
    mscale c (block_ety d) l n (o_mul (bo c d o p)) (o_clone (bo c d o p)) m b s = (Ok x, s) /\
    mscale_ref c (block_ety d) l n (o_mul (bor c d o p)) m b s = (Ok x, s) /\
    mmul_vv c d o (l * p) (n * p) (n * p) (flat A l n p m) (flat_diag A n p b) s = (Ok (flat A l n p x), s).
Proof.
  intros S T c d o A l n p m b s E L Hm Hb H1 H2 H3 H4 H5.
  destruct (blk_scale c d o A p E H1 l n m b s Hm Hb H2 H3) as (Q1 & Q2 & Q0). eexists. split; [exact Q0|]. split; [exact Q1|]. split; [exact Q2|].
  rewrite (mulm c d o A) by (auto using flat_rect; try apply E; apply mat_rect). now rewrite flat_scale by (apply L || apply Hm).
Qed.
Print Assumptions C88_scale.
(** [m.transposed().map(|_, b| b.transposed())] is the transpose. *)
Theorem C88_transposed : forall S T (c : cfg) (d : ety S T) (o : ops S T) (A : arith T) l n p m (s : S),
  exact o A -> blocks l n p m -> p < W c -> l < W c -> n < W c -> n * p < W c ->
  exists t, blocks n l p t /\
    (x <- mtransposed c (block_ety d) (o_clone (bo c d o p)) l n m ;;
     mmap c (block_ety d) (block_ety d) n l (fun _ b => mtransposed c d (o_clone o) p p b) x) s = (Ok t, s) /\
    mtransposed c d (o_clone o) (l * p) (n * p) (flat A l n p m) s = (Ok (flat A n l p t), s).
Proof.
  intros S T c d o A l n p m s E Hm H1 H2 H3 H4.
  destruct (blk_tr c d o A p E H1 l n m s Hm H2 H3) as (Q1 & Q0). eexists. split; [exact Q0|]. split; [exact Q1|].
  rewrite flat_tr by apply Hm. apply trm; auto using flat_rect. apply E.
Qed.
Print Assumptions C88_transposed.

(** ** C88: nothing is lost by [flat]; equality and the zero test agree *)
Lemma block_at {T} (A : arith T) l n p m i j x y : blocks l n p m -> i < l -> j < n -> x < p -> y < p ->
  at2 A (flat A l n p m) (i * p + x) (j * p + y) = at2 A (at2 (barith A p) m i j) x y.
Proof.
  intros [R _] Hi Hj Hx Hy. rewrite flat_at by auto using in_lt. now rewrite !div_in, !mod_in by assumption.
Qed.
Lemma block_rect {T} (A : arith T) l n p m i j : blocks l n p m -> i < l -> j < n -> rect p p (at2 (barith A p) m i j).
Proof.
  intros [R F] Hi Hj. destruct (entry_some l n m i j R Hi Hj) as (x & Ex). rewrite (at2_entry (barith A p) _ _ _ _ Ex).
  unfold entry in Ex. destruct (nth_error m i) as [r|] eqn:Er; [|discriminate]. rewrite Forall_forall in F.
  specialize (F r (nth_error_In _ _ Er)). rewrite Forall_forall in F. apply F. eapply nth_error_In; eauto.
Qed.
Theorem C88_faithful : forall T (A : arith T) l n p a b, 0 < p -> blocks l n p a -> blocks l n p b ->
  flat A l n p a = flat A l n p b -> a = b.
Proof.
  intros T A l n p a b Hp Ha Hb E. rewrite <- (mat_at2 (barith A p) l n a) by apply Ha. rewrite <- (mat_at2 (barith A p) l n b) by apply Hb.
  apply mat_ext'. intros i j Hi Hj.
  rewrite <- (mat_at2 A p p (at2 (barith A p) a i j)) by (eapply block_rect; eauto).
  rewrite <- (mat_at2 A p p (at2 (barith A p) b i j)) by (eapply block_rect; eauto).
  apply mat_ext'. intros x y Hx Hy. rewrite <- !(block_at A l n) by assumption. now rewrite E.
Qed.
Print Assumptions C88_faithful.
Lemma forall2_nth {X Y} (P : X -> Y -> Prop) a b (dx : X) (dy : Y) : length a = length b ->
  (Forall2 P a b <-> forall i, i < length a -> P (nth i a dx) (nth i b dy)).
Proof.
  intros L. split.
  - intros H. clear L. induction H; intros i Hi; cbn in Hi; [lia|]. destruct i; cbn; [assumption|]. apply IHForall2. lia.
  - revert b L. induction a as [|x a IH]; intros [|y b] L H; try discriminate; constructor; [exact (H 0 ltac:(cbn; lia))|].
    apply IH; [cbn in L; lia|]. intros i Hi. exact (H (Datatypes.S i) ltac:(cbn; lia)).
Qed.
Lemma meq_iff {T} (A : arith T) (peq : T -> T -> bool) l n a b : rect l n a -> rect l n b ->
  (meq peq a b = true <-> forall i j, i < l -> j < n -> peq (at2 A a i j) (at2 A b i j) = true).
Proof.
  intros Ra Rb. unfold meq, veq at 1, as_slice. rewrite slice_eq_forall2, (forall2_nth _ _ _ [] []) by (destruct Ra, Rb; congruence).
  rewrite (proj1 Ra). split; intros H i; [intros j Hi Hj|intros Hi]; specialize (H i).
  - specialize (H Hi). unfold veq, as_slice in H.
    rewrite slice_eq_forall2, (forall2_nth _ _ _ (a_zero A) (a_zero A)) in H by (now rewrite !(at2_row l n)).
    apply H. now rewrite (at2_row l n).
  - unfold veq, as_slice. rewrite slice_eq_forall2, (forall2_nth _ _ _ (a_zero A) (a_zero A)) by (now rewrite !(at2_row l n)).
    intros j Hj. rewrite (at2_row l n) in Hj by assumption. now apply H.
Qed.
Lemma bool_iff (x y : bool) : (x = true <-> y = true) -> x = y.
Proof. destruct x, y; intuition congruence. Qed.
Theorem C88_equality : forall T (A : arith T) (peq : T -> T -> bool) l n p a b, blocks l n p a -> blocks l n p b ->
  0 < p -> meq (meq peq) a b = meq peq (flat A l n p a) (flat A l n p b).
Proof.
  intros T A peq l n p a b Ha Hb Hp. apply bool_iff.
  rewrite (meq_iff (barith A p) _ l n) by (apply Ha || apply Hb). rewrite (meq_iff A _ (l * p) (n * p)) by apply flat_rect. split.
  - intros H i j Hi Hj. rewrite !flat_at by (assumption || apply Ha || apply Hb).
    specialize (H (i / p) (j / p) (div_lt p _ _ Hi) (div_lt p _ _ Hj)).
    rewrite (meq_iff A _ p p) in H by (eapply block_rect; eauto using div_lt). apply H; eauto using mod_lt.
  - intros H i j Hi Hj. rewrite (meq_iff A _ p p) by (eapply block_rect; eauto). intros x y Hx Hy.
    rewrite <- !(block_at A l n) by assumption. apply H; now apply in_lt.
Qed.
Print Assumptions C88_equality.
Lemma zero_iff {T} (A : arith T) (z : T -> bool) l n a : rect l n a ->
  (forallb (forallb z) a = true <-> forall i j, i < l -> j < n -> z (at2 A a i j) = true).
Proof.
  intros R. rewrite forallb_forall. split.
  - intros H i j Hi Hj. specialize (H (nth i a []) ltac:(apply nth_In; destruct R; lia)). rewrite forallb_forall in H. apply H.
    apply nth_In. now rewrite (at2_row l n).
  - intros H r Hr. apply (In_nth _ _ []) in Hr. destruct Hr as (i & Hi & <-). apply forallb_forall. intros x Hx.
    apply (In_nth _ _ (a_zero A)) in Hx. destruct Hx as (j & Hj & <-). rewrite (proj1 R) in Hi. rewrite (at2_row l n) in Hj by assumption. now apply H.
Qed.
Theorem C88_is_zero : forall S T (c : cfg) (d : ety S T) (o : ops S T) (A : arith T) l n p m mul (s : S), 0 < p -> blocks l n p m ->
  mis_zero (block_ops c d o p mul) l n m s = mis_zero o (l * p) (n * p) (flat A l n p m) s.
Proof.
  intros S T c d o A l n p m mul s Hp Hm. rewrite !mis_zero_spec by (apply Hm || apply flat_rect). f_equal. f_equal. apply bool_iff.
  rewrite (zero_iff (barith A p) _ l n) by apply Hm. rewrite (zero_iff A _ (l * p) (n * p)) by apply flat_rect. cbn [block_ops o_is_zero]. split.
  - intros H i j Hi Hj. rewrite flat_at by (assumption || apply Hm).
    specialize (H (i / p) (j / p) (div_lt p _ _ Hi) (div_lt p _ _ Hj)).
    rewrite (zero_iff A _ p p) in H by (eapply block_rect; eauto using div_lt). apply H; eauto using mod_lt.
  - intros H i j Hi Hj. rewrite (zero_iff A _ p p) by (eapply block_rect; eauto). intros x y Hx Hy.
    rewrite <- (block_at A l n) by assumption. apply H; now apply in_lt.
Qed.
Print Assumptions C88_is_zero.

(** A 2 x 2 matrix of 2 x 2 blocks of integers. *)
Definition ex_a : list (list (list (list Z))) := [[[[1; 2]; [3; 4]]; [[0; 1]; [1; 0]]]; [[[5; 0]; [0; 5]]; [[1; 1]; [2; -1]]]]%Z.
Example C88_ex : blocks 2 2 2 ex_a /\
  flat z_arith 2 2 2 ex_a = [[1; 2; 0; 1]; [3; 4; 1; 0]; [5; 0; 1; 1]; [0; 5; 2; -1]]%Z /\
  (exists x, mmul_vv dbg (block_ety ref_ety) (bo dbg ref_ety z_ops 2) 2 2 2 ex_a ex_a tt = (Ok x, tt) /\
     flat z_arith 2 2 2 x = [[7; 15; 4; 0]; [20; 22; 5; 4]; [10; 15; 3; 5]; [25; 15; 5; 3]]%Z).
Proof.
  split; [repeat constructor|]. split; [vm_compute; reflexivity|]. eexists. vm_compute. split; reflexivity.
Qed.
