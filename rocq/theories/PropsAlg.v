(** * PropsAlg.v - theorems for C20, C21, C23, C33, C36 - C41: exact arithmetic.
    The textbook operations are in SpecAlg.v. *)
From Coq Require Import List Arith Bool Lia ZArith Ring.
From Verif Require Import Rust Iter Elem VectorM MatIterM MatrixM ArithM OpsM SpecCommon SpecAlg Harness.
From Verif Require Import IterProofs OwnProofs ChunkProofs VecProofs MatProofs AccProofs Sim Algebra.
Import ListNotations.
Local Opaque mmul_vv mmul_vr mmul_rv mmul_rr mmulv mzip_vv mscale mneg vzip_vv vscale vdot vsum msum mtransposed mpow vzero.

(** The integers, as an element type with exact arithmetic: the concrete case that meets
    the hypotheses below. *)
Definition z_arith : arith Z := Arith 0%Z 1%Z Z.add Z.sub Z.mul Z.opp.
Definition z_ops {S} : ops S Z :=
  Ops 0%Z 1%Z (fun x y => ret (x + y)%Z) (fun x y => ret (x - y)%Z) (fun x y => ret (x * y)%Z)
    (fun x y => if (y =? 0)%Z then panic else ret (Z.quot x y)) (fun x => ret (- x)%Z) (fun x => (x =? 0)%Z) ret.
Example z_exact : forall S, exact (S := S) z_ops z_arith.
Proof. intros. repeat split. Qed.
Example z_ring : ring_laws z_arith /\ mul_comm z_arith.
Proof. split; [split; [split|..]|]; unfold mul_comm; cbn [a_zero a_one a_add a_sub a_mul a_neg z_arith]; intros; ring. Qed.

Section Helpers.
Context {S T : Type} (c : cfg) (d : ety S T) (o : ops S T) (A : arith T).
Lemma bind_ok {X Y} (m : M S X) (k : X -> M S Y) x s : m s = (Ok x, s) -> bind m k s = k x s.
Proof. intros E. unfold bind. now rewrite E. Qed.
Section Semi.
Hypothesis E : exact_semi o A.
Let E' := exact_sim_semi o A E.
Lemma addv n a b s : length a = n -> length b = n -> n < W c -> vzip_vv c d d d n (o_add o) a b s = (Ok (v_add A n a b), s).
Proof. intros. apply sim_eqv. apply sim_vzip_vv; auto using Forall2_eq. apply E'. Qed.
Lemma addm row col a b s : rect row col a -> rect row col b -> row < W c -> col < W c ->
  mzip_vv c d d d row col (o_add o) a b s = (Ok (m_add A row col a b), s).
Proof. intros. apply sim_eqm. apply sim_mzip_vv; auto using Forall2_eq2. apply E'. Qed.
Lemma mulm l n r a b s : rect l n a -> rect n r b -> l < W c -> n < W c -> r < W c ->
  mmul_vv c d o l n r a b s = (Ok (m_mul A l n r a b), s).
Proof. intros. apply sim_eqm. apply sim_mmul_vv; auto using Forall2_eq2. Qed.
Lemma dotv n a b s : length a = n -> length b = n -> vdot o n a b s = (Ok (v_dot A n a b), s).
Proof. intros. apply sim_eq. apply sim_vdot; auto using Forall2_eq. Qed.
Lemma scalev n a x s : length a = n -> n < W c -> vscale c d d n (o_mul o) (o_clone o) a x s = (Ok (v_scale A n a x), s).
Proof. intros. apply sim_eqv. apply sim_vscale; auto using Forall2_eq; apply E'. Qed.
Lemma scalem row col a x s : rect row col a -> row < W c -> col < W c ->
  mscale c d row col (o_mul o) (o_clone o) a x s = (Ok (m_scale A row col a x), s).
Proof. intros. apply sim_eqm. apply sim_mscale; auto using Forall2_eq2; apply E'. Qed.
Lemma mulmv row col m v s : rect row col m -> length v = col -> row < W c -> col < W c ->
  mmulv c d o row col m v s = (Ok (m_mulv A row col m v), s).
Proof. intros. apply sim_eqv. apply sim_mmulv; auto using Forall2_eq, Forall2_eq2. Qed.
Lemma idm n s : midentity c d o n s = (Ok (m_id A n), s).
Proof. apply sim_eqm. apply sim_midentity; auto. Qed.
Lemma sumv n v s : length v = n -> vsum o n v s = (Ok (v_sum A n v), s).
Proof. intros. apply sim_eq. apply sim_vsum; auto using Forall2_eq. Qed.
Lemma summ row col m s : rect row col m -> msum o row col m s = (Ok (m_sum A row col m), s).
Proof. intros. apply sim_eq. apply sim_msum; auto using Forall2_eq2. Qed.
End Semi.
Lemma trm cl row col m s : faithful cl -> rect row col m -> col < W c ->
  mtransposed c d cl row col m s = (Ok (m_tr A row col m), s).
Proof.
  intros F R HW. rewrite mtransposed_spec by assumption.
  rewrite (in_order_pure _ (fun j => col_of m j)).
  2:{ intros j s0 _. rewrite (in_order_pure _ (fun x => x)) by (intros; apply F). now rewrite map_id. }
  f_equal. f_equal. apply map_ext_in. intros j Hj. apply in_seq in Hj.
  rewrite <- (vec_at1 A row (col_of m j)) by (apply (col_of_length row col m j R); lia).
  apply vec_ext. intros i Hi. apply (at1_col_of A row col m j i R); lia.
Qed.
End Helpers.
Arguments bind_ok {S X Y m k x s}.
Lemma bind_run {S X Y} (m : M S X) (k : X -> M S Y) x s r : m s = (Ok x, s) -> k x s = r -> bind m k s = r.
Proof. intros E <-. now apply bind_ok. Qed.

(** ** C20 *)
Theorem C20_dot :
  forall S T (o : ops S T) (A : arith T) n a b (s : S), exact_semi o A -> length a = n -> length b = n ->
  vdot o n a b s = (Ok (sum A n (fun i => a_mul A (at1 A a i) (at1 A b i))), s).
Proof. intros. now apply dotv. Qed.
Print Assumptions C20_dot.
Theorem C20_symmetric :
  forall S T (o : ops S T) (A : arith T) n a b (s : S), exact_semi o A -> mul_comm A ->
  length a = n -> length b = n -> vdot o n a b s = vdot o n b a s.
Proof.
  intros S T o A n a b s E C La Lb. rewrite !(dotv o A E) by assumption. f_equal. f_equal. apply sum_ext. intros. apply C.
Qed.
Print Assumptions C20_symmetric.
(** (a + b) . e = a . e + b . e;  e . (a + b) = e . a + e . b;  e . (a * x) = (e . a) * x;  and, when
    multiplication commutes, (a * x) . e = (a . e) * x. *)
Theorem C20_bilinear :
  forall S T (c : cfg) (d : ety S T) (o : ops S T) (A : arith T) n a b e x (s : S),
  exact_semi o A -> semiring A -> length a = n -> length b = n -> length e = n -> n < W c ->
  (ab <- vzip_vv c d d d n (o_add o) a b ;; vdot o n ab e) s
    = (p <- vdot o n a e ;; q <- vdot o n b e ;; o_add o p q) s /\
  (ab <- vzip_vv c d d d n (o_add o) a b ;; vdot o n e ab) s
    = (p <- vdot o n e a ;; q <- vdot o n e b ;; o_add o p q) s /\
  (ax <- vscale c d d n (o_mul o) (o_clone o) a x ;; vdot o n e ax) s
    = (p <- vdot o n e a ;; o_mul o p x) s /\
  (mul_comm A -> (ax <- vscale c d d n (o_mul o) (o_clone o) a x ;; vdot o n ax e) s
    = (p <- vdot o n a e ;; o_mul o p x) s).
Proof.
  intros S T c d o A n a b e x s E L La Lb Le HW.
  rewrite !(bind_ok (addv c d o A E n a b s La Lb HW)), !(bind_ok (scalev c d o A E n a x s La HW)).
  rewrite !(bind_ok (dotv o A E n a e s La Le)), !(bind_ok (dotv o A E n e a s Le La)).
  rewrite !(bind_ok (dotv o A E n b e s Lb Le)), !(bind_ok (dotv o A E n e b s Le Lb)).
  rewrite !(dotv o A E) by (auto; apply vec_length). rewrite !(ex_add _ _ E), !(ex_mul _ _ E).
  unfold v_dot, v_add, v_scale. repeat split.
  - rewrite <- sum_add by exact L. f_equal. f_equal. apply sum_ext. intros. rewrite at1_vec by assumption. apply L.
  - rewrite <- sum_add by exact L. f_equal. f_equal. apply sum_ext. intros. rewrite at1_vec by assumption. apply L.
  - rewrite <- sum_mul_r by exact L. f_equal. f_equal. apply sum_ext. intros. rewrite at1_vec by assumption. apply L.
  - intros C. rewrite <- sum_mul_r by exact L. f_equal. f_equal. apply sum_ext. intros. rewrite at1_vec by assumption.
    rewrite <- !(sr_mul_assoc _ L). f_equal. apply C.
Qed.
Print Assumptions C20_bilinear.
Theorem C20_zero :
  forall S T (c : cfg) (d : ety S T) (o : ops S T) (A : arith T) n a (s : S),
  exact_semi o A -> semiring A -> length a = n ->
  (z <- vzero c d o n ;; vdot o n a z) s = (Ok (o_zero o), s) /\ (z <- vzero c d o n ;; vdot o n z a) s = (Ok (o_zero o), s).
Proof.
  intros S T c d o A n a s E L La.
  rewrite !(bind_ok (vdefault_const c d n (o_zero o) s : vzero c d o n s = _)).
  assert (G : repeat (o_zero o) n = v_zero A n).
  { unfold v_zero, vec. rewrite <- (ex_zero _ _ E). clear. generalize 0. induction n; intros k; cbn; congruence. }
  rewrite G, !(dotv o A E) by (auto; apply vec_length). rewrite (ex_zero _ _ E). unfold v_dot. split.
  - rewrite (sum_ext A n _ (fun _ => a_zero A)); [now rewrite sum_zero|]. intros. unfold v_zero. rewrite at1_vec by assumption. apply L.
  - rewrite (sum_ext A n _ (fun _ => a_zero A)); [now rewrite sum_zero|]. intros. unfold v_zero. rewrite at1_vec by assumption. apply L.
Qed.
Print Assumptions C20_zero.
Example C20_ex : vdot z_ops 3 [1; 2; 3]%Z [4; 5; 6]%Z tt = (Ok 32%Z, tt).
Proof. vm_compute. reflexivity. Qed.

(** ** C23 *)
(** Every element is cloned and added once, in order, starting from zero, whatever the element's
    operators do. *)
Theorem C23_sum_in_order :
  forall S T (o : ops S T) n v row col m (s : S), length v = n -> rect row col m ->
  let add_to := fun acc x => y <- o_clone o x ;; o_add o acc y in
  vsum o n v s = fold_in_order add_to v (o_zero o) s /\
  msum o row col m s
    = fold_in_order (fun acc r => t <- (fun s => fold_in_order add_to r (o_zero o) s) ;; o_add o acc t) m (o_zero o) s.
Proof. intros. split; [now apply vsum_spec|]. eapply msum_spec; eauto. Qed.
Print Assumptions C23_sum_in_order.
Theorem C23_sum :
  forall S T (o : ops S T) (A : arith T) n v row col m (s : S), exact_semi o A -> length v = n -> rect row col m ->
  vsum o n v s = (Ok (sum A n (fun i => at1 A v i)), s) /\
  msum o row col m s = (Ok (sum A row (fun i => sum A col (fun j => at2 A m i j))), s).
Proof. intros. split; [now apply sumv|now apply summ]. Qed.
Print Assumptions C23_sum.
Theorem C23_additive :
  forall S T (c : cfg) (d : ety S T) (o : ops S T) (A : arith T) n v w row col m p (s : S),
  exact_semi o A -> semiring A -> length v = n -> length w = n -> n < W c ->
  rect row col m -> rect row col p -> row < W c -> col < W c ->
  (x <- vzip_vv c d d d n (o_add o) v w ;; vsum o n x) s = (x <- vsum o n v ;; y <- vsum o n w ;; o_add o x y) s /\
  (x <- mzip_vv c d d d row col (o_add o) m p ;; msum o row col x) s = (x <- msum o row col m ;; y <- msum o row col p ;; o_add o x y) s.
Proof.
  intros S T c d o A n v w row col m p s E L Lv Lw HW Rm Rp H1 H2. split.
  - rewrite (bind_ok (addv c d o A E n v w s Lv Lw HW)), (bind_ok (sumv o A E n v s Lv)), (bind_ok (sumv o A E n w s Lw)).
    rewrite (sumv o A E) by apply vec_length. rewrite (ex_add _ _ E). unfold v_sum. rewrite <- sum_add by exact L.
    f_equal. f_equal. apply sum_ext. intros. unfold v_add. now rewrite at1_vec.
  - rewrite (bind_ok (addm c d o A E row col m p s Rm Rp H1 H2)), (bind_ok (summ o A E row col m s Rm)), (bind_ok (summ o A E row col p s Rp)).
    rewrite (summ o A E) by apply mat_rect. rewrite (ex_add _ _ E). unfold m_sum. rewrite <- sum_add by exact L.
    f_equal. f_equal. apply sum_ext. intros. rewrite <- sum_add by exact L. apply sum_ext. intros. unfold m_add. now rewrite at2_mat.
Qed.
Print Assumptions C23_additive.
Example C23_ex : vsum z_ops 3 [1; 2; 3]%Z tt = (Ok 6%Z, tt) /\ msum z_ops 2 2 [[1; 2]; [3; 4]]%Z tt = (Ok 10%Z, tt).
Proof. vm_compute. auto. Qed.

(** ** C33 *)
Theorem C33_identity :
  forall S T (c : cfg) (d : ety S T) (o : ops S T) n (s : S),
  exists m, midentity c d o n s = (Ok m, s) /\ mone c d o n s = (Ok m, s) /\ rect n n m /\
    forall i j, i < n -> j < n -> entry m i j = Some (if i =? j then o_one o else o_zero o).
Proof.
  intros S T c d o n s.
  set (A := Arith (o_zero o) (o_one o) (fun x _ => x) (fun x _ => x) (fun x _ => x) (fun x => x)).
  exists (m_id A n).
  assert (E : midentity c d o n s = (Ok (m_id A n), s)).
  { unfold midentity. rewrite (mgenerate_pure _ _ _ _ _ (fun i j => if i =? j then o_one o else o_zero o)); [reflexivity|].
    intros i j s0 _ _. now destruct (i =? j). }
  split; [exact E|]. split; [exact E|]. split; [apply mat_rect|]. intros i j Hi Hj.
  destruct (entry_some n n (m_id A n) i j (mat_rect _ _ _) Hi Hj) as (x & Ex). rewrite Ex. f_equal.
  rewrite <- (at2_entry A _ _ _ _ Ex). unfold m_id. now rewrite at2_mat.
Qed.
Print Assumptions C33_identity.
Theorem C33_unit :
  forall S T (c : cfg) (d : ety S T) (o : ops S T) (A : arith T) row col m (s : S),
  exact_semi o A -> semiring A -> rect row col m -> row < W c -> col < W c ->
  (i <- midentity c d o row ;; mmul_vv c d o row row col i m) s = (Ok m, s) /\
  (i <- midentity c d o col ;; mmul_vv c d o row col col m i) s = (Ok m, s).
Proof.
  intros S T c d o A row col m s E L R H1 H2. rewrite !(bind_ok (idm c d o A E _ s)).
  rewrite !(mulm c d o A E) by (auto; apply mat_rect). rewrite m_mul_id_l, m_mul_id_r by assumption. auto.
Qed.
Print Assumptions C33_unit.
Example C33_ex : midentity dbg ref_ety z_ops 2 tt = (Ok [[1; 0]; [0; 1]]%Z, tt).
Proof. vm_compute. reflexivity. Qed.

(** ** C36 *)
Theorem C36_transposed :
  forall S T (c : cfg) (d : ety S T) (clone : T -> M S T) row col m (s : S),
  faithful clone -> rect row col m -> col < W c ->
  exists m', mtransposed c d clone row col m s = (Ok m', s) /\ rect col row m' /\
    forall i j, i < row -> j < col -> entry m' j i = entry m i j.
Proof.
  intros S T c d clone row col m s F R HW. exists (map (col_of m) (seq 0 col)).
  assert (RR : rect col row (map (col_of m) (seq 0 col))).
  { split; [now rewrite map_length, seq_length|]. apply Forall_forall. intros r Hr. apply in_map_iff in Hr.
    destruct Hr as (j & <- & Hj). apply in_seq in Hj. apply (col_of_length row col m j R). lia. }
  split; [|split; [exact RR|]].
  - rewrite mtransposed_spec by assumption. rewrite (in_order_pure _ (col_of m)); [reflexivity|].
    intros j s0 _. rewrite (in_order_pure _ (fun x => x)) by (intros; apply F). now rewrite map_id.
  - intros i j Hi Hj. unfold entry at 1. rewrite nth_error_map. rewrite (nth_error_nth' _ 0) by (now rewrite seq_length).
    rewrite seq_nth by exact Hj. cbn. now apply (col_of_nth row col).
Qed.
Print Assumptions C36_transposed.
(** In place: the receiver becomes the transpose. *)
Theorem C36_transpose_in_place :
  forall S T (c : cfg) (d : ety S T) (clone : T -> M S T) n m (s : S),
  faithful clone -> rect n n m -> n < W c ->
  exists m', mtransposed c d clone n n m s = (Ok m', s) /\
    mtranspose c d clone n (m, s) = (Ok tt, (m', s)).
Proof.
  intros S T c d clone n m s F R HW. destruct (C36_transposed S T c d clone n n m s F R HW) as (m' & E & _).
  exists m'. split; [exact E|]. unfold mtranspose, bind, self, lift, set_self. cbn [fst snd]. now rewrite E.
Qed.
Print Assumptions C36_transpose_in_place.
Theorem C36_involution :
  forall S T (c : cfg) (d : ety S T) (clone : T -> M S T) row col m (s : S),
  faithful clone -> rect row col m -> row < W c -> col < W c ->
  (t <- mtransposed c d clone row col m ;; mtransposed c d clone col row t) s = (Ok m, s).
Proof.
  intros S T c d clone row col m s F R H1 H2.
  destruct (C36_transposed S T c d clone row col m s F R H2) as (m1 & E1 & R1 & G1).
  destruct (C36_transposed S T c d clone col row m1 s F R1 H1) as (m2 & E2 & R2 & G2).
  rewrite (bind_ok E1), E2. f_equal. f_equal. apply (mat_ext row col); auto. intros i j Hi Hj.
  rewrite G2 by assumption. now apply G1.
Qed.
Print Assumptions C36_involution.
Theorem C36_additive :
  forall S T (c : cfg) (d : ety S T) (o : ops S T) (A : arith T) row col a b (s : S),
  exact_semi o A -> rect row col a -> rect row col b -> row < W c -> col < W c ->
  (x <- mzip_vv c d d d row col (o_add o) a b ;; mtransposed c d (o_clone o) row col x) s
  = (x <- mtransposed c d (o_clone o) row col a ;; y <- mtransposed c d (o_clone o) row col b ;;
     mzip_vv c d d d col row (o_add o) x y) s.
Proof.
  intros S T c d o A row col a b s E Ra Rb H1 H2. pose proof (ex_clone _ _ E) as F.
  rewrite (bind_ok (addm c d o A E row col a b s Ra Rb H1 H2)).
  rewrite (bind_ok (trm c d A (o_clone o) row col a s F Ra H2)), (bind_ok (trm c d A (o_clone o) row col b s F Rb H2)).
  rewrite (trm c d A) by (auto; apply mat_rect). rewrite (addm c d o A E) by (auto; apply mat_rect). now rewrite m_tr_add.
Qed.
Print Assumptions C36_additive.
Theorem C36_reverses_products :
  forall S T (c : cfg) (d : ety S T) (o : ops S T) (A : arith T) l n r a b (s : S),
  exact_semi o A -> mul_comm A -> rect l n a -> rect n r b -> l < W c -> n < W c -> r < W c ->
  (x <- mmul_vv c d o l n r a b ;; mtransposed c d (o_clone o) l r x) s
  = (x <- mtransposed c d (o_clone o) n r b ;; y <- mtransposed c d (o_clone o) l n a ;; mmul_vv c d o r n l x y) s.
Proof.
  intros S T c d o A l n r a b s E C Ra Rb H1 H2 H3. pose proof (ex_clone _ _ E) as F.
  rewrite (bind_ok (mulm c d o A E l n r a b s Ra Rb H1 H2 H3)).
  rewrite (bind_ok (trm c d A (o_clone o) n r b s F Rb H3)), (bind_ok (trm c d A (o_clone o) l n a s F Ra H2)).
  rewrite (trm c d A) by (auto; apply mat_rect). rewrite (mulm c d o A E) by (auto; apply mat_rect). now rewrite m_tr_mul.
Qed.
Print Assumptions C36_reverses_products.
Example C36_ex : mtransposed dbg ref_ety ret 2 3 [[1; 2; 3]; [4; 5; 6]] tt = (Ok [[1; 4]; [2; 5]; [3; 6]], tt).
Proof. vm_compute. reflexivity. Qed.

(** ** C37 *)
Theorem C37_entrywise :
  forall S T (c : cfg) (d : ety S T) (op : T -> T -> M S T) g row col a b (s : S),
  pure2 op g -> rect row col a -> rect row col b -> row < W c -> col < W c ->
  exists m, rect row col m /\
    (forall i j x y, entry a i j = Some x -> entry b i j = Some y -> entry m i j = Some (g x y)) /\
    mzip_vv c d d d row col op a b s = (Ok m, s) /\ mzip_vr c d d row col op a b s = (Ok m, s) /\
    mzip_rv c d d row col op a b s = (Ok m, s) /\ mzip_rr c d row col op a b s = (Ok m, s).
Proof.
  intros S T c d op g row col a b s P Ra Rb H1 H2.
  exists (map (fun p => map (fun q => g (fst q) (snd q)) (combine (fst p) (snd p))) (combine a b)).
  assert (G : forall uo ui, in_order_unwind uo (op2 (fun ra rb => in_order_unwind ui (op2 op) (combine ra rb))) (combine a b) s
    = (Ok (map (fun p => map (fun q => g (fst q) (snd q)) (combine (fst p) (snd p))) (combine a b)), s)).
  { intros uo ui. apply unwind_pure. intros p s0 _. apply unwind_pure. intros q s1 _. apply P. }
  split; [|split; [|repeat split]].
  - destruct Ra as [La Fa], Rb as [Lb Fb]. split; [rewrite map_length, combine_length; lia|].
    apply Forall_forall. intros r Hr. apply in_map_iff in Hr. destruct Hr as ([ra rb] & <- & Hin).
    rewrite map_length, combine_length. cbn. rewrite Forall_forall in Fa, Fb.
    rewrite (Fa ra (in_combine_l _ _ _ _ Hin)), (Fb rb (in_combine_r _ _ _ _ Hin)). apply Nat.min_id.
  - intros i j x y. unfold entry. rewrite nth_error_map, combine_nth_error.
    destruct (nth_error a i); [|discriminate]. destruct (nth_error b i); [|discriminate]. intros Ex Ey. cbn.
    now rewrite nth_error_map, combine_nth_error, Ex, Ey.
  - now rewrite mzip_vv_spec.
  - now rewrite mzip_vr_spec.
  - now rewrite mzip_rv_spec.
  - rewrite mzip_rr_spec by assumption. rewrite <- (G (fun _ s => s) (fun _ s => s)), unwind_id. apply in_order_ext.
    intros p s0 _. symmetry. apply unwind_id.
Qed.
Print Assumptions C37_entrywise.
(** Abelian group laws. *)
Theorem C37_group :
  forall S T (c : cfg) (d : ety S T) (o : ops S T) (A : arith T) row col a b e (s : S),
  exact o A -> ring_laws A -> rect row col a -> rect row col b -> rect row col e -> row < W c -> col < W c ->
  let add := mzip_vv c d d d row col (o_add o) in
  let sub := mzip_vv c d d d row col (o_sub o) in
  let neg := mneg c d d row col (o_neg o) in
  let zero := mzero c d o row col in
  add a b s = add b a s /\
  (x <- add b e ;; add a x) s = (x <- add a b ;; add x e) s /\
  (z <- zero ;; add z a) s = (Ok a, s) /\
  (x <- neg a ;; add a x) s = zero s /\
  sub a b s = (x <- neg b ;; add a x) s.
Proof.
  intros S T c d o A row col a b e s E L Ra Rb Re H1 H2 add sub neg zero.
  pose proof (ex_semi _ _ E) as ES. pose proof (rg_semi _ L) as LS.
  assert (Add : forall x y s, rect row col x -> rect row col y -> add x y s = (Ok (m_add A row col x y), s)) by (intros; now apply addm).
  assert (Sub : forall x y s, rect row col x -> rect row col y -> sub x y s = (Ok (m_sub A row col x y), s)).
  { intros. apply sim_eqm. apply sim_mzip_vv; auto using Forall2_eq2. apply (exact_sim o A E). }
  assert (Neg : forall x s, rect row col x -> neg x s = (Ok (m_neg A row col x), s)).
  { intros. apply sim_eqm. apply sim_mneg; auto using Forall2_eq2. apply (exact_sim o A E). }
  assert (Zero : forall s, zero s = (Ok (m_zero A row col), s)).
  { intros s0. unfold zero, mzero. rewrite (mgenerate_pure _ _ _ _ _ (fun _ _ => a_zero A)); [reflexivity|].
    intros. unfold ret. now rewrite (ex_zero _ _ ES). }
  split; [|split; [|split; [|split]]].
  - rewrite !Add by assumption. now rewrite (m_add_comm A LS).
  - rewrite (bind_ok (Add b e s Rb Re)), (bind_ok (Add a b s Ra Rb)), !Add by (auto; apply mat_rect). now rewrite (m_add_assoc A LS).
  - rewrite (bind_ok (Zero s)), Add by (auto; apply mat_rect). now rewrite (m_add_zero_l A LS).
  - rewrite (bind_ok (Neg a s Ra)), Zero, Add by (auto; apply mat_rect). f_equal. f_equal. apply mat_ext'. intros i j Hi Hj.
    unfold m_neg. rewrite at2_mat by assumption. apply L.
  - rewrite (bind_ok (Neg b s Rb)), Sub, Add by (auto; apply mat_rect). f_equal. f_equal. apply mat_ext'. intros i j Hi Hj.
    unfold m_neg. rewrite at2_mat by assumption. apply L.
Qed.
Print Assumptions C37_group.
Example C37_ex : mzip_rr dbg ref_ety 2 2 (o_sub z_ops) [[1; 2]; [3; 4]]%Z [[10; 20]; [30; 50]]%Z tt = (Ok [[-9; -18]; [-27; -46]]%Z, tt).
Proof. vm_compute. reflexivity. Qed.

(** ** C38 *)
Theorem C38_product :
  forall S T (c : cfg) (d : ety S T) (o : ops S T) (A : arith T) l n r a b (s : S),
  exact_semi o A -> rect l n a -> rect n r b -> l < W c -> n < W c -> r < W c ->
  exists p, rect l r p /\
    (forall i j, i < l -> j < r -> entry p i j = Some (sum A n (fun k => a_mul A (at2 A a i k) (at2 A b k j)))) /\
    mmul_vv c d o l n r a b s = (Ok p, s) /\ mmul_vr c d o l n r a b s = (Ok p, s) /\
    mmul_rv c d o l n r a b s = (Ok p, s) /\ mmul_rr c d o l n r a b s = (Ok p, s).
Proof.
  intros S T c d o A l n r a b s E Ra Rb H1 H2 H3. exists (m_mul A l n r a b). pose proof (exact_sim_semi o A E) as E'.
  split; [apply mat_rect|]. split; [|repeat split; apply sim_eqm].
  - intros i j Hi Hj. destruct (entry_some l r (m_mul A l n r a b) i j (mat_rect _ _ _) Hi Hj) as (x & Ex). rewrite Ex. f_equal.
    rewrite <- (at2_entry A _ _ _ _ Ex). unfold m_mul. now rewrite at2_mat.
  - apply sim_mmul_vv; auto using Forall2_eq2.
  - apply sim_mmul_vr; auto using Forall2_eq2.
  - apply sim_mmul_rv; auto using Forall2_eq2.
  - apply sim_mmul_rr; auto using Forall2_eq2.
Qed.
Print Assumptions C38_product.
(** The forms agree whatever the element's [+] and [*] do (panic, side effects). *)
Theorem C38_forms_agree :
  forall S T (c : cfg) (d : ety S T) (o : ops S T) l n r a b (s : S),
  faithful (o_clone o) -> rect l n a -> rect n r b -> l < W c -> n < W c -> r < W c ->
  mmul_vr c d o l n r a b s = mmul_vv c d o l n r a b s /\
  mmul_rv c d o l n r a b s = mmul_vv c d o l n r a b s /\
  mmul_rr c d o l n r a b s = mmul_vv c d o l n r a b s.
Proof.
  intros S T c d o l n r a b s F Ra Rb H1 H2 H3.
  rewrite (mmul_vv_spec c d o l n r a b F Ra Rb H1 H2 H3 s), (mmul_vr_spec c d o l n r a b F Ra Rb H1 H2 H3 s),
    (mmul_rv_spec c d o l n r a b F Ra Rb H1 H2 H3 s), (mmul_rr_spec c d o l n r a b F Ra Rb H1 H2 H3 s).
  split; [|split]; reflexivity.
Qed.
Print Assumptions C38_forms_agree.
(** [a *= b]: the receiver becomes the product; if an operator panics it keeps its value. *)
Theorem C38_mul_assign :
  forall S T (c : cfg) (d : ety S T) (o : ops S T) n a b (s : S),
  faithful (o_clone o) -> rect n n a -> rect n n b -> n < W c ->
  mmul_assign c d o n b (a, s)
  = match mmul_vv c d o n n n a b s with
    | (Ok p, s') => (Ok tt, (p, s'))
    | (Panic, s') => (Panic, (a, s'))
    | (UB, s') => (UB, (a, s'))
    | (Diverge, s') => (Diverge, (a, s'))
    end.
Proof.
  intros S T c d o n a b s F Ra Rb HW. rewrite (mmul_assign_spec c d o n a b s F Ra Rb HW).
  now rewrite (mmul_vv_spec c d o n n n a b F Ra Rb HW HW HW s).
Qed.
Print Assumptions C38_mul_assign.
Example C38_ex : mmul_vv dbg ref_ety z_ops 2 3 2 [[1; 2; 3]; [4; 5; 6]]%Z [[1; 0]; [0; 1]; [1; 1]]%Z tt = (Ok [[4; 5]; [10; 11]]%Z, tt).
Proof. vm_compute. reflexivity. Qed.

(** ** C39 *)
Theorem C39_associative :
  forall S T (c : cfg) (d : ety S T) (o : ops S T) (A : arith T) l n p r a b e (s : S),
  exact_semi o A -> semiring A -> rect l n a -> rect n p b -> rect p r e ->
  l < W c -> n < W c -> p < W c -> r < W c ->
  (ab <- mmul_vv c d o l n p a b ;; mmul_vv c d o l p r ab e) s
  = (be <- mmul_vv c d o n p r b e ;; mmul_vv c d o l n r a be) s.
Proof.
  intros S T c d o A l n p r a b e s E L Ra Rb Re H1 H2 H3 H4.
  rewrite (bind_ok (mulm c d o A E l n p a b s Ra Rb H1 H2 H3)), (bind_ok (mulm c d o A E n p r b e s Rb Re H2 H3 H4)).
  rewrite !(mulm c d o A E) by (auto; apply mat_rect). now rewrite m_mul_assoc.
Qed.
Print Assumptions C39_associative.
Theorem C39_distributive :
  forall S T (c : cfg) (d : ety S T) (o : ops S T) (A : arith T) l n r a b e f (s : S),
  exact_semi o A -> semiring A -> rect l n a -> rect l n b -> rect n r e -> rect n r f ->
  l < W c -> n < W c -> r < W c ->
  (ef <- mzip_vv c d d d n r (o_add o) e f ;; mmul_vv c d o l n r a ef) s
    = (x <- mmul_vv c d o l n r a e ;; y <- mmul_vv c d o l n r a f ;; mzip_vv c d d d l r (o_add o) x y) s /\
  (ab <- mzip_vv c d d d l n (o_add o) a b ;; mmul_vv c d o l n r ab e) s
    = (x <- mmul_vv c d o l n r a e ;; y <- mmul_vv c d o l n r b e ;; mzip_vv c d d d l r (o_add o) x y) s.
Proof.
  intros S T c d o A l n r a b e f s E L Ra Rb Re Rf H1 H2 H3.
  split.
  - etransitivity; [eapply bind_run; [apply (addm c d o A E); assumption|]; apply (mulm c d o A E); auto; apply mat_rect|].
    symmetry. eapply bind_run; [apply (mulm c d o A E); assumption|]. eapply bind_run; [apply (mulm c d o A E); assumption|].
    rewrite (m_mul_add_r A L). apply (addm c d o A E); auto; apply mat_rect.
  - etransitivity; [eapply bind_run; [apply (addm c d o A E); assumption|]; apply (mulm c d o A E); auto; apply mat_rect|].
    symmetry. eapply bind_run; [apply (mulm c d o A E); assumption|]. eapply bind_run; [apply (mulm c d o A E); assumption|].
    rewrite (m_mul_add_l A L). apply (addm c d o A E); auto; apply mat_rect.
Qed.
Print Assumptions C39_distributive.
Theorem C39_scalar :
  forall S T (c : cfg) (d : ety S T) (o : ops S T) (A : arith T) l n r a b x (s : S),
  exact_semi o A -> semiring A -> rect l n a -> rect n r b -> l < W c -> n < W c -> r < W c ->
  let scale := fun row col => mscale c d row col (o_mul o) (o_clone o) in
  (bx <- scale n r b x ;; mmul_vv c d o l n r a bx) s = (p <- mmul_vv c d o l n r a b ;; scale l r p x) s /\
  (mul_comm A -> (ax <- scale l n a x ;; mmul_vv c d o l n r ax b) s = (p <- mmul_vv c d o l n r a b ;; scale l r p x) s).
Proof.
  intros S T c d o A l n r a b x s E L Ra Rb H1 H2 H3 scale. unfold scale.
  split; [|intros C].
  - etransitivity; [eapply bind_run; [apply (scalem c d o A E); assumption|]; apply (mulm c d o A E); auto; apply mat_rect|].
    symmetry. eapply bind_run; [apply (mulm c d o A E); assumption|].
    rewrite (m_mul_scale_r A L). apply (scalem c d o A E); auto; apply mat_rect.
  - etransitivity; [eapply bind_run; [apply (scalem c d o A E); assumption|]; apply (mulm c d o A E); auto; apply mat_rect|].
    symmetry. eapply bind_run; [apply (mulm c d o A E); assumption|].
    rewrite (m_mul_scale_l A L) by exact C. apply (scalem c d o A E); auto; apply mat_rect.
Qed.
Print Assumptions C39_scalar.
Example C39_ex : semiring z_arith /\ rect 2 3 [[1; 2; 3]; [4; 5; 6]]%Z.
Proof. split; [apply z_ring|repeat constructor]. Qed.

(** ** C40 *)
Theorem C40_product :
  forall S T (c : cfg) (d : ety S T) (o : ops S T) (A : arith T) row col m v (s : S),
  exact_semi o A -> rect row col m -> length v = col -> row < W c -> col < W c ->
  exists w, length w = row /\
    (forall i, i < row -> nth_error w i = Some (sum A col (fun k => a_mul A (at2 A m i k) (at1 A v k)))) /\
    mmulv c d o row col m v s = (Ok w, s) /\ mmulv_ref c d o row col m v s = (Ok w, s).
Proof.
  intros S T c d o A row col m v s E R Lv H1 H2. exists (m_mulv A row col m v). pose proof (exact_sim_semi o A E) as E'.
  split; [apply vec_length|]. split; [|split; apply sim_eqv].
  - intros i Hi. rewrite (nth_error_nth' _ (a_zero A)) by (unfold m_mulv; now rewrite vec_length). f_equal.
    exact (at1_vec A row (fun i => sum A col (fun k => a_mul A (at2 A m i k) (at1 A v k))) i Hi).
  - apply sim_mmulv; auto using Forall2_eq, Forall2_eq2.
  - apply sim_mmulv_ref; auto using Forall2_eq, Forall2_eq2.
Qed.
Print Assumptions C40_product.
Theorem C40_associative :
  forall S T (c : cfg) (d : ety S T) (o : ops S T) (A : arith T) l n p a b v (s : S),
  exact_semi o A -> semiring A -> rect l n a -> rect n p b -> length v = p ->
  l < W c -> n < W c -> p < W c ->
  (ab <- mmul_vv c d o l n p a b ;; mmulv c d o l p ab v) s
  = (bv <- mmulv c d o n p b v ;; mmulv c d o l n a bv) s.
Proof.
  intros S T c d o A l n p a b v s E L Ra Rb Lv H1 H2 H3.
  rewrite (bind_ok (mulm c d o A E l n p a b s Ra Rb H1 H2 H3)), (bind_ok (mulmv c d o A E n p b v s Rb Lv H2 H3)).
  rewrite !(mulmv c d o A E) by (auto; try apply mat_rect; apply vec_length). now rewrite m_mulv_assoc.
Qed.
Print Assumptions C40_associative.
Example C40_ex : mmulv dbg ref_ety z_ops 2 3 [[1; 2; 3]; [4; 5; 6]]%Z [1; 0; -1]%Z tt = (Ok [-2; -2]%Z, tt).
Proof. vm_compute. reflexivity. Qed.

(** ** C41 *)
Theorem C41_pow :
  forall S T (c : cfg) (d : ety S T) (o : ops S T) (A : arith T) n m e (s : S),
  exact_semi o A -> semiring A -> rect n n m -> n < W c ->
  mpow c d o n m e s = (Ok (m_pow A n m e), s).
Proof.
  intros S T c d o A n m e s E L R HW. rewrite <- pnum_pow_m by assumption.
  apply sim_eqm. apply sim_mpow; auto using Forall2_eq2, exact_sim_semi.
Qed.
Print Assumptions C41_pow.
(** pow(0) = identity, pow(e+1) = m * pow(e), pow(e+f) = pow(e) * pow(f), pow(e*f) = pow(pow(e), f). *)
Theorem C41_laws :
  forall S T (c : cfg) (d : ety S T) (o : ops S T) (A : arith T) n m e f (s : S),
  exact_semi o A -> semiring A -> rect n n m -> n < W c ->
  let pow := mpow c d o n in
  let mul := mmul_vv c d o n n n in
  pow m 0 s = midentity c d o n s /\
  pow m (Datatypes.S e) s = (x <- pow m e ;; mul m x) s /\
  pow m (e + f) s = (x <- pow m e ;; y <- pow m f ;; mul x y) s /\
  pow m (e * f) s = (x <- pow m e ;; pow x f) s.
Proof.
  intros S T c d o A n m e f s E L R HW pow mul.
  assert (P : forall x k s, rect n n x -> pow x k s = (Ok (m_pow A n x k), s)) by (intros; now apply C41_pow).
  split; [|split; [|split]].
  - rewrite (P m 0 s R). symmetry. apply (idm c d o A E).
  - rewrite (P m (Datatypes.S e) s R). symmetry. eapply bind_run; [apply P; exact R|].
    apply (mulm c d o A E); auto using m_pow_rect.
  - rewrite (P m (e + f) s R). symmetry. eapply bind_run; [apply P; exact R|]. eapply bind_run; [apply P; exact R|].
    rewrite (m_pow_add A L) by exact R. apply (mulm c d o A E); auto using m_pow_rect.
  - rewrite (P m (e * f) s R). symmetry. eapply bind_run; [apply P; exact R|].
    rewrite (m_pow_mul A L) by exact R. apply P. apply m_pow_rect.
Qed.
Print Assumptions C41_laws.
Example C41_ex : mpow dbg ref_ety z_ops 2 [[1; 1]; [1; 0]]%Z 10 tt = (Ok [[89; 55]; [55; 34]]%Z, tt).
Proof. vm_compute. reflexivity. Qed.
