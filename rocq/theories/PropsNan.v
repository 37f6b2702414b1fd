(** * PropsNan.v - C91: NaN (and, for +, - and *, infinity) is never lost. *)
From Coq Require Import List Arith Bool Lia ZArith.
From Flocq Require Import Core IEEE754.BinarySingleNaN.
From Verif Require Import Rust Iter Elem VectorM MatIterM MatrixM ArithM OpsM SpecCommon SpecAlg FloatM SpecNan Harness.
From Verif Require Import VecProofs MatProofs AccProofs Sim PropsAlg Algebra DetLoop OpsPure PropsFloat PropsCross NanProofs.
From Verif Require PropsFloatErr.
Import ListNotations.

(** ** Any element type with values that survive +, -, * and unary - *)
(** Sums and inner products with a bad component anywhere are bad. *)
Theorem C91_sums : forall S T (o : ops S T) (A : arith T) (bad : T -> Prop), exact o A -> sticky A bad ->
  (forall n v (s : S), length v = n -> some_bad bad v -> exists z, vsum o n v s = (Ok z, s) /\ bad z) /\
  (forall row col m (s : S), rect row col m -> some_bad2 bad m -> exists z, msum o row col m s = (Ok z, s) /\ bad z) /\
  (forall n a b (s : S), length a = n -> length b = n -> some_bad bad a \/ some_bad bad b -> exists z, vdot o n a b s = (Ok z, s) /\ bad z).
Proof.
  intros S T o A bad E H. repeat match goal with |- _ /\ _ => split end.
  - intros n v s L B. exists (v_sum A n v). split; [exact (sumv o A (ex_semi _ _ E) n v s L)|].
    destruct (bad_at1 A bad v B) as (i & Hi & Hb). unfold v_sum. apply sum_bad with i; [exact H|lia|exact Hb].
  - intros row col m s R B. exists (m_sum A row col m). split; [exact (summ o A (ex_semi _ _ E) row col m s R)|].
    destruct (bad_at2 A bad row col m R B) as (i & j & Hi & Hj & Hb). unfold m_sum. apply sum_bad with i; [exact H|exact Hi|]. now apply sum_bad with j.
  - intros n a b s La Lb B. exists (v_dot A n a b). split; [exact (dotv o A (ex_semi _ _ E) n a b s La Lb)|].
    destruct B as [B|B]; destruct (bad_at1 A bad _ B) as (i & Hi & Hb); unfold v_dot; (apply sum_bad with i; [exact H|lia|]); apply H; auto.
Qed.
Print Assumptions C91_sums.
(** Component [i] of a cross product depends on components [i+1] and [i+2] (cyclically) of both
    vectors. *)
Theorem C91_cross : forall S T (c : cfg) (o : ops S T) (A : arith T) (bad : T -> Prop), exact o A -> sticky A bad ->
  forall a b (s : S), length a = 3 -> length b = 3 ->
  exists z, vcross c o a b s = (Ok z, s) /\ length z = 3 /\
  forall i j, i < 3 -> j < 3 -> j <> i -> bad (at1 A a j) \/ bad (at1 A b j) -> bad (at1 A z i).
Proof.
  intros S T c o A bad E H a b s La Lb. exists (v_cross A a b). split; [now apply crossv|]. split; [apply vec_length|].
  intros i j Hi Hj Ne B. unfold v_cross. rewrite at1_vec by exact Hi.
  destruct i as [|[|[|i]]]; [| | |lia]; (destruct j as [|[|[|j]]]; [| | |lia]); try (now elim Ne); apply H; destruct B as [B|B];
    (right; apply H; auto; fail) || (left; apply H; auto; fail).
Qed.
Print Assumptions C91_cross.
(** Entry (i, j) of a product depends on row [i] of the left and column [j] of the right factor. *)
Theorem C91_products : forall S T (c : cfg) (d : ety S T) (o : ops S T) (A : arith T) (bad : T -> Prop), exact o A -> sticky A bad ->
  (forall l n r a b (s : S), rect l n a -> rect n r b -> l < W c -> n < W c -> r < W c ->
     exists p, mmul_vv c d o l n r a b s = (Ok p, s) /\ rect l r p /\
     forall i j k, i < l -> j < r -> k < n -> bad (at2 A a i k) \/ bad (at2 A b k j) -> bad (at2 A p i j)) /\
  (forall row col m v (s : S), rect row col m -> length v = col -> row < W c -> col < W c ->
     exists w, mmulv c d o row col m v s = (Ok w, s) /\ length w = row /\
     forall i k, i < row -> k < col -> bad (at2 A m i k) \/ bad (at1 A v k) -> bad (at1 A w i)).
Proof.
  intros S T c d o A bad E H. split.
  - intros l n r a b s Ra Rb Hl Hn Hr. exists (m_mul A l n r a b). split; [exact (mulm c d o A (ex_semi _ _ E) l n r a b s Ra Rb Hl Hn Hr)|].
    split; [apply mat_rect|]. intros i j k Hi Hj Hk B. unfold m_mul. rewrite at2_mat by assumption. apply sum_bad with k; [exact H|exact Hk|]. now apply H.
  - intros row col m v s R L Hr Hc. exists (m_mulv A row col m v). split; [exact (mulmv c d o A (ex_semi _ _ E) row col m v s R L Hr Hc)|].
    split; [apply vec_length|]. intros i k Hi Hk B. unfold m_mulv. rewrite at1_vec by assumption. apply sum_bad with k; [exact H|exact Hk|]. now apply H.
Qed.
Print Assumptions C91_products.
(** Every power but the zeroth of a matrix with a bad entry has one. *)
Theorem C91_pow : forall S T (c : cfg) (d : ety S T) (o : ops S T) (A : arith T) (bad : T -> Prop), exact o A -> sticky A bad ->
  forall n m e (s : S), rect n n m -> n < W c -> some_bad2 bad m -> 1 <= e ->
  exists p, mpow c d o n m e s = (Ok p, s) /\ rect n n p /\ some_bad2 bad p.
Proof.
  intros S T c d o A bad E H n m e s R HW B He.
  set (Q := fun (x : list (list T)) (b : bool) => rect n n x /\ (b = true -> some_bad2 bad x)).
  assert (HC : forall x b, Q x b -> sim false Q (mclone c d (o_clone o) n n x) b).
  { intros x b Hx s0. left. exists x. split; [|exact Hx]. apply mclone_id; [apply Hx|apply (ex_clone _ _ (ex_semi _ _ E))]. }
  assert (K : sim false Q (mpow c d o n m e) (pnum_pow orb false true e)).
  { unfold mpow. eapply sim_bind; [apply (HC m true); split; auto|]. intros m' Hm'. apply sim_num_pow; [|exact HC| |exact Hm'].
    - intros x y bx b_y [Rx Bx] [Ry By] s0. left. exists (m_mul A n n n x y). split; [exact (mulm c d o A (ex_semi _ _ E) n n n x y s0 Rx Ry HW HW HW)|].
      split; [apply mat_rect|]. intros Hor. apply orb_true_iff in Hor. destruct Hor as [Hb|Hb]; [specialize (Bx Hb)|specialize (By Hb)].
      + destruct (bad_at2 A bad n n x Rx Bx) as (i & j & Hi & Hj & HB). apply (at2_bad A bad n n _ i i (mat_rect _ _ _) Hi Hi).
        unfold m_mul. rewrite at2_mat by assumption. apply sum_bad with j; [exact H|exact Hj|]. apply H. now left.
      + destruct (bad_at2 A bad n n y Ry By) as (i & j & Hi & Hj & HB). apply (at2_bad A bad n n _ j j (mat_rect _ _ _) Hj Hj).
        unfold m_mul. rewrite at2_mat by assumption. apply sum_bad with i; [exact H|exact Hi|]. apply H. now right.
    - intros s0. left. exists (m_id A n). split; [exact (idm c d o A (ex_semi _ _ E) n s0)|]. split; [apply mat_rect|discriminate]. }
  destruct (K s) as [(p & E1 & Rp & Bp)|(? & _)]; [|discriminate]. exists p. split; [exact E1|]. split; [exact Rp|]. apply Bp.
  rewrite (pnum_pow_spec orb false (fun _ => True)); auto; [|intros; now rewrite orb_assoc|intros x _; apply orb_false_r].
  destruct e; [lia|]. reflexivity.
Qed.
Print Assumptions C91_pow.

(** ** ... and division, and are not zero *)
(** The determinant of a matrix of any size with a bad entry is bad; a cofactor is if the entry is
    outside the row and column left out. *)
Theorem C91_determinant : forall S T (c : cfg) (d : ety S T) (o : ops S T) (A : arith T) dv (bad : T -> Prop),
  exact o A -> pure2 (o_div o) dv -> sticky A bad -> sticky_div dv (o_is_zero o) bad ->
  forall n m (s : S), 1 <= n <= 32 -> rect n n m ->
  (some_bad2 bad m -> exists x, det c d o n m s = (Ok x, s) /\ bad x) /\
  (forall i j p q, 2 <= n -> i < n -> j < n -> p < n -> q < n -> p <> i -> q <> j -> bad (at2 A m p q) ->
     exists x, cofactor c d o n m (i, j) s = (Ok x, s) /\ bad x).
Proof.
  intros S T c d o A dv bad E HD H H2 n m s Hn R. pose proof (W_big c) as HW. split.
  - intros B. eexists. split; [apply (det_p A dv (o_is_zero o) c d o E HD); auto; lia|].
    destruct (bad_at2 A bad n n m R B) as (i & j & Hi & Hj & HB). now apply p_det_bad with i j.
  - intros i j p q Hn2 Hi Hj Hp Hq Np Nq B. eexists. split; [apply (cofactor_p A dv (o_is_zero o) c d o E HD); auto; lia|].
    now apply p_cof_bad with p q.
Qed.
Print Assumptions C91_determinant.
(** An inverse of a matrix with a bad entry: up to size 3 it is returned and all its entries are
    bad; above that it is refused or has a bad entry. *)
Theorem C91_inverse : forall S T (c : cfg) (d : ety S T) (o : ops S T) (A : arith T) dv (bad : T -> Prop),
  exact o A -> pure2 (o_div o) dv -> sticky A bad -> sticky_div dv (o_is_zero o) bad ->
  forall n m (s : S), 1 <= n -> rect n n m -> some_bad2 bad m ->
  (n <= 3 -> exists x, inverse c d o n m s = (Ok (Some x), s) /\ rect n n x /\ all_bad2 bad x) /\
  (4 <= n -> inverse c d o n m s = (Ok None, s) \/ exists x, inverse c d o n m s = (Ok (Some x), s) /\ rect n n x /\ some_bad2 bad x).
Proof.
  intros S T c d o A dv bad E HD H H2 n m s Hn R B. destruct (bad_at2 A bad n n m R B) as (i & j & Hi & Hj & HB).
  pose proof (inverse_p A dv (o_is_zero o) c d o E HD (fun _ => eq_refl) n m s Hn R) as I. split; intros Hs.
  - destruct (p_inverse_small_bad A bad H dv (o_is_zero o) H2 n m i j) as (x & Ex & Bx); auto. exists x. rewrite I, Ex. split; [reflexivity|]. split; [|exact Bx].
    destruct n as [|[|[|[|n]]]]; try lia; cbn [p_inverse] in Ex; cbv zeta in Ex;
      (match type of Ex with (if ?b then _ else _) = _ => destruct b end; [discriminate|]); injection Ex as <-; (split; [reflexivity|repeat constructor]).
  - rewrite I. assert (EB : p_inverse A dv (o_is_zero o) n m = p_inv_big A dv (o_is_zero o) n m) by (destruct n as [|[|[|[|n]]]]; try lia; reflexivity).
    rewrite EB. destruct (p_inv_big A dv (o_is_zero o) n m) as [x|] eqn:Ex; [right|now left]. exists x. split; [reflexivity|].
    assert (Rx : rect n n x) by exact (p_inv_rect A dv (o_is_zero o) n m x R Ex). split; [exact Rx|].
    destruct (p_inv_big_bad A bad H dv (o_is_zero o) H2 n m i j x Hi Hj HB Ex) as (p & q & Hp & Hq & Hb). exact (at2_bad A bad _ _ x p q Rx Hp Hq Hb).
Qed.
Print Assumptions C91_inverse.

(** ** f32 and f64 *)
Definition nan {t} (x : float t) : Prop := is_nan x = true.
Definition not_finite {t} (x : float t) : Prop := is_finite x = false.
(** NaN survives all operators and is not zero; infinities and NaN together survive +, - and *
    (dividing by an infinity gives zero). *)
Theorem C91_float : forall (t : float_type) S,
  exact (S:=S) (float_ops t) (float_arith t) /\ pure2 (S:=S) (o_div (float_ops t)) (Bdiv mode_NE) /\
  sticky (float_arith t) nan /\ sticky_div (Bdiv mode_NE) (o_is_zero (float_ops t (S:=S))) nan /\
  sticky (float_arith t) not_finite.
Proof.
  intros t S. unfold nan, not_finite. pose proof (fl_exact (S:=S) (fprec t) (femax t) _ _) as [E1 E2].
  split; [exact E1|]. split; [exact E2|]. split; [|split].
  - split; [| | |intros []; cbn; auto]; intros x y [H|H]; destruct x; try discriminate; destruct y; try discriminate; reflexivity.
  - split; [intros x y [H|H]; destruct x; try discriminate; destruct y; try discriminate; reflexivity|]. intros x; destruct x; try discriminate; reflexivity.
  - split; [| | |intros []; cbn; auto]; intros x y [H|H]; destruct x; try discriminate; destruct y; try discriminate; cbn; try reflexivity;
      repeat match goal with |- context [if ?b then _ else _] => destruct b end; reflexivity.
Qed.
Print Assumptions C91_float.
(** The norm of a vector with a NaN is NaN, and of one with an infinity or a NaN not finite;
    normalising a vector with a NaN makes every component NaN. *)
Theorem C91_norm : forall (t : float_type) S (n : nat) v (s : S), length v = n ->
  exists z, vnorm (float_fops t) n v s = (Ok z, s) /\ (some_bad nan v -> nan z) /\ (some_bad not_finite v -> not_finite z) /\
  forall (c : cfg) (d : ety S (float t)), n < W c -> some_bad nan v ->
  exists w, vnormalized c d (float_fops t) n v s = (Ok w, s) /\ length w = n /\ Forall nan w.
Proof.
  intros t S n v s L. destruct (C91_float t S) as (_ & _ & H1 & [H2 _] & H3).
  set (q := sum (float_arith t) n (fun i => a_mul (float_arith t) (at1 (float_arith t) v i) (at1 (float_arith t) v i))).
  assert (E : vnorm (float_fops t) n v s = (Ok (Bsqrt mode_NE q), s)) by exact (PropsFloatErr.norm_run64 S n v s L).
  assert (N1 : some_bad nan v -> nan (Bsqrt mode_NE q)).
  { intros B. destruct (bad_at1 (float_arith t) nan v B) as (i & Hi & Hb).
    assert (Q : nan q) by (apply (sum_bad _ _ H1 n _ i); [lia|]; apply H1; now left). unfold nan in *. destruct q; try discriminate. reflexivity. }
  exists (Bsqrt mode_NE q). split; [exact E|]. split; [exact N1|]. split.
  - intros B. destruct (bad_at1 (float_arith t) not_finite v B) as (i & Hi & Hb).
    assert (Q : not_finite q) by (apply (sum_bad _ _ H3 n _ i); [lia|]; apply H3; now left). unfold not_finite in *. destruct q as [|[]| |]; try discriminate; reflexivity.
  - intros c d HW B. exists (map (fun e => Bdiv mode_NE e (Bsqrt mode_NE q)) v). split; [|split].
    + unfold vnormalized, bind. rewrite VecProofs.vclone_spec by assumption. rewrite (VecProofs.in_order_pure _ (fun e => e)) by reflexivity.
      rewrite map_id, E. rewrite VecProofs.vscale_spec by assumption. rewrite (VecProofs.unwind_pure _ _ (fun e => Bdiv mode_NE e (Bsqrt mode_NE q))); reflexivity.
    + now rewrite map_length.
    + apply Forall_map, Forall_forall. intros x _. apply H2. right. exact (N1 B).
Qed.
Print Assumptions C91_norm.
(** A 4 x 4 matrix with one NaN, whose first column is zero (so that the determinant falls back to
    cofactors and the inverse is refused); a 2 x 2 matrix; infinity divided away. *)
Definition z64 : float F64 := B754_zero false.
Definition o64 : float F64 := Bone.
Definition m91 : list (list (float F64)) := [[z64; o64; o64; o64]; [z64; o64; z64; o64]; [z64; z64; o64; B754_nan]; [z64; o64; o64; z64]].
Example C91_ex :
  (exists x, det dbg (log_ety (T:=float F64)) (float_ops F64) 4 m91 [] = (Ok x, []) /\ is_nan x = true) /\
  inverse rel (log_ety (T:=float F64)) (float_ops F64) 4 m91 [] = (Ok None, []) /\
  (exists x, inverse rel (log_ety (T:=float F64)) (float_ops F64) 2 [[o64; B754_nan]; [z64; o64]] [] = (Ok (Some x), []) /\ all_bad2 (nan (t:=F64)) x) /\
  Bdiv mode_NE o64 (B754_infinity false) = z64.
Proof.
  split; [|split; [|split]].
  - destruct (C91_float F64 (list (float F64))) as (E1 & E2 & H1 & H2 & _).
    destruct (C91_determinant _ _ dbg (log_ety (T:=float F64)) (float_ops F64) (float_arith F64) _ (nan (t:=F64)) E1 E2 H1 H2 4 m91 []) as [H _]; [lia|repeat constructor|].
    apply H. apply Exists_cons_tl, Exists_cons_tl, Exists_cons_hd. now apply Exists_cons_tl, Exists_cons_tl, Exists_cons_tl, Exists_cons_hd.
  - vm_compute. reflexivity.
  - destruct (C91_float F64 (list (float F64))) as (E1 & E2 & H1 & H2 & _).
    destruct (C91_inverse _ _ rel (log_ety (T:=float F64)) (float_ops F64) (float_arith F64) _ (nan (t:=F64)) E1 E2 H1 H2 2 [[o64; B754_nan]; [z64; o64]] []) as [H _]; [lia|repeat constructor| |].
    + apply Exists_cons_hd. now apply Exists_cons_tl, Exists_cons_hd.
    + destruct H as (x & H & _ & B); [lia|]. exists x. split; [exact H|exact B].
  - reflexivity.
Qed.
