(** * PropsNum.v - C102: zero, one, the bounds and [is_zero] of the element type may do anything. *)
From Coq Require Import List Arith Bool Lia.
From Verif Require Import Rust Iter Elem VectorM MatIterM MatrixM ArithM OpsM NumM SpecCommon SpecAlg Harness IterProofs OwnProofs VecProofs MatProofs AccProofs Sim DetLoop OpsPure PropsOrder PropsOrder2 PropsOrder3.
Import ListNotations.

(** Element operations whose zero and one are constants and whose [is_zero] is a pure function, as in
    the theorems on VectorM.v, MatrixM.v, ArithM.v and OpsM.v. *)
Definition constants {S T} (o : ops S T) : zops S T :=
  Zops o (ret (o_zero o)) (ret (o_one o)) (fun x => ret (o_is_zero o x)).
(** The functions of NumM.v are then those. *)
Theorem C102_agrees : forall S T (c : cfg) (d : ety S T) (o : ops S T), let z := constants o in
  (forall n, vzero_z c d z n = vzero c d o n) /\ (forall n v, vis_zero_z z n v = vis_zero o n v) /\
  (forall n b, vbounded_z c d n (ret b) = vbounded c d n b) /\
  (forall n a b, vdot_z z n a b = vdot o n a b) /\ (forall n v, vsum_z z n v = vsum o n v) /\
  (forall (f : fops S T) n v, vnorm_z (constants (f_ops f)) (f_powi2 f) (f_sqrt f) n v = vnorm f n v) /\
  (forall row col, mzero_z c d z row col = mzero c d o row col) /\
  (forall row col m, mis_zero_z z row col m = mis_zero o row col m) /\
  (forall row col b, mbounded_z c d (ret b) row col = mbounded c d b row col) /\
  (forall n, midentity_z c d z n = midentity c d o n) /\
  (forall row col k e s, mdiag_z c d z row col k e s = mdiag c d o row col k e s) /\
  (forall row col m, msum_z z row col m = msum o row col m) /\
  (forall l n r a b, mmul_vv_z c d z l n r a b = mmul_vv c d o l n r a b /\ mmul_vr_z c d z l n r a b = mmul_vr c d o l n r a b /\
     mmul_rv_z c d z l n r a b = mmul_rv c d o l n r a b /\ mmul_rr_z c d z l n r a b = mmul_rr c d o l n r a b) /\
  (forall n b, mmul_assign_z c d z n b = mmul_assign c d o n b) /\
  (forall row col m v, mmulv_z c d z row col m v = mmulv c d o row col m v /\ mmulv_ref_z c d z row col m v = mmulv_ref c d o row col m v) /\
  (forall n m e, mpow_z c d z n m e = mpow c d o n m e) /\
  (forall n m, det_z c d z n m = det c d o n m) /\
  (forall n m ij, cofactor_z c d z n m ij = cofactor c d o n m ij) /\
  (forall n m, inverse_z c d z n m = inverse c d o n m).
Proof.
  intros S T c d o z. repeat match goal with |- _ /\ _ => split end; intros; repeat split; try reflexivity.
  unfold mdiag_z, mdiag. rewrite !mgenerate_nested.
  rewrite (in_order_ext _ (fun i => in_order (fun j => if i =? j then x <- ii_next_fn c d k ;; unwrap x else ret (o_zero o)) (seq 0 col)));
    [reflexivity|].
  intros i [ii s0] _. apply in_order_ext. intros j [ii1 s1] _. now destruct (i =? j).
Qed.
Print Assumptions C102_agrees.

(** ** Sums and products *)
(** [zero()], then the terms in turn, each added when it is there. *)
Definition summing {S T X} (zero : M S T) (add : T -> T -> M S T) (term : X -> M S T) (l : list X) : M S T :=
  t <- zero ;; fold_in_order (fun acc x => u <- term x ;; add acc u) l t.

Lemma fold_from_gives {S A B} fuel (it : iter S A) l (init : M S B) f s : gives it l nodrop ->
  fold_from fuel it init f s = (b <- init ;; fold fuel it b f) s.
Proof.
  intros G. unfold fold_from, bind. destruct (init s) as [[b| | |] s1]; try reflexivity.
  rewrite (oos_eq it (fun s => s)); [reflexivity|]. intros s2. now rewrite (gives_drop _ _ _ G).
Qed.
Lemma summing_gives {S T X} (z : zops S T) fuel (it : iter S T) (term : X -> M S T) l s :
  gives it (map term l) nodrop -> length l < fuel ->
  fold_from fuel it (z_zero z) (o_add (z_ops z)) s = summing (z_zero z) (o_add (z_ops z)) term l s.
Proof.
  intros G HF. rewrite (fold_from_gives _ _ _ _ _ s G). unfold summing, bind.
  destruct (z_zero z s) as [[b| | |] s1]; try reflexivity.
  unfold fold. rewrite (for_each_gives _ _ _ _ _ _ s1 G) by now rewrite map_length.
  now rewrite foldm_in_order, fold_in_order_map.
Qed.

Theorem C102_constants : forall S T (c : cfg) (d : ety S T) (z : zops S T) (bound : M S T) n row col (s : S),
  let all (f : nat -> nat -> M S T) row col := in_order (fun i => in_order (fun j => f i j) (seq 0 col)) (seq 0 row) in
  vzero_z c d z n s = in_order (fun _ => z_zero z) (seq 0 n) s /\
  vbounded_z c d n bound s = in_order (fun _ => bound) (seq 0 n) s /\
  mzero_z c d z row col s = all (fun _ _ => z_zero z) row col s /\
  mbounded_z c d bound row col s = all (fun _ _ => bound) row col s /\
  midentity_z c d z n s = all (fun i j => if i =? j then z_one z else z_zero z) n n s.
Proof.
  intros S T c d z bound n row col s all. repeat split.
  - apply vgenerate_spec.
  - apply vgenerate_spec.
  - apply (mgenerate_nested c d row col (fun _ => z_zero z)).
  - apply (mgenerate_nested c d row col (fun _ => bound)).
  - apply (mgenerate_nested c d n n (fun '(i, j) => if i =? j then z_one z else z_zero z)).
Qed.
Print Assumptions C102_constants.
(** The element after the first that is not zero is not looked at. *)
Theorem C102_is_zero : forall S T (z : zops S T) n v row col m (s : S),
  length v = n -> rect row col m ->
  vis_zero_z z n v s = all_in_order (z_is_zero z) v s /\
  mis_zero_z z row col m s = all_in_order (z_is_zero z) (concat m) s.
Proof.
  intros S T z n v row col m s L R.
  assert (V : forall n v s, length v = n -> vis_zero_z z n v s = all_in_order (z_is_zero z) v s).
  { intros n0 v0 s0 L0. unfold vis_zero_z, viter. rewrite (iall_gives _ _ _ _ _ s0 (slice_iter_gives v0)) by (rewrite map_length; unfold as_slice; lia).
    apply allm_all. }
  split; [now apply V|]. unfold mis_zero_z, viter, as_slice.
  rewrite (iall_gives _ _ _ _ _ s (slice_iter_gives m)) by (rewrite map_length; destruct R; lia). rewrite allm_all.
  clear L. destruct R as [_ F]. revert s. induction F as [|r m Lr F IH]; intros s; cbn [all_in_order concat]; [reflexivity|].
  pose proof (V col r s Lr) as E. unfold vis_zero_z, viter, as_slice in E. rewrite E. clear E.
  assert (A : forall l s, all_in_order (z_is_zero z) (l ++ concat m) s =
    match all_in_order (z_is_zero z) l s with (Ok true, s') => all_in_order (z_is_zero z) (concat m) s' | (r, s') => (r, s') end).
  { induction l as [|x l IHl]; intros s0; cbn [all_in_order app]; [reflexivity|].
    destruct (z_is_zero z x s0) as [[[|]| | |] s1]; try reflexivity. apply IHl. }
  rewrite A. destruct (all_in_order (z_is_zero z) r s) as [[[|]| | |] s1]; try reflexivity. apply IH.
Qed.
Print Assumptions C102_is_zero.
(** The sum of a matrix calls [zero()] once for itself, then once for every row. *)
Theorem C102_sums : forall S T (z : zops S T) (s : S),
  let sum {X} (term : X -> M S T) l := summing (z_zero z) (o_add (z_ops z)) term l in
  let clone := o_clone (z_ops z) in
  (forall n v, length v = n -> vsum_z z n v s = sum clone v s) /\
  (forall row col m, rect row col m -> msum_z z row col m s = sum (fun r => sum clone r) m s) /\
  (forall n a b, length a = n -> length b = n ->
     vdot_z z n a b s = sum (fun p => x <- clone (fst p) ;; y <- clone (snd p) ;; o_mul (z_ops z) x y) (combine a b) s) /\
  (forall powi2 sqrt n v, length v = n ->
     vnorm_z z powi2 sqrt n v s = (q <- sum (fun x => y <- clone x ;; powi2 y) v ;; sqrt q) s).
Proof.
  intros S T z s sum clone.
  assert (V : forall n v s, length v = n -> vsum_z z n v s = summing (z_zero z) (o_add (z_ops z)) clone v s).
  { intros n v s0 L. unfold vsum_z. apply summing_gives; [|unfold as_slice in *; lia].
    exact (imap_ret_gives _ _ _ _ (slice_iter_gives v)). }
  repeat match goal with |- _ /\ _ => split end.
  - intros; now apply V.
  - intros row col m R. unfold msum_z.
    pose proof (imap_ret_gives (vsum_z z col) _ _ _ (slice_iter_gives (S:=S) m)) as G.
    apply (gives_ext _ _ (map (fun r => sum T clone r) m)) in G; [apply summing_gives; [exact G|destruct R; lia]|].
    apply Forall2_map_map. intros r Hin s0. apply V. eapply rect_row; eauto.
  - intros n a b La Lb. unfold vdot_z. apply summing_gives; [|rewrite combine_length; lia].
    pose proof (zip_gives ref_ety (cloned clone (viter a)) (cloned clone (viter b)) _ _ nodrop nodrop
     (imap_ret_gives clone _ _ _ (slice_iter_gives a)) (imap_ret_gives clone _ _ _ (slice_iter_gives b))
     ltac:(unfold as_slice; rewrite !map_length; congruence) ltac:(reflexivity) ltac:(right; reflexivity)) as G.
    rewrite combine_map, map_map in G. apply (imap_gives (fun p => o_mul (z_ops z) (fst p) (snd p))) in G. rewrite map_map in G.
    eapply gives_ext; [|exact G]. apply Forall2_map_map. intros [x y] _ s0.
    unfold pairm, bind, ret; cbn. destruct (clone x s0) as [[u| | |] s1]; try reflexivity. destruct (clone y s1) as [[w| | |] s2]; reflexivity.
  - intros powi2 sqrt n v L. unfold vnorm_z. unfold bind at 1 3.
    rewrite (summing_gives z (Datatypes.S n) _ (fun x => y <- clone x ;; powi2 y) v s); [reflexivity| |unfold as_slice in *; lia].
    pose proof (imap_gives powi2 _ _ _ (imap_ret_gives clone _ _ _ (slice_iter_gives v))) as G. now rewrite map_map in G.
Qed.
Print Assumptions C102_sums.

(** Every entry of a product calls [zero()] when it is its turn. *)
Theorem C102_matrix_product : forall S T (c : cfg) (d : ety S T) (z : zops S T) l n r a b (s : S),
  rect l n a -> rect n r b -> l < W c -> n < W c -> r < W c ->
  let sum term lrow j := summing (z_zero z) (o_add (z_ops z)) term (combine lrow (col_of b j)) in
  let by_value := row_major r (sum (term_cloned d (z_ops z))) a in
  let by_ref := row_major r (sum (term_left (z_ops z))) a in
  mmul_vv_z c d z l n r a b s = by_value s /\ mmul_rv_z c d z l n r a b s = by_value s /\
  mmul_vr_z c d z l n r a b s = by_ref s /\ mmul_rr_z c d z l n r a b s = by_ref s.
Proof.
  intros S T c d z l n r a b s Ra Rb H1 H2 H3 sum bv br. set (o := z_ops z) in *.
  assert (EC : forall lrow j s, length lrow = n -> j < r ->
    entry_cloned_z c d z n r b lrow (j, Cursor 0 n) s = sum (term_cloned d o) lrow j s).
  { intros lrow j s0 L Hj. unfold entry_cloned_z. apply summing_gives; [|rewrite combine_length; lia].
    exact (dot_gives d o (slice_iter lrow) (cin_iter c n r b (j, Cursor 0 n)) lrow (col_of b j)
      (slice_iter_gives lrow) (cin_gives c n r b j Rb Hj H2) ltac:(now rewrite (col_of_length n r) by assumption)). }
  assert (ER : forall lrow j s, length lrow = n -> j < r ->
    entry_ref_z c d z n r b lrow (j, Cursor 0 n) s = sum (term_left o) lrow j s).
  { intros lrow j s0 L Hj. unfold entry_ref_z. apply summing_gives; [|rewrite combine_length; lia].
    pose proof (zip_gives d (cloned (o_clone o) (slice_iter lrow)) (cin_iter c n r b (j, Cursor 0 n)) _ _ nodrop nodrop
       (imap_ret_gives (o_clone o) _ _ _ (slice_iter_gives lrow)) (cin_gives c n r b j Rb Hj H2)
       ltac:(rewrite !map_length; now rewrite (col_of_length n r) by assumption) ltac:(reflexivity) ltac:(right; reflexivity)) as G.
    rewrite combine_map, map_map in G. apply (imap_gives (fun p => o_mul o (fst p) (snd p))) in G. rewrite map_map in G.
    eapply gives_ext; [|exact G]. apply Forall2_map_map. intros [x y] _ s1.
    unfold term_left, pairm, bind, ret; cbn. destruct (o_clone o x s1) as [[u| | |] s2]; reflexivity. }
  assert (V : mmul_vv_z c d z l n r a b s = bv s) by (apply (mmul_order c d l n r a b); auto).
  assert (R : mmul_vr_z c d z l n r a b s = br s) by (apply (mmul_order c d l n r a b); auto).
  split; [exact V|]. split; [exact V|]. split; [exact R|exact R].
Qed.
Print Assumptions C102_matrix_product.
Theorem C102_mul_assign : forall S T (c : cfg) (d : ety S T) (z : zops S T) n a b (s : S),
  rect n n a -> rect n n b -> n < W c ->
  mmul_assign_z c d z n b (a, s)
  = match row_major n (fun lrow j => summing (z_zero z) (o_add (z_ops z)) (term_cloned d (z_ops z)) (combine lrow (col_of b j))) a s with
    | (Ok p, s') => (Ok tt, (p, s'))
    | (Panic, s') => (Panic, (a, s'))
    | (UB, s') => (UB, (a, s'))
    | (Diverge, s') => (Diverge, (a, s'))
    end.
Proof.
  intros S T c d z n a b s Ra Rb HW.
  destruct (C102_matrix_product S T c d z n n n a b s Ra Rb HW HW HW) as (E & _). cbv zeta in E. rewrite <- E.
  unfold mmul_assign_z, mmul_vv_z, bind, self, lift. cbn.
  destruct (mmul_z c d n n n (entry_cloned_z c d z n n) a b s) as [[p| | |] s']; reflexivity.
Qed.
Print Assumptions C102_mul_assign.
(** [m * &v] owns its rows: if [zero()] panics, the current row and the remaining ones are dropped. *)
Definition summing_owned {S T} (d : ety S T) (zero : M S T) (o : ops S T) (l : list (T * T)) : M S T :=
  fun s => match zero s with
           | (Ok t, s') => running_sum_owned d o l t s'
           | (Panic, s') => (Panic, fold_left (fun s x => e_drop d x s) (map fst l) s')
           | (r, s') => (r, s')
           end.
Theorem C102_matrix_vector : forall S T (c : cfg) (d : ety S T) (z : zops S T) row col (m : list (list T)) v (s : S),
  rect row col m -> length v = col -> row < W c -> col < W c ->
  mmulv_z c d z row col m v s
  = in_order (fun r => summing (z_zero z) (o_add (z_ops z)) (term_right_first (z_ops z)) (combine r v)) m s /\
  mmulv_ref_z c d z row col m v s
  = in_order_unwind (fold_left (fun s r => fold_left (fun s x => e_drop d x s) r s))
      (fun r => summing_owned d (z_zero z) (z_ops z) (combine r v)) m s.
Proof.
  intros S T c d z row col m v s R Lv HW HW2. set (o := z_ops z). split.
  - unfold mmulv_z. rewrite (from_iter_gives _ _ row _ _ _ s (imap_ret_gives _ _ _ _ (rr_gives c row m (proj1 R) HW))).
    2:{ rewrite map_length. apply R. }
    rewrite seqm_in_order. apply in_order_ext. intros r s0 Hin. pose proof (rect_row _ _ _ _ R Hin) as Lr.
    pose proof (zip_gives ref_ety (slice_iter r) (cloned (o_clone o) (viter v)) _ _ nodrop nodrop
       (slice_iter_gives r) (imap_ret_gives (o_clone o) _ _ _ (slice_iter_gives v))
       ltac:(unfold as_slice; rewrite !map_length; congruence) ltac:(reflexivity) ltac:(right; reflexivity)) as G.
    rewrite combine_map, map_map in G.
    apply (imap_gives (fun p => a <- o_clone o (fst p) ;; o_mul o a (snd p))) in G. rewrite map_map in G.
    apply summing_gives; [|rewrite combine_length; lia].
    eapply gives_ext; [|exact G]. apply Forall2_map_map. intros [x y] _ s1.
    unfold term_right_first, pairm, bind, ret; cbn. destruct (o_clone o y s1) as [[u| | |] s2]; reflexivity.
  - unfold mmulv_ref_z. rewrite collect_map_owned by (apply R || assumption).
    apply unwind_ext; [|reflexivity]. intros r s0 Hin. pose proof (rect_row _ _ _ _ R Hin) as Lr. fold o.
    pose proof (zip_gives d (into_it c d col r) (viter v) _ _ (fun k => drop_all d (lastn k r)) nodrop
       (into_it_gives c d col r Lr HW2) (slice_iter_gives v)
       ltac:(rewrite !map_length; congruence) ltac:(intros s1; cbn beta; now rewrite lastn_0) ltac:(right; reflexivity)) as G.
    rewrite combine_map, map_map in G.
    apply (imap_gives (fun p => o_mul o (fst p) (snd p))) in G. rewrite map_map in G.
    unfold fold_from, summing_owned. destruct (z_zero z s0) as [[t| | |] s1]; try reflexivity.
    + unfold fold. rewrite (for_each_gives _ _ _ _ _ _ s1 G); [|rewrite map_length, combine_length; lia].
      clear G. revert s1 t.
      assert (H : forall pre l s0 z, combine r v = pre ++ l ->
        foldm (map (fun x : T * T => a <- pairm d (ret (fst x)) (ret (snd x)) ;; o_mul o (fst a) (snd a)) l)
          (fun k s => nodrop k (drop_all d (lastn k r) s)) z (o_add o) s0 = running_sum_owned d o l z s0).
      { intros pre l. revert pre. induction l as [|[x y] l IH]; intros pre s1 u E; cbn.
        - now rewrite lastn_0.
        - assert (EL : lastn (length l) r = map fst l).
          { rewrite <- (map_fst_combine r v) by congruence. rewrite E, map_app. cbn.
            replace (map fst pre ++ x :: map fst l) with ((map fst pre ++ [x]) ++ map fst l) by now rewrite <- app_assoc.
            rewrite <- (map_length fst l). apply lastn_app. }
          unfold bind, pairm, ret. cbn. rewrite map_length, EL.
          destruct (o_mul o x y s1) as [[t| | |] s2]; try reflexivity.
          destruct (o_add o u t s2) as [[t'| | |] s3]; try reflexivity.
          apply (IH (pre ++ [(x, y)])). now rewrite <- app_assoc. }
      intros s1 t. apply (H []). reflexivity.
    + rewrite (oos_eq _ _ _ _ (gives_drop _ _ _ G)). do 2 f_equal.
      rewrite map_length, combine_length, Lv, Lr, Nat.min_id, map_fst_combine by congruence.
      assert (E : lastn col r = r) by (rewrite <- Lr; apply lastn_all). unfold nodrop. now rewrite E.
Qed.
Print Assumptions C102_matrix_vector.
