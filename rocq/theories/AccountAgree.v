(** * AccountAgree.v - ScopeM.v agrees with NumM.v for elements whose drop does nothing. *)
From Coq Require Import List Arith Bool Lia.
From Verif Require Import Rust Iter Elem VectorM MatIterM MatrixM ArithM OpsM NumM ScopeM SpecCommon IterProofs OwnProofs VecProofs MatProofs AccProofs OpsPure PropsOrder PropsOrder2 PropsOrder3 PropsNum PropsNum2.
Import ListNotations.
Section Agree.
Context {S T : Type} (c : cfg) (d : ety S T) (z : zops S T).
Hypothesis ND : forall x s, e_drop d x s = s.
Let o := z_ops z.
Lemma bind_ext {A B} (m m' : M S A) (k k' : A -> M S B) : (forall s, m s = m' s) -> (forall a s, k a s = k' a s) -> forall s, bind m k s = bind m' k' s.
Proof using Type. intros Hm Hk s. unfold bind. rewrite Hm. destruct (m' s) as [[a| | |] s1]; auto. Qed.
Lemma bind_ret {A} (m : M S A) s : bind m ret s = m s.
Proof using Type. unfold bind, ret. destruct (m s) as [[a| | |] s1]; reflexivity. Qed.
Lemma nd_list l s : drop_all d l s = s.
Proof using ND. unfold drop_all. revert s. induction l as [|x l IH]; intros s; cbn; [reflexivity|]. now rewrite ND. Qed.
Lemma nd_rows l s : drop_all (vec_ety d) l s = s.
Proof using ND. unfold drop_all at 1. revert s. induction l as [|x l IH]; intros s; cbn; [reflexivity|]. now rewrite nd_list. Qed.
Lemma skip_val {B} x (k k' : M S B) : (forall s, k s = k' s) -> forall s, (drop_val d x ;;; k) s = k' s.
Proof using ND. intros E s. unfold bind, drop_val. now rewrite ND. Qed.
Lemma skip_vec {B} x (k k' : M S B) : (forall s, k s = k' s) -> forall s, (drop_vec d x ;;; k) s = k' s.
Proof using ND. intros E s. unfold bind, drop_vec. now rewrite nd_list. Qed.
Lemma skip_mat {B} x (k k' : M S B) : (forall s, k s = k' s) -> forall s, (drop_mat d x ;;; k) s = k' s.
Proof using ND. intros E s. unfold bind, drop_mat. now rewrite nd_rows. Qed.
Lemma skip_last {A} (m m' : M S A) (k : A -> M S A) : (forall s, m s = m' s) -> (forall a s, k a s = ret a s) -> forall s, bind m k s = m' s.
Proof using Type. intros Hm Hk s. rewrite <- (bind_ret m'). now apply bind_ext. Qed.
Lemma store_agrees (m : list (list T)) ij x s : store d m ij x s = mindex_set m ij x s.
Proof using ND.
  destruct ij as [i j]. unfold store, mindex_set, mindex, bind, drop_val, vindex, slice_index, slice_assign, as_slice.
  destruct (nth_error m i) as [r|] eqn:E; [|reflexivity]. destruct (nth_error r j) as [y|] eqn:E2.
  - unfold ret. cbv beta iota. rewrite E2. cbv beta iota. rewrite ND. reflexivity.
  - unfold ret, panic. cbv beta iota. rewrite E2. cbv beta iota. destruct (Nat.ltb_spec j (length r)) as [L|L]; [|reflexivity]. apply nth_error_None in E2. lia.
Qed.
Lemma for_n_agrees {St} (b b' : nat -> St -> M S St) : (forall i st s, b i st s = b' i st s) -> forall k i st s, for_n k i b st s = for_n k i b' st s.
Proof using Type.
  intros E. induction k as [|k IH]; intros i st s; cbn [for_n]; [reflexivity|]. apply bind_ext; [intros; apply E|]. intros; apply IH.
Qed.
Lemma for_n_ret_agrees {St R} (b b' : nat -> St -> M S (St + R)) : (forall i st s, b i st s = b' i st s) -> forall k i st s, for_n_ret k i b st s = for_n_ret k i b' st s.
Proof using Type.
  intros E. induction k as [|k IH]; intros i st s; cbn [for_n_ret]; [reflexivity|]. apply bind_ext; [intros; apply E|]. intros [st'|v] s'; [apply IH|reflexivity].
Qed.
Ltac bx := apply bind_ext; [try (intros; reflexivity)|intros ? ?].
Lemma vscale_agrees n op v k s : vscale_s c d z n op v k s = vscale c d d n op (o_clone o) v k s.
Proof using ND. unfold vscale_s. apply skip_last; [reflexivity|]. intros; now apply skip_val. Qed.
Lemma mscale_agrees row col op m k s : rect row col m -> row < W c ->
  mscale_s c d z row col op m k s = mscale c d row col op (o_clone o) m k s.
Proof using ND.
  intros R HW. unfold mscale_s. apply skip_last; [|intros; now apply skip_val]. clear s. intros s. unfold mscale.
  rewrite !collect_map_owned by (apply R || assumption). apply unwind_ext; [|reflexivity]. intros r s0 _.
  apply bind_ext; [reflexivity|]. intros; apply vscale_agrees.
Qed.
Lemma mmul_vv_agrees l n r a b s : mmul_vv_s c d z l n r a b s = mmul_vv_z c d z l n r a b s.
Proof using ND. unfold mmul_vv_s. apply skip_last; [reflexivity|]. intros. apply skip_mat. intros. now apply skip_mat. Qed.
Lemma pow_loop1_agrees n fuel : forall base e s,
  pow_loop1 (mmul_vv_s c d z n n n) (mclone c d (o_clone o) n n) fuel base e s =
  pow_loop1 (mmul_vv_z c d z n n n) (mclone c d (o_clone o) n n) fuel base e s.
Proof using ND.
  induction fuel as [|fuel IH]; intros base e s; cbn [pow_loop1]; [reflexivity|]. destruct (Nat.even e); [|reflexivity].
  bx. bx; [intros; apply mmul_vv_agrees|]. apply IH.
Qed.
Lemma pow_loop2_agrees n fuel : forall base acc e s,
  pow_loop2_s c d z n fuel base acc e s =
  pow_loop2 (mmul_vv_z c d z n n n) (mclone c d (o_clone o) n n) fuel base acc e s.
Proof using ND.
  induction fuel as [|fuel IH]; intros base acc e s; cbn [pow_loop2_s pow_loop2]; destruct (1 <? e); try reflexivity.
  - now apply skip_mat.
  - bx. bx; [intros; apply mmul_vv_agrees|]. bx; [|apply IH]. intros t1. destruct (Nat.odd (Nat.div2 e)); [|reflexivity].
    apply bind_ext; [reflexivity|]. intros; apply mmul_vv_agrees.
  - now apply skip_mat.
Qed.
Lemma mpow_agrees n m e s : mpow_s c d z n m e s = mpow_z c d z n m e s.
Proof using ND.
  unfold mpow_s, mpow_z, num_pow. bx. destruct (e =? 0).
  - apply skip_last; [reflexivity|]. intros. now apply skip_mat.
  - apply bind_ext; [intros; apply pow_loop1_agrees|]. intros [b e'] t1. destruct (e' =? 1); [reflexivity|]. bx. apply pow_loop2_agrees.
Qed.
Lemma elim_row_agrees n i j dd m s : elim_row_s d z n i j dd m s = elim_row o n i j dd m s.
Proof using ND. unfold elim_row_s, elim_row, for_range. apply for_n_agrees. intros k st t0. do 5 bx. apply store_agrees. Qed.
Lemma det_big_agrees n m cof cof' s : (forall p s, cof p s = cof' p s) -> det_big_s c d z n m cof s = det_big_z c d z n m cof' s.
Proof using ND.
  intros E. unfold det_big_s, det_big_z. bx. bx.
  - intros t0. unfold for_range_ret. apply for_n_ret_agrees. intros i st t1. apply for_n_ret_agrees. clear st t1. intros j st t1.
    bx. bx. destruct a1.
    + apply bind_ext.
      * intros t4. unfold expand_col0_z. rewrite !fold_from_order. apply bind_ext; [reflexivity|]. intros t t5. apply fold_in_order_ext'. intros b k t6 _.
        apply bind_ext; [|reflexivity]. intros t7. bx. apply bind_ext; [intros; apply E|reflexivity].
      * intros. now apply skip_mat.
    + do 3 bx. apply bind_ext; [intros; apply elim_row_agrees|]. intros. now apply skip_val.
  - destruct a0 as [m'|v]; [|reflexivity]. apply skip_last; [reflexivity|]. intros. now apply skip_mat.
Qed.
Lemma cof3_agrees m ij s : cof3_s c d z m ij s = cof3_z c d z m ij s.
Proof using ND.
  destruct ij as [i j]. unfold cof3_s, cof3_z. bx. bx. bx. bx. apply skip_last; [reflexivity|]. intros. now apply skip_mat.
Qed.
Lemma cof_big_agrees n det1 det2 m ij s : (forall a s, det1 a s = det2 a s) -> cof_big_s c d z n det1 m ij s = cof_big_z c d z n det2 m ij s.
Proof using ND.
  intros E. destruct ij as [i j]. unfold cof_big_s, cof_big_z. bx. bx. bx. bx; [intros; apply E|]. apply skip_last; [reflexivity|]. intros. now apply skip_mat.
Qed.
Lemma det_agrees n : forall m s, det_s c d z n m s = det_z c d z n m s.
Proof using ND.
  induction n as [|n IH]; intros m s; [reflexivity|]. destruct n as [|[|[|n]]]; [reflexivity..|].
  change (det_big_s c d z (4 + n) m (cof_big_s c d z (4 + n) (det_s c d z (3 + n)) m) s = det_big_z c d z (4 + n) m (cof_big_z c d z (4 + n) (det_z c d z (3 + n)) m) s).
  apply det_big_agrees. intros p t0. apply cof_big_agrees. exact IH.
Qed.
Lemma cofactor_agrees n m ij s : cofactor_s c d z n m ij s = cofactor_z c d z n m ij s.
Proof using ND.
  destruct n as [|[|[|[|n]]]]; try reflexivity; [apply cof3_agrees|]. apply cof_big_agrees. intros; apply det_agrees.
Qed.
Lemma new_agrees {B} n rows (k k' : list (list T) -> M S B) : rect n n rows -> n < W c -> (forall s, k rows s = k' rows s) ->
  forall s, bind (mnew c d n rows) k s = bind (mnew c d n rows) k' s.
Proof using Type. intros R HW E s. unfold bind. rewrite mnew_spec by (apply R || exact HW). apply E. Qed.
Lemma scale_rows_agrees n i r mi s : scale_rows_s d z n i r mi s = scale_rows o n i r mi s.
Proof using ND.
  unfold scale_rows_s, scale_rows, for_range. apply for_n_agrees. intros k st t0. do 3 bx. bx; [intros; apply store_agrees|].
  do 3 bx. bx; [intros; apply store_agrees|]. reflexivity.
Qed.
Lemma elim_rows_agrees n i j a mi s : elim_rows_s d z n i j a mi s = elim_rows o n i j a mi s.
Proof using ND.
  unfold elim_rows_s, elim_rows, for_range. apply for_n_agrees. intros k st t0. do 5 bx. bx; [intros; apply store_agrees|].
  do 5 bx. bx; [intros; apply store_agrees|]. reflexivity.
Qed.
Lemma inverse_agrees n m s : inverse_s c d z n m s = inverse_z c d z n m s.
Proof using ND.
  pose proof (W_big c). destruct n as [|[|[|[|n]]]]; [reflexivity|..].
  - cbn [inverse_s inverse_z]. unfold inv1_s, inv1_z. bx. bx. destruct a0; [now apply skip_val|reflexivity].
  - cbn [inverse_s inverse_z]. unfold inv2_s, inv2_z. bx. bx. destruct a0; [now apply skip_val|]. do 6 bx.
    apply new_agrees; [now repeat constructor|lia|]. intros t9. apply bind_ext; [|reflexivity].
    intros; apply mscale_agrees; [now repeat constructor|lia].
  - cbn [inverse_s inverse_z]. unfold inv3_s, inv3_z. bx. bx. destruct a0; [now apply skip_val|]. cbv zeta. do 9 bx.
    apply new_agrees; [now repeat constructor|lia|]. intros t9. apply bind_ext; [|reflexivity].
    intros; apply mscale_agrees; [now repeat constructor|lia].
  - cbn [inverse_s inverse_z]. unfold inv_big_s, inv_big_z. bx. bx. bx.
    + intros t0. unfold for_range_ret. apply for_n_ret_agrees. intros i st t1. bx. bx. destruct a2.
      * apply skip_val. intros. apply skip_mat. intros. now apply skip_mat.
      * do 2 bx. bx; [intros; apply scale_rows_agrees|]. bx.
        -- intros t2. unfold for_range. apply for_n_agrees. intros j st' s'. destruct (i =? j); [reflexivity|]. bx.
           apply skip_last; [intros; apply elim_rows_agrees|]. intros. now apply skip_val.
        -- now apply skip_val.
    + destruct a1 as [mi|v]; [|reflexivity]. now apply skip_mat.
Qed.
End Agree.
