(** * PropsNum2.v - C102 continued: determinant, cofactor, inverse, diag and pow when zero, one and
    [is_zero] of the element type may do anything. *)
From Coq Require Import List Arith Bool Lia.
From Verif Require Import Rust Iter Elem VectorM MatIterM MatrixM ArithM OpsM NumM SpecCommon SpecAlg Harness IterProofs OwnProofs VecProofs MatProofs AccProofs Sim DetLoop OpsPure PropsOrder PropsOrder2 PropsOrder3 PropsNum.
Import ListNotations.

(** The steps of PropsOrder3.v, with the calls of [is_zero()], [one()] and [zero()]. *)
(** The square matrix of the results of the calls [f i j], made row by row ([e] is never used). *)
Definition filled {S T} (e : T) (n : nat) (f : nat -> nat -> M S T) : M S (nat -> nat -> T) :=
  m <- in_order (fun i => in_order (fun j => f i j) (seq 0 n)) (seq 0 n) ;;
  ret (fun i j => nth j (nth i m []) e).
Section Spec.
Context {S T : Type} (z : zops S T) (n : nat).
Let o := z_ops z.
Fixpoint below_z (l : list (nat * nat)) (x : nat -> nat -> T) (back : M S T) : M S T :=
  match l with
  | [] => t <- z_one z ;; fold_in_order (fun acc i => v <- o_clone o (x i i) ;; o_mul o acc v) (seq 0 n) t
  | (i, j) :: l =>
      flat <- z_is_zero z (x i i) ;;
      if flat : bool then back
      else a <- o_clone o (x j i) ;; b <- o_clone o (x i i) ;; q <- o_div o a b ;;
           x <- sub_row o n x i j q ;; below_z l x back
  end.
Fixpoint columns_z (l : list nat) (xy : (nat -> nat -> T) * (nat -> nat -> T)) : M S (option (list (list T))) :=
  match l with
  | [] => ret (Some (table n (snd xy)))
  | i :: l =>
      p <- o_clone o (fst xy i i) ;;
      flat <- z_is_zero z p ;;
      if flat : bool then ret None
      else u <- z_one z ;; r <- o_div o u p ;;
           xy <- scale_both o n i r xy ;;
           xy <- fold_in_order (fun xy j => t <- o_clone o (fst xy j i) ;; sub_both o n i j t xy)
                   (List.filter (fun j => negb (j =? i)) (seq 0 n)) xy ;;
           columns_z l xy
  end.
Definition sign_of_z (i j : nat) : M S T := if Nat.even (i + j) then z_one z else (u <- z_one z ;; o_neg o u).
End Spec.

Section Big.
Context {S T : Type} (c : cfg) (d : ety S T) (z : zops S T).
Let o := z_ops z.
Lemma mgenerate_filled n (f : nat -> nat -> M S T) s :
  mgenerate c d n n (fun '(i, j) => f i j) s = (y <- filled (o_zero o) n f ;; ret (mat n n y)) s.
Proof.
  rewrite mgenerate_nested. unfold filled, bind, ret. cbv beta iota.
  destruct (in_order _ (seq 0 n) s) as [[m'| | |] s1] eqn:E1; try reflexivity.
  apply (rect_in_order (fun i j => f i j) n n) in E1; [|apply seq_length].
  do 2 f_equal. symmetry. exact (mat_at2 (any_arith (o_zero o)) n n m' E1).
Qed.
Lemma fold_from_order (h : nat -> M S T) (op : T -> T -> M S T) n init s :
  fold_from (Datatypes.S n) (imap h (range 0 n)) init op s =
  (t <- init ;; fold_in_order (fun acc k => v <- h k ;; op acc v) (seq 0 n) t) s.
Proof.
  rewrite (fold_from_gives _ _ _ _ _ s (imap_ret_gives h _ _ _ (range_gives (S:=S) 0 n))).
  unfold bind. destruct (init s) as [[t| | |] s1]; try reflexivity. apply fold_order.
Qed.
Lemma diag_order_z n x s :
  fold_from (Datatypes.S n) (imap (fun i => ix o (mat n n x) i i) (range 0 n)) (z_one z) (o_mul o) s = below_z z n [] x panic s.
Proof.
  rewrite fold_from_order. cbn [below_z]. unfold bind at 1 3. destruct (z_one z s) as [[t| | |] s1]; try reflexivity.
  apply fold_in_order_ext'. intros b i s0 Hi. apply in_seq in Hi. unfold bind. now rewrite ix_run by lia.
Qed.
Lemma expand_order_z n x (cof : nat * nat -> M S T) s : 0 < n ->
  expand_col0_z z n (mat n n x) cof s = summing (z_zero z) (o_add o) (fun i => a <- o_clone o (x i 0) ;; q <- cof (i, 0) ;; o_mul o a q) (seq 0 n) s.
Proof.
  intros Hn. unfold expand_col0_z. rewrite fold_from_order. unfold summing. unfold bind at 1 5. destruct (z_zero z s) as [[t| | |] s1]; try reflexivity.
  apply fold_in_order_ext'. intros b i s0 Hi. apply in_seq in Hi.
  unfold bind. fold o. rewrite ix_run by lia. destruct (o_clone o (x i 0) s0) as [[a| | |] s2]; try reflexivity.
Qed.

Section Det.
Variables (n : nat) (back : M S T).
Let body (i j : nat) (mm : list (list T)) : M S (list (list T) + T) :=
  piv <- mindex mm (i, i) ;;
  flat <- z_is_zero z piv ;;
  if flat : bool then v <- back ;; ret (inr v)
  else a <- ix o mm j i ;; b <- ix o mm i i ;; dd <- o_div o a b ;; mat' <- elim_row o n i j dd mm ;; ret (inl mat').
Let finish (F : list (list T) -> M S T) (r : list (list T) + T) : M S T := match r with inl st => F st | inr v => ret v end.
Lemma body_order_z i j y s : i < n -> j < n ->
  body i j (mat n n y) s =
  (flat <- z_is_zero z (y i i) ;;
   if flat : bool then v <- back ;; ret (inr v)
   else a <- o_clone o (y j i) ;; b <- o_clone o (y i i) ;; q <- o_div o a b ;; x <- sub_row o n y i j q ;; ret (inl (mat n n x))) s.
Proof using.
  intros Hi Hj. unfold body, bind at 1. rewrite (mindex_in _ i i (y i i)) by (now apply entry_mat).
  unfold bind. destruct (z_is_zero z (y i i) s) as [[[|]| | |] s0]; try reflexivity.
  rewrite ix_run by lia. destruct (o_clone o (y j i) s0) as [[a| | |] s1]; try reflexivity.
  rewrite ix_run by lia. destruct (o_clone o (y i i) s1) as [[b| | |] s2]; try reflexivity.
  destruct (o_div o a b s2) as [[q| | |] s3]; try reflexivity. rewrite elim_row_order by lia. unfold bind, ret.
  destruct (sub_row o n y i j q s3) as [[x| | |] s4]; reflexivity.
Qed.
Lemma inner_order_z i rest F : i < n -> (forall y s, F (mat n n y) s = below_z z n rest y back s) ->
  forall k lo y s, lo + k <= n ->
  (r <- for_n_ret k lo (body i) (mat n n y) ;; finish F r) s = below_z z n (map (fun j => (i, j)) (seq lo k) ++ rest) y back s.
Proof using.
  intros Hi HF. induction k as [|k IH]; intros lo y s Hk; cbn [for_n_ret seq map app]; [apply HF|].
  cbn [below_z]. unfold bind at 1 2. rewrite body_order_z by lia. unfold bind, ret.
  destruct (z_is_zero z (y i i) s) as [[[|]| | |] s0]; try reflexivity.
  - destruct (back s0) as [[v| | |] s1]; reflexivity.
  - fold o.
    destruct (o_clone o (y lo i) s0) as [[a| | |] s1]; try reflexivity.
    destruct (o_clone o (y i i) s1) as [[b| | |] s2]; try reflexivity. destruct (o_div o a b s2) as [[q| | |] s3]; try reflexivity.
    destruct (sub_row o n y i lo q s3) as [[x| | |] s4]; try reflexivity.
    rewrite <- (Nat.add_1_r lo). rewrite <- IH by lia. reflexivity.
Qed.
Lemma outer_order_z F : (forall y s, F (mat n n y) s = below_z z n [] y back s) ->
  forall k lo y s, lo + k <= n ->
  (r <- for_n_ret k lo (fun i mm => for_range_ret (i + 1) n (body i) mm) (mat n n y) ;; finish F r) s
  = below_z z n (flat_map (fun i => map (fun j => (i, j)) (seq (i + 1) (n - (i + 1)))) (seq lo k)) y back s.
Proof using.
  intros HF. induction k as [|k IH]; intros lo y s Hk; cbn [for_n_ret seq flat_map]; [apply HF|].
  rewrite <- (inner_order_z lo _ (fun mm => r <- for_n_ret k (lo + 1) (fun i mm => for_range_ret (i + 1) n (body i) mm) mm ;; finish F r)); [|lia| |lia].
  - unfold for_range_ret, bind, finish, ret.
    destruct (for_n_ret (n - (lo + 1)) (lo + 1) (body lo) (mat n n y) s) as [[[mm|v]| | |] s1]; reflexivity.
  - intros y' s'. rewrite <- (Nat.add_1_r lo). apply IH. lia.
Qed.
End Det.
Lemma below_ext_z n (b1 b2 : M S T) : (forall s, b1 s = b2 s) -> forall l x s, below_z z n l x b1 s = below_z z n l x b2 s.
Proof.
  intros H. induction l as [|[i j] l IH]; intros x s; cbn [below_z]; [reflexivity|]. unfold bind. fold o.
  destruct (z_is_zero z (x i i) s) as [[[|]| | |] s0]; try reflexivity; [apply H|].
  destruct (o_clone o (x j i) s0) as [[a| | |] s1]; try reflexivity. destruct (o_clone o (x i i) s1) as [[b| | |] s2]; try reflexivity.
  destruct (o_div o a b s2) as [[q| | |] s3]; try reflexivity. destruct (sub_row o n x i j q s3) as [[y| | |] s4]; try reflexivity. apply IH.
Qed.
Lemma det_big_order_z n m x (cof : nat * nat -> M S T) s : entries n m x -> 0 < n ->
  det_big_z c d z n m cof s =
  (y <- cloned_all o n x ;; below_z z n (below_diagonal n) y
     (summing (z_zero z) (o_add o) (fun i => a <- o_clone o (x i 0) ;; q <- cof (i, 0) ;; o_mul o a q) (seq 0 n))) s.
Proof.
  intros H Hn. unfold det_big_z. unfold bind at 1. fold o. rewrite (mclone_order c d o n m x s H). unfold bind, ret.
  destruct (cloned_all o n x s) as [[y| | |] s1]; try reflexivity.
  rewrite <- (below_ext_z n (expand_col0_z z n m cof)).
  - pose proof (outer_order_z n (expand_col0_z z n m cof) (fun mm => fold_from (Datatypes.S n) (imap (fun i => ix o mm i i) (range 0 n)) (z_one z) (o_mul o))
      (fun y s => diag_order_z n y s) n 0 y s1 (Nat.le_refl n)) as E.
    unfold below_diagonal. rewrite <- E. unfold for_range_ret at 1. rewrite Nat.sub_0_r. reflexivity.
  - intros s2. rewrite (entries_mat n m x H). now apply expand_order_z.
Qed.

(** ** Inverse *)
Lemma columns_order_z n : forall k lo xy s, lo + k <= n ->
  (r <- for_n_ret k lo (fun i mi =>
         dd <- ix o (fst mi) i i ;;
         flat <- z_is_zero z dd ;;
         if flat : bool then ret (inr tt)
         else
           u <- z_one z ;;
           rcp <- o_div o u dd ;;
           mi1 <- scale_rows o n i rcp mi ;;
           mi2 <- for_range 0 n (fun j mi => if i =? j then ret mi else a <- ix o (fst mi) j i ;; elim_rows o n i j a mi) mi1 ;;
           ret (inl mi2)) (both n xy) ;;
   match r with inr _ => ret None | inl mi => ret (Some (snd mi)) end) s
  = columns_z z n (seq lo k) xy s.
Proof.
  induction k as [|k IH]; intros lo xy s Hk; cbn [for_n_ret seq columns_z]; [reflexivity|].
  unfold bind, ret. cbn [both fst snd]. fold o. rewrite ix_run by lia. destruct (o_clone o (fst xy lo lo) s) as [[p| | |] s1]; try reflexivity.
  destruct (z_is_zero z p s1) as [[[|]| | |] s1']; try reflexivity. destruct (z_one z s1') as [[u| | |] s1'']; try reflexivity.
  destruct (o_div o u p s1'') as [[r| | |] s2]; try reflexivity.
  fold (both n xy). rewrite scale_rows_order by lia. unfold bind at 1, ret.
  destruct (scale_both o n lo r xy s2) as [[xy1| | |] s3]; try reflexivity.
  pose proof (rows_loop_order o n lo xy1 s3 ltac:(lia)) as E. unfold bind, ret in E. rewrite E.
  destruct (fold_in_order _ (List.filter _ _) xy1 s3) as [[xy2| | |] s4]; try reflexivity.
  rewrite <- (Nat.add_1_r lo), <- IH by lia. unfold bind, ret. reflexivity.
Qed.
Lemma inv_big_order_z n m x s : entries n m x ->
  inv_big_z c d z n m s =
  (y <- cloned_all o n x ;; e <- filled (o_zero o) n (fun i j => if i =? j then z_one z else z_zero z) ;;
   columns_z z n (seq 0 n) (y, e)) s.
Proof.
  intros H. unfold inv_big_z. unfold bind, ret. fold o. rewrite (mclone_order c d o n m x s H). unfold bind, ret.
  destruct (cloned_all o n x s) as [[y| | |] s1]; try reflexivity.
  unfold midentity_z. rewrite (mgenerate_filled n (fun i j => if i =? j then z_one z else z_zero z)). unfold bind, ret.
  destruct (filled _ n _ s1) as [[e| | |] s2]; try reflexivity.
  unfold for_range_ret. rewrite Nat.sub_0_r.
  exact (columns_order_z n n 0 (y, e) s2 (Nat.le_refl n)).
Qed.
Lemma sign_order_z i j s : i + j < W c -> cof_sign_z c z i j s = sign_of_z z i j s.
Proof.
  intros H. unfold cof_sign_z, usz_add, sign_of_z, bind. destruct (Nat.ltb_spec (i + j) (W c)); [|lia]. unfold ret at 1.
  replace (Nat.even (i + j)) with ((i + j) mod 2 =? 0); [reflexivity|].
  destruct (Nat.even (i + j)) eqn:E.
  - apply Nat.even_spec in E. destruct E as [q ->]. rewrite Nat.mul_comm, Nat.mod_mul by lia. reflexivity.
  - apply (f_equal negb) in E. rewrite Nat.negb_even in E. cbn in E. apply Nat.odd_spec in E. destruct E as [q ->].
    rewrite Nat.add_comm, Nat.mul_comm, Nat.mod_add by lia. reflexivity.
Qed.
End Big.

(** [is_zero()] once per row eliminated, [one()] once for the product of the diagonal, [zero()] once for
    the expansion; up to size 3 (C70_determinant) none of them. *)
Theorem C102_determinant : forall S T (c : cfg) (d : ety S T) (z : zops S T) n m (x : nat -> nat -> T) (s : S),
  entries n m x -> let o := z_ops z in
  (1 <= n <= 3 -> det_z c d z n m s = det c d o n m s) /\
  (4 <= n -> det_z c d z n m s =
    (y <- cloned_all o n x ;;
     below_z z n (below_diagonal n) y
       (summing (z_zero z) (o_add o) (fun i => a <- o_clone o (x i 0) ;; q <- cofactor_z c d z n m (i, 0) ;; o_mul o a q) (seq 0 n))) s).
Proof.
  intros S T c d z n m x s H o. split; intros Hn.
  - destruct n as [|[|[|[|n']]]]; try lia; reflexivity.
  - destruct n as [|[|[|[|n']]]]; [lia..|].
    exact (det_big_order_z c d z _ m x (cofactor_z c d z (Datatypes.S (Datatypes.S (Datatypes.S (Datatypes.S n')))) m) s H (Nat.lt_0_succ _)).
Qed.
Print Assumptions C102_determinant.
Theorem C102_cofactor : forall S T (c : cfg) (d : ety S T) (z : zops S T) n m (x : nat -> nat -> T) i j (s : S),
  2 <= n -> n + n <= W c -> entries n m x -> i < n -> j < n -> let o := z_ops z in
  cofactor_z c d z n m (i, j) s =
  match n with
  | 2 => (g <- sign_of_z z i j ;; a <- o_clone o (x (1 - i) (1 - j)) ;; o_mul o g a) s
  | 3 => (g <- sign_of_z z i j ;; p <- minor_of o 3 i j x ;; e <- det_z c d z 2 p ;; o_mul o g e) s
  | _ => (p <- minor_of o n i j x ;; g <- sign_of_z z i j ;; e <- det_z c d z (n - 1) p ;; o_mul o g e) s
  end.
Proof.
  intros S T c d z n m x i j s Hn HW H Hi Hj o. destruct n as [|[|[|[|n']]]]; [lia|lia| | |].
  - cbn [cofactor_z]. unfold cof2_z, bind. rewrite sign_order_z by lia. destruct (sign_of_z z i j s) as [[g| | |] s1]; try reflexivity.
    unfold usz_sub. destruct (Nat.leb_spec i 1); [|lia]. destruct (Nat.leb_spec j 1); [|lia]. unfold ret.
    rewrite (entries_mat 2 m x H), ix_run by lia. reflexivity.
  - cbn [cofactor_z det_z]. unfold cof3_z, bind. rewrite (proj2 (Nat.ltb_lt i 3)), (proj2 (Nat.ltb_lt j 3)) by assumption. cbn [andb assert]. unfold ret at 1.
    rewrite sign_order_z by lia. destruct (sign_of_z z i j s) as [[g| | |] s1]; try reflexivity.
    rewrite (submatrix_order c d _ 3 m x i j s1 H) by (assumption || lia). reflexivity.
  - unfold cofactor_z, cof_big_z, bind. rewrite (proj2 (Nat.ltb_lt i _)), (proj2 (Nat.ltb_lt j _)) by eassumption. cbn [andb assert]. unfold ret at 1.
    rewrite (submatrix_order c d _ _ m x i j s H) by (assumption || lia). set (k := Datatypes.S (Datatypes.S (Datatypes.S n'))).
    replace (Datatypes.S k - 1) with k by lia. fold o.
    destruct (minor_of o (Datatypes.S k) i j x s) as [[p| | |] s1]; try reflexivity. rewrite sign_order_z by (unfold k; lia). reflexivity.
Qed.
Print Assumptions C102_cofactor.
(** [is_zero()] on the determinant and, from size 4, on every pivot; then [one()] just before it is
    divided by the pivot; from size 4 the identity is made of calls of [one()] and [zero()]. *)
Theorem C102_inverse : forall S T (c : cfg) (d : ety S T) (z : zops S T) n m (x : nat -> nat -> T) (s : S),
  entries n m x -> let o := z_ops z in
  let by_adjugate n e_det e_adj :=
    dt <- eval o x e_det ;;
    flat <- z_is_zero z dt ;;
    if flat : bool then ret None
    else adj <- in_order (fun r => in_order (eval o x) r) e_adj ;;
         q <- mscale c d n n (o_div o) (o_clone o) adj dt ;; ret (Some q) in
  (n = 1 -> inverse_z c d z n m s =
    (e <- eval o x (At 0 0) ;; flat <- z_is_zero z e ;;
     if flat : bool then ret None else u <- z_one z ;; q <- o_div o u e ;; ret (Some [[q]])) s) /\
  (n = 2 -> inverse_z c d z n m s = by_adjugate 2 e_det2 e_adj2 s) /\
  (n = 3 -> inverse_z c d z n m s = by_adjugate 3 e_det3 e_adj3 s) /\
  (4 <= n -> inverse_z c d z n m s =
    (y <- cloned_all o n x ;; e <- filled (o_zero o) n (fun i j => if i =? j then z_one z else z_zero z) ;;
     columns_z z n (seq 0 n) (y, e)) s).
Proof.
  intros S T c d z n m x s H o by_adjugate. pose proof (W_big c) as HW.
  split; [|split; [|split]]; [intros -> ..|intros Hn].
  - cbn [inverse_z]. unfold inv1_z, eval, bind. rewrite (idx_run c _ 1 m x 0 0 s H) by lia. fold o. split1 (o_clone o (x 0 0) s).
    split1 (z_is_zero z a s0). destruct a0; [reflexivity|]. split1 (z_one z s1). split1 (o_div o a0 a s2). now rewrite mnew_spec by (reflexivity || lia).
  - destruct (C70_determinant S T c d o m x s) as (_ & D & _). specialize (D H). cbn [det] in D.
    cbn [inverse_z]. unfold inv2_z, by_adjugate, bind. fold o. rewrite D. split1 (eval o x e_det2 s). split1 (z_is_zero z a s0). destruct a0; [reflexivity|].
    unfold e_adj2, in_order, eval, bind. walk ltac:(rewrite (fun i j s => idx_run c o 2 m x i j s H) by lia).
    now rewrite mnew_spec by (reflexivity || lia).
  - destruct (C70_determinant S T c d o m x s) as (_ & _ & D). specialize (D H). cbn [det] in D.
    cbn [inverse_z]. unfold inv3_z, by_adjugate, bind. fold o. rewrite D. split1 (eval o x e_det3 s). split1 (z_is_zero z a s0). destruct a0; [reflexivity|].
    unfold e_adj3, ms, in_order, eval, bind. walk ltac:(rewrite (fun i j s => idx_run c o 3 m x i j s H) by lia).
    now rewrite mnew_spec by (reflexivity || lia).
  - destruct n as [|[|[|[|n']]]]; [lia..|]. exact (inv_big_order_z c d z _ m x s H).
Qed.
Print Assumptions C102_inverse.
