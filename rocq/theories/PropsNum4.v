(** * PropsNum4.v - C102 continued: [diag] when [T::zero()] may have side effects or panic, and a worked
    example. *)
From Coq Require Import List Arith Bool Lia.
From Verif Require Import Rust Iter Elem VectorM MatIterM MatrixM ArithM OpsM NumM SpecCommon SpecAlg Harness IterProofs OwnProofs VecProofs MatProofs AccProofs Sim OpsPure PropsOrder PropsOrder2 PropsOrder3 SpecSafe PropsNum PropsNum2 PropsNum3.
Import ListNotations.

(** The entries of [diag], row by row: the next element on the diagonal, a call of [zero()] elsewhere.
    When that call panics, the elements that are not yet in the matrix are dropped (those already there
    are not).  Elements left over at the end are dropped too; there are none when as many elements are
    given as the diagonal is long, which the type of [diag] ensures. *)
Fixpoint dealt {S T} (d : ety S T) (zero : M S T) (places : list (nat * nat)) (elems : list T) : M S (list T) :=
  fun s =>
  let drop_rest s := fold_left (fun s x => e_drop d x s) elems s in
  match places with
  | [] => (Ok [], drop_rest s)
  | (i, j) :: places =>
      if i =? j then
        match elems with
        | [] => (Panic, s)
        | x :: elems => (m <- dealt d zero places elems ;; ret (x :: m)) s
        end
      else match zero s with
           | (Ok x, s') => (m <- dealt d zero places elems ;; ret (x :: m)) s'
           | (Panic, s') => (Panic, drop_rest s')
           | (r, s') => (match r with UB => UB | _ => Diverge end, s')
           end
  end.
Section Diag.
Context {S T : Type} (c : cfg) (d : ety S T) (z : zops S T) (k : nat).
Lemma drop_all_fold (l : list T) (s : S) : drop_all d l s = fold_left (fun s x => e_drop d x s) l s.
Proof. revert s. induction l as [|x l IH]; intros s; cbn; [reflexivity|apply IH]. Qed.
Let f := fun '(i, j) => if i =? j then x <- ii_next_fn c d k ;; unwrap x else lift (z_zero z).
Lemma dealt_run l pre q (s : S) : k = length pre + length q -> k < W c ->
  (let '(r, (ii, s')) := in_order f l (mid pre q [], s) in
   match r with
   | Ok m => (ii_drop d ii ;;; ret m) s'
   | Panic => (ii_drop d ii ;;; panic) s'
   | UB => (UB, s')
   | Diverge => (Diverge, s')
   end) = dealt d (z_zero z) l q s.
Proof.
  intros Hk HW. revert pre q s Hk. induction l as [|[i j] l IH]; intros pre q s Hk; cbn [in_order dealt].
  - unfold bind. rewrite mid_drop, drop_all_fold. reflexivity.
  - unfold f at 1. destruct (i =? j).
    + unfold bind at 1. rewrite mid_next by (cbn; lia). destruct q as [|x q]; cbn [unwrap panic ret].
      * unfold panic, bind. rewrite mid_drop. reflexivity.
      * unfold ret at 1. cbn [length] in Hk. specialize (IH (pre ++ [x]) q s ltac:(rewrite app_length; cbn; lia)).
        unfold bind, ret. rewrite <- IH. 
        destruct (in_order f l (mid (pre ++ [x]) q [], s)) as [[m| | |] [ii s1]]; try reflexivity;
        unfold bind, panic, ret; destruct (ii_drop d ii s1) as [[[]| | |] s2]; reflexivity.
    + unfold lift at 1. cbn [fst snd]. destruct (z_zero z s) as [[x| | |] s1]; try reflexivity.
      * specialize (IH pre q s1 Hk). unfold bind, ret. rewrite <- IH.
        destruct (in_order f l (mid pre q [], s1)) as [[m| | |] [ii s2]]; try reflexivity;
        unfold bind, panic, ret; destruct (ii_drop d ii s2) as [[[]| | |] s3]; reflexivity.
      * unfold bind. rewrite mid_drop, drop_all_fold. reflexivity.
Qed.
End Diag.
Theorem C102_diag : forall S T (c : cfg) (d : ety S T) (z : zops S T) row col elems (s : S),
  length elems < W c ->
  (let (r, s') := mdiag_z c d z row col (length elems) elems s in
   (match r with Ok m => Ok (concat m) | Panic => Panic | UB => UB | Diverge => Diverge end, s'))
  = dealt d (z_zero z) (list_prod (seq 0 row) (seq 0 col)) elems s.
Proof.
  intros S T c d z row col elems s HW. unfold mdiag_z, vnew. rewrite (mid_init elems) by reflexivity.
  rewrite <- (dealt_run c d z (length elems) _ [] elems s eq_refl HW).
  pose proof (mgenerate_flat c (lift_ety d) row col (fun '(i, j) => if i =? j then x <- ii_next_fn c d (length elems) ;; unwrap x else lift (z_zero z)) (mid [] elems [], s)) as H.
  destruct (mgenerate c (lift_ety d) row col _ (mid [] elems [], s)) as [[m| | |] [ii s1]]; rewrite H; cbn [omap];
    try reflexivity; unfold bind; destruct (ii_drop d ii s1) as [[[]| | |] s2]; reflexivity.
Qed.
Print Assumptions C102_diag.

(** [pow] makes the identity, by calls of [one()] and [zero()], only for exponent 0, after cloning the
    matrix; for every other exponent [one()] and [is_zero] are never called. *)
Theorem C102_pow : forall S T (c : cfg) (d : ety S T) (z : zops S T) n (m : list (list T)) e (s : S),
  let clone := in_order (fun r => in_order (o_clone (z_ops z)) r) in
  (rect n n m -> e = 0 -> mpow_z c d z n m e s =
     (_ <- clone m ;; in_order (fun i => in_order (fun j => if i =? j then z_one z else z_zero z) (seq 0 n)) (seq 0 n)) s) /\
  (e <> 0 -> forall one is_zero, mpow_z c d z n m e s = mpow_z c d (Zops (z_ops z) (z_zero z) one is_zero) n m e s).
Proof.
  intros S T c d z n m e s clone. split.
  - intros R ->. unfold mpow_z, num_pow, bind. rewrite (mclone_spec c d (o_clone (z_ops z)) n n m s R). change (in_order (in_order (o_clone (z_ops z))) m s) with (clone m s). cbn [Nat.eqb].
    destruct (clone m s) as [[m'| | |] s1]; try reflexivity.
    apply (mgenerate_nested c d n n (fun '(i, j) => if i =? j then z_one z else z_zero z)).
  - intros He one iz. unfold mpow_z, num_pow. apply Nat.eqb_neq in He. rewrite He. reflexivity.
Qed.
Print Assumptions C102_pow.

(** [zero()] logs 100, [one()] logs 101 and [is_zero] of [x] logs [200 + x]; [zero()] panics the
    [lim + 1]-th time it is called, [is_zero] panics on 9.  Dropping an element logs the element. *)
Definition counting (lim : nat) : zops (list nat) nat :=
  Zops (Ops 77 77 (fun x y => ret (x + y)) (fun x y => ret (x - y)) (fun x y => ret (x * y)) (fun x y => ret (x / y))
          (fun x => ret x) (fun _ => true) (fun x => ret x))
    (fun s => (if length (List.filter (Nat.eqb 100) s) <? lim then Ok 0 else Panic, s ++ [100]))
    (fun s => (Ok 1, s ++ [101]))
    (fun x s => (if x =? 9 then Panic else Ok (x =? 0), s ++ [200 + x])).
Lemma counting_no_ub lim : zops_no_ub False (fun _ => True) (counting lim).
Proof.
  unfold zops_no_ub, ops_no_ub, op1_no_ub, op2_no_ub, no_ub, anything. cbn. repeat split; try (intros; cbn; exact I).
  - intros s. destruct (_ <? _); exact I.
  - intros x _ s. destruct (x =? 9); exact I.
Qed.
Example C102_ex : forall (c : cfg) (d : ety (list nat) nat),
  rect 2 2 [[1; 2]; [3; 4]] /\ entries 4 m70 (fun i j => nth j (nth i m70 []) 0) /\
  (forall lim, zops_no_ub False (fun _ => True) (counting lim)) /\
  midentity_z dbg log_ety (counting 5) 2 [] = (Ok [[1; 0]; [0; 1]], [101; 100; 100; 101]) /\
  midentity_z dbg (Ety (fun x s => s ++ [x]) true) (counting 1) 2 [] = (Panic, [101; 100; 100]) /\
  mis_zero_z (counting 5) 2 2 [[0; 0]; [5; 9]] [] = (Ok false, [200; 200; 205]) /\
  msum_z (counting 5) 2 2 [[1; 2]; [3; 4]] [] = (Ok 10, [100; 100; 100]) /\
  mmul_vv_z dbg log_ety (counting 5) 2 2 2 [[1; 2]; [3; 4]] [[5; 6]; [7; 8]] [] = (Ok [[19; 22]; [43; 50]], [100; 100; 100; 100]) /\
  mmulv_ref_z dbg log_ety (counting 1) 3 2 [[1; 2]; [3; 4]; [5; 6]] [1; 1] [] = (Panic, [100; 100; 3; 4; 5; 6]) /\
  det_z c d (counting 5) 4 m70 [] = (Ok 6, [201; 201; 201; 203; 203; 201; 101]) /\
  inverse_z c d (counting 20) 4 [[2; 0; 0; 0]; [0; 0; 0; 0]; [0; 0; 9; 0]; [0; 0; 0; 2]] []
    = (Ok None, [101; 100; 100; 100; 100; 101; 100; 100; 100; 100; 101; 100; 100; 100; 100; 101; 202; 101; 200]) /\
  mdiag_z dbg log_ety (counting 9) 2 3 2 [7; 8] [] = (Ok [[7; 0; 0]; [0; 8; 0]], [100; 100; 100; 100]) /\
  mdiag_z dbg log_ety (counting 1) 2 3 2 [7; 8] [] = (Panic, [100; 100; 8]) /\
  mpow_z dbg log_ety (counting 9) 2 [[7; 8]; [1; 1]] 0 [] = (Ok [[1; 0]; [0; 1]], [101; 100; 100; 101]) /\
  mpow_z dbg log_ety (counting 9) 2 [[7; 8]; [1; 1]] 2 [] = (Ok [[57; 64]; [8; 9]], [100; 100; 100; 100]) /\
  cofactor_z c d (counting 1) 4 m70 (2, 1) [] = (Ok 0, [101]).
Proof.
  intros c d. pose proof (proj1 r70) as R. pose proof (W_big c) as HW.
  assert (Rn : rect 4 4 [[2; 0; 0; 0]; [0; 0; 0; 0]; [0; 0; 9; 0]; [0; 0; 0; 2]]) by now repeat constructor.
  rewrite (proj2 (C102_determinant _ _ c d (counting 5) 4 m70 _ [] (entries_of 4 m70 R)) (Nat.le_refl 4)).
  rewrite (proj2 (proj2 (proj2 (C102_inverse _ _ c d (counting 20) 4 _ _ [] (entries_of 4 _ Rn)))) (Nat.le_refl 4)).
  rewrite (C102_cofactor _ _ c d (counting 1) 4 m70 _ 2 1 [] ltac:(lia) ltac:(lia) (entries_of 4 m70 R)) by lia.
  clear HW.
  repeat match goal with |- _ /\ _ => split end; try exact counting_no_ub; try (repeat constructor; fail); try exact (entries_of 4 m70 R); clear R Rn.
  all: try (destruct c as [b w hw fu]; destruct b; vm_compute; reflexivity).
Qed.
