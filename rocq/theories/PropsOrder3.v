(** * PropsOrder3.v - C70 continued: the elimination loops of determinant and inverse for sizes
    from 4, and the cofactor of every size. *)
From Coq Require Import List Arith Bool Lia.
From Verif Require Import Rust Iter Elem VectorM MatIterM MatrixM ArithM OpsM SpecCommon SpecAlg Harness IterProofs OwnProofs VecProofs MatProofs AccProofs Sim DetLoop OpsPure PropsOrder PropsOrder2.
Import ListNotations.

(** Matrices as functions of the indices, as in PropsOrder2.v; [put] overwrites one element, [table]
    is the matrix of size n with these elements. *)
Definition put {T} (x : nat -> nat -> T) (i j : nat) (v : T) : nat -> nat -> T :=
  fun a b => if (a =? i) && (b =? j) then v else x a b.
Definition table {T} (n : nat) (x : nat -> nat -> T) : list (list T) :=
  map (fun i => map (fun j => x i j) (seq 0 n)) (seq 0 n).
(** The matrix with one more row, which holds nothing but [t]: [At n 0] stands for [t]. *)
Definition beside {T} (n : nat) (x : nat -> nat -> T) (t : T) : nat -> nat -> T := fun a b => if a =? n then t else x a b.
(** Every element cloned once, row by row. *)
Definition cloned_all {S T} (o : ops S T) (n : nat) (x : nat -> nat -> T) : M S (nat -> nat -> T) :=
  m <- in_order (fun i => in_order (fun j => o_clone o (x i j)) (seq 0 n)) (seq 0 n) ;;
  ret (fun i j => nth j (nth i m []) (o_zero o)).

(** ** The steps *)
Section Spec.
Context {S T : Type} (o : ops S T) (n : nat).
Definition sub_row (x : nat -> nat -> T) (i j : nat) (t : T) : M S (nat -> nat -> T) :=
  fold_in_order (fun x k => v <- eval o (beside n x t) (At j k - At i k * At n 0)%expr ;; ret (put x j k v)) (seq 0 n) x.
(** Elimination below the diagonal, [l] are the (i, j) still to do: row j loses (x_ji / x_ii) times row i.
    [back] is what to do when a pivot is zero, looked at before every single row. *)
Fixpoint below (l : list (nat * nat)) (x : nat -> nat -> T) (back : M S T) : M S T :=
  match l with
  | [] => fold_in_order (fun acc i => v <- o_clone o (x i i) ;; o_mul o acc v) (seq 0 n) (o_one o)
  | (i, j) :: l =>
      if o_is_zero o (x i i) then back
      else a <- o_clone o (x j i) ;; b <- o_clone o (x i i) ;; q <- o_div o a b ;;
           x <- sub_row x i j q ;; below l x back
  end.
Definition below_diagonal : list (nat * nat) :=
  flat_map (fun i => map (fun j => (i, j)) (seq (i + 1) (n - (i + 1)))) (seq 0 n).
(** The two matrices of the inverse are worked on side by side: element of the left, element of the right. *)
Definition scale_both (i : nat) (r : T) (xy : (nat -> nat -> T) * (nat -> nat -> T)) :=
  fold_in_order (fun xy j =>
    u <- eval o (beside n (fst xy) r) (At i j * At n 0)%expr ;;
    v <- eval o (beside n (snd xy) r) (At i j * At n 0)%expr ;;
    ret (put (fst xy) i j u, put (snd xy) i j v)) (seq 0 n) xy.
Definition sub_both (i j : nat) (t : T) (xy : (nat -> nat -> T) * (nat -> nat -> T)) :=
  fold_in_order (fun xy k =>
    u <- eval o (beside n (fst xy) t) (At j k - At i k * At n 0)%expr ;;
    v <- eval o (beside n (snd xy) t) (At j k - At i k * At n 0)%expr ;;
    ret (put (fst xy) j k u, put (snd xy) j k v)) (seq 0 n) xy.
Fixpoint columns (l : list nat) (xy : (nat -> nat -> T) * (nat -> nat -> T)) : M S (option (list (list T))) :=
  match l with
  | [] => ret (Some (table n (snd xy)))
  | i :: l =>
      p <- o_clone o (fst xy i i) ;;
      if o_is_zero o p then ret None
      else r <- o_div o (o_one o) p ;;
           xy <- scale_both i r xy ;;
           xy <- fold_in_order (fun xy j => t <- o_clone o (fst xy j i) ;; sub_both i j t xy)
                   (List.filter (fun j => negb (j =? i)) (seq 0 n)) xy ;;
           columns l xy
  end.
Definition sign_of (i j : nat) : M S T := if Nat.even (i + j) then ret (o_one o) else o_neg o (o_one o).
(** All rows but [i], without their element [j]. *)
Definition minor_of (i j : nat) (x : nat -> nat -> T) : M S (list (list T)) :=
  in_order (fun a => in_order (fun b => o_clone o (x a b)) (List.filter (fun b => negb (b =? j)) (seq 0 n)))
    (List.filter (fun a => negb (a =? i)) (seq 0 n)).
End Spec.

(** ** Loops *)
Section Loops.
Context {S : Type}.
Lemma for_range_order {St X} (h : X -> St) (body : nat -> St -> M S St) (step : X -> nat -> M S X) lo hi :
  (forall k x s, lo <= k < hi -> body k (h x) s = (y <- step x k ;; ret (h y)) s) ->
  forall x s, for_range lo hi body (h x) s = (y <- fold_in_order step (seq lo (hi - lo)) x ;; ret (h y)) s.
Proof.
  unfold for_range. intros H. assert (H' : forall k x s, lo <= k < lo + (hi - lo) -> body k (h x) s = (y <- step x k ;; ret (h y)) s)
    by (intros; apply H; lia). clear H. set (m := hi - lo) in *. clearbody m. clear hi.
  revert lo H'. induction m as [|m IH]; intros lo H x s; cbn [for_n seq fold_in_order]; [reflexivity|].
  unfold bind at 1. rewrite H by lia. unfold bind at 1 2, ret at 1.
  cbn [fold_in_order]. destruct (step x lo s) as [[y| | |] s1]; try reflexivity.
  rewrite Nat.add_1_r. rewrite IH by (intros; apply H; lia). reflexivity.
Qed.
Lemma fold_in_order_filter {X} (p : nat -> bool) (step : X -> nat -> M S X) l : forall x s,
  fold_in_order (fun x k => if p k then step x k else ret x) l x s = fold_in_order step (List.filter p l) x s.
Proof.
  induction l as [|k l IH]; intros x s; cbn [fold_in_order List.filter]; [reflexivity|].
  destruct (p k); cbn [fold_in_order]; [|apply IH]. destruct (step x k s) as [[y| | |] s1]; try reflexivity. apply IH.
Qed.
End Loops.

Section Big.
Context {S T : Type} (c : cfg) (d : ety S T) (o : ops S T).
Lemma ix_run n x i j s : i < n -> j < n -> ix o (mat n n x) i j s = o_clone o (x i j) s.
Proof. intros Hi Hj. unfold ix, bind. now rewrite (mindex_in _ i j (x i j)) by (now apply entry_mat). Qed.
Lemma put_run n (x : nat -> nat -> T) i j v (s : S) : i < n -> j < n -> mindex_set (mat n n x) (i, j) v s = (Ok (mat n n (put x i j v)), s).
Proof. intros Hi Hj. now rewrite set_mat by assumption. Qed.
Lemma eval_sub n x t j k i s : i < n -> j < n ->
  eval o (beside n x t) (At j k - At i k * At n 0)%expr s =
  (a <- o_clone o (x j k) ;; b <- o_clone o (x i k) ;; e <- o_clone o t ;; p <- o_mul o b e ;; o_sub o a p) s.
Proof.
  intros Hi Hj. unfold eval, bind, beside. rewrite Nat.eqb_refl.
  destruct (Nat.eqb_spec j n); [lia|]. destruct (Nat.eqb_spec i n); [lia|].
  destruct (o_clone o (x j k) s) as [[a| | |] s1]; try reflexivity. destruct (o_clone o (x i k) s1) as [[b| | |] s2]; try reflexivity.
  destruct (o_clone o t s2) as [[e| | |] s3]; try reflexivity.
Qed.
Lemma eval_scale n x t i j s : i < n ->
  eval o (beside n x t) (At i j * At n 0)%expr s = (a <- o_clone o (x i j) ;; e <- o_clone o t ;; o_mul o a e) s.
Proof. intros Hi. unfold eval, bind, beside. rewrite Nat.eqb_refl. destruct (Nat.eqb_spec i n); [lia|]. reflexivity. Qed.

Lemma elim_row_order n i j t x s : i < n -> j < n -> elim_row o n i j t (mat n n x) s = (y <- sub_row o n x i j t ;; ret (mat n n y)) s.
Proof.
  intros Hi Hj. unfold elim_row, sub_row.
  rewrite (for_range_order (mat n n) _ (fun x k => v <- eval o (beside n x t) (At j k - At i k * At n 0)%expr ;; ret (put x j k v))).
  - now rewrite Nat.sub_0_r.
  - intros k y s0 Hk. unfold bind, ret. rewrite eval_sub by lia. unfold bind. rewrite ix_run by lia.
    destruct (o_clone o (y j k) s0) as [[a| | |] s1]; try reflexivity. rewrite ix_run by lia. destruct (o_clone o (y i k) s1) as [[b| | |] s2]; try reflexivity.
    destruct (o_clone o t s2) as [[e| | |] s3]; try reflexivity. destruct (o_mul o b e s3) as [[p| | |] s4]; try reflexivity.
    destruct (o_sub o a p s4) as [[u| | |] s5]; try reflexivity. now rewrite put_run by lia.
Qed.
Definition both n (xy : (nat -> nat -> T) * (nat -> nat -> T)) := (mat n n (fst xy), mat n n (snd xy)).
Lemma scale_rows_order n i r xy s : i < n -> scale_rows o n i r (both n xy) s = (xy <- scale_both o n i r xy ;; ret (both n xy)) s.
Proof.
  intros Hi. unfold scale_rows, scale_both.
  rewrite (for_range_order (both n) _ (fun xy j => u <- eval o (beside n (fst xy) r) (At i j * At n 0)%expr ;;
    v <- eval o (beside n (snd xy) r) (At i j * At n 0)%expr ;; ret (put (fst xy) i j u, put (snd xy) i j v))).
  - now rewrite Nat.sub_0_r.
  - intros k [x y] s0 Hk. cbn [fst snd both]. unfold bind. rewrite eval_scale by lia. unfold bind. cbn [both fst snd]. rewrite ix_run by lia.
    destruct (o_clone o (x i k) s0) as [[a| | |] s1]; try reflexivity. destruct (o_clone o r s1) as [[b| | |] s2]; try reflexivity.
    destruct (o_mul o a b s2) as [[u| | |] s3]; try reflexivity. rewrite put_run by lia. rewrite ix_run by lia. rewrite eval_scale by lia. unfold bind.
    destruct (o_clone o (y i k) s3) as [[a'| | |] s4]; try reflexivity. destruct (o_clone o r s4) as [[b'| | |] s5]; try reflexivity.
    destruct (o_mul o a' b' s5) as [[u'| | |] s6]; try reflexivity. rewrite put_run by lia. reflexivity.
Qed.
Lemma elim_rows_order n i j t xy s : i < n -> j < n -> elim_rows o n i j t (both n xy) s = (xy <- sub_both o n i j t xy ;; ret (both n xy)) s.
Proof.
  intros Hi Hj. unfold elim_rows, sub_both.
  rewrite (for_range_order (both n) _ (fun xy k => u <- eval o (beside n (fst xy) t) (At j k - At i k * At n 0)%expr ;;
    v <- eval o (beside n (snd xy) t) (At j k - At i k * At n 0)%expr ;; ret (put (fst xy) j k u, put (snd xy) j k v))).
  - now rewrite Nat.sub_0_r.
  - intros k [x y] s0 Hk. cbn [fst snd both]. unfold bind. rewrite eval_sub by lia. unfold bind. cbn [both fst snd]. rewrite ix_run by lia.
    destruct (o_clone o (x j k) s0) as [[a| | |] s1]; try reflexivity. rewrite ix_run by lia. destruct (o_clone o (x i k) s1) as [[b| | |] s2]; try reflexivity.
    destruct (o_clone o t s2) as [[e| | |] s3]; try reflexivity. destruct (o_mul o b e s3) as [[p| | |] s4]; try reflexivity.
    destruct (o_sub o a p s4) as [[u| | |] s5]; try reflexivity. rewrite put_run by lia. rewrite ix_run by lia. rewrite eval_sub by lia. unfold bind.
    destruct (o_clone o (y j k) s5) as [[a'| | |] s6]; try reflexivity. rewrite ix_run by lia. destruct (o_clone o (y i k) s6) as [[b'| | |] s7]; try reflexivity.
    destruct (o_clone o t s7) as [[e'| | |] s8]; try reflexivity. destruct (o_mul o b' e' s8) as [[p'| | |] s9]; try reflexivity.
    destruct (o_sub o a' p' s9) as [[u'| | |] s10]; try reflexivity. rewrite put_run by lia. reflexivity.
Qed.

(** Matrices given by their entries. *)
Lemma entries_mat n (m : list (list T)) x : entries n m x -> m = mat n n x.
Proof.
  intros [R H]. apply (mat_ext n n); [exact R|apply mat_rect|]. intros i j Hi Hj. rewrite H by assumption. symmetry. now apply entry_mat.
Qed.
Definition any_arith (z : T) : arith T := {| a_zero := z; a_one := z; a_add := fun _ _ => z; a_sub := fun _ _ => z; a_mul := fun _ _ => z; a_neg := fun _ => z |}.
Lemma rect_in_order {X} (f : X -> nat -> M S T) row col l (s : S) m s1 : length l = row ->
  in_order (fun r => in_order (f r) (seq 0 col)) l s = (Ok m, s1) -> rect row col m.
Proof.
  intros <-. revert s m. induction l as [|a l IH]; intros s m E; cbn [in_order] in E.
  - injection E as <- <-. repeat constructor.
  - destruct (in_order (f a) (seq 0 col) s) as [[r| | |] s2] eqn:E1; try discriminate.
    destruct (in_order _ l s2) as [[m'| | |] s3] eqn:E2; try discriminate. injection E as <- <-.
    destruct (IH _ _ E2) as [L F]. split; [cbn [length]; now rewrite L|]. constructor; [|exact F].
    rewrite (in_order_length _ _ _ _ _ E1). apply seq_length.
Qed.
Lemma mclone_order n m x s : entries n m x -> mclone c d (o_clone o) n n m s = (y <- cloned_all o n x ;; ret (mat n n y)) s.
Proof.
  intros H. rewrite (mclone_spec c d _ n n m s (proj1 H)). rewrite (entries_mat n m x H). unfold mat at 1. rewrite in_order_map.
  unfold cloned_all, bind, ret.
  assert (E : forall l s, in_order (fun i => in_order (o_clone o) (map (fun j => x i j) (seq 0 n))) l s = in_order (fun i => in_order (fun j => o_clone o (x i j)) (seq 0 n)) l s).
  { intros l s0. apply in_order_ext. intros i s1 _. now rewrite in_order_map. }
  rewrite E. destruct (in_order _ (seq 0 n) s) as [[m'| | |] s1] eqn:E1; try reflexivity.
  apply (rect_in_order (fun i j => o_clone o (x i j)) n n) in E1; [|apply seq_length].
  do 2 f_equal. symmetry. exact (mat_at2 (any_arith (o_zero o)) n n m' E1).
Qed.

(** Folds over a range. *)
Lemma fold_order (h : nat -> M S T) (op : T -> T -> M S T) n z s :
  fold (Datatypes.S n) (imap h (range 0 n)) z op s = fold_in_order (fun acc k => v <- h k ;; op acc v) (seq 0 n) z s.
Proof.
  unfold fold. pose proof (imap_ret_gives h _ _ _ (range_gives (S:=S) 0 n)) as G.
  rewrite (for_each_gives _ _ _ _ _ z s G) by (rewrite map_length, seq_length; lia).
  rewrite Nat.sub_0_r. now rewrite foldm_in_order, fold_in_order_map.
Qed.
Lemma fold_in_order_ext' {A B} (f g : B -> A -> M S B) l b s :
  (forall b a s, In a l -> f b a s = g b a s) -> fold_in_order f l b s = fold_in_order g l b s.
Proof.
  revert b s. induction l as [|a l IH]; intros b s H; cbn [fold_in_order]; [reflexivity|].
  rewrite H by now left. destruct (g b a s) as [[x| | |] s1]; try reflexivity. apply IH. intros; apply H; now right.
Qed.
Lemma diag_order n x s :
  fold (Datatypes.S n) (imap (fun i => ix o (mat n n x) i i) (range 0 n)) (o_one o) (o_mul o) s = below o n [] x panic s.
Proof.
  rewrite fold_order. cbn [below]. apply fold_in_order_ext'. intros b i s0 Hi. apply in_seq in Hi. unfold bind. now rewrite ix_run by lia.
Qed.
Lemma expand_order n x (cof : nat * nat -> M S T) s : 0 < n ->
  expand_col0 o n (mat n n x) cof s = running_sum o (fun i => a <- o_clone o (x i 0) ;; q <- cof (i, 0) ;; o_mul o a q) (seq 0 n) s.
Proof.
  intros Hn. unfold expand_col0. rewrite fold_order. unfold running_sum. apply fold_in_order_ext'. intros b i s0 Hi. apply in_seq in Hi.
  unfold bind. rewrite ix_run by lia. destruct (o_clone o (x i 0) s0) as [[a| | |] s1]; try reflexivity.
Qed.

(** The double loop. *)
Section Det.
Variables (n : nat) (back : M S T).
Let body (i j : nat) (mm : list (list T)) : M S (list (list T) + T) :=
  piv <- mindex mm (i, i) ;;
  if o_is_zero o piv then v <- back ;; ret (inr v)
  else a <- ix o mm j i ;; b <- ix o mm i i ;; dd <- o_div o a b ;; mat' <- elim_row o n i j dd mm ;; ret (inl mat').
Let finish (F : list (list T) -> M S T) (r : list (list T) + T) : M S T := match r with inl st => F st | inr v => ret v end.
Lemma body_order i j y s : i < n -> j < n ->
  body i j (mat n n y) s =
  (if o_is_zero o (y i i) then (v <- back ;; ret (inr v)) s
   else (a <- o_clone o (y j i) ;; b <- o_clone o (y i i) ;; q <- o_div o a b ;; x <- sub_row o n y i j q ;; ret (inl (mat n n x))) s).
Proof using.
  intros Hi Hj. unfold body, bind at 1. rewrite (mindex_in _ i i (y i i)) by (now apply entry_mat). destruct (o_is_zero o (y i i)); [reflexivity|].
  unfold bind. rewrite ix_run by lia. destruct (o_clone o (y j i) s) as [[a| | |] s1]; try reflexivity.
  rewrite ix_run by lia. destruct (o_clone o (y i i) s1) as [[b| | |] s2]; try reflexivity.
  destruct (o_div o a b s2) as [[q| | |] s3]; try reflexivity. rewrite elim_row_order by lia. unfold bind, ret.
  destruct (sub_row o n y i j q s3) as [[x| | |] s4]; reflexivity.
Qed.
Lemma inner_order i rest F : i < n -> (forall y s, F (mat n n y) s = below o n rest y back s) ->
  forall k lo y s, lo + k <= n ->
  (r <- for_n_ret k lo (body i) (mat n n y) ;; finish F r) s = below o n (map (fun j => (i, j)) (seq lo k) ++ rest) y back s.
Proof using.
  intros Hi HF. induction k as [|k IH]; intros lo y s Hk; cbn [for_n_ret seq map app]; [apply HF|].
  cbn [below]. unfold bind at 1 2. rewrite body_order by lia. destruct (o_is_zero o (y i i)).
  - unfold bind, ret. destruct (back s) as [[v| | |] s1]; reflexivity.
  - unfold bind, ret.
    destruct (o_clone o (y lo i) s) as [[a| | |] s1]; try reflexivity.
    destruct (o_clone o (y i i) s1) as [[b| | |] s2]; try reflexivity. destruct (o_div o a b s2) as [[q| | |] s3]; try reflexivity.
    destruct (sub_row o n y i lo q s3) as [[x| | |] s4]; try reflexivity.
    rewrite <- (Nat.add_1_r lo). rewrite <- IH by lia. reflexivity.
Qed.
Lemma outer_order F : (forall y s, F (mat n n y) s = below o n [] y back s) ->
  forall k lo y s, lo + k <= n ->
  (r <- for_n_ret k lo (fun i mm => for_range_ret (i + 1) n (body i) mm) (mat n n y) ;; finish F r) s
  = below o n (flat_map (fun i => map (fun j => (i, j)) (seq (i + 1) (n - (i + 1)))) (seq lo k)) y back s.
Proof using.
  intros HF. induction k as [|k IH]; intros lo y s Hk; cbn [for_n_ret seq flat_map]; [apply HF|].
  rewrite <- (inner_order lo _ (fun mm => r <- for_n_ret k (lo + 1) (fun i mm => for_range_ret (i + 1) n (body i) mm) mm ;; finish F r)); [|lia| |lia].
  - unfold for_range_ret, bind, finish, ret.
    destruct (for_n_ret (n - (lo + 1)) (lo + 1) (body lo) (mat n n y) s) as [[[mm|v]| | |] s1]; reflexivity.
  - intros y' s'. rewrite <- (Nat.add_1_r lo). apply IH. lia.
Qed.
End Det.
Lemma below_ext n (b1 b2 : M S T) : (forall s, b1 s = b2 s) -> forall l x s, below o n l x b1 s = below o n l x b2 s.
Proof.
  intros H. induction l as [|[i j] l IH]; intros x s; cbn [below]; [reflexivity|].
  destruct (o_is_zero o (x i i)); [apply H|]. unfold bind.
  destruct (o_clone o (x j i) s) as [[a| | |] s1]; try reflexivity. destruct (o_clone o (x i i) s1) as [[b| | |] s2]; try reflexivity.
  destruct (o_div o a b s2) as [[q| | |] s3]; try reflexivity. destruct (sub_row o n x i j q s3) as [[y| | |] s4]; try reflexivity. apply IH.
Qed.
Lemma det_big_order n m x (cof : nat * nat -> M S T) s : entries n m x -> 0 < n ->
  det_big c d o n m cof s =
  (y <- cloned_all o n x ;; below o n (below_diagonal n) y (running_sum o (fun i => a <- o_clone o (x i 0) ;; q <- cof (i, 0) ;; o_mul o a q) (seq 0 n))) s.
Proof.
  intros H Hn. unfold det_big. unfold bind at 1. rewrite (mclone_order n m x s H). unfold bind, ret.
  destruct (cloned_all o n x s) as [[y| | |] s1]; try reflexivity.
  rewrite <- (below_ext n (expand_col0 o n m cof)).
  - pose proof (outer_order n (expand_col0 o n m cof) (fun mm => fold (Datatypes.S n) (imap (fun i => ix o mm i i) (range 0 n)) (o_one o) (o_mul o))
      (fun y s => diag_order n y s) n 0 y s1 (Nat.le_refl n)) as E.
    unfold below_diagonal. rewrite <- E. unfold for_range_ret at 1. rewrite Nat.sub_0_r. reflexivity.
  - intros s2. rewrite (entries_mat n m x H). now apply expand_order.
Qed.

(** ** Inverse *)
Lemma mid_mat n s : midentity c d o n s = (Ok (mat n n (fun i j => if i =? j then o_one o else o_zero o)), s).
Proof. unfold midentity. now rewrite (mgenerate_pure c d n n _ (fun i j => if i =? j then o_one o else o_zero o)) by (intros i j s0 _ _; now destruct (i =? j)). Qed.
Lemma rows_loop_order n i xy s : i < n ->
  for_range 0 n (fun j mi => if i =? j then ret mi else a <- ix o (fst mi) j i ;; elim_rows o n i j a mi) (both n xy) s =
  (xy <- fold_in_order (fun xy j => t <- o_clone o (fst xy j i) ;; sub_both o n i j t xy)
           (List.filter (fun j => negb (j =? i)) (seq 0 n)) xy ;; ret (both n xy)) s.
Proof.
  intros Hi. rewrite (for_range_order (both n) _ (fun xy j => if negb (j =? i) then t <- o_clone o (fst xy j i) ;; sub_both o n i j t xy else ret xy)).
  - rewrite Nat.sub_0_r. unfold bind at 1 3. now rewrite fold_in_order_filter.
  - intros j xy' s0 Hj. rewrite (Nat.eqb_sym j i). destruct (i =? j); cbn [negb]; [reflexivity|].
    unfold bind. cbn [both fst]. rewrite ix_run by lia. destruct (o_clone o (fst xy' j i) s0) as [[t| | |] s1]; try reflexivity.
    fold (both n xy'). now rewrite elim_rows_order by lia.
Qed.
Lemma columns_order n : forall k lo xy s, lo + k <= n ->
  (r <- for_n_ret k lo (fun i mi =>
         dd <- ix o (fst mi) i i ;;
         if o_is_zero o dd then ret (inr tt)
         else
           rcp <- o_div o (o_one o) dd ;;
           mi1 <- scale_rows o n i rcp mi ;;
           mi2 <- for_range 0 n (fun j mi => if i =? j then ret mi else a <- ix o (fst mi) j i ;; elim_rows o n i j a mi) mi1 ;;
           ret (inl mi2)) (both n xy) ;;
   match r with inr _ => ret None | inl mi => ret (Some (snd mi)) end) s
  = columns o n (seq lo k) xy s.
Proof.
  induction k as [|k IH]; intros lo xy s Hk; cbn [for_n_ret seq columns]; [reflexivity|].
  unfold bind, ret. cbn [both fst snd]. rewrite ix_run by lia. destruct (o_clone o (fst xy lo lo) s) as [[p| | |] s1]; try reflexivity.
  destruct (o_is_zero o p); [reflexivity|]. destruct (o_div o (o_one o) p s1) as [[r| | |] s2]; try reflexivity.
  fold (both n xy). rewrite scale_rows_order by lia. unfold bind at 1, ret.
  destruct (scale_both o n lo r xy s2) as [[xy1| | |] s3]; try reflexivity.
  pose proof (rows_loop_order n lo xy1 s3 ltac:(lia)) as E. unfold bind, ret in E. rewrite E.
  destruct (fold_in_order _ (List.filter _ _) xy1 s3) as [[xy2| | |] s4]; try reflexivity.
  rewrite <- (Nat.add_1_r lo), <- IH by lia. unfold bind, ret. reflexivity.
Qed.
Lemma inv_big_order n m x s : entries n m x ->
  inv_big c d o n m s =
  (y <- cloned_all o n x ;; columns o n (seq 0 n) (y, fun i j => if i =? j then o_one o else o_zero o)) s.
Proof.
  intros H. unfold inv_big. unfold bind, ret. rewrite (mclone_order n m x s H). unfold bind, ret.
  destruct (cloned_all o n x s) as [[y| | |] s1]; try reflexivity.
  rewrite mid_mat. unfold for_range_ret. rewrite Nat.sub_0_r.
  exact (columns_order n n 0 (y, fun i j => if i =? j then o_one o else o_zero o) s1 (Nat.le_refl n)).
Qed.

(** ** Cofactor *)
Lemma sign_order i j s : i + j < W c -> cof_sign c o i j s = sign_of o i j s.
Proof.
  intros H. unfold cof_sign, usz_add, sign_of, bind. destruct (Nat.ltb_spec (i + j) (W c)); [|lia]. unfold ret at 1.
  replace (Nat.even (i + j)) with ((i + j) mod 2 =? 0); [reflexivity|].
  destruct (Nat.even (i + j)) eqn:E.
  - apply Nat.even_spec in E. destruct E as [q ->]. rewrite Nat.mul_comm, Nat.mod_mul by lia. reflexivity.
  - apply (f_equal negb) in E. rewrite Nat.negb_even in E. cbn in E. apply Nat.odd_spec in E. destruct E as [q ->].
    rewrite Nat.add_comm, Nat.mul_comm, Nat.mod_add by lia. reflexivity.
Qed.
Lemma submatrix_order n m x i j s : entries n m x -> i < n -> j < n -> n < W c ->
  submatrix c d o n m i j s = minor_of o n i j x s.
Proof.
  intros H Hi Hj HW. rewrite (entries_mat n m x H). unfold submatrix, minor_of.
  assert (Rm : rect n n (mat n n x)) by apply mat_rect.
  pose proof (filter_skip_gives (S:=S) n (fun k => map (fun b => x k b) (seq 0 n)) _ i Hi (rr_gives c n (mat n n x) (proj1 Rm) HW)) as G.
  rewrite (from_iter_gives _ _ (n - 1) _ _ _ s (imap_ret_gives _ _ _ _ G)) by (now rewrite !map_length, seq_length).
  rewrite map_map, seqm_in_order, (filter_seq n i Hi), in_order_map. apply in_order_ext. intros a s0 _. cbv beta.
  pose proof (filter_skip_gives (S:=S) n (fun b => x (skip i a) b) _ j Hj (slice_iter_gives (map (fun b => x (skip i a) b) (seq 0 n)))) as G2.
  rewrite (from_iter_gives _ _ (n - 1) _ _ _ s0 (imap_ret_gives _ _ _ _ G2)) by (now rewrite !map_length, seq_length).
  rewrite map_map, seqm_in_order, (filter_seq n j Hj), in_order_map. reflexivity.
Qed.
End Big.

(** ** C70 for sizes from 4 *)
(** The matrix is cloned element by element; rows are eliminated below the diagonal column by
    column; a zero pivot (looked at before every row) starts the expansion along column 0 of the
    original matrix, whose cofactors are those of the [cofactor] method. *)
Theorem C70_determinant_big : forall S T (c : cfg) (d : ety S T) (o : ops S T) n m (x : nat -> nat -> T) (s : S),
  4 <= n -> entries n m x ->
  det c d o n m s =
  (y <- cloned_all o n x ;;
   below o n (below_diagonal n) y
     (running_sum o (fun i => a <- o_clone o (x i 0) ;; q <- cofactor c d o n m (i, 0) ;; o_mul o a q) (seq 0 n))) s.
Proof.
  intros S T c d o n m x s Hn H. destruct n as [|[|[|[|n']]]]; [lia..|].
  exact (det_big_order c d o _ m x (cofactor c d o (Datatypes.S (Datatypes.S (Datatypes.S (Datatypes.S n')))) m) s H (Nat.lt_0_succ _)).
Qed.
Print Assumptions C70_determinant_big.
(** The matrix is cloned, the identity set up beside it, and columns are cleared from left to right. *)
Theorem C70_inverse_big : forall S T (c : cfg) (d : ety S T) (o : ops S T) n m (x : nat -> nat -> T) (s : S),
  4 <= n -> entries n m x ->
  inverse c d o n m s =
  (y <- cloned_all o n x ;; columns o n (seq 0 n) (y, fun i j => if i =? j then o_one o else o_zero o)) s.
Proof.
  intros S T c d o n m x s Hn H. destruct n as [|[|[|[|n']]]]; [lia..|]. exact (inv_big_order c d o _ m x s H).
Qed.
Print Assumptions C70_inverse_big.
(** The sign comes first up to size 3, after the minor from size 4 on. *)
Theorem C70_cofactor : forall S T (c : cfg) (d : ety S T) (o : ops S T) n m (x : nat -> nat -> T) i j (s : S),
  2 <= n -> n + n <= W c -> entries n m x -> i < n -> j < n ->
  cofactor c d o n m (i, j) s =
  match n with
  | 2 => (g <- sign_of o i j ;; a <- o_clone o (x (1 - i) (1 - j)) ;; o_mul o g a) s
  | 3 => (g <- sign_of o i j ;; p <- minor_of o 3 i j x ;; e <- det c d o 2 p ;; o_mul o g e) s
  | _ => (p <- minor_of o n i j x ;; g <- sign_of o i j ;; e <- det c d o (n - 1) p ;; o_mul o g e) s
  end.
Proof.
  intros S T c d o n m x i j s Hn HW H Hi Hj. destruct n as [|[|[|[|n']]]]; [lia|lia| | |].
  - cbn [cofactor]. unfold cof2, bind. rewrite sign_order by lia. destruct (sign_of o i j s) as [[g| | |] s1]; try reflexivity.
    unfold usz_sub. destruct (Nat.leb_spec i 1); [|lia]. destruct (Nat.leb_spec j 1); [|lia]. unfold ret.
    rewrite (entries_mat 2 m x H), ix_run by lia. reflexivity.
  - cbn [cofactor det]. unfold cof3, bind. rewrite (proj2 (Nat.ltb_lt i 3)), (proj2 (Nat.ltb_lt j 3)) by assumption. cbn [andb assert]. unfold ret at 1.
    rewrite sign_order by lia. destruct (sign_of o i j s) as [[g| | |] s1]; try reflexivity.
    rewrite (submatrix_order c d o 3 m x i j s1 H) by (assumption || lia). reflexivity.
  - unfold cofactor, cof_big, bind. rewrite (proj2 (Nat.ltb_lt i _)), (proj2 (Nat.ltb_lt j _)) by eassumption. cbn [andb assert]. unfold ret at 1.
    rewrite (submatrix_order c d o _ m x i j s H) by (assumption || lia). set (k := Datatypes.S (Datatypes.S (Datatypes.S n'))).
    replace (Datatypes.S k - 1) with k by lia.
    destruct (minor_of o (Datatypes.S k) i j x s) as [[p| | |] s1]; try reflexivity. rewrite sign_order by (unfold k; lia). reflexivity.
Qed.
Print Assumptions C70_cofactor.

(** Numbers with the multiplications logged; multiplying by 9 panics. *)
Definition m70 : list (list nat) := [[1; 2; 0; 0]; [1; 5; 0; 4]; [0; 0; 1; 0]; [0; 0; 0; 2]].
Definition p70 : list (list nat) := [[1; 0; 0; 0]; [9; 5; 0; 4]; [0; 0; 1; 0]; [0; 0; 0; 2]].
Lemma entries_of n (m : list (list nat)) : rect n n m -> entries n m (fun i j => nth j (nth i m []) 0).
Proof.
  intros R. split; [exact R|]. intros i j Hi Hj. destruct (entry_row _ _ _ _ R Hi) as (r & E & L).
  unfold entry. rewrite E, (nth_error_nth _ _ _ E). apply nth_error_nth'. lia.
Qed.
Lemma r70 : rect 4 4 m70 /\ rect 4 4 p70.
Proof. now repeat constructor. Qed.
Example C70_big_ex : forall (c : cfg) (d : ety (list (nat * nat)) nat),
  det c d logging 4 m70 [] = (Ok 6, 
    [(1, 1); (2, 1); (0, 1); (0, 1);  (1, 0); (2, 0); (0, 0); (0, 0);  (1, 0); (2, 0); (0, 0); (0, 0);
     (0, 0); (3, 0); (0, 0); (4, 0);  (0, 0); (3, 0); (0, 0); (4, 0);
     (0, 0); (0, 0); (1, 0); (0, 0);
     (1, 1); (1, 3); (3, 1); (3, 2)]) /\
  inverse c d logging 4 p70 [] = (Panic, [(1, 1); (1, 1); (0, 1); (0, 1); (0, 1); (0, 1); (0, 1); (0, 1); (1, 9)]) /\
  cofactor c d logging 4 p70 (3, 1) [] = (Panic, [(1, 0); (0, 0); (0, 4); (0, 0); (0, 9)]).
Proof.
  intros c d. rewrite (C70_determinant_big _ _ c d logging 4 m70 _ [] (Nat.le_refl 4) (entries_of 4 m70 (proj1 r70))).
  rewrite (C70_inverse_big _ _ c d logging 4 p70 _ [] (Nat.le_refl 4) (entries_of 4 p70 (proj2 r70))).
  pose proof (W_big c). rewrite (C70_cofactor _ _ c d logging 4 p70 _ 3 1 [] ltac:(lia) ltac:(lia) (entries_of 4 p70 (proj2 r70))) by lia.
  destruct c as [b w hw fu]. destruct b; vm_compute; repeat split; reflexivity.
Qed.
