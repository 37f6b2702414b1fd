(** * AccountLib.v - the accounts of the building blocks of ScopeM.v. *)
From Coq Require Import List Arith Bool Lia Permutation.
From Verif Require Import Rust Iter Elem VectorM MatIterM MatrixM ArithM OpsM NumM ScopeM SpecCommon SpecAlg IterProofs OwnProofs VecProofs MatProofs AccProofs Sim DetLoop OpsPure PropsOrder PropsOrder2 PropsOrder3 PropsNum PropsNum2 SpecAccount AccountProofs.
Import ListNotations.

(** ** Lists and matrices *)
Lemma concat_sing {T} (l : list T) : concat (map (fun x => [x]) l) = l.
Proof. induction l as [|x l IH]; [reflexivity|]. cbn. now rewrite IH. Qed.
Lemma concat_nil {A T} (l : list A) : concat (map (fun _ => @nil T) l) = [].
Proof. now induction l. Qed.
Lemma combine_flat {T} (a b : list T) : length a = length b ->
  Permutation (concat (map (fun p => [fst p; snd p]) (combine a b))) (a ++ b).
Proof.
  revert b. induction a as [|x a IH]; intros [|y b] L; try discriminate; [reflexivity|]. cbn.
  rewrite IH by (now injection L). psolve.
Qed.
Lemma combine_left {T U} (a : list T) (b : list U) : length a = length b -> concat (map (fun p => [fst p]) (combine a b)) = a.
Proof. revert b. induction a as [|x a IH]; intros [|y b] L; try discriminate; [reflexivity|]. cbn. rewrite IH; [reflexivity|]. now injection L. Qed.
Lemma combine_right {T U} (a : list U) (b : list T) : length a = length b -> concat (map (fun p => [snd p]) (combine a b)) = b.
Proof. revert b. induction a as [|x a IH]; intros [|y b] L; try discriminate; [reflexivity|]. cbn. rewrite IH; [reflexivity|]. now injection L. Qed.
Lemma combine_rows {T} (a b : list (list T)) : length a = length b ->
  Permutation (concat (map (fun p => fst p ++ snd p) (combine a b))) (concat a ++ concat b).
Proof.
  revert b. induction a as [|x a IH]; intros [|y b] L; try discriminate; [reflexivity|]. cbn.
  rewrite IH by (now injection L). psolve.
Qed.
Lemma In_concat {T} (x : T) r m : In x r -> In r m -> In x (concat m).
Proof. intros Hx Hr. apply in_concat. now exists r. Qed.
Lemma in_col_of {T} (x : T) m j : In x (col_of m j) -> In x (concat m).
Proof.
  unfold col_of. intros H. apply in_flat_map in H as (r & Hr & Hx). destruct (nth_error r j) as [y|] eqn:E; [|contradiction].
  destruct Hx as [<-|[]]. apply (In_concat _ r); [eapply nth_error_In; eassumption|exact Hr].
Qed.
Lemma entry_In {T} (m : list (list T)) i j x : entry m i j = Some x -> In x (concat m).
Proof.
  unfold entry. destruct (nth_error m i) as [r|] eqn:E; [|discriminate]. intros E2.
  apply (In_concat _ r); eapply nth_error_In; eassumption.
Qed.
Lemma list_set_split {A} (l : list A) i old x : nth_error l i = Some old ->
  exists l1 l2, l = l1 ++ old :: l2 /\ list_set l i x = l1 ++ x :: l2.
Proof.
  revert i. induction l as [|y l IH]; intros [|i] E; try discriminate.
  - injection E as ->. now exists [], l.
  - destruct (IH i E) as (l1 & l2 & E1 & E2). exists (y :: l1), l2. cbn. split; [now rewrite E1 at 1|]. now rewrite E2.
Qed.
(** Replacing an entry exchanges it for the new value. *)
Lemma mat_set_perm {T} (m : list (list T)) i j old x : entry m i j = Some old ->
  exists F, Permutation (concat m) (old :: F) /\ Permutation (concat (mat_set m i j x)) (x :: F).
Proof.
  unfold entry, mat_set. destruct (nth_error m i) as [r|] eqn:E; [|discriminate]. intros E2.
  destruct (list_set_split r j old x E2) as (r1 & r2 & E3 & ->).
  destruct (list_set_split m i r (r1 ++ x :: r2) E) as (m1 & m2 & -> & ->). rewrite E3.
  exists (concat m1 ++ r1 ++ r2 ++ concat m2). rewrite !concat_app. cbn [concat]. split; psolve.
Qed.

Section Lib.
Context {S T : Type} (live : S -> list T) (D : Prop) (c : cfg) (mul : (T -> T -> M S T) -> Prop) (d : ety S T) (z : zops S T).
Hypothesis H : books live D mul d z.
Let o := z_ops z.
Local Notation tk F m := (tk live D F m).

(** ** Element operations *)
Lemma op_add F x y : tk F (o_add o x y) [x; y] (fun r => [r]) any. Proof. apply (tk_refs live D []); [apply takes_tk, (bk_add live D mul d z H)|isolve]. Qed.
Lemma op_sub F x y : tk F (o_sub o x y) [x; y] (fun r => [r]) any. Proof. apply (tk_refs live D []); [apply takes_tk, (bk_sub live D mul d z H)|isolve]. Qed.
Lemma op_div F x y : tk F (o_div o x y) [x; y] (fun r => [r]) any. Proof. apply (tk_refs live D []); [apply takes_tk, (bk_div live D mul d z H)|isolve]. Qed.
Lemma op_neg F x : tk F (o_neg o x) [x] (fun r => [r]) any. Proof. apply (tk_refs live D []); [apply takes_tk, (bk_neg live D mul d z H)|isolve]. Qed.
Lemma op_zero F : tk F (z_zero z) [] (fun r => [r]) any. Proof. apply (tk_refs live D []); [apply takes_tk, (bk_zero live D mul d z H)|isolve]. Qed.
Lemma op_one F : tk F (z_one z) [] (fun r => [r]) any. Proof. apply (tk_refs live D []); [apply takes_tk, (bk_one live D mul d z H)|isolve]. Qed.
Lemma op_clone x : tk [x] (o_clone o x) [] (fun r => [r]) any. Proof. apply takes_tk, (bk_clone live D mul d z H). Qed.
Lemma op_is_zero x : tk [x] (z_is_zero z x) [] (fun _ => []) any. Proof. apply takes_tk, (bk_is_zero live D mul d z H). Qed.
Lemma in_incl (x : T) F : In x F -> incl [x] F.
Proof. intros Hx y [<-|[]]. exact Hx. Qed.
Lemma clone_in x F : In x F -> tk F (o_clone o x) [] (fun r => [r]) any.
Proof. intros Hin. apply (tk_refs live D [x]); [apply op_clone|now apply in_incl]. Qed.
Lemma is_zero_in x F : In x F -> tk F (z_is_zero z x) [] (fun _ => []) any.
Proof. intros Hin. apply (tk_refs live D [x]); [apply op_is_zero|now apply in_incl]. Qed.

(** ** Drops *)
Lemma drop_one x s R : Permutation (live s) (x :: R) -> Permutation (live (e_drop d x s)) R.
Proof. apply (bk_drop live D mul d z H). Qed.
Lemma drop_list v : forall s R, Permutation (live s) (v ++ R) -> Permutation (live (drop_all d v s)) R.
Proof.
  unfold drop_all. induction v as [|x v IH]; intros s R P; [exact P|]. cbn [fold_left]. apply IH. now apply drop_one.
Qed.
Lemma drop_rows m : forall s R, Permutation (live s) (concat m ++ R) -> Permutation (live (drop_all (vec_ety d) m s)) R.
Proof.
  unfold drop_all at 1. induction m as [|v m IH]; intros s R P; [exact P|]. cbn [fold_left vec_ety e_drop]. apply IH.
  apply drop_list. cbn [concat] in P. now rewrite app_assoc.
Qed.
Lemma tk_drop_val F x : tk F (drop_val d x) [x] (fun _ => []) any.
Proof. intros s R HF P. cbn. split; [|exact I]. now apply drop_one. Qed.
Lemma tk_drop_vec F v : tk F (drop_vec d v) v (fun _ => []) any.
Proof. intros s R HF P. cbn. split; [|exact I]. now apply drop_list. Qed.
Lemma tk_drop_mat F m : tk F (drop_mat d m) (concat m) (fun _ => []) any.
Proof. intros s R HF P. cbn. split; [|exact I]. now apply drop_rows. Qed.

(** ** Entries *)
Lemma tk_ix row col m i j : rect row col m -> i < row -> j < col -> tk (concat m) (ix o m i j) [] (fun r => [r]) any.
Proof.
  intros R Hi Hj. destruct (entry_some row col m i j R Hi Hj) as [x E].
  apply (tk_ext live D _ _ (o_clone o x)); [|apply clone_in; now apply (entry_In m i j)].
  intros s. unfold ix, bind. now rewrite (mindex_in m i j x s E).
Qed.
Lemma tk_idx n m i j : rect n n m -> i < n -> j < n -> tk (concat m) (idx c o n m i j) [] (fun r => [r]) any.
Proof.
  intros R Hi Hj. destruct (entry_some n n m i j R Hi Hj) as [x E].
  apply (tk_ext live D _ _ (o_clone o x)); [|apply clone_in; now apply (entry_In m i j)].
  intros s. unfold idx, bind. now rewrite (mstatic_in c n n m i j x s R Hi Hj E).
Qed.
Lemma tk_store F row col m i j x : rect row col m -> i < row -> j < col ->
  tk F (store d m (i, j) x) (x :: concat m) (fun m' => concat m') (rect row col).
Proof.
  intros R Hi Hj. destruct (entry_some row col m i j R Hi Hj) as [old E].
  destruct (mat_set_perm m i j old x E) as (G & P1 & P2).
  apply (tk_ext live D _ _ (drop_val d old ;;; ret (mat_set m i j x))).
  { intros s. unfold store, bind. rewrite (mindex_in m i j old s E). cbn [drop_val]. unfold drop_val. now rewrite (mindex_set_in row col). }
  eapply (tk_bind live D F _ _ _ F [old] (fun _ => []) (x :: G)); [apply tk_drop_val|rewrite P1; psolve|isolve|].
  intros _ _. apply tk_ret; [cbn [app]; now rewrite P2|]. now apply mat_set_rect.
Qed.

(** ** Lists of results *)
Lemma tk_row {A} (f : A -> M S T) F l n : length l = n -> (forall x, In x l -> tk F (f x) [] (fun t => [t]) any) ->
  tk F (in_order f l) [] (fun ys => ys) (fun ys => length ys = n).
Proof.
  intros <- Hf. pose proof (tk_in_order live D F f (fun _ => []) (fun y => [y]) any l Hf) as K. rewrite concat_nil in K.
  eapply tk_conv; [exact K|reflexivity| |]; [intros ys _; cbv beta; now rewrite concat_sing|now intros ys [L _]].
Qed.
Lemma tk_rows {A} (f : A -> M S (list T)) F l row col : length l = row ->
  (forall x, In x l -> tk F (f x) [] (fun r => r) (fun r => length r = col)) ->
  tk F (in_order f l) [] (fun m => concat m) (rect row col).
Proof.
  intros <- Hf. pose proof (tk_in_order live D F f (fun _ => []) (fun y => y) _ l Hf) as K. rewrite concat_nil in K.
  eapply tk_conv; [exact K|reflexivity| |]; [intros ys _; cbv beta; now rewrite map_id|now intros ys [L Q]].
Qed.
Lemma tk_clone_row v F n : length v = n -> (forall x, In x v -> In x F) -> tk F (in_order (o_clone o) v) [] (fun ys => ys) (fun ys => length ys = n).
Proof. intros L Hin. apply tk_row; [exact L|]. intros x Hx. apply clone_in; auto. Qed.
Lemma tk_vclone n v : length v = n -> tk v (vclone c d n (o_clone o) v) [] (fun ys => ys) (fun ys => length ys = n).
Proof.
  intros L. apply (tk_ext live D _ _ (in_order (o_clone o) v)); [intros s; now apply vclone_spec|]. apply tk_clone_row; auto.
Qed.
Lemma tk_mclone row col m : rect row col m -> tk (concat m) (mclone c d (o_clone o) row col m) [] (fun m' => concat m') (rect row col).
Proof.
  intros R. apply (tk_ext live D _ _ (in_order (in_order (o_clone o)) m)); [intros s; now apply mclone_spec|].
  apply tk_rows; [apply R|]. intros r Hr. apply tk_clone_row; [now apply (rect_row row col m)|]. intros x Hx. now apply (In_concat x r).
Qed.
Lemma tk_generate row col (f : nat * nat -> M S T) F :
  (forall i j, i < row -> j < col -> tk F (f (i, j)) [] (fun t => [t]) any) ->
  tk F (mgenerate c d row col f) [] (fun m => concat m) (rect row col).
Proof.
  intros Hf. apply (tk_ext live D _ _ (in_order (fun i => in_order (fun j => f (i, j)) (seq 0 col)) (seq 0 row))).
  { intros s. apply mgenerate_nested. }
  apply tk_rows; [apply seq_length|]. intros i Hi. apply in_seq in Hi.
  apply tk_row; [apply seq_length|]. intros j Hj. apply in_seq in Hj. apply Hf; lia.
Qed.
Lemma tk_identity F n : tk F (midentity_z c d z n) [] (fun m => concat m) (rect n n).
Proof. apply tk_generate. intros i j _ _. destruct (i =? j); [apply op_one|apply op_zero]. Qed.

(** ** Sums *)
Lemma tk_summing {X} (term : X -> M S T) F l : (forall x, In x l -> tk F (term x) [] (fun t => [t]) any) ->
  tk F (summing (z_zero z) (o_add o) term l) [] (fun t => [t]) any.
Proof.
  intros Ht. unfold summing. eapply (tk_bind live D F _ _ _ F [] (fun r => [r]) []); [apply op_zero|reflexivity|isolve|]. intros t _.
  pose proof (tk_fold live D F (fun acc x => u <- term x ;; o_add o acc u) (fun _ => []) (fun t => [t]) any l t) as K.
  rewrite concat_nil in K. apply K; [|exact I]. intros b x Hx _. cbn [app].
  eapply (tk_bind live D F _ _ _ F [] (fun t => [t]) [b]); [now apply Ht|psolve|isolve|]. intros u _.
  tlast (op_add [] b u). intros r _. psolve.
Qed.

(** ** Operations on every element *)
Lemma tk_vunwind {A} (f : T -> M S A) (E : A -> list T) F Q v :
  (forall x, In x v -> tk F (f x) [x] E Q) ->
  tk F (in_order_unwind (drop_all d) f v) v (fun ys => concat (map E ys)) (fun ys => length ys = length v /\ Forall Q ys).
Proof.
  intros Hf. pose proof (tk_unwind live D F (drop_all d) f (fun x => [x]) E Q v Hf) as K. rewrite concat_sing in K. apply K.
  intros l s R P. rewrite concat_sing in P. now apply drop_list.
Qed.
Lemma tk_vunwind1 (f : T -> M S T) F v n : length v = n ->
  (forall x, In x v -> tk F (f x) [x] (fun y => [y]) any) ->
  tk F (in_order_unwind (drop_all d) f v) v (fun ys => ys) (fun ys => length ys = n).
Proof.
  intros <- Hf. eapply tk_conv; [exact (tk_vunwind f (fun y => [y]) F any v Hf)|reflexivity| |].
  - intros ys _. cbv beta. now rewrite concat_sing.
  - now intros ys [L _].
Qed.
Lemma tk_munwind (f : list T -> M S (list T)) F m row col : length m = row ->
  (forall r, In r m -> tk F (f r) r (fun r' => r') (fun r' => length r' = col)) ->
  tk F (in_order_unwind (drop_all (vec_ety d)) f m) (concat m) (fun m' => concat m') (rect row col).
Proof.
  intros <- Hf. pose proof (tk_unwind live D F (drop_all (vec_ety d)) f (fun x => x) (fun x => x) _ m Hf) as K. rewrite map_id in K.
  eapply tk_conv; [apply K|reflexivity| |].
  - intros l s R P. rewrite map_id in P. now apply drop_rows.
  - intros ys _. cbv beta. now rewrite map_id.
  - now intros ys [L Q].
Qed.
Lemma tk_munwind1 (f : list T -> M S T) F m n : length m = n ->
  (forall r, In r m -> tk F (f r) r (fun y => [y]) any) ->
  tk F (in_order_unwind (drop_all (vec_ety d)) f m) (concat m) (fun ys => ys) (fun ys => length ys = n).
Proof.
  intros <- Hf. pose proof (tk_unwind live D F (drop_all (vec_ety d)) f (fun x => x) (fun y => [y]) any m Hf) as K. rewrite map_id in K.
  eapply tk_conv; [apply K|reflexivity| |].
  - intros l s R P. rewrite map_id in P. now apply drop_rows.
  - intros ys _. cbv beta. now rewrite concat_sing.
  - now intros ys [L _].
Qed.
Lemma tk_vscale_s F n op v k : by_value live D op -> length v = n -> n < W c ->
  tk F (vscale_s c d z n op v k) (v ++ [k]) (fun r => r) (fun r => length r = n).
Proof.
  intros Hop L HW. unfold vscale_s. apply (tk_refs live D []); [|isolve].
  assert (K : tk [k] (vscale c d d n op (o_clone o) v k) v (fun r => r) (fun r => length r = n)).
  { apply (tk_ext live D _ _ (in_order_unwind (drop_all d) (fun e => r <- o_clone o k ;; op e r) v)).
    { intros s. now apply vscale_spec. }
    apply tk_vunwind1; [exact L|]. intros x _. tstep (op_clone k). intros r _. tlast (takes_tk live D _ _ _ _ (Hop x r)). intros; psolve. }
  tstep K. intros r Lr. tstep (tk_drop_val [] k). intros _ _. apply tk_ret; [reflexivity|exact Lr].
Qed.
Lemma tk_mscale_s F row col op m k : by_value live D op -> rect row col m -> row < W c -> col < W c ->
  tk F (mscale_s c d z row col op m k) (concat m ++ [k]) (fun r => concat r) (rect row col).
Proof.
  intros Hop R HW1 HW2. unfold mscale_s. apply (tk_refs live D []); [|isolve].
  assert (K : tk [k] (from_iter c (vec_ety d) row
         (imap (fun r => k' <- o_clone o k ;; vscale_s c d z col op r k') (into_it c (vec_ety d) row m))) (concat m) (fun r => concat r) (rect row col)).
  { apply (tk_ext live D _ _ (in_order_unwind (drop_all (vec_ety d)) (fun r => k' <- o_clone o k ;; vscale_s c d z col op r k') m)).
    { intros s. apply collect_map_owned; [apply R|assumption]. }
    apply tk_munwind; [apply R|]. intros r Hr. tstep (op_clone k). intros k' _.
    tlast (tk_vscale_s [] col op r k' Hop (rect_row row col m r R Hr) HW2). intros; psolve. }
  fold o. tstep K. intros r Lr. tstep (tk_drop_val [] k). intros _ _. apply tk_ret; [reflexivity|exact Lr].
Qed.
Lemma tk_vneg F n v : length v = n -> n < W c -> tk F (vneg c d d n (o_neg o) v) v (fun r => r) (fun r => length r = n).
Proof.
  intros L HW. apply (tk_ext live D _ _ (in_order_unwind (drop_all d) (o_neg o) v)); [intros s; now apply vneg_spec|].
  apply (tk_vunwind1 (o_neg o) F v n L); intros x _; apply op_neg.
Qed.

(** ** Terms of sums *)
Hypothesis HV : by_value live D (o_mul o).
Lemma op_mul F x y : tk F (o_mul o x y) [x; y] (fun r => [r]) any. Proof. apply (tk_refs live D []); [apply takes_tk, HV|isolve]. Qed.
Lemma tk_term_cloned p F : In (fst p) F -> In (snd p) F -> tk F (term_cloned d o p) [] (fun t => [t]) any.
Proof.
  intros H1 H2. unfold term_cloned.
  eapply (tk_bind live D F _ _ [] F [] (fun q => [fst q; snd q]) [] _ any); [|reflexivity|isolve|].
  - intros s R HF P. unfold clone_both. pose proof (clone_in (fst p) F H1 s R HF P) as K. fold o.
    destruct (o_clone o (fst p) s) as [[a| | |] s1]; try exact K. destruct K as [K _].
    pose proof (clone_in (snd p) F H2 s1 (a :: R) (incl_tl a HF) K) as K2. destruct (o_clone o (snd p) s1) as [[b| | |] s2]; try exact K2.
    + destruct K2 as [K2 _]. split; [|exact I]. rewrite K2. cbn [fst snd app]. apply perm_swap.
    + destruct K2 as [L K2]. exists L. apply drop_one. rewrite K2. psolve.
  - intros [a b] _. cbn [fst snd]. tlast (op_mul [] a b). intros; psolve.
Qed.
Lemma tk_term_right_first p F : In (fst p) F -> In (snd p) F -> tk F (term_right_first o p) [] (fun t => [t]) any.
Proof.
  intros H1 H2. unfold term_right_first. tstep (clone_in _ F H2). intros y _. tstep (clone_in _ F H1). intros x _.
  tlast (op_mul [] x y). intros; psolve.
Qed.
Lemma tk_term_dot p F : In (fst p) F -> In (snd p) F -> tk F (x <- o_clone o (fst p) ;; y <- o_clone o (snd p) ;; o_mul o x y) [] (fun t => [t]) any.
Proof.
  intros H1 H2. tstep (clone_in _ F H1). intros x _. tstep (clone_in _ F H2). intros y _. tlast (op_mul [] x y). intros; psolve.
Qed.
End Lib.
