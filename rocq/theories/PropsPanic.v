(** * PropsPanic.v - property C19 for matrices: an element operator panics inside
    [a + b], [a - b], [m * s], [m / s] on matrices. *)
From Coq Require Import List Arith Bool Lia.
From Verif Require Import Rust Iter Elem VectorM MatIterM MatrixM ArithM SpecCommon Harness
  IterProofs OwnProofs VecProofs MatProofs PropsVec PropsCmp.
Import ListNotations.
Open Scope nat_scope.

Lemma rect_mid {T} row col (m0 : list (list T)) r m2 : rect row col (m0 ++ r :: m2) ->
  rect (length m0) col m0 /\ length r = col /\ rect (length m2) col m2.
Proof.
  intros [L F]. apply Forall_app in F. destruct F as [F0 F]. inversion F; subst. repeat split; auto.
Qed.
Lemma combine_mid {A B} (a1 : list A) x a2 (b1 : list B) y b2 : length a1 = length b1 ->
  combine (a1 ++ x :: a2) (b1 ++ y :: b2) = combine a1 b1 ++ (x, y) :: combine a2 b2.
Proof.
  revert b1. induction a1 as [|z a1 IH]; intros [|w b1] L; cbn in *; try discriminate; [reflexivity|].
  now rewrite IH by lia.
Qed.

(** The operands are written [a0 ++ (a1 ++ x :: a2) :: a3]: [a0] the rows before the one in which the
    operator panics, [x] the element it panics on.  The operator has returned for everything before;
    what the panic drops is the rest of that row and the rows after it, each once, and only for the
    operand that was passed by value. *)
Theorem C19_matrix_zip_panic :
  forall S A B C (c : cfg) (da : ety S A) (db : ety S B) (dc : ety S C) row col (op : A -> B -> M S C)
    a0 a1 x a2 a3 b0 b1 y b2 b3 s r1 s1 s2,
  let a := a0 ++ (a1 ++ x :: a2) :: a3 in let b := b0 ++ (b1 ++ y :: b2) :: b3 in
  rect row col a -> rect row col b -> length a0 = length b0 -> length a1 = length b1 -> row < W c -> col < W c ->
  in_order (fun p => op (fst p) (snd p)) (combine (concat a0 ++ a1) (concat b0 ++ b1)) s = (Ok r1, s1) ->
  op x y s1 = (Panic, s2) ->
  mzip_vv c da db dc row col op a b s
    = (Panic, drop_all db (concat b3) (drop_all da (concat a3) (drop_all db b2 (drop_all da a2 s2)))) /\
  mzip_vr c da dc row col op a b s = (Panic, drop_all da (concat a3) (drop_all da a2 s2)) /\
  mzip_rv c db dc row col op a b s = (Panic, drop_all db (concat b3) (drop_all db b2 s2)) /\
  mzip_rr c dc row col op a b s = (Panic, s2).
Proof.
  intros S A B C c da db dc row col op a0 a1 x a2 a3 b0 b1 y b2 b3 s r1 s1 s2 a b Ra Rb L0 L1 H1 H2 E1 E2.
  rewrite mzip_rr_spec, mzip_vv_spec, mzip_vr_spec, mzip_rv_spec by assumption.
  destruct (rect_mid _ _ _ _ _ Ra) as (Ra0 & La & Ra3). destruct (rect_mid _ _ _ _ _ Rb) as (Rb0 & Lb & Rb3).
  pose proof (proj1 Ra) as LA. pose proof (proj1 Rb) as LB. unfold a, b in LA, LB. rewrite app_length in LA, LB. cbn in LA, LB.
  assert (L3 : length a3 = length b3) by lia.
  assert (L2 : length a2 = length b2) by (rewrite app_length in La, Lb; cbn in La, Lb; lia).
  unfold a, b. rewrite combine_mid by exact L0.
  assert (LC : length (concat a0) = length (concat b0)).
  { rewrite <- L0 in Rb0. clear -Ra0 Rb0. destruct Ra0 as [_ F], Rb0 as [E G]. revert b0 E G.
    induction F; intros [|z b0] E G; cbn in *; try discriminate; [reflexivity|]. inversion G; subst.
    rewrite !app_length. f_equal; [congruence|]. apply IHF; [lia|assumption]. }
  rewrite combine_app in E1 by exact LC.
  rewrite (combine_concat (length a0) col) in E1 by (auto; now rewrite L0). rewrite in_order_app in E1.
  change (fun p : A * B => op (fst p) (snd p)) with (op2 op) in E1. change (op2 op (x, y) s1 = (Panic, s2)) in E2.
  pose proof (nested_flat0 (fun p => combine (fst p) (snd p)) (op2 op) (combine a0 b0) s) as NF.
  destruct (in_order (fun a : list A * list B => in_order (op2 op) (combine (fst a) (snd a))) (combine a0 b0) s) as [r s0] eqn:ER.
  rewrite NF in E1. destruct r as [ys| | |]; try discriminate. cbn in E1.
  destruct (in_order (op2 op) (combine a1 b1) s0) as [[zs| | |] s3] eqn:EZ; try discriminate. injection E1 as _ <-.
  assert (OK : forall uw, in_order (op2 (fun ra rb => in_order_unwind uw (op2 op) (combine ra rb))) (combine a0 b0) s = (Ok ys, s0)).
  { intros uw. clear -ER. revert ER. generalize (combine a0 b0) as l. intros l. revert ys s. induction l as [|p l IH]; intros ys s; cbn [in_order]; [auto|].
    destruct (in_order (op2 op) (combine (fst p) (snd p)) s) as [[y| | |] s'] eqn:E; try discriminate.
    destruct (in_order _ l s') as [[zs| | |] s''] eqn:E'; try discriminate. intros [= <- <-].
    assert (EQ : op2 (fun ra rb => in_order_unwind uw (op2 op) (combine ra rb)) p s = (Ok y, s')) by (apply (proj2 (unwind_ok uw _ _ _ _ _)), E).
    rewrite EQ. now rewrite (IH _ _ E'). }
  assert (PA : forall uw, op2 (fun ra rb => in_order_unwind uw (op2 op) (combine ra rb)) (a1 ++ x :: a2, b1 ++ y :: b2) s0
                = (Panic, uw (combine a2 b2) s2)).
  { intros uw. unfold op2 at 1; cbn. rewrite combine_mid by exact L1. exact (unwind_panic_at _ _ _ _ _ _ _ _ _ EZ E2). }
  split; [|split; [|split]].
  - rewrite (unwind_panic_at _ _ _ _ _ _ _ _ _ (OK _) (PA _)). unfold drop2.
    now rewrite !map_fst_combine, !map_snd_combine, !drop_all_concat by assumption.
  - rewrite (unwind_panic_at _ _ _ _ _ _ _ _ _ (OK _) (PA _)). now rewrite !map_fst_combine, !drop_all_concat by assumption.
  - rewrite (unwind_panic_at _ _ _ _ _ _ _ _ _ (OK _) (PA _)). now rewrite !map_snd_combine, !drop_all_concat by assumption.
  - rewrite <- unwind_id.
    rewrite (unwind_ext _ (fun _ s => s) _ (op2 (fun ra rb => in_order_unwind (fun _ s => s) (op2 op) (combine ra rb))))
      by (intros; try reflexivity; unfold op2 at 1 3; now rewrite unwind_id).
    exact (unwind_panic_at _ _ _ _ _ _ _ _ _ (OK _) (PA _)).
Qed.
Print Assumptions C19_matrix_zip_panic.

(** [m * s] and [m / s] (the crate's [m * &s] is [mscale_ref]): [l1] the entries before, [l2] those after. *)
Theorem C19_matrix_scale_panic :
  forall S T (c : cfg) (d : ety S T) row col (op : T -> T -> M S T) (clone : T -> M S T) m l1 x l2 k s r1 s1 s2,
  rect row col m -> row < W c -> col < W c -> faithful clone ->
  concat m = l1 ++ x :: l2 -> in_order (fun e => op e k) l1 s = (Ok r1, s1) -> op x k s1 = (Panic, s2) ->
  mscale c d row col op clone m k s = (Panic, drop_all d l2 s2) /\
  mscale_ref c d row col op m k s = (Panic, drop_all d l2 s2).
Proof.
  intros S T c d row col op clone m l1 x l2 k s r1 s1 s2 R H1 H2 HC E E1 E2.
  assert (G : in_order_unwind (drop_all (vec_ety d)) (fun r s => in_order_unwind (drop_all d) (fun e => op e k) r s) m s
              = (Panic, drop_all d l2 s2)).
  { assert (NF := nested_flat (drop_all (vec_ety d)) (drop_all d) (drop_all d) (fun r : list T => r) (fun e => op e k) m s).
    rewrite map_id in NF. destruct (in_order_unwind _ _ m s) as [r s'].
    specialize (NF ltac:(intros l b s0; rewrite map_id, drop_all_app', drop_all_concat; reflexivity)).
    rewrite E, (unwind_panic_at _ _ _ _ _ _ _ _ _ E1 E2) in NF. destruct r; cbn in NF; congruence. }
  split.
  - rewrite mscale_spec by assumption. rewrite <- G. apply unwind_ext; [|reflexivity]. intros r s0 _.
    unfold bind at 1. rewrite HC. apply unwind_ext; [|reflexivity]. intros e s3 _. unfold bind. now rewrite HC.
  - now rewrite mscale_ref_spec.
Qed.
Print Assumptions C19_matrix_scale_panic.
(** ** C17: what the receiver of [a += b], [a -= b], [m *= k], [m /= k] holds after a panic. *)
Lemma rows_assign {S T U} c (du : ety S U) col (op : T -> U -> M S T) opa : assign_agrees op opa -> col < W c ->
  forall l s ys s0, Forall (fun p => length (fst p) = col /\ length (snd p) = col) l ->
  in_order (fun p => in_order (op2 op) (combine (fst p) (snd p))) l s = (Ok ys, s0) ->
  in_order (slot (fun rrow rs => iter_mut_zip_for (into_it c du col rrow) opa (fst rs) (snd rs))) l s = (Ok ys, s0).
Proof.
  intros HA HW. induction l as [|[ra rb] l IH]; intros s ys s0 F H; cbn [in_order] in *; [exact H|].
  inversion F as [|? ? [La Lb] F']; subst. cbn [fst snd] in *.
  destruct (in_order (op2 op) (combine ra rb) s) as [[r1| | |] s1] eqn:E1; try discriminate.
  unfold slot at 1. cbn [fst snd].
  rewrite (iter_mut_zip_ok opa (fun k s => drop_all du (lastn k rb) s)) with (us := rb) (w := r1) (s' := s1);
    [|intros; now rewrite lastn_0|apply into_it_gives; auto|congruence|rewrite <- E1; apply in_order_ext; intros p s2 _; now apply slot_agrees].
  cbn. destruct (in_order _ l s1) as [[r2| | |] s2] eqn:E2; try discriminate. now rewrite (IH _ _ _ F' E2).
Qed.
Lemma rows_lengths {S T U} (op : T * U -> M S T) col : forall l s ys s0, Forall (fun p => length (fst p) = col /\ length (snd p) = col) l ->
  in_order (fun p => in_order op (combine (fst p) (snd p))) l s = (Ok ys, s0) -> Forall (fun r => length r = col) ys.
Proof.
  induction l as [|[ra rb] l IH]; intros s ys s0 F H; cbn [in_order] in H; [injection H as <- _; constructor|].
  inversion F as [|? ? [La Lb] F']; subst. cbn [fst snd] in *.
  destruct (in_order op (combine ra rb) s) as [[r1| | |] s1] eqn:E1; try discriminate.
  destruct (in_order _ l s1) as [[r2| | |] s2] eqn:E2; try discriminate. injection H as <- _. constructor; [|eapply IH; eauto].
  apply in_order_length in E1. rewrite E1, combine_length. lia.
Qed.
Lemma Forall_combine2 {A B} (P : A -> Prop) (Q : B -> Prop) a b : Forall P a -> Forall Q b ->
  Forall (fun p => P (fst p) /\ Q (snd p)) (combine a b).
Proof. intros F. revert b. induction F; intros b G; [constructor|]. destruct G; cbn; constructor; auto. Qed.
(** The receiver keeps its shape; its entries are the results so far, then the entry on which the
    operator panicked and all later ones, unchanged; of the right operand exactly the entries after
    the panicking one are dropped, once each. *)
Theorem C17_matrix_add_assign_panic :
  forall S T U (c : cfg) (du : ety S U) row col (op : T -> U -> M S T) op_assign
    a0 a1 x a2 a3 b0 b1 y b2 b3 s r1 s1 s2,
  let a := a0 ++ (a1 ++ x :: a2) :: a3 in let b := b0 ++ (b1 ++ y :: b2) :: b3 in
  rect row col a -> rect row col b -> length a0 = length b0 -> length a1 = length b1 -> row < W c -> col < W c ->
  assign_agrees op op_assign ->
  in_order (fun p => op (fst p) (snd p)) (combine (concat a0 ++ a1) (concat b0 ++ b1)) s = (Ok r1, s1) ->
  op x y s1 = (Panic, s2) ->
  exists m, mop_assign c du row col op_assign b (a, s) = (Panic, (m, drop_all du (concat b3) (drop_all du b2 s2))) /\
    rect row col m /\ concat m = r1 ++ x :: a2 ++ concat a3.
Proof.
  intros S T U c du row col op opa a0 a1 x a2 a3 b0 b1 y b2 b3 s r1 s1 s2 a b Ra Rb L0 L1 H1 H2 HA E1 E2.
  destruct (rect_mid _ _ _ _ _ Ra) as (Ra0 & La & Ra3). destruct (rect_mid _ _ _ _ _ Rb) as (Rb0 & Lb & Rb3).
  assert (LC : length (concat a0) = length (concat b0)).
  { rewrite <- L0 in Rb0. clear -Ra0 Rb0. destruct Ra0 as [_ F], Rb0 as [E G]. revert b0 E G.
    induction F; intros [|z b0] E G; cbn in *; try discriminate; [reflexivity|]. inversion G; subst.
    rewrite !app_length. f_equal; [congruence|]. apply IHF; [lia|assumption]. }
  rewrite combine_app in E1 by exact LC.
  rewrite (combine_concat (length a0) col) in E1 by (auto; now rewrite L0). rewrite in_order_app in E1.
  change (fun p : T * U => op (fst p) (snd p)) with (op2 op) in E1.
  pose proof (nested_flat0 (fun p => combine (fst p) (snd p)) (op2 op) (combine a0 b0) s) as NF.
  destruct (in_order (fun a : list T * list U => in_order (op2 op) (combine (fst a) (snd a))) (combine a0 b0) s) as [r s0] eqn:ER.
  rewrite NF in E1. destruct r as [ys| | |]; try discriminate. cbn in E1.
  destruct (in_order (op2 op) (combine a1 b1) s0) as [[zs| | |] s3] eqn:EZ; try discriminate. injection E1 as <- <-.
  assert (FF : Forall (fun p => length (fst p) = col /\ length (snd p) = col) (combine a0 b0)).
  { apply (Forall_combine2 (fun r => length r = col) (fun r => length r = col)); [apply Ra0|apply Rb0]. }
  exists (ys ++ (zs ++ x :: a2) :: a3). split; [|split].
  - unfold mop_assign. cbn [fst snd]. unfold a.
    assert (PB : (fun rrow rs => iter_mut_zip_for (into_it c du col rrow) opa (fst rs) (snd rs)) (b1 ++ y :: b2) (a1 ++ x :: a2, s0)
               = (Panic, (zs ++ x :: a2, drop_all du b2 s2))).
    { cbn [fst snd]. rewrite (iter_mut_zip_panic opa _ a1 x a2 b1 y b2 _ s0 zs s3 x s2 (into_it_gives c du col _ Lb H2)); auto.
      - f_equal. f_equal. rewrite (lastn_len_app (b1 ++ [y]) b2); [reflexivity|]. now rewrite <- app_assoc.
      - rewrite <- EZ. apply in_order_ext. intros p s4 _. now apply slot_agrees.
      - now rewrite HA, E2. }
    rewrite (iter_mut_zip_panic _ _ a0 (a1 ++ x :: a2) a3 b0 (b1 ++ y :: b2) b3 _ s ys s0 _ _
       (into_it_gives c (vec_ety du) row _ (proj1 Rb) H1) L0 (rows_assign c du col op opa HA H2 _ _ _ _ FF ER) PB).
    f_equal. f_equal. unfold b. rewrite (lastn_len_app (b0 ++ [b1 ++ y :: b2]) b3) by (now rewrite <- app_assoc). apply drop_all_concat.
  - destruct Ra as [Ea Fa]. unfold a in Ea, Fa. split.
    + rewrite <- Ea, !app_length. f_equal. apply in_order_length in ER. rewrite ER, combine_length. lia.
    + apply Forall_app. split; [exact (rows_lengths _ _ _ _ _ _ FF ER)|]. constructor; [|apply Ra3].
      rewrite <- La, !app_length. f_equal. apply in_order_length in EZ. rewrite EZ, combine_length. lia.
  - rewrite concat_app. cbn [concat]. rewrite <- !app_assoc. reflexivity.
Qed.
Print Assumptions C17_matrix_add_assign_panic.

Lemma rows_scale {S T} (op : T -> T -> M S T) opa (clone : T -> M S T) k : assign_agrees op opa -> faithful clone ->
  forall l s ys s0, in_order (fun r => in_order (fun e => op e k) r) l s = (Ok ys, s0) ->
  in_order (slot0 (fun rs => iter_mut_for (r <- lift (clone k) ;; opa r) (fst rs) (snd rs))) l s = (Ok ys, s0).
Proof.
  intros HA HC. induction l as [|r l IH]; intros s ys s0 H; cbn [in_order] in *; [exact H|].
  destruct (in_order (fun e => op e k) r s) as [[r1| | |] s1] eqn:E1; try discriminate.
  unfold slot0 at 1. cbn [fst snd].
  rewrite (iter_mut_ok _ _ _ r1 s1)
    by (rewrite <- E1; apply in_order_ext; intros e s2 _; rewrite (slot0_agrees op) by assumption; unfold bind; now rewrite HC).
  cbn. destruct (in_order _ l s1) as [[r2| | |] s2] eqn:E2; try discriminate. now rewrite (IH _ _ _ E2).
Qed.
Theorem C17_matrix_scale_assign_panic :
  forall S T row col (op : T -> T -> M S T) op_assign (clone : T -> M S T) m0 v1 x v2 m2 k s r1 s1 s2,
  rect row col (m0 ++ (v1 ++ x :: v2) :: m2) -> faithful clone -> assign_agrees op op_assign ->
  in_order (fun e => op e k) (concat m0 ++ v1) s = (Ok r1, s1) -> op x k s1 = (Panic, s2) ->
  exists m, mscale_assign op_assign clone k (m0 ++ (v1 ++ x :: v2) :: m2, s) = (Panic, (m, s2)) /\
    rect row col m /\ concat m = r1 ++ x :: v2 ++ concat m2.
Proof.
  intros S T row col op opa clone m0 v1 x v2 m2 k s r1 s1 s2 R HC HA E1 E2.
  destruct (rect_mid _ _ _ _ _ R) as (R0 & L & R3). rewrite in_order_app in E1.
  pose proof (nested_flat0 (fun r : list T => r) (fun e => op e k) m0 s) as NF. rewrite map_id in NF.
  destruct (in_order (fun r : list T => in_order (fun e => op e k) r) m0 s) as [r s0] eqn:ER.
  rewrite NF in E1. destruct r as [ys| | |]; try discriminate. cbn in E1.
  destruct (in_order (fun e => op e k) v1 s0) as [[zs| | |] s3] eqn:EZ; try discriminate. injection E1 as <- <-.
  exists (ys ++ (zs ++ x :: v2) :: m2). split; [|split].
  - unfold mscale_assign. cbn [fst snd].
    apply (iter_mut_panic _ _ _ _ _ _ s0); [now apply (rows_scale op)|]. cbn [fst snd].
    apply (iter_mut_panic _ _ _ _ _ _ s3).
    + rewrite <- EZ. apply in_order_ext. intros e s4 _. rewrite (slot0_agrees op) by assumption. unfold bind. now rewrite HC.
    + unfold bind, lift. cbn. rewrite HC. cbn. now rewrite HA, E2.
  - destruct R as [Ea Fa]. split.
    + rewrite <- Ea, !app_length. f_equal. now apply in_order_length in ER.
    + apply Forall_app. split.
      * clear -R0 ER. destruct R0 as [_ F]. revert s ys ER. induction F as [|r m0 Lr F IH]; intros s ys ER; cbn in ER; [injection ER as <- _; constructor|].
        destruct (in_order (fun e => op e k) r s) as [[z| | |] s1] eqn:E1; try discriminate.
        destruct (in_order _ m0 s1) as [[zs| | |] s2] eqn:E2; try discriminate. injection ER as <- ->.
        constructor; [apply in_order_length in E1; congruence|eapply IH; eauto].
      * constructor; [|apply R3]. rewrite <- L, !app_length. f_equal. now apply in_order_length in EZ.
  - rewrite concat_app. cbn [concat]. rewrite <- !app_assoc. reflexivity.
Qed.
Print Assumptions C17_matrix_scale_assign_panic.

(** ** C36: transposing with a clone that has effects or panics: the columns are cloned in order;
    [transpose()] in place changes the receiver only when all clones succeeded. *)
Theorem C36_effects :
  forall S T (c : cfg) (d : ety S T) (clone : T -> M S T) row col m (s : S),
  rect row col m -> col < W c ->
  mtransposed c d clone row col m s = in_order (in_order clone) (map (col_of m) (seq 0 col)) s.
Proof.
  intros S T c d clone row col m s R HW. rewrite mtransposed_spec by assumption.
  generalize (seq 0 col) as l. intros l. revert s. induction l as [|j l IH]; intros s; [reflexivity|].
  cbn [in_order map]. destruct (in_order clone (col_of m j) s) as [[y| | |] s1]; try reflexivity. now rewrite IH.
Qed.
Print Assumptions C36_effects.
Theorem C36_transpose_in_place_effects :
  forall S T (c : cfg) (d : ety S T) (clone : T -> M S T) n m (s : S),
  rect n n m -> n < W c ->
  mtranspose c d clone n (m, s)
  = match in_order (in_order clone) (map (col_of m) (seq 0 n)) s with
    | (Ok m', s') => (Ok tt, (m', s'))
    | (Panic, s') => (Panic, (m, s'))
    | (UB, s') => (UB, (m, s'))
    | (Diverge, s') => (Diverge, (m, s'))
    end.
Proof.
  intros S T c d clone n m s R HW. unfold mtranspose, bind, self, lift. cbn.
  rewrite (C36_effects S T c d clone n n m s R HW).
  destruct (in_order (in_order clone) (map (col_of m) (seq 0 n)) s) as [[y| | |] s1]; reflexivity.
Qed.
Print Assumptions C36_transpose_in_place_effects.
Example C36_effects_ex :
  let clone := fun x (s : list nat) => if x =? 4 then (Panic, s ++ [x]) else (Ok x, s ++ [x]) in
  mtranspose dbg log_ety clone 2 ([[1; 2]; [3; 5]], []) = (Ok tt, ([[1; 3]; [2; 5]], [1; 3; 2; 5])) /\
  mtranspose dbg log_ety clone 2 ([[1; 2]; [3; 4]], []) = (Panic, ([[1; 2]; [3; 4]], [1; 3; 2; 4])).
Proof. vm_compute. auto. Qed.
Example C17_matrix_ex :
  let op := fun x y (s : list nat) => if x + y <? 30 then (Ok (x + y), s) else (Panic, s ++ [x]) in
  let opa := fun y (xs : nat * list nat) => if fst xs + y <? 30 then (Ok tt, (fst xs + y, snd xs)) else (Panic, (fst xs, snd xs ++ [fst xs])) in
  assign_agrees op opa /\
  mop_assign dbg log_ety 2 2 opa [[10; 20]; [27; 7]] ([[1; 2]; [3; 4]], []) = (Panic, ([[11; 22]; [3; 4]], [3; 7])) /\
  mscale_assign opa ret 27 ([[1; 2]; [3; 4]], []) = (Panic, ([[28; 29]; [3; 4]], [3])).
Proof. split; [|vm_compute; auto]. intros x y s. cbn. destruct (x + y <? 30); reflexivity. Qed.

Example C19_matrix_ex :
  let op := fun x y (s : list nat) => if x =? 3 then (Panic, s ++ [x; y]) else (Ok (x + y), s ++ [x; y]) in
  mzip_vv dbg log_ety log_ety log_ety 3 2 op [[1; 2]; [3; 4]; [5; 6]] [[10; 20]; [30; 40]; [50; 60]] []
  = (Panic, [1; 10; 2; 20; 3; 30; 4; 40; 5; 6; 50; 60]) /\
  mscale dbg log_ety 3 2 op ret [[1; 2]; [3; 4]; [5; 6]] 7 [] = (Panic, [1; 7; 2; 7; 3; 7; 4; 5; 6]).
Proof. vm_compute. auto. Qed.
