(** * AccountProofs.v - the rules for [takes]. *)
From Coq Require Import List Arith Bool Lia Permutation.
From Verif Require Import Rust Iter Elem VectorM MatIterM MatrixM ArithM OpsM NumM SpecCommon IterProofs OwnProofs MatProofs AccProofs SpecAccount.
Import ListNotations.

(** Permutations of concatenations. *)
Ltac reify e k :=
  lazymatch e with
  | ?a ++ ?b => reify a ltac:(fun la => reify b ltac:(fun lb => let l := eval cbn [app] in (la ++ lb) in k l))
  | [] => match type of e with list ?T => k (@nil (list T)) end
  | ?x :: ?l => reify l ltac:(fun ll => k ([x] :: ll))
  | ?a => k [a]
  end.
Lemma perm_concat {T} (l1 l2 : list (list T)) : Permutation l1 l2 -> Permutation (concat l1) (concat l2).
Proof.
  induction 1; cbn; auto.
  - now apply Permutation_app_head.
  - apply Permutation_app_swap_app.
  - eapply Permutation_trans; eauto.
Qed.
Ltac locate_in a r k :=
  lazymatch r with
  | a :: ?r' => match type of r with list ?X => k (@nil X) r' end
  | ?x :: ?r' => locate_in a r' ltac:(fun l1 l2 => k (x :: l1) l2)
  end.
Ltac atoms :=
  lazymatch goal with
  | |- Permutation [] [] => apply perm_nil
  | |- Permutation (?a :: ?l) ?r =>
      locate_in a r ltac:(fun l1 l2 => change r with (l1 ++ a :: l2); apply (Permutation_cons_app l1 l2 a); cbn [app]; atoms)
  end.
Lemma perm_flat {T} (l r : list T) ll rr : l = concat ll -> r = concat rr -> Permutation ll rr -> Permutation l r.
Proof. intros -> ->. apply perm_concat. Qed.
Ltac flat := cbn [concat app]; rewrite ?app_nil_r; repeat rewrite <- app_assoc; cbn [app]; repeat rewrite <- app_assoc; cbn [app]; reflexivity.
Ltac psolve :=
  lazymatch goal with
  | |- Permutation ?l ?r =>
      reify l ltac:(fun ll => reify r ltac:(fun rr => apply (perm_flat l r ll rr); [flat|flat|atoms]))
  end.

Ltac remove_atoms bl r k :=
  lazymatch bl with
  | [] => k r
  | ?a :: ?bl' => locate_in a r ltac:(fun l1 l2 => let r' := eval cbn [app] in (l1 ++ l2) in remove_atoms bl' r' k)
  end.
Ltac join r k :=
  lazymatch r with
  | [] => match type of r with list ?X => k ltac:(exact (concat r)) end
  | [?a] => k a
  | ?a :: ?l => join l ltac:(fun b => k (a ++ b))
  end.
(** [incl] of concatenations. *)
Ltac isolve :=
  lazymatch goal with
  | |- incl [] _ => apply incl_nil_l
  | |- incl ?a ?a => apply incl_refl
  | |- incl _ _ => let y := fresh "y" in let h := fresh "h" in
      intros y h; repeat rewrite in_app_iff in *; cbn [In] in *; repeat rewrite in_app_iff in *; cbn [In] in *; intuition (subst; auto)
  end.
Section Kit.
Context {S T : Type} (live : S -> list T) (D : Prop).
Definition tk (F : list T) {A} (m : M S A) (B : list T) (E : A -> list T) (Q : A -> Prop) : Prop :=
  forall s R, incl F R -> Permutation (live s) (B ++ R) ->
  match m s with
  | (Ok r, s') => Permutation (live s') (E r ++ R) /\ Q r
  | (Panic, s') => exists L, Permutation (live s') (L ++ R)
  | (UB, _) => False
  | (Diverge, _) => D
  end.
Definition any {A} (_ : A) : Prop := True.
Lemma tk_takes F {A} (m : M S A) B E Q : tk F m B E Q -> borrows live D F m B E.
Proof. intros H s R HF P. specialize (H s R HF P). destruct (m s) as [[r| | |] s']; try exact H. apply H. Qed.
Lemma takes_tk F {A} (m : M S A) B E : borrows live D F m B E -> tk F m B E any.
Proof. intros H s R HF P. specialize (H s R HF P). destruct (m s) as [[r| | |] s']; try exact H. split; [exact H|exact I]. Qed.
Lemma tk_ext F {A} (m m' : M S A) B E Q : (forall s, m s = m' s) -> tk F m' B E Q -> tk F m B E Q.
Proof. intros X H s R HF P. rewrite X. now apply H. Qed.
Lemma tk_refs F F' {A} (m : M S A) B E Q : tk F m B E Q -> incl F F' -> tk F' m B E Q.
Proof. intros H HI s R HF P. apply H; [|exact P]. now apply (incl_tran HI). Qed.
Lemma tk_conv F {A} (m : M S A) B B' (E E' : A -> list T) (Q Q' : A -> Prop) :
  tk F m B E Q -> Permutation B' B -> (forall a, Q a -> Permutation (E a) (E' a)) -> (forall a, Q a -> Q' a) -> tk F m B' E' Q'.
Proof.
  intros H PB PE PQ s R HF P. specialize (H s R HF). rewrite PB in P. specialize (H P).
  destruct (m s) as [[r| | |] s']; try exact H. destruct H as [H HQ]. split; [|now apply PQ]. now rewrite <- PE.
Qed.
Lemma tk_ret F {A} (a : A) B (E : A -> list T) (Q : A -> Prop) : Permutation B (E a) -> Q a -> tk F (ret a) B E Q.
Proof. intros PB HQ s R HF P. cbn. split; [now rewrite <- PB|exact HQ]. Qed.
Lemma tk_panic F {A} B (E : A -> list T) (Q : A -> Prop) : tk F panic B E Q.
Proof. intros s R HF P. exists B. exact P. Qed.
Lemma tk_bind F {A A'} (m : M S A) (k : A -> M S A') B0 F1 B C Fr E (Q1 : A -> Prop) Q :
  tk F1 m B C Q1 -> Permutation B0 (B ++ Fr) -> incl F1 (Fr ++ F) -> (forall a, Q1 a -> tk F (k a) (C a ++ Fr) E Q) -> tk F (bind m k) B0 E Q.
Proof.
  intros Hm PB HI Hk s R HF P. unfold bind. rewrite PB, <- app_assoc in P.
  specialize (Hm s (Fr ++ R) (incl_tran HI (incl_app_app (incl_refl Fr) HF)) P).
  destruct (m s) as [[a| | |] s1]; try exact Hm.
  - destruct Hm as [P1 Q1a]. rewrite app_assoc in P1. exact (Hk a Q1a s1 R HF P1).
  - destruct Hm as [L PL]. exists (L ++ Fr). now rewrite <- app_assoc.
Qed.
Lemma tk_frame F F1 {A} (m : M S A) B E Fr Q : tk F1 m B E Q -> incl F1 (Fr ++ F) -> tk F m (B ++ Fr) (fun a => E a ++ Fr) Q.
Proof.
  intros H HI s R HF P. rewrite <- app_assoc in P.
  specialize (H s (Fr ++ R) (incl_tran HI (incl_app_app (incl_refl Fr) HF)) P). destruct (m s) as [[a| | |] s1]; try exact H.
  - destruct H as [H HQ]. split; [|exact HQ]. now rewrite <- app_assoc.
  - destruct H as [L PL]. exists (L ++ Fr). now rewrite <- app_assoc.
Qed.
Lemma tk_for_n F {St} (P : St -> Prop) (I : St -> list T) k i body st :
  (forall j st, i <= j < i + k -> P st -> tk F (body j st) (I st) I P) -> P st -> tk F (for_n k i body st) (I st) I P.
Proof.
  revert i st. induction k as [|k IH]; intros i st Hb HP; cbn [for_n]; [now apply tk_ret|].
  eapply (tk_bind F _ _ _ F (I st) I []); [apply Hb; [lia|exact HP]|now rewrite app_nil_r|apply incl_refl|].
  intros st' HP'. rewrite app_nil_r. apply IH; [|exact HP']. intros; apply Hb; [lia|assumption].
Qed.
Lemma tk_for F {St} (P : St -> Prop) (I : St -> list T) lo hi body st :
  (forall j st, lo <= j < hi -> P st -> tk F (body j st) (I st) I P) -> P st -> tk F (for_range lo hi body st) (I st) I P.
Proof. intros Hb HP. apply tk_for_n; [|exact HP]. intros; apply Hb; [lia|assumption]. Qed.
Definition either {A B C} (f : A -> C) (g : B -> C) (x : A + B) : C := match x with inl a => f a | inr b => g b end.
Lemma tk_for_ret F {St Rt} (P : St -> Prop) (I : St -> list T) (G : Rt -> list T) lo hi (body : nat -> St -> M S (St + Rt)) st :
  (forall j st, lo <= j < hi -> P st -> tk F (body j st) (I st) (either I G) (either P any)) -> P st ->
  tk F (for_range_ret lo hi body st) (I st) (either I G) (either P any).
Proof.
  intros Hb HP. unfold for_range_ret.
  assert (H : forall k i st, lo <= i -> i + k <= Nat.max lo hi -> P st -> tk F (for_n_ret k i body st) (I st) (either I G) (either P any)).
  { induction k as [|k IH]; intros i st0 Hl Hh HP0; cbn [for_n_ret]; [apply tk_ret; [reflexivity|exact HP0]|].
    eapply (tk_bind F _ _ _ F (I st0) (either I G) []); [apply Hb; [lia|exact HP0]|now rewrite app_nil_r|apply incl_refl|].
    intros [st'|v] HP'; cbn [either]; rewrite app_nil_r; [apply IH; [lia|lia|exact HP']|]. now apply tk_ret. }
  apply H; [lia|lia|exact HP].
Qed.
(** Lists. [Bf x] is what one call uses up. *)
Lemma tk_in_order F {A A'} (f : A -> M S A') (Bf : A -> list T) (E : A' -> list T) (Q : A' -> Prop) l :
  (forall x, In x l -> tk F (f x) (Bf x) E Q) ->
  tk F (in_order f l) (concat (map Bf l)) (fun ys => concat (map E ys)) (fun ys => length ys = length l /\ Forall Q ys).
Proof.
  induction l as [|x l IH]; intros H; [apply tk_ret; [reflexivity|now repeat constructor]|].
  apply (tk_ext F _ (y <- f x ;; ys <- in_order f l ;; ret (y :: ys))).
  { intros s. cbn [in_order]. unfold bind, ret. destruct (f x s) as [[y| | |] s1]; try reflexivity.
    destruct (in_order f l s1) as [[ys| | |] s2]; reflexivity. }
  cbn [map concat]. eapply (tk_bind F _ _ _ F (Bf x) E (concat (map Bf l))); [apply H; now left|psolve|isolve|].
  intros y Qy. eapply (tk_bind F _ _ _ _ _ _ (E y)); [apply IH; intros; apply H; now right|psolve|isolve|].
  intros ys [L FQ]. apply tk_ret; [|cbn; split; [now f_equal|now constructor]]. cbn [map concat]. psolve.
Qed.
Lemma tk_unwind F {A A'} (unwind : list A -> S -> S) (f : A -> M S A') (Bf : A -> list T) (E : A' -> list T) (Q : A' -> Prop) l :
  (forall x, In x l -> tk F (f x) (Bf x) E Q) ->
  (forall l' s R, Permutation (live s) (concat (map Bf l') ++ R) -> Permutation (live (unwind l' s)) R) ->
  tk F (in_order_unwind unwind f l) (concat (map Bf l)) (fun ys => concat (map E ys)) (fun ys => length ys = length l /\ Forall Q ys).
Proof.
  intros H HU. induction l as [|x l IH]; [apply tk_ret; [reflexivity|now repeat constructor]|].
  intros s R HF P. cbn [in_order_unwind map concat] in *.
  pose proof (H x (or_introl eq_refl) s (concat (map Bf l) ++ R) (incl_appr _ HF)) as Hx.
  rewrite <- app_assoc in P. specialize (Hx P). destruct (f x s) as [[y| | |] s1]; try exact Hx.
  - destruct Hx as [P2 Qy]. specialize (IH (fun x' Hin => H x' (or_intror Hin)) s1 (E y ++ R) (incl_appr _ HF)).
    assert (P3 : Permutation (live s1) (concat (map Bf l) ++ E y ++ R)) by (rewrite P2; psolve).
    specialize (IH P3). destruct (in_order_unwind unwind f l s1) as [[ys| | |] s2]; try exact IH.
    + destruct IH as [P4 [L FQ]]. split; [|cbn; split; [now f_equal|now constructor]]. cbn [map concat]. rewrite P4. psolve.
    + destruct IH as [L PL]. exists (L ++ E y). rewrite PL. psolve.
  - destruct Hx as [L PL]. exists L. apply Permutation_sym. rewrite <- (HU l s1 (L ++ R)); [reflexivity|]. rewrite PL. psolve.
Qed.
Lemma tk_fold F {A X} (body : X -> A -> M S X) (Bf : A -> list T) (I : X -> list T) (P : X -> Prop) l b :
  (forall b x, In x l -> P b -> tk F (body b x) (I b ++ Bf x) I P) -> P b ->
  tk F (fold_in_order body l b) (I b ++ concat (map Bf l)) I P.
Proof.
  revert b. induction l as [|x l IH]; intros b H HP; [apply tk_ret; [cbn; psolve|exact HP]|].
  apply (tk_ext F _ (b' <- body b x ;; fold_in_order body l b')).
  { intros s. cbn [fold_in_order]. unfold bind. destruct (body b x s) as [[y| | |] s1]; reflexivity. }
  cbn [map concat]. eapply (tk_bind F _ _ _ F (I b ++ Bf x) I (concat (map Bf l))); [apply H; [now left|exact HP]|psolve|isolve|].
  intros b' HP'. apply IH; [|exact HP']. intros; apply H; [now right|assumption].
Qed.
End Kit.
Ltac tstep H :=
  let h := fresh in pose proof H as h;
  lazymatch type of h with
  | tk ?live ?D _ _ ?B _ _ =>
    lazymatch goal with
    | |- tk live D ?F (bind _ _) ?B0 _ _ =>
      reify B0 ltac:(fun b0 => reify B ltac:(fun b => remove_atoms b b0 ltac:(fun r => 
        let f := constr:(concat r) in
        let f' := eval cbn [concat app] in f in
        eapply (tk_bind live D F _ _ _ _ _ _ f' _ _ _ h); [rewrite ?app_nil_r; psolve|clear h; rewrite ?app_nil_r; isolve|clear h; cbv beta; rewrite ?app_nil_r; cbn [app]])))
    end
  end.
Ltac tlast H :=
  let h := fresh in pose proof H as h;
  lazymatch type of h with
  | tk ?live ?D ?F1 ?m ?B ?C ?Q1 =>
    lazymatch goal with
    | |- tk live D ?F _ ?B0 _ _ =>
      reify B0 ltac:(fun b0 => reify B ltac:(fun b => remove_atoms b b0 ltac:(fun r => 
        let f := constr:(concat r) in
        let f' := eval cbn [concat app] in f in
        eapply (tk_conv live D F m (B ++ f') B0 (fun a => C a ++ f') _ Q1 _ (tk_frame live D F F1 m B C f' Q1 h ltac:(clear h; rewrite ?app_nil_r; isolve)));
          [rewrite ?app_nil_r; psolve|clear h; cbv beta; rewrite ?app_nil_r|clear h; auto; try (now intros)])))
    end
  end.
