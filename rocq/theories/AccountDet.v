(** * AccountDet.v - the accounts of products, powers, determinant, cofactor and inverse. *)
From Coq Require Import List Arith Bool Lia Permutation.
From Verif Require Import Rust Iter Elem VectorM MatIterM MatrixM ArithM OpsM NumM ScopeM SpecCommon SpecAlg IterProofs OwnProofs VecProofs MatProofs AccProofs Sim DetLoop OpsPure PropsOrder PropsOrder2 PropsOrder3 PropsNum PropsNum2 SpecAccount AccountProofs AccountLib.
Import ListNotations.

Section Products.
Context {S T : Type} (live : S -> list T) (D : Prop) (c : cfg) (mul : (T -> T -> M S T) -> Prop) (d : ety S T) (z : zops S T).
Hypothesis H : books live D mul d z.
Let o := z_ops z.
Local Notation tk F m := (tk live D F m).
Lemma tk_row_major l n r (a b : list (list T)) (term : T * T -> M S T) :
  rect l n a -> (forall p F, In (fst p) F -> In (snd p) F -> tk F (term p) [] (fun t => [t]) any) ->
  tk (concat a ++ concat b) (row_major r (fun lrow j => summing (z_zero z) (o_add o) term (combine lrow (col_of b j))) a) []
    (fun m => concat m) (rect l r).
Proof.
  intros Ra Ht. apply (tk_rows live D); [apply Ra|]. intros lrow Hl. apply (tk_row live D); [apply seq_length|]. intros j _.
  apply (tk_summing live D mul d z H). intros [x y] Hin. apply Ht; cbn [fst snd]; apply in_or_app.
  - left. apply in_combine_l in Hin. now apply (In_concat x lrow).
  - right. apply in_combine_r in Hin. now apply (in_col_of y b j).
Qed.
Lemma tk_term_left p F : right_by_ref live D (o_mul o) -> In (fst p) F -> In (snd p) F -> tk F (term_left o p) [] (fun t => [t]) any.
Proof.
  intros HM H1 H2. unfold term_left. tstep (clone_in live D mul d z H _ F H1). intros x _.
  apply (tk_refs live D [snd p]); [apply takes_tk, HM|now apply in_incl].
Qed.
Lemma tk_mmul_ref l n r a b : right_by_ref live D (o_mul o) -> rect l n a -> rect n r b -> l < W c -> n < W c -> r < W c ->
  tk (concat a ++ concat b) (mmul_rr_z c d z l n r a b) [] (fun m => concat m) (rect l r) /\
  tk (concat a ++ concat b) (mmul_vr_z c d z l n r a b) [] (fun m => concat m) (rect l r).
Proof.
  intros HM Ra Rb H1 H2 H3. pose proof (tk_row_major l n r a b (term_left o) Ra (fun p F => tk_term_left p F HM)) as K.
  split; eapply tk_ext; try exact K; intros s; now destruct (C102_matrix_product S T c d z l n r a b s Ra Rb H1 H2 H3) as (_ & _ & A & B).
Qed.
Hypothesis HV : by_value live D (o_mul o).
Lemma tk_mmul_val l n r a b : rect l n a -> rect n r b -> l < W c -> n < W c -> r < W c ->
  tk (concat a ++ concat b) (mmul_vv_z c d z l n r a b) [] (fun m => concat m) (rect l r) /\
  tk (concat a ++ concat b) (mmul_rv_z c d z l n r a b) [] (fun m => concat m) (rect l r).
Proof.
  intros Ra Rb H1 H2 H3. pose proof (tk_row_major l n r a b (term_cloned d o) Ra (fun p F => tk_term_cloned live D mul d z H HV p F)) as K.
  split; eapply tk_ext; try exact K; intros s; now destruct (C102_matrix_product S T c d z l n r a b s Ra Rb H1 H2 H3) as (A & B & _).
Qed.
Lemma tk_mmul_vv_s F l n r a b : rect l n a -> rect n r b -> l < W c -> n < W c -> r < W c ->
  tk F (mmul_vv_s c d z l n r a b) (concat a ++ concat b) (fun m => concat m) (rect l r).
Proof.
  intros Ra Rb H1 H2 H3. unfold mmul_vv_s. tstep (proj1 (tk_mmul_val l n r a b Ra Rb H1 H2 H3)). intros m Rm.
  tstep (tk_drop_mat live D mul d z H F b). intros _ _. tstep (tk_drop_mat live D mul d z H F a). intros _ _. now apply tk_ret.
Qed.
Lemma half e : e <> 0 -> Nat.even e = true -> 1 <= Nat.div2 e /\ Nat.div2 e < e.
Proof.
  intros H0 Ev. split; [|apply Nat.lt_div2; lia]. destruct e as [|[|e]]; [lia|discriminate|]. cbn. lia.
Qed.
Section Pow.
Variable n : nat.
Hypothesis HW : n < W c.
Let mulf := mmul_vv_s c d z n n n.
Let clonef := mclone c d (o_clone o) n n.
Lemma tk_square F base : rect n n base -> forall Fr A (k : list (list T) -> M S A) E Q,
  (forall b, rect n n b -> tk F (k b) (concat b ++ Fr) E Q) -> tk F (b <- clonef base ;; base' <- mulf b base ;; k base') (concat base ++ Fr) E Q.
Proof using All.
  intros R Fr A k E Q Hk. unfold clonef. tstep (tk_mclone live D c mul d z H n n base R). intros b Rb. unfold mulf.
  tstep (tk_mmul_vv_s F n n n b base Rb R HW HW HW). intros b' Rb'. now apply Hk.
Qed.
Lemma tk_pow_loop1 F : forall fuel base e, 1 <= e <= fuel -> rect n n base ->
  tk F (pow_loop1 mulf clonef fuel base e) (concat base) (fun p => concat (fst p)) (fun p => rect n n (fst p) /\ 1 <= snd p <= e).
Proof using All.
  induction fuel as [|fuel IH]; intros base e He R; [lia|]. cbn [pow_loop1]. destruct (Nat.even e) eqn:Ev.
  - pose proof (half e ltac:(lia) Ev) as [A B]. rewrite <- (app_nil_r (concat base)). apply tk_square; [exact R|]. intros b Rb. rewrite app_nil_r.
    eapply tk_conv; [apply IH; [lia|exact Rb]|reflexivity|reflexivity|]. cbn. intros p [P1 P2]. split; [exact P1|lia].
  - apply tk_ret; [reflexivity|]. cbn. split; [exact R|lia].
Qed.
Lemma tk_pow_loop2 F : forall fuel base acc e, e <= fuel -> rect n n base -> rect n n acc ->
  tk F (pow_loop2_s c d z n fuel base acc e) (concat base ++ concat acc) (fun m => concat m) (rect n n).
Proof using All.
  induction fuel as [|fuel IH]; intros base acc e He R Ra; cbn [pow_loop2_s]; destruct (Nat.ltb_spec 1 e) as [L|L]; try lia.
  - tstep (tk_drop_mat live D mul d z H F base). intros _ _. now apply tk_ret.
  - apply tk_square; [exact R|]. intros b Rb.
    assert (B : Nat.div2 e < e) by (apply Nat.lt_div2; lia).
    eapply (tk_bind live D F _ _ _ F (concat b ++ concat acc) (fun acc' => concat b ++ concat acc') [] _ (rect n n)); [|now rewrite app_nil_r|isolve|].
    + destruct (Nat.odd (Nat.div2 e)); [|now apply tk_ret]. tstep (tk_mclone live D c mul d z H n n b Rb). intros b' Rb'.
      tlast (tk_mmul_vv_s F n n n acc b' Ra Rb' HW HW HW). intros; psolve.
    + intros acc' Ra'. rewrite app_nil_r. apply IH; [lia|exact Rb|exact Ra'].
  - tstep (tk_drop_mat live D mul d z H F base). intros _ _. now apply tk_ret.
Qed.
Lemma tk_mpow_s m e : rect n n m -> tk (concat m) (mpow_s c d z n m e) [] (fun r => concat r) (rect n n).
Proof using All.
  intros R. unfold mpow_s. tstep (tk_mclone live D c mul d z H n n m R). intros base Rb. destruct (Nat.eqb_spec e 0) as [->|He].
  - tstep (tk_identity live D c mul d z H [] n). intros r Rr. tstep (tk_drop_mat live D mul d z H [] base). intros _ _. apply tk_ret; [psolve|exact Rr].
  - tstep (tk_pow_loop1 [] e base e ltac:(lia) Rb). intros [b e'] [Rb' He']. cbn [fst snd] in *.
    destruct (e' =? 1); [apply tk_ret; [psolve|exact Rb']|]. fold o. fold clonef. unfold clonef. tstep (tk_mclone live D c mul d z H n n b Rb'). intros acc Ra.
    tlast (tk_pow_loop2 [] e' b acc e' ltac:(lia) Rb' Ra). intros; psolve.
Qed.
End Pow.
End Products.

(** ** Determinant, cofactor, inverse *)
Section Det.
Context {S T : Type} (live : S -> list T) (D : Prop) (c : cfg) (mul : (T -> T -> M S T) -> Prop) (d : ety S T) (z : zops S T).
Hypothesis H : books live D mul d z.
Let o := z_ops z.
Hypothesis HV : by_value live D (o_mul o).
Local Notation tk F m := (tk live D F m).
Ltac geti R := match goal with |- tk _ (bind (idx ?c ?o ?n ?m ?i ?j) _) _ _ _ => tstep (tk_idx live D c mul d z H n m i j R ltac:(lia) ltac:(lia)); intros ? _ end.
Ltac get R := match goal with |- tk _ (bind (ix ?o ?m ?i ?j) _) _ _ _ => tstep (tk_ix live D mul d z H _ _ m i j R ltac:(lia) ltac:(lia)); intros ? _ end.
Ltac dmul := match goal with |- tk _ (bind (o_mul _ ?x ?y) _) _ _ _ => tstep (op_mul live D z HV [] x y); intros ? _ end.
Ltac dsub := match goal with |- tk _ (bind (o_sub _ ?x ?y) _) _ _ _ => tstep (op_sub live D mul d z H [] x y); intros ? _ end.
Ltac dadd := match goal with |- tk _ (bind (o_add _ ?x ?y) _) _ _ _ => tstep (op_add live D mul d z H [] x y); intros ? _ end.
Ltac dneg := match goal with |- tk _ (bind (o_neg _ ?x) _) _ _ _ => tstep (op_neg live D mul d z H [] x); intros ? _ end.
Ltac ddiv := match goal with |- tk _ (bind (o_div _ ?x ?y) _) _ _ _ => tstep (op_div live D mul d z H [] x y); intros ? _ end.
Ltac dclone := match goal with |- tk _ (bind (o_clone _ ?x) _) _ _ _ => tstep (op_clone live D mul d z H x); intros ? _ end.
Lemma tk_det1 m : rect 1 1 m -> tk (concat m) (det1 c o m) [] (fun r => [r]) any.
Proof. intros R. unfold det1. apply (tk_idx live D c mul d z H 1); auto. Qed.
Lemma tk_det2 m : rect 2 2 m -> tk (concat m) (det2 c o m) [] (fun r => [r]) any.
Proof.
  intros R. unfold det2. geti R. geti R. dmul. geti R. geti R. dmul.
  match goal with |- tk _ (o_sub _ ?x ?y) _ _ _ => tlast (op_sub live D mul d z H [] x y) end. intros; psolve.
Qed.
Lemma tk_term3 m i1 j1 i2 j2 i3 j3 : rect 3 3 m -> i1 < 3 -> j1 < 3 -> i2 < 3 -> j2 < 3 -> i3 < 3 -> j3 < 3 ->
  tk (concat m) (term3 c o m i1 j1 i2 j2 i3 j3) [] (fun r => [r]) any.
Proof.
  intros R ? ? ? ? ? ?. unfold term3. geti R. geti R. dmul. geti R.
  match goal with |- tk _ (o_mul _ ?x ?y) _ _ _ => tlast (op_mul live D z HV [] x y) end. intros; psolve.
Qed.
Lemma tk_det3 m : rect 3 3 m -> tk (concat m) (det3 c o m) [] (fun r => [r]) any.
Proof.
  intros R. unfold det3.
  Ltac t3 R := match goal with |- tk _ (bind (term3 _ _ ?m ?i1 ?j1 ?i2 ?j2 ?i3 ?j3) _) _ _ _ =>
     tstep (tk_term3 m i1 j1 i2 j2 i3 j3 R ltac:(lia) ltac:(lia) ltac:(lia) ltac:(lia) ltac:(lia) ltac:(lia)); intros ? _ end.
  t3 R. t3 R. dadd. t3 R. dadd. t3 R. dsub. t3 R. dsub. t3 R.
  match goal with |- tk _ (o_sub _ ?x ?y) _ _ _ => tlast (op_sub live D mul d z H [] x y) end. intros; psolve.
Qed.
Lemma tk_fold_range (h : nat -> M S T) (op : T -> T -> M S T) n (init : M S T) F :
  by_value live D op -> tk F init [] (fun r => [r]) any -> (forall i, i < n -> tk F (h i) [] (fun t => [t]) any) ->
  tk F (fold_from (Datatypes.S n) (imap h (range 0 n)) init op) [] (fun t => [t]) any.
Proof.
  intros Hop Hi Hh. apply (tk_ext live D F _ (t <- init ;; fold_in_order (fun acc k => v <- h k ;; op acc v) (seq 0 n) t)).
  { intros s. apply (fold_from_order h op n init s). }
  eapply (tk_bind live D F _ _ _ F [] (fun r => [r]) []); [exact Hi|reflexivity|isolve|]. intros t _.
  pose proof (tk_fold live D F (fun acc k => v <- h k ;; op acc v) (fun _ => []) (fun t => [t]) any (seq 0 n) t) as K.
  rewrite concat_nil, app_nil_r in K. rewrite app_nil_r. apply K; [|exact I]. intros b i Hin _. apply in_seq in Hin. rewrite app_nil_r.
  eapply (tk_bind live D F _ _ _ F [] (fun t => [t]) [b]); [apply Hh; lia|psolve|isolve|]. intros u _.
  tlast (takes_tk live D [] _ _ _ (Hop b u)). intros; psolve.
Qed.
Lemma tk_elim_row n i j dd mat : rect n n mat -> i < n -> j < n ->
  tk [dd] (elim_row_s d z n i j dd mat) (concat mat) (fun mat' => concat mat') (rect n n).
Proof.
  intros R Hi Hj. unfold elim_row_s. fold o.
  apply (tk_for live D [dd] (rect n n) (fun mat => concat mat)); [|exact R]. clear mat R. intros k mat Hk R.
  get R. get R. dclone. dmul. dsub.
  match goal with |- tk _ (store _ _ _ ?x) _ _ _ => tlast (tk_store live D mul d z H [] n n mat j k x R Hj ltac:(lia)) end. intros; psolve.
Qed.
Lemma tk_det_big n m (cof : nat * nat -> M S T) : rect n n m -> 0 < n ->
  (forall i, i < n -> tk (concat m) (cof (i, 0)) [] (fun r => [r]) any) ->
  tk (concat m) (det_big_s c d z n m cof) [] (fun r => [r]) any.
Proof.
  intros R Hn Hc. unfold det_big_s. fold o. tstep (tk_mclone live D c mul d z H n n m R). intros mat0 R0.
  eapply (tk_bind live D (concat m) _ _ _ (concat m) (concat mat0) (either (fun mat => concat mat) (fun r => [r])) [] _ (either (rect n n) any)); [|now rewrite !app_nil_r|isolve|].
  - apply (tk_for_ret live D (concat m) (rect n n) (fun mat => concat mat) (fun r : T => [r])); [|exact R0].
    clear mat0 R0. intros i mat0 Hi R0.
    apply (tk_for_ret live D (concat m) (rect n n) (fun mat => concat mat) (fun r : T => [r])); [|exact R0].
    clear mat0 R0. intros j mat Hj R0.
    destruct (entry_some n n mat i i R0 ltac:(lia) ltac:(lia)) as [p E].
    eapply (tk_bind live D (concat m) _ _ _ [] [] (fun _ => []) (concat mat) _ (fun x => x = p)); [|reflexivity|isolve|].
    { intros s RR HF P. rewrite (mindex_in mat i i p s E). now split. }
    intros piv ->. cbn [app]. tstep (is_zero_in live D mul d z H p (concat mat) (entry_In mat i i p E)). intros [|] _.
    + unfold expand_col0_z. fold o.
      eapply (tk_bind live D (concat m) _ _ _ (concat m) [] (fun v => [v]) (concat mat) _ any); [|psolve|isolve|].
      * apply tk_fold_range; [apply (bk_add live D mul d z H)|apply (op_zero live D mul d z H (concat m))|]. intros k Hk. get R.
        tstep (Hc k Hk). intros cf _. match goal with |- tk _ (o_mul _ ?x ?y) _ _ _ => tlast (op_mul live D z HV [] x y) end. intros; psolve.
      * intros v _. tstep (tk_drop_mat live D mul d z H [] mat). intros _ _. apply tk_ret; [cbn [either]; psolve|exact I].
    + get R0. get R0. ddiv. match goal with |- tk _ (bind (elim_row_s _ _ _ _ _ ?q _) _) _ _ _ =>
        tstep (tk_elim_row n i j q mat R0 ltac:(lia) ltac:(lia)); intros mat' R';
        tstep (tk_drop_val live D mul d z H [] q) end. intros _ _. apply tk_ret; [cbn [either]; psolve|exact R'].
  - intros [mat|v] Q; rewrite app_nil_r; cbn [either] in *.
    + eapply (tk_bind live D (concat m) _ _ _ (concat mat) [] (fun v => [v]) (concat mat) _ any); [|reflexivity|isolve|].
      * apply tk_fold_range; [exact HV|apply (op_one live D mul d z H (concat mat))|]. intros k Hk. now apply (tk_ix live D mul d z H n n).
      * intros p _. tstep (tk_drop_mat live D mul d z H [] mat). intros _ _. apply tk_ret; [psolve|exact I].
    + apply tk_ret; [reflexivity|exact I].
Qed.
Lemma tk_sign i j : i + j < W c -> tk [] (cof_sign_z c z i j) [] (fun r => [r]) any.
Proof.
  intros Hw. apply (tk_ext live D [] _ (sign_of_z z i j)); [intros s; now apply sign_order_z|]. unfold sign_of_z.
  destruct (Nat.even (i + j)); [apply (op_one live D mul d z H [])|].
  tstep (op_one live D mul d z H []). intros u _. apply (op_neg live D mul d z H []).
Qed.
Lemma rect_entries n m (x0 : T) : rect n n m -> entries n m (fun i j => nth j (nth i m []) x0).
Proof.
  intros R. split; [exact R|]. intros i j Hi Hj. destruct (entry_row _ _ _ _ R Hi) as (r & E & L).
  unfold entry. rewrite E, (nth_error_nth _ _ _ E). apply nth_error_nth'. lia.
Qed.
Lemma tk_submatrix n m i j : rect n n m -> i < n -> j < n -> n < W c ->
  tk (concat m) (submatrix c d o n m i j) [] (fun a => concat a) (rect (n - 1) (n - 1)).
Proof.
  intros R Hi Hj HW. destruct (entry_some n n m i j R Hi Hj) as [x0 E0].
  pose proof (rect_entries n m x0 R) as En.
  apply (tk_ext live D (concat m) _ (minor_of o n i j (fun i j => nth j (nth i m []) x0))); [intros s; now apply submatrix_order|].
  assert (Lf : forall i, i < n -> length (List.filter (fun a => negb (a =? i)) (seq 0 n)) = n - 1).
  { intros a Ha. rewrite (filter_seq n a Ha). now rewrite map_length, seq_length. }
  unfold minor_of. apply (tk_rows live D); [now apply Lf|]. intros a Ha. apply filter_In in Ha as [Ha _]. apply in_seq in Ha.
  apply (tk_row live D); [now apply Lf|]. intros b Hb. apply filter_In in Hb as [Hb _]. apply in_seq in Hb.
  apply (clone_in live D mul d z H). apply (entry_In m a b). apply En; lia.
Qed.
Lemma tk_cof3 m i j : rect 3 3 m -> i < 3 -> j < 3 -> tk (concat m) (cof3_s c d z m (i, j)) [] (fun r => [r]) any.
Proof.
  intros R Hi Hj. pose proof (W_big c). unfold cof3_s. rewrite (proj2 (Nat.ltb_lt i 3)), (proj2 (Nat.ltb_lt j 3)) by assumption. cbn [andb assert].
  eapply (tk_bind live D (concat m) _ _ _ [] [] (fun _ => []) [] _ any); [apply tk_ret; [reflexivity|exact I]|reflexivity|isolve|]. intros _ _. cbn [app].
  tstep (tk_sign i j ltac:(lia)). intros g _. fold o. tstep (tk_submatrix 3 m i j R Hi Hj ltac:(lia)). intros a Ra.
  tstep (tk_det2 a Ra). intros dt _. dmul. tstep (tk_drop_mat live D mul d z H [] a). intros _ _. apply tk_ret; [psolve|exact I].
Qed.
Lemma tk_cof_big n (det' : list (list T) -> M S T) m i j : rect n n m -> i < n -> j < n -> n + n <= W c ->
  (forall a, rect (n - 1) (n - 1) a -> tk (concat a) (det' a) [] (fun r => [r]) any) ->
  tk (concat m) (cof_big_s c d z n det' m (i, j)) [] (fun r => [r]) any.
Proof.
  intros R Hi Hj HW Hd. unfold cof_big_s. rewrite (proj2 (Nat.ltb_lt i n)), (proj2 (Nat.ltb_lt j n)) by assumption. cbn [andb assert].
  eapply (tk_bind live D (concat m) _ _ _ [] [] (fun _ => []) [] _ any); [apply tk_ret; [reflexivity|exact I]|reflexivity|isolve|]. intros _ _. cbn [app].
  fold o. tstep (tk_submatrix n m i j R Hi Hj ltac:(lia)). intros a Ra. tstep (tk_sign i j ltac:(lia)). intros g _.
  tstep (Hd a Ra). intros dt _. dmul. tstep (tk_drop_mat live D mul d z H [] a). intros _ _. apply tk_ret; [psolve|exact I].
Qed.
Lemma tk_det n m : 1 <= n -> n + n <= W c -> rect n n m -> tk (concat m) (det_s c d z n m) [] (fun r => [r]) any.
Proof.
  revert m. induction n as [|n IH]; intros m Hn HW R; [lia|]. destruct n as [|[|[|n]]].
  - now apply tk_det1.
  - now apply tk_det2.
  - now apply tk_det3.
  - set (k := Datatypes.S (Datatypes.S (Datatypes.S n))) in *. change (det_s c d z (Datatypes.S k) m) with (det_big_s c d z (Datatypes.S k) m (cof_big_s c d z (Datatypes.S k) (det_s c d z k) m)).
    apply tk_det_big; [exact R|lia|]. intros i Hi. apply tk_cof_big; [exact R|exact Hi|lia|exact HW|]. intros a Ra. replace (Datatypes.S k - 1) with k in Ra by lia. apply IH; [lia|lia|exact Ra].
Qed.
Lemma tk_cofactor n m i j : 2 <= n -> n + n <= W c -> rect n n m -> i < n -> j < n ->
  tk (concat m) (cofactor_s c d z n m (i, j)) [] (fun r => [r]) any.
Proof.
  intros Hn HW R Hi Hj. destruct n as [|[|[|[|n]]]]; [lia|lia| | |].
  - cbn [cofactor_s]. unfold cof2_z. tstep (tk_sign i j ltac:(lia)). intros g _.
    unfold usz_sub. destruct (Nat.leb_spec i 1); [|lia]. destruct (Nat.leb_spec j 1); [|lia].
    eapply (tk_bind live D (concat m) _ _ _ [] [] (fun _ => []) [g] _ (fun x => x = 1 - i)); [apply tk_ret; reflexivity|reflexivity|isolve|]. intros a ->. cbn [app].
    eapply (tk_bind live D (concat m) _ _ _ [] [] (fun _ => []) [g] _ (fun x => x = 1 - j)); [apply tk_ret; reflexivity|reflexivity|isolve|]. intros b ->. cbn [app].
    fold o. get R. match goal with |- tk _ (o_mul _ ?x ?y) _ _ _ => tlast (op_mul live D z HV [] x y) end. intros; psolve.
  - now apply tk_cof3.
  - set (k := Datatypes.S (Datatypes.S (Datatypes.S n))) in *. change (cofactor_s c d z (Datatypes.S k) m (i, j)) with (cof_big_s c d z (Datatypes.S k) (det_s c d z k) m (i, j)).
    apply tk_cof_big; auto. intros a Ra. replace (Datatypes.S k - 1) with k in Ra by lia. apply tk_det; [lia|lia|exact Ra].
Qed.
Definition kept (r : option (list (list T))) : list T := match r with Some m' => concat m' | None => [] end.
Definition shape n (r : option (list (list T))) : Prop := match r with Some m' => rect n n m' | None => True end.
Ltac dzero := match goal with |- tk _ (bind (z_is_zero _ ?x) _) _ _ _ => tstep (op_is_zero live D mul d z H x); intros [|] _ end.
Ltac ddrop := match goal with |- tk _ (bind (drop_val _ ?x) _) _ _ _ => tstep (tk_drop_val live D mul d z H [] x); intros _ _ end.
Lemma tk_new n rows : rect n n rows -> n < W c -> tk [] (mnew c d n rows) (concat rows) (fun m => concat m) (fun m => m = rows).
Proof.
  intros R HW. apply (tk_ext live D [] _ (ret rows)); [intros s; apply mnew_spec; [apply R|exact HW]|]. now apply tk_ret.
Qed.
Lemma tk_inv1 m : rect 1 1 m -> tk (concat m) (inv1_s c d z m) [] kept (shape 1).
Proof.
  intros R. pose proof (W_big c). unfold inv1_s. fold o. geti R. dzero.
  - ddrop. apply tk_ret; [reflexivity|exact I].
  - tstep (op_one live D mul d z H []). intros u _. ddiv.
    match goal with |- tk _ (bind (mnew _ _ _ [[?q]]) _) _ _ _ => assert (Rq : rect 1 1 [[q]]) by (now repeat constructor); pose proof (tk_new 1 [[q]] Rq ltac:(lia)) as K end.
    cbn [concat app] in K. tstep K. intros m' ->. apply tk_ret; [cbn [kept concat app]; psolve|exact Rq].
Qed.
Lemma tk_inv2 m : rect 2 2 m -> tk (concat m) (inv2_s c d z m) [] kept (shape 2).
Proof.
  intros R. pose proof (W_big c). unfold inv2_s. fold o. tstep (tk_det2 m R). intros dt _. dzero.
  - ddrop. apply tk_ret; [reflexivity|exact I].
  - geti R. geti R. dneg. geti R. dneg. geti R.
    match goal with |- tk _ (bind (mnew _ _ _ ?rows) _) _ _ _ => assert (Rq : rect 2 2 rows) by (now repeat constructor); pose proof (tk_new 2 rows Rq ltac:(lia)) as K end.
    cbn [concat app] in K. tstep K. intros m' ->. cbn [concat app].
    match goal with |- tk _ (bind (mscale_s _ _ _ _ _ _ ?rows _) _) _ _ _ => pose proof (tk_mscale_s live D c mul d z H [] 2 2 (o_div o) rows dt (bk_div live D mul d z H) Rq ltac:(lia) ltac:(lia)) as K2 end.
    cbn [concat app] in K2. tstep K2. intros q Rq'. apply tk_ret; [cbn [kept]; psolve|exact Rq'].
Qed.
Lemma tk_ms m i1 j1 i2 j2 i3 j3 i4 j4 : rect 3 3 m -> i1 < 3 -> j1 < 3 -> i2 < 3 -> j2 < 3 -> i3 < 3 -> j3 < 3 -> i4 < 3 -> j4 < 3 ->
  tk (concat m) (ms c o m i1 j1 i2 j2 i3 j3 i4 j4) [] (fun r => [r]) any.
Proof.
  intros R ? ? ? ? ? ? ? ?. unfold ms. geti R. geti R. dmul. geti R. geti R. dmul.
  match goal with |- tk _ (o_sub _ ?x ?y) _ _ _ => tlast (op_sub live D mul d z H [] x y) end. intros; psolve.
Qed.
Lemma tk_inv3 m : rect 3 3 m -> tk (concat m) (inv3_s c d z m) [] kept (shape 3).
Proof.
  intros R. pose proof (W_big c). unfold inv3_s. fold o. tstep (tk_det3 m R). intros dt _. dzero.
  - ddrop. apply tk_ret; [reflexivity|exact I].
  - cbv zeta.
    do 9 (match goal with |- tk _ (bind (ms _ _ ?m ?i1 ?j1 ?i2 ?j2 ?i3 ?j3 ?i4 ?j4) _) _ _ _ =>
      tstep (tk_ms m i1 j1 i2 j2 i3 j3 i4 j4 R ltac:(lia) ltac:(lia) ltac:(lia) ltac:(lia) ltac:(lia) ltac:(lia) ltac:(lia) ltac:(lia)); intros ? _ end).
    match goal with |- tk _ (bind (mnew _ _ _ ?rows) _) _ _ _ => assert (Rq : rect 3 3 rows) by (now repeat constructor); pose proof (tk_new 3 rows Rq ltac:(lia)) as K end.
    cbn [concat app] in K. tstep K. intros m' ->. cbn [concat app].
    match goal with |- tk _ (bind (mscale_s _ _ _ _ _ _ ?rows _) _) _ _ _ => pose proof (tk_mscale_s live D c mul d z H [] 3 3 (o_div o) rows dt (bk_div live D mul d z H) Rq ltac:(lia) ltac:(lia)) as K2 end.
    cbn [concat app] in K2. tstep K2. intros q Rq'. apply tk_ret; [cbn [kept]; psolve|exact Rq'].
Qed.
Definition both_rect n (mi : list (list T) * list (list T)) : Prop := rect n n (fst mi) /\ rect n n (snd mi).
Definition both_own (mi : list (list T) * list (list T)) : list T := concat (fst mi) ++ concat (snd mi).
Ltac dstore R := match goal with |- tk _ (bind (store _ ?mat (?i, ?j) ?x) _) _ _ _ => tstep (tk_store live D mul d z H [] _ _ mat i j x R ltac:(lia) ltac:(lia)); intros ? ? end.
Lemma tk_scale_rows n i rcp mi : i < n -> both_rect n mi ->
  tk [rcp] (scale_rows_s d z n i rcp mi) (both_own mi) both_own (both_rect n).
Proof.
  intros Hi R. unfold scale_rows_s. fold o.
  apply (tk_for live D [rcp] (both_rect n) both_own); [|exact R]. clear mi R. intros j [mat inv] Hj [R1 R2]. unfold both_own. cbn [fst snd] in *.
  get R1. dclone. dmul. dstore R1. get R2. dclone. dmul. dstore R2. apply tk_ret; [cbn [fst snd]; psolve|now split].
Qed.
Lemma tk_elim_rows n i j a mi : i < n -> j < n -> both_rect n mi ->
  tk [a] (elim_rows_s d z n i j a mi) (both_own mi) both_own (both_rect n).
Proof.
  intros Hi Hj R. unfold elim_rows_s. fold o.
  apply (tk_for live D [a] (both_rect n) both_own); [|exact R]. clear mi R. intros k [mat inv] Hk [R1 R2]. unfold both_own. cbn [fst snd] in *.
  get R1. get R1. dclone. dmul. dsub. dstore R1. get R2. get R2. dclone. dmul. dsub. dstore R2. apply tk_ret; [cbn [fst snd]; psolve|now split].
Qed.
Lemma tk_inv_big n m : rect n n m -> tk (concat m) (inv_big_s c d z n m) [] kept (shape n).
Proof.
  intros R. unfold inv_big_s. fold o. tstep (tk_mclone live D c mul d z H n n m R). intros mat0 R0.
  tstep (tk_identity live D c mul d z H [] n). intros inv0 R1.
  eapply (tk_bind live D (concat m) _ _ _ [] (both_own (mat0, inv0)) (either both_own (fun _ => [])) [] _ (either (both_rect n) any)); [|unfold both_own; cbn [fst snd]; psolve|isolve|].
  - apply (tk_for_ret live D [] (both_rect n) both_own (fun _ : unit => [])); [|now split].
    clear mat0 inv0 R0 R1. intros i [mat inv] Hi [R1 R2]. unfold both_own. cbn [fst snd] in *. get R1. dzero.
    + ddrop. tstep (tk_drop_mat live D mul d z H [] inv). intros _ _. tstep (tk_drop_mat live D mul d z H [] mat). intros _ _.
      apply tk_ret; [reflexivity|exact I].
    + tstep (op_one live D mul d z H []). intros u _. ddiv.
      match goal with |- tk _ (bind (scale_rows_s _ _ _ _ ?q _) _) _ _ _ => rename q into rcp end.
      eapply (tk_bind live D [] _ _ _ [rcp] (both_own (mat, inv)) both_own [rcp] _ (both_rect n)); [apply tk_scale_rows; [lia|now split]|unfold both_own; cbn [fst snd]; psolve|isolve|].
      intros mi1 Q1.
      eapply (tk_bind live D [] _ _ _ [] (both_own mi1) both_own [rcp] _ (both_rect n)); [|reflexivity|isolve|].
      * apply (tk_for live D [] (both_rect n) both_own); [|exact Q1]. clear mi1 Q1. intros j [mat1 inv1] Hj [R3 R4].
        unfold both_own. cbn [fst snd] in *. destruct (i =? j); [apply tk_ret; [reflexivity|now split]|].
        get R3. match goal with |- tk _ (bind (elim_rows_s _ _ _ _ _ ?a _) _) _ _ _ => rename a into a0 end.
        eapply (tk_bind live D [] _ _ _ [a0] (both_own (mat1, inv1)) both_own [a0] _ (both_rect n)); [apply tk_elim_rows; [lia|lia|now split]|unfold both_own; cbn [fst snd]; psolve|isolve|].
        intros [mat2 inv2] Q2. unfold both_own. cbn [fst snd]. ddrop. apply tk_ret; [cbn [fst snd]; psolve|exact Q2].
      * intros [mat2 inv2] Q2. unfold both_own. cbn [fst snd]. ddrop. apply tk_ret; [cbn [either fst snd]; psolve|exact Q2].
  - intros [[mat inv]|v] Q; cbn [either] in *.
    + unfold both_own. cbn [fst snd]. tstep (tk_drop_mat live D mul d z H [] mat). intros _ _. apply tk_ret; [cbn [kept]; psolve|exact (proj2 Q)].
    + apply tk_ret; [reflexivity|exact I].
Qed.
Lemma tk_inverse n m : 1 <= n -> rect n n m -> tk (concat m) (inverse_s c d z n m) [] kept (shape n).
Proof.
  intros Hn R. destruct n as [|[|[|[|n]]]]; [lia|now apply tk_inv1|now apply tk_inv2|now apply tk_inv3|]. now apply tk_inv_big.
Qed.
End Det.
