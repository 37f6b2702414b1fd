(** * PropsAccount.v - C103: every operation keeps the books.  Whatever it is given by value is gone when
    it returns, what it borrows still exists (also if it
    panics), the result exists, and nothing else has come into being or
    gone; ScopeM.v adds the drops that the compiler inserts. *)
From Coq Require Import List Arith Bool Lia Permutation.
From Verif Require Import Rust Iter Elem VectorM MatIterM MatrixM ArithM OpsM NumM ScopeM SpecCommon SpecAlg Harness IterProofs OwnProofs VecProofs MatProofs AccProofs Sim DetLoop OpsPure PropsOrder PropsOrder2 PropsOrder3 PropsNum PropsNum2 SpecAccount AccountProofs AccountLib AccountDet AccountAgree.
Import ListNotations.

(** ** Element by element *)
Section Zip.
Context {S T : Type} (live : S -> list T) (D : Prop) (c : cfg) (mul : (T -> T -> M S T) -> Prop) (d : ety S T) (z : zops S T).
Hypothesis H : books live D mul d z.
Local Notation tk F m := (tk live D F m).
Lemma tk_zip_vv n op F a b : by_value live D op -> length a = n -> length b = n -> n < W c ->
  tk F (vzip_vv c d d d n op a b) (a ++ b) (fun r => r) (fun r => length r = n).
Proof using H.
  intros Hop La Lb HW. apply (tk_ext live D F _ (in_order_unwind (drop2 d d) (op2 op) (combine a b))); [intros s; now apply vzip_vv_spec|].
  pose proof (tk_unwind live D F (drop2 d d) (op2 op) (fun p => [fst p; snd p]) (fun y => [y]) any (combine a b)) as K.
  eapply tk_conv; [apply K| | |].
  - intros [x y] _. apply (tk_refs live D []); [apply takes_tk, Hop|isolve].
  - intros l s R P. unfold drop2. apply (drop_list live D mul d z H), (drop_list live D mul d z H). rewrite P.
    clear. induction l as [|[x y] l IH]; [reflexivity|]. cbn [map concat fst snd app]. apply perm_skip. rewrite IH.
    apply (Permutation_middle (map fst l) (map snd l ++ R) y).
  - apply Permutation_sym, combine_flat. congruence.
  - intros r _. cbv beta. now rewrite concat_sing.
  - intros r [L _]. rewrite L, combine_length. lia.
Qed.
Lemma tk_zip_vr n op a b : right_by_ref live D op -> length a = n -> length b = n -> n < W c ->
  tk b (vzip_vr c d d n op a b) a (fun r => r) (fun r => length r = n).
Proof using H.
  intros Hop La Lb HW. apply (tk_ext live D b _ (in_order_unwind (fun l => drop_all d (map fst l)) (op2 op) (combine a b))); [intros s; now apply vzip_vr_spec|].
  pose proof (tk_unwind live D b (fun l => drop_all d (map fst l)) (op2 op) (fun p => [fst p]) (fun y => [y]) any (combine a b)) as K.
  rewrite combine_left in K by congruence.
  eapply tk_conv; [apply K| | |].
  - intros [x y] Hin. apply in_combine_r in Hin. apply (tk_refs live D [y]); [apply takes_tk, Hop|now apply in_incl].
  - intros l s R P. apply (drop_list live D mul d z H). rewrite P. clear. apply Permutation_app_tail. induction l as [|p l IH]; [reflexivity|]. cbn. now apply perm_skip.
  - reflexivity.
  - intros r _. cbv beta. now rewrite concat_sing.
  - intros r [L _]. rewrite L, combine_length. lia.
Qed.
Lemma tk_zip_rv n op a b : left_by_ref live D op -> length a = n -> length b = n -> n < W c ->
  tk a (vzip_rv c d d n op a b) b (fun r => r) (fun r => length r = n).
Proof using H.
  intros Hop La Lb HW. apply (tk_ext live D a _ (in_order_unwind (fun l => drop_all d (map snd l)) (op2 op) (combine a b))); [intros s; now apply vzip_rv_spec|].
  pose proof (tk_unwind live D a (fun l => drop_all d (map snd l)) (op2 op) (fun p => [snd p]) (fun y => [y]) any (combine a b)) as K.
  rewrite combine_right in K by congruence.
  eapply tk_conv; [apply K| | |].
  - intros [x y] Hin. apply in_combine_l in Hin. apply (tk_refs live D [x]); [apply takes_tk, Hop|now apply in_incl].
  - intros l s R P. apply (drop_list live D mul d z H). rewrite P. clear. apply Permutation_app_tail. induction l as [|p l IH]; [reflexivity|]. cbn. now apply perm_skip.
  - reflexivity.
  - intros r _. cbv beta. now rewrite concat_sing.
  - intros r [L _]. rewrite L, combine_length. lia.
Qed.
Lemma tk_zip_rr n op a b : by_ref live D op -> length a = n -> length b = n ->
  tk (a ++ b) (vzip_rr c d n op a b) [] (fun r => r) (fun r => length r = n).
Proof using H.
  intros Hop La Lb. apply (tk_ext live D (a ++ b) _ (in_order (op2 op) (combine a b))); [intros s; now apply vzip_rr_spec|].
  apply (tk_row live D); [rewrite combine_length; lia|]. intros [x y] Hin.
  pose proof (in_combine_l _ _ _ _ Hin) as Ha. pose proof (in_combine_r _ _ _ _ Hin) as Hb.
  apply (tk_refs live D [x; y]); [apply takes_tk, Hop|]. intros u [<-|[<-|[]]]; apply in_or_app; auto.
Qed.
(** Rows of rows: the same with the roles of elements played by rows. *)
Lemma incl_concat (r : list T) m : In r m -> incl r (concat m).
Proof. intros Hr x Hx. now apply (In_concat x r). Qed.
Lemma tk_mzip_vv row col op F a b : by_value live D op -> rect row col a -> rect row col b -> row < W c -> col < W c ->
  tk F (mzip_vv c d d d row col op a b) (concat a ++ concat b) (fun r => concat r) (rect row col).
Proof using H.
  intros Hop Ra Rb H1 H2. unfold mzip_vv.
  apply (tk_ext live D F _ (in_order_unwind (drop2 (vec_ety d) (vec_ety d)) (op2 (vzip_vv c d d d col op)) (combine a b))).
  { intros s. apply vzip_vv_spec; [apply Ra|apply Rb|exact H1]. }
  pose proof (tk_unwind live D F (drop2 (vec_ety d) (vec_ety d)) (op2 (vzip_vv c d d d col op)) (fun p => fst p ++ snd p) (fun y => y) (fun r => length r = col) (combine a b)) as K.
  eapply tk_conv; [apply K| | |].
  - intros [x y] Hin. unfold op2. cbn [fst snd].
    apply (tk_zip_vv col op F x y Hop);
      [apply (rect_row row col a x Ra); eapply in_combine_l; eassumption|apply (rect_row row col b y Rb); eapply in_combine_r; eassumption|exact H2].
  - intros l s R P. unfold drop2. apply (drop_rows live D mul d z H), (drop_rows live D mul d z H). rewrite P. clear. induction l as [|[x y] l IH]; [reflexivity|].
    cbn [map concat fst snd]. rewrite <- app_assoc, IH. psolve.
  - apply Permutation_sym, combine_rows. destruct Ra, Rb. congruence.
  - intros r _. cbv beta. now rewrite map_id.
  - intros r [L Fr]. split; [|exact Fr]. rewrite L, combine_length. destruct Ra, Rb. lia.
Qed.
Lemma tk_mzip_vr row col op a b : right_by_ref live D op -> rect row col a -> rect row col b -> row < W c -> col < W c ->
  tk (concat b) (mzip_vr c d d row col op a b) (concat a) (fun r => concat r) (rect row col).
Proof using H.
  intros Hop Ra Rb H1 H2. unfold mzip_vr.
  apply (tk_ext live D (concat b) _ (in_order_unwind (fun l => drop_all (vec_ety d) (map fst l)) (op2 (vzip_vr c d d col op)) (combine a b))).
  { intros s. apply vzip_vr_spec; [apply Ra|apply Rb|exact H1]. }
  pose proof (tk_unwind live D (concat b) (fun l => drop_all (vec_ety d) (map fst l)) (op2 (vzip_vr c d d col op)) fst (fun y => y) (fun r => length r = col) (combine a b)) as K.
  rewrite map_fst_combine in K by (destruct Ra, Rb; congruence).
  eapply tk_conv; [apply K| | |].
  - intros [x y] Hin. pose proof (in_combine_r _ _ _ _ Hin) as Hb. apply (tk_refs live D y); [|now apply incl_concat].
    apply (tk_zip_vr col op x y Hop); [apply (rect_row row col a x Ra); eapply in_combine_l; eassumption|exact (rect_row row col b y Rb Hb)|exact H2].
  - intros l s R P. apply (drop_rows live D mul d z H). exact P.
  - reflexivity.
  - intros r _. cbv beta. now rewrite map_id.
  - intros r [L F]. split; [|exact F]. rewrite L, combine_length. destruct Ra, Rb. lia.
Qed.
Lemma tk_mzip_rv row col op a b : left_by_ref live D op -> rect row col a -> rect row col b -> row < W c -> col < W c ->
  tk (concat a) (mzip_rv c d d row col op a b) (concat b) (fun r => concat r) (rect row col).
Proof using H.
  intros Hop Ra Rb H1 H2. unfold mzip_rv.
  apply (tk_ext live D (concat a) _ (in_order_unwind (fun l => drop_all (vec_ety d) (map snd l)) (op2 (vzip_rv c d d col op)) (combine a b))).
  { intros s. apply vzip_rv_spec; [apply Ra|apply Rb|exact H1]. }
  pose proof (tk_unwind live D (concat a) (fun l => drop_all (vec_ety d) (map snd l)) (op2 (vzip_rv c d d col op)) snd (fun y => y) (fun r => length r = col) (combine a b)) as K.
  rewrite map_snd_combine in K by (destruct Ra, Rb; congruence).
  eapply tk_conv; [apply K| | |].
  - intros [x y] Hin. pose proof (in_combine_l _ _ _ _ Hin) as Ha. apply (tk_refs live D x); [|now apply incl_concat].
    apply (tk_zip_rv col op x y Hop); [exact (rect_row row col a x Ra Ha)|apply (rect_row row col b y Rb); eapply in_combine_r; eassumption|exact H2].
  - intros l s R P. apply (drop_rows live D mul d z H). exact P.
  - reflexivity.
  - intros r _. cbv beta. now rewrite map_id.
  - intros r [L F]. split; [|exact F]. rewrite L, combine_length. destruct Ra, Rb. lia.
Qed.
Lemma tk_mzip_rr row col op a b : by_ref live D op -> rect row col a -> rect row col b ->
  tk (concat a ++ concat b) (mzip_rr c d row col op a b) [] (fun r => concat r) (rect row col).
Proof using H.
  intros Hop Ra Rb. unfold mzip_rr.
  apply (tk_ext live D (concat a ++ concat b) _ (in_order (op2 (vzip_rr c d col op)) (combine a b))).
  { intros s. apply vzip_rr_spec; [apply Ra|apply Rb]. }
  apply (tk_rows live D); [rewrite combine_length; destruct Ra, Rb; lia|]. intros [x y] Hin.
  pose proof (in_combine_l _ _ _ _ Hin) as Ha. pose proof (in_combine_r _ _ _ _ Hin) as Hb.
  apply (tk_refs live D (x ++ y)); [|apply incl_app_app; now apply incl_concat].
  apply (tk_zip_rr col op x y Hop); [exact (rect_row row col a x Ra Ha)|exact (rect_row row col b y Rb Hb)].
Qed.
End Zip.

(** [a + b] and [a - b] ([op] is the element's operator) of vectors and matrices, in the four forms. *)
Theorem C103_elementwise : forall S T (live : S -> list T) (D : Prop) (c : cfg) mul (d : ety S T) z (op : T -> T -> M S T),
  books live D mul d z ->
  let takes {A} := @takes S T live D A in let borrows refs {A} := @borrows S T live D refs A in
  (forall n a b, length a = n -> length b = n -> n < W c ->
     (by_value live D op -> takes (vzip_vv c d d d n op a b) (a ++ b) (fun r => r)) /\
     (right_by_ref live D op -> borrows b (vzip_vr c d d n op a b) a (fun r => r)) /\
     (left_by_ref live D op -> borrows a (vzip_rv c d d n op a b) b (fun r => r)) /\
     (by_ref live D op -> borrows (a ++ b) (vzip_rr c d n op a b) [] (fun r => r))) /\
  (forall row col a b, rect row col a -> rect row col b -> row < W c -> col < W c ->
     (by_value live D op -> takes (mzip_vv c d d d row col op a b) (concat a ++ concat b) (fun r => concat r)) /\
     (right_by_ref live D op -> borrows (concat b) (mzip_vr c d d row col op a b) (concat a) (fun r => concat r)) /\
     (left_by_ref live D op -> borrows (concat a) (mzip_rv c d d row col op a b) (concat b) (fun r => concat r)) /\
     (by_ref live D op -> borrows (concat a ++ concat b) (mzip_rr c d row col op a b) [] (fun r => concat r))).
Proof.
  intros S T live D c mul d z op H takes' borrows'. unfold takes', borrows'. unfold takes. split.
  - intros n a b La Lb HW. repeat split; intros Hop; eapply tk_takes.
    + now apply (tk_zip_vv live D c mul d z H n op [] a b).
    + now apply (tk_zip_vr live D c mul d z H n op a b).
    + now apply (tk_zip_rv live D c mul d z H n op a b).
    + now apply (tk_zip_rr live D c mul d z H n op a b).
  - intros row col a b Ra Rb H1 H2. repeat split; intros Hop; eapply tk_takes.
    + now apply (tk_mzip_vv live D c mul d z H row col op [] a b).
    + now apply (tk_mzip_vr live D c mul d z H row col op a b).
    + now apply (tk_mzip_rv live D c mul d z H row col op a b).
    + now apply (tk_mzip_rr live D c mul d z H row col op a b).
Qed.
Print Assumptions C103_elementwise.
(** Negation and scaling: by value, and by a reference to the scalar. *)
Theorem C103_scalar : forall S T (live : S -> list T) (D : Prop) (c : cfg) mul (d : ety S T) z (op : T -> T -> M S T),
  books live D mul d z ->
  let takes {A} := @takes S T live D A in let borrows refs {A} := @borrows S T live D refs A in
  (forall n v k, length v = n -> n < W c ->
     takes (vneg c d d n (o_neg (z_ops z)) v) v (fun r => r) /\
     (by_value live D op -> takes (vscale_s c d z n op v k) (v ++ [k]) (fun r => r)) /\
     (right_by_ref live D op -> borrows [k] (vscale c d d n op (fun p => ret p) v k) v (fun r => r))) /\
  (forall row col m k, rect row col m -> row < W c -> col < W c ->
     takes (mneg c d d row col (o_neg (z_ops z)) m) (concat m) (fun r => concat r) /\
     (by_value live D op -> takes (mscale_s c d z row col op m k) (concat m ++ [k]) (fun r => concat r)) /\
     (right_by_ref live D op -> borrows [k] (mscale_ref c d row col op m k) (concat m) (fun r => concat r))).
Proof.
  intros S T live D c mul d z op H takes' borrows'. unfold takes', borrows'. unfold takes. split.
  - intros n v k L HW. split; [|split; intros Hop]; eapply tk_takes.
    + exact (tk_vneg live D c mul d z H [] n v L HW).
    + exact (tk_vscale_s live D c mul d z H [] n op v k Hop L HW).
    + apply (tk_ext live D [k] _ (in_order_unwind (drop_all d) (fun e => op e k) v)); [intros s; now apply vscale_spec|].
      apply (tk_vunwind1 live D mul d z H _ [k] v n L). intros x _. apply takes_tk, Hop.
  - intros row col m k R H1 H2. split; [|split; intros Hop]; eapply tk_takes.
    + apply (tk_ext live D [] _ (in_order_unwind (drop_all (vec_ety d)) (in_order_unwind (drop_all d) (o_neg (z_ops z))) m)); [intros s; now apply mneg_spec|].
      apply (tk_munwind live D mul d z H (in_order_unwind (drop_all d) (o_neg (z_ops z))) [] m row col (proj1 R)).
      intros r Hr. apply (tk_vunwind1 live D mul d z H _ [] r col (rect_row row col m r R Hr)). intros x _. apply (op_neg live D mul d z H).
    + exact (tk_mscale_s live D c mul d z H [] row col op m k Hop R H1 H2).
    + apply (tk_ext live D [k] _ (in_order_unwind (drop_all (vec_ety d)) (fun r s => in_order_unwind (drop_all d) (fun e => op e k) r s) m)); [intros s; now apply mscale_ref_spec|].
      apply (tk_munwind live D mul d z H _ [k] m row col (proj1 R)).
      intros r Hr. apply (tk_vunwind1 live D mul d z H _ [k] r col (rect_row row col m r R Hr)). intros x _.
      apply takes_tk, Hop.
Qed.
Print Assumptions C103_scalar.

(** Sums, scalar product, norm, normalisation, is_zero: the operands are only borrowed. *)
Theorem C103_sums : forall S T (live : S -> list T) (D : Prop) (c : cfg) (d : ety S T) z,
  books live D (by_value live D) d z ->
  let takes {A} := @takes S T live D A in let borrows refs {A} := @borrows S T live D refs A in
  (forall n v, length v = n -> borrows v (vsum_z z n v) [] (fun r => [r])) /\
  (forall row col m, rect row col m -> borrows (concat m) (msum_z z row col m) [] (fun r => [r])) /\
  (forall n a b, length a = n -> length b = n -> borrows (a ++ b) (vdot_z z n a b) [] (fun r => [r])) /\
  (forall powi2 sqrt n v, consumes live D powi2 -> consumes live D sqrt -> length v = n -> n < W c ->
     borrows v (vnorm_z z powi2 sqrt n v) [] (fun r => [r]) /\
     borrows v (vnormalized_s c d z powi2 sqrt n v) [] (fun r => r)) /\
  (forall n v, length v = n -> borrows v (vis_zero_z z n v) [] (fun _ => [])) /\
  (forall row col m, rect row col m -> borrows (concat m) (mis_zero_z z row col m) [] (fun _ => [])).
Proof.
  intros S T live D c d z H takes' borrows'. unfold takes', borrows'. unfold takes.
  assert (Z : forall v F, (forall x, In x v -> In x F) -> tk live D F (all_in_order (z_is_zero z) v) [] (fun _ => []) any).
  { induction v as [|x v IH]; intros F Hin; cbn [all_in_order]; [now apply tk_ret|].
    apply (tk_ext live D F _ (b <- z_is_zero z x ;; if b : bool then all_in_order (z_is_zero z) v else ret false)).
    { intros s. unfold bind, ret. destruct (z_is_zero z x s) as [[[|]| | |] s1]; reflexivity. }
    tstep (is_zero_in live D _ d z H x F (Hin x (or_introl eq_refl))).
    intros [|] _; [apply IH; intros; apply Hin; now right|now apply tk_ret]. }
  assert (N : forall powi2 sqrt n v, consumes live D powi2 -> consumes live D sqrt -> length v = n -> tk live D v (vnorm_z z powi2 sqrt n v) [] (fun r => [r]) any).
  { intros powi2 sqrt n v Hp Hs L.
    apply (tk_ext live D v _ (q <- summing (z_zero z) (o_add (z_ops z)) (fun x => y <- o_clone (z_ops z) x ;; powi2 y) v ;; sqrt q)).
    { intros s. destruct (C102_sums S T z s) as (_ & _ & _ & A). now apply A. }
    eapply (tk_bind live D v _ _ _ v [] (fun r => [r]) [] _ any); [|reflexivity|isolve|].
    - apply (tk_summing live D _ d z H). intros x Hx. tstep (clone_in live D _ d z H x v Hx). intros y _.
      tlast (takes_tk live D [] _ _ _ (Hp y)). intros; psolve.
    - intros q _. rewrite app_nil_r. tlast (takes_tk live D [] _ _ _ (Hs q)). intros; psolve. }
  split; [|split; [|split; [|split; [|split]]]].
  - intros n v L. eapply tk_takes, tk_ext; [intros s; exact (proj1 (C102_sums S T z s) n v L)|].
    apply (tk_summing live D _ d z H). intros x Hx. now apply (clone_in live D _ d z H).
  - intros row col m R. eapply tk_takes, tk_ext; [intros s; exact (proj1 (proj2 (C102_sums S T z s)) row col m R)|].
    apply (tk_summing live D _ d z H). intros r Hr. apply (tk_summing live D _ d z H). intros x Hx. apply (clone_in live D _ d z H). now apply (In_concat x r).
  - intros n a b La Lb. eapply tk_takes, tk_ext; [intros s; exact (proj1 (proj2 (proj2 (C102_sums S T z s))) n a b La Lb)|].
    apply (tk_summing live D _ d z H). intros [x y] Hin. apply (tk_term_dot live D _ d z H (bk_mul live D _ d z H)); apply in_or_app; cbn [fst snd];
      [left; eapply in_combine_l; eassumption|right; eapply in_combine_r; eassumption].
  - intros powi2 sqrt n v Hp Hs L HW. split; [eapply tk_takes; exact (N powi2 sqrt n v Hp Hs L)|]. apply (tk_takes live D _ _ _ _ any).
    unfold vnormalized_s. tstep (tk_vclone live D c _ d z H n v L). intros cl Lc. tstep (N powi2 sqrt n v Hp Hs L). intros nm _.
    tlast (tk_vscale_s live D c _ d z H v n (o_div (z_ops z)) cl nm (bk_div live D _ d z H) Lc HW). intros r _. cbv beta. now rewrite ?app_nil_r.
  - intros n v L. eapply tk_takes, tk_ext; [intros s; exact (proj1 (C102_is_zero S T z n v 0 0 [] s L (Logic.conj eq_refl (Forall_nil _))))|]. apply Z. auto.
  - intros row col m R. eapply tk_takes, tk_ext; [intros s; exact (proj2 (C102_is_zero S T z 0 [] row col m s eq_refl R))|]. apply Z. auto.
Qed.
Print Assumptions C103_sums.

(** What makes containers: constants, clone, transposition. *)
Theorem C103_containers : forall S T (live : S -> list T) (D : Prop) (c : cfg) mul (d : ety S T) z,
  books live D mul d z ->
  let takes {A} := @takes S T live D A in let borrows refs {A} := @borrows S T live D refs A in
  (forall n, takes (vzero_z c d z n) [] (fun r => r)) /\
  (forall row col, takes (mzero_z c d z row col) [] (fun r => concat r)) /\
  (forall n, takes (midentity_z c d z n) [] (fun r => concat r)) /\
  (forall n v, length v = n -> borrows v (vclone c d n (o_clone (z_ops z)) v) [] (fun r => r)) /\
  (forall row col m, rect row col m -> borrows (concat m) (mclone c d (o_clone (z_ops z)) row col m) [] (fun r => concat r)) /\
  (forall row col m, rect row col m -> col < W c ->
     borrows (concat m) (mtransposed c d (o_clone (z_ops z)) row col m) [] (fun r => concat r)) /\
  (forall n m, rect n n m -> n < W c -> takes (mtranspose_s c d z n m) (concat m) (fun r => concat r)).
Proof.
  intros S T live D c mul d z H takes' borrows'. unfold takes', borrows'. unfold takes.
  assert (Tr : forall row col m, rect row col m -> col < W c ->
    tk live D (concat m) (mtransposed c d (o_clone (z_ops z)) row col m) [] (fun r => concat r) (rect col row)).
  { intros row col m R HW. eapply tk_ext; [intros s; now apply mtransposed_spec|].
    apply (tk_rows live D); [apply seq_length|]. intros j Hj. apply in_seq in Hj. apply (tk_clone_row live D _ d z H).
    - assert (G : forall (m : list (list T)) row, rect row col m -> length (col_of m j) = row).
      { clear m row R. induction m as [|r m IH]; intros row [L F]; cbn in *; [exact L|]. inversion F as [|? ? L0 F0]; subst. rewrite app_length.
        unfold col_of in IH. rewrite (IH (length m)) by now split. destruct (nth_error r j) eqn:E; [reflexivity|]. apply nth_error_None in E. lia. }
      exact (G m row R).
    - intros x Hx. now apply (in_col_of x m j). }
  split; [|split; [|split; [|split; [|split; [|split]]]]].
  - intros n. eapply tk_takes, tk_ext; [intros s; apply vgenerate_spec|].
    apply (tk_row live D _ [] (seq 0 n) n (seq_length n 0)); intros i _; apply (op_zero live D mul d z H).
  - intros row col. eapply tk_takes. apply (tk_generate live D c d row col (fun _ => z_zero z) []); intros i j _ _; apply (op_zero live D mul d z H).
  - intros n. eapply tk_takes, (tk_identity live D c mul d z H []).
  - intros n v L. eapply tk_takes, (tk_vclone live D c mul d z H n v L).
  - intros row col m R. eapply tk_takes, (tk_mclone live D c mul d z H row col m R).
  - intros row col m R HW. eapply tk_takes, (Tr row col m R HW).
  - intros n m R HW. unfold mtranspose_s. eapply tk_takes. tstep (Tr n n m R HW). intros m' R'. tstep (tk_drop_mat live D mul d z H [] m). intros _ _.
    apply tk_ret; [reflexivity|exact R'].
Qed.
Print Assumptions C103_containers.

(** [a * b] of matrices in the four forms, [a *= b], matrix times vector in the two forms, powers.  With
    [&b] the element multiplication is called with its right operand by reference. *)
Theorem C103_products : forall S T (live : S -> list T) (D : Prop) (c : cfg) mul (d : ety S T) z l n r a b,
  books live D mul d z -> rect l n a -> rect n r b -> l < W c -> n < W c -> r < W c ->
  let takes {A} := @takes S T live D A in let borrows refs {A} := @borrows S T live D refs A in
  (by_value live D (o_mul (z_ops z)) -> takes (mmul_vv_s c d z l n r a b) (concat a ++ concat b) (fun m => concat m)) /\
  (right_by_ref live D (o_mul (z_ops z)) -> borrows (concat b) (mmul_vr_s c d z l n r a b) (concat a) (fun m => concat m)) /\
  (by_value live D (o_mul (z_ops z)) -> borrows (concat a) (mmul_rv_s c d z l n r a b) (concat b) (fun m => concat m)) /\
  (right_by_ref live D (o_mul (z_ops z)) -> borrows (concat a ++ concat b) (mmul_rr_z c d z l n r a b) [] (fun m => concat m)).
Proof.
  intros S T live D c mul d z l n r a b H Ra Rb H1 H2 H3 takes' borrows'. unfold takes', borrows'. unfold takes. split; [|split; [|split]]; intros HM; eapply tk_takes.
  - exact (tk_mmul_vv_s live D c mul d z H HM [] l n r a b Ra Rb H1 H2 H3).
  - unfold mmul_vr_s. tstep (proj2 (tk_mmul_ref live D c mul d z H l n r a b HM Ra Rb H1 H2 H3)). intros m Rm.
    tstep (tk_drop_mat live D mul d z H [] a). intros _ _. apply tk_ret; [psolve|exact Rm].
  - unfold mmul_rv_s. tstep (proj2 (tk_mmul_val live D c mul d z H HM l n r a b Ra Rb H1 H2 H3)). intros m Rm.
    tstep (tk_drop_mat live D mul d z H [] b). intros _ _. apply tk_ret; [psolve|exact Rm].
  - exact (proj1 (tk_mmul_ref live D c mul d z H l n r a b HM Ra Rb H1 H2 H3)).
Qed.
Print Assumptions C103_products.
Theorem C103_mul_assign : forall S T (live : S -> list T) (D : Prop) (c : cfg) (d : ety S T) z n a b,
  books live D (by_value live D) d z -> rect n n a -> rect n n b -> n < W c ->
  takes live D (mmul_assign_s c d z n b a) (concat a ++ concat b) (fun m => concat m).
Proof.
  intros S T live D c d z n a b H Ra Rb HW. eapply (tk_takes live D []). unfold mmul_assign_s.
  tstep (proj1 (tk_mmul_val live D c _ d z H (bk_mul live D _ d z H) n n n a b Ra Rb HW HW HW)). intros m Rm.
  tstep (tk_drop_mat live D _ d z H [] a). intros _ _. tstep (tk_drop_mat live D _ d z H [] b). intros _ _. apply tk_ret; [reflexivity|exact Rm].
Qed.
Print Assumptions C103_mul_assign.
Theorem C103_matrix_vector : forall S T (live : S -> list T) (D : Prop) (c : cfg) mul (d : ety S T) z row col m v,
  books live D mul d z -> rect row col m -> length v = col -> row < W c -> col < W c ->
  (by_value live D (o_mul (z_ops z)) -> takes live D (mmulv_s c d z row col m v) (concat m ++ v) (fun r => r)) /\
  (right_by_ref live D (o_mul (z_ops z)) -> borrows live D v (mmulv_ref_z c d z row col m v) (concat m) (fun r => r)).
Proof.
  intros S T live D c mul d z row col m v H R L H1 H2. split; intros HM; [eapply (tk_takes live D [])|eapply tk_takes].
  - unfold mmulv_s. eapply (tk_bind live D [] _ _ _ (concat m ++ v) [] (fun r => r) (concat m ++ v) _ (fun r => length r = row)); [|reflexivity|isolve|].
    + eapply tk_ext; [intros s; exact (proj1 (C102_matrix_vector S T c d z row col m v s R L H1 H2))|].
      apply (tk_row live D); [apply R|]. intros r Hr. apply (tk_summing live D mul d z H). intros [x y] Hin.
      apply (tk_term_right_first live D mul d z H HM); apply in_or_app; cbn [fst snd]; [left|right; eapply in_combine_r; eassumption].
      apply (In_concat x r); [eapply in_combine_l; eassumption|exact Hr].
    + intros r Lr. tstep (tk_drop_vec live D mul d z H [] v). intros _ _. tstep (tk_drop_mat live D mul d z H [] m). intros _ _.
      apply tk_ret; [reflexivity|exact Lr].
  - eapply tk_ext; [intros s; exact (proj2 (C102_matrix_vector S T c d z row col m v s R L H1 H2))|].
    apply (tk_munwind1 live D mul d z H _ v m row (proj1 R)). intros r Hr. pose proof (rect_row row col m r R Hr) as Lr.
    assert (K : forall l acc, (forall p, In p l -> In (snd p) v) ->
      tk live D v (running_sum_owned d (z_ops z) l acc) (acc :: map fst l) (fun t => [t]) any).
    { induction l as [|[x y] l IH]; intros acc Hin; cbn [running_sum_owned map app].
      { now apply tk_ret. }
      intros s Rr HR P.
      assert (P1 : Permutation (live s) ([x; acc] ++ map fst l ++ Rr)) by (rewrite P; cbn [fst]; psolve).
      assert (St : tk live D v (t <- o_mul (z_ops z) x y ;; o_add (z_ops z) acc t) [x; acc] (fun t => [t]) any).
      { pose proof (Hin (x, y) (or_introl eq_refl)) as Hy. cbn [snd] in Hy.
        eapply (tk_bind live D v _ _ _ [y] [x] (fun t => [t]) [acc]); [apply takes_tk, HM|psolve|intros u [<-|[]]; apply in_or_app; now right|]. intros t _.
        tlast (op_add live D mul d z H v acc t). intros; psolve. }
      specialize (St s (map fst l ++ Rr) (incl_appr _ HR) P1). cbn [fst snd] in *.
      destruct ((t <- o_mul (z_ops z) x y ;; o_add (z_ops z) acc t) s) as [[acc'| | |] s1]; try exact St.
      - apply (IH acc'); [intros p Hp; apply Hin; now right|exact HR|]. destruct St as [St _]. rewrite St. psolve.
      - destruct St as [Lf St]. exists Lf. apply (drop_list live D mul d z H). rewrite St. psolve. }
    assert (Hc : forall p, In p (combine r v) -> In (snd p) v) by (intros [x y] Hp; eapply in_combine_r; eassumption).
    intros s Rr HR P. unfold summing_owned. pose proof (op_zero live D mul d z H v s (r ++ Rr) (incl_appr _ HR) P) as Z.
    destruct (z_zero z s) as [[t| | |] s1]; try exact Z.
    + destruct Z as [Z _]. apply (K (combine r v) t Hc); [exact HR|]. rewrite (map_fst_combine r v) by congruence. rewrite Z. psolve.
    + destruct Z as [Lf Z]. exists Lf. apply (drop_list live D mul d z H). rewrite (map_fst_combine r v) by congruence. rewrite Z. psolve.
Qed.
Print Assumptions C103_matrix_vector.
Theorem C103_pow : forall S T (live : S -> list T) (D : Prop) (c : cfg) (d : ety S T) z n m e,
  books live D (by_value live D) d z -> rect n n m -> n < W c ->
  borrows live D (concat m) (mpow_s c d z n m e) [] (fun r => concat r).
Proof.
  intros S T live D c d z n m e H R HW. eapply tk_takes. exact (tk_mpow_s live D c _ d z H (bk_mul live D _ d z H) n HW m e R).
Qed.
Print Assumptions C103_pow.

(** Determinant, cofactor, inverse; all of them borrow the matrix. *)
Theorem C103_determinant : forall S T (live : S -> list T) (D : Prop) (c : cfg) (d : ety S T) z n m,
  books live D (by_value live D) d z -> 1 <= n -> n + n <= W c -> rect n n m ->
  borrows live D (concat m) (det_s c d z n m) [] (fun r => [r]).
Proof.
  intros S T live D c d z n m H Hn HW R. eapply tk_takes. exact (tk_det live D c _ d z H (bk_mul live D _ d z H) n m Hn HW R).
Qed.
Print Assumptions C103_determinant.
Theorem C103_cofactor : forall S T (live : S -> list T) (D : Prop) (c : cfg) (d : ety S T) z n m i j,
  books live D (by_value live D) d z -> 2 <= n -> n + n <= W c -> rect n n m -> i < n -> j < n ->
  borrows live D (concat m) (cofactor_s c d z n m (i, j)) [] (fun r => [r]).
Proof.
  intros S T live D c d z n m i j H Hn HW R Hi Hj. eapply tk_takes. exact (tk_cofactor live D c _ d z H (bk_mul live D _ d z H) n m i j Hn HW R Hi Hj).
Qed.
Print Assumptions C103_cofactor.
Theorem C103_inverse : forall S T (live : S -> list T) (D : Prop) (c : cfg) (d : ety S T) z n m,
  books live D (by_value live D) d z -> 1 <= n -> rect n n m ->
  borrows live D (concat m) (inverse_s c d z n m) []
    (fun r => match r with Some m' => concat m' | None => [] end).
Proof.
  intros S T live D c d z n m H Hn R. eapply tk_takes. exact (tk_inverse live D c _ d z H (bk_mul live D _ d z H) n m Hn R).
Qed.
Print Assumptions C103_inverse.

(** ScopeM.v adds nothing but drops: where dropping an element does nothing, its functions are those of
    NumM.v, ArithM.v and VectorM.v. *)
Theorem C103_agrees : forall S T (c : cfg) (d : ety S T) (z : zops S T), (forall x s, e_drop d x s = s) ->
  forall s : S,
  (forall n op v k, vscale_s c d z n op v k s = vscale c d d n op (o_clone (z_ops z)) v k s) /\
  (forall row col op m k, rect row col m -> row < W c -> mscale_s c d z row col op m k s = mscale c d row col op (o_clone (z_ops z)) m k s) /\
  (forall n m, mtranspose_s c d z n m s = mtransposed c d (o_clone (z_ops z)) n n m s) /\
  (forall l n r a b, mmul_vv_s c d z l n r a b s = mmul_vv_z c d z l n r a b s) /\
  (forall l n r a b, mmul_vr_s c d z l n r a b s = mmul_vr_z c d z l n r a b s) /\
  (forall l n r a b, mmul_rv_s c d z l n r a b s = mmul_rv_z c d z l n r a b s) /\
  (forall n a b, mmul_assign_s c d z n b a s = mmul_vv_z c d z n n n a b s) /\
  (forall row col m v, mmulv_s c d z row col m v s = mmulv_z c d z row col m v s) /\
  (forall n m e, mpow_s c d z n m e s = mpow_z c d z n m e s) /\
  (forall n m, det_s c d z n m s = det_z c d z n m s) /\
  (forall n m ij, cofactor_s c d z n m ij s = cofactor_z c d z n m ij s) /\
  (forall n m, inverse_s c d z n m s = inverse_z c d z n m s).
Proof.
  intros S T c d z ND s. repeat match goal with |- _ /\ _ => split end; intros.
  - now apply vscale_agrees.
  - now apply mscale_agrees.
  - unfold mtranspose_s. apply skip_last; [reflexivity|]. intros. now apply skip_mat.
  - now apply mmul_vv_agrees.
  - unfold mmul_vr_s. apply skip_last; [reflexivity|]. intros. now apply skip_mat.
  - unfold mmul_rv_s. apply skip_last; [reflexivity|]. intros. now apply skip_mat.
  - unfold mmul_assign_s. apply skip_last; [reflexivity|]. intros. apply skip_mat; [exact ND|]. intros. now apply skip_mat.
  - unfold mmulv_s. apply skip_last; [reflexivity|]. intros. apply skip_vec; [exact ND|]. intros. now apply skip_mat.
  - now apply mpow_agrees.
  - now apply det_agrees.
  - now apply cofactor_agrees.
  - now apply inverse_agrees.
Qed.
Print Assumptions C103_agrees.

(** A world of named values: an element is a name and a number; the world has a supply of fresh names and
    the list of the elements that exist.  Using an element that does not exist is undefined behaviour;
    dropping one that does not exist sets a mark; multiplying by 9 panics. *)
Record world := World { w_next : nat; w_live : list (nat * nat); w_bad : bool }.
Definition same (x y : nat * nat) : bool := (fst x =? fst y) && (snd x =? snd y).
Fixpoint without (x : nat * nat) (l : list (nat * nat)) : option (list (nat * nat)) :=
  match l with
  | [] => None
  | y :: l => if same x y then Some l else match without x l with Some l' => Some (y :: l') | None => None end
  end.
Definition use (x : nat * nat) : M world unit := fun w =>
  match without x (w_live w) with Some l => (Ok tt, World (w_next w) l (w_bad w)) | None => (UB, w) end.
Definition look (x : nat * nat) : M world unit := fun w =>
  match without x (w_live w) with Some _ => (Ok tt, w) | None => (UB, w) end.
Definition fresh (v : nat) : M world (nat * nat) := fun w =>
  (Ok (w_next w, v), World (Datatypes.S (w_next w)) ((w_next w, v) :: w_live w) (w_bad w)).
Definition e103 : ety world (nat * nat) :=
  Ety (fun x w => match without x (w_live w) with
                  | Some l => World (w_next w) l (w_bad w) | None => World (w_next w) (w_live w) true end) false.
Definition bin (f : nat -> nat -> nat) (x y : nat * nat) : M world (nat * nat) := use x ;;; use y ;;; fresh (f (snd x) (snd y)).
Definition z103 : zops world (nat * nat) :=
  Zops (Ops (0, 0) (0, 0) (bin Nat.add) (bin Nat.sub)
          (fun x y => use x ;;; use y ;;; if snd y =? 9 then panic else fresh (snd x * snd y))
          (bin Nat.div) (fun x => use x ;;; fresh (snd x)) (fun _ => true) (fun x => look x ;;; fresh (snd x)))
    (fresh 0) (fresh 1) (fun x => look x ;;; ret (snd x =? 0)).
Lemma without_perm x l : forall r, Permutation l (x :: r) -> exists l', without x l = Some l' /\ Permutation l' r.
Proof.
  assert (F : In x l -> exists l', without x l = Some l' /\ Permutation l (x :: l')).
  { induction l as [|y l IH]; intros Hin; [contradiction|]. cbn [without]. unfold same.
    destruct (Nat.eqb_spec (fst x) (fst y)); [destruct (Nat.eqb_spec (snd x) (snd y))|]; cbn [andb].
    1: exists l; split; [reflexivity|]; replace x with y; [reflexivity|]; destruct x, y; cbn in *; congruence.
    all: (destruct Hin as [->|Hin]; [congruence|]); destruct (IH Hin) as (l' & E & P); rewrite E; exists (y :: l'); (split; [reflexivity|]); rewrite P; apply perm_swap. }
  intros r P. destruct F as (l' & E & P'); [rewrite P; now left|]. exists l'. split; [exact E|]. apply (Permutation_cons_inv (a := x)). now rewrite <- P', <- P.
Qed.
Lemma use_takes x : takes w_live False (use x) [x] (fun _ => []).
Proof. intros w R _ P. unfold use. destruct (without_perm x _ R P) as (l' & -> & P'). exact P'. Qed.
Lemma look_takes x : borrows w_live False [x] (look x) [] (fun _ => []).
Proof.
  intros w R I P. destruct (in_split x R (I x (or_introl eq_refl))) as (r1 & r2 & ->). unfold look.
  destruct (without_perm x (w_live w) (r1 ++ r2)) as (l' & -> & _); [rewrite P; cbn [app]; psolve|exact P].
Qed.
Lemma fresh_takes v : takes w_live False (fresh v) [] (fun r => [r]).
Proof. intros w R _ P. cbn. now apply perm_skip. Qed.
Lemma books103 : books w_live False (by_value w_live False) e103 z103.
Proof.
  assert (B : forall f, by_value w_live False (bin f)).
  { intros f x y. apply (tk_takes w_live False _ _ _ _ any). unfold bin. tstep (takes_tk w_live False [] _ _ _ (use_takes x)). intros _ _.
    tstep (takes_tk w_live False [] _ _ _ (use_takes y)). intros _ _. apply takes_tk, fresh_takes. }
  split; try apply B; try (apply fresh_takes).
  - intros x y. apply (tk_takes w_live False _ _ _ _ any). cbn. tstep (takes_tk w_live False [] _ _ _ (use_takes x)). intros _ _.
    tstep (takes_tk w_live False [] _ _ _ (use_takes y)). intros _ _. destruct (snd y =? 9); [apply tk_panic|apply takes_tk, fresh_takes].
  - intros x. apply (tk_takes w_live False _ _ _ _ any). cbn. tstep (takes_tk w_live False [] _ _ _ (use_takes x)). intros _ _. apply takes_tk, fresh_takes.
  - intros x. apply (tk_takes w_live False _ _ _ _ any). cbn. tstep (takes_tk w_live False [x] _ _ _ (look_takes x)). intros _ _.
    apply (tk_refs w_live False []); [apply takes_tk, fresh_takes|isolve].
  - intros x. apply (tk_takes w_live False _ _ _ _ any). cbn. tstep (takes_tk w_live False [x] _ _ _ (look_takes x)). intros _ _. now apply tk_ret.
  - intros x w R P. cbn. destruct (without_perm x _ R P) as (l' & -> & P'). exact P'.
Qed.
Definition named (l : list nat) : list (nat * nat) := combine (seq 0 (length l)) l.
Definition rows_of (k : nat) (l : list (nat * nat)) : list (list (nat * nat)) := map (fun i => firstn k (skipn (i * k) l)) (seq 0 k).
Definition l103 : list (nat * nat) := named [1; 2; 3; 4; 1; 3; 0; 4; 1; 2; 4; 5; 1; 4; 5; 7; 100].
Definition m103 : list (list (nat * nat)) := rows_of 4 l103.
Definition w103 : world := World 17 l103 false.
(** Every determinant, inverse, product ... computed in this world ends with as many elements as it
    should, nothing bad has happened, and element 100 is still there. *)
Example C103_ex :
  books w_live False (by_value w_live False) e103 z103 /\ rect 4 4 m103 /\ Permutation (w_live w103) (concat m103 ++ [(16, 100)]) /\
  (match det_s dbg e103 z103 4 m103 w103 with
   | (Ok r, w) => snd r = 1 /\ w_bad w = false /\ length (w_live w) = 18 /\ w_next w = 180
   | _ => False end) /\
  (match inverse_s dbg e103 z103 4 m103 w103 with
   | (Ok _, w) => w_bad w = false /\ In (16, 100) (w_live w)
   | _ => False end) /\
  (match mmul_vv_s dbg e103 z103 2 2 2 (rows_of 2 l103) (rows_of 2 (skipn 4 l103)) w103 with
   | (Ok r, w) => map (map snd) r = [[1; 11]; [3; 25]] /\ w_bad w = false /\ length (w_live w) = 13
   | _ => False end).
Proof.
  split; [exact books103|]. split; [now repeat constructor|]. split; [reflexivity|].
  vm_compute. intuition.
Qed.
