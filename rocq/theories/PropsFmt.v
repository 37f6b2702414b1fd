(** * PropsFmt.v - properties C58-C60: Debug and Display. *)
From Coq Require Import String List Arith Bool NArith Lia.
From Verif Require Import Rust Iter Elem VectorM MatIterM MatrixM FmtM SpecCommon SpecFmt Harness
  IterProofs OwnProofs VecProofs MatProofs.
Import ListNotations.
Open Scope list_scope.

(** ** Writing in order *)
Lemma try_app {S A} (p : A -> M S bool) l1 l2 (m1 m2 : M S bool) s :
  (forall s, m1 s = all_in_order p l1 s) -> (forall s, m2 s = all_in_order p l2 s) ->
  try_ m1 m2 s = all_in_order p (l1 ++ l2) s.
Proof.
  intros H1 H2. rewrite all_in_order_app. unfold try_, bind. rewrite H1.
  destruct (all_in_order p l1 s) as [[[]| | |] s1]; auto.
Qed.
Lemma all_one {S A} (p : A -> M S bool) x s : p x s = all_in_order p [x] s.
Proof. cbn. destruct (p x s) as [[[]| | |] s1]; reflexivity. Qed.
Lemma string_all l out : all_in_order string_sink l out = (Ok true, out ++ concat l).
Proof.
  revert out. induction l as [|t l IH]; intros out; cbn; [now rewrite app_nil_r|]. rewrite IH. now rewrite <- app_assoc.
Qed.
Lemma string_pieces {T} (text : T -> str) ps out :
  all_in_order (print_piece string_sink (fun x => string_sink (text x))) ps out = (Ok true, out ++ text_of text ps).
Proof.
  revert out. induction ps as [|p ps IH]; intros out; cbn; [now rewrite app_nil_r|]. unfold text_of in *. cbn.
  destruct p; cbn; rewrite IH; now rewrite <- app_assoc.
Qed.

(** ** C58: Debug *)
Lemma debug_list_spec {S T} (w : str -> M S bool) (dfmt : T -> M S bool) l s :
  debug_list w dfmt l s = all_in_order (print_piece w dfmt) (listing l) s.
Proof.
  unfold debug_list, listing. apply try_app; [intros; apply (all_one (print_piece w dfmt) (inl _))|].
  intros s1. apply try_app; [|intros; apply (all_one (print_piece w dfmt) (inl _))].
  clear s. intros s. destruct l as [|x l]; [reflexivity|].
  assert (G : forall l s, list_entries w dfmt false l s = all_in_order (print_piece w dfmt) (concat (map (fun x => [inl (chars ", "); inr x]) l)) s).
  { clear. induction l as [|x l IH]; intros s; [reflexivity|]. cbn [list_entries map concat].
    apply (try_app _ [inl _]); [intros; apply (all_one (print_piece w dfmt) (inl _))|]. intros s1.
    apply (try_app _ [inr x]); [intros; apply (all_one (print_piece w dfmt) (inr _))|exact IH]. }
  cbn [list_entries]. replace (joined (inl (chars ", ")) (map (fun x => [inr x]) (x :: l))) with (inr x :: concat (map (fun x => [inl (chars ", "); inr x]) l)).
  - unfold try_ at 1, bind, ret. apply (try_app _ [inr x]); [intros; apply (all_one (print_piece w dfmt) (inr _))|apply G].
  - clear. revert x. induction l as [|y l IH]; intros x; [reflexivity|]. cbn [map concat]. cbn [joined app]. f_equal. f_equal. exact (IH y).
Qed.
Lemma mdebug_spec {S T} c (w : str -> M S bool) (dfmt : T -> M S bool) row m s :
  length m = row -> 0 < row ->
  mdebug c w dfmt row m s = all_in_order (print_piece w dfmt) (matrix_pieces m) s.
Proof.
  intros L H0. unfold mdebug, mdebug_with, matrix_pieces. apply try_app; [intros; apply (all_one (print_piece w dfmt) (inl _))|].
  clear s. intros s. unfold bind at 1. unfold usz_sub. destruct (Nat.leb_spec 1 row); [|lia]. unfold ret at 1.
  apply try_app; [|intros; apply (all_one (print_piece w dfmt) (inl _))]. clear s. intros s.
  unfold viter, as_slice.
  rewrite (iall_gives _ _ _ _ _ s (enumerate_ret_gives _ _ _ (slice_iter_gives m)));
    [|rewrite map_length, indexed_length; lia].
  rewrite allm_all.
  assert (G : forall m k s, length m + k = row -> 
    all_in_order (fun '(i, r) => try_ (debug_list w dfmt r) (if i =? row - 1 then ret true else w [ch_comma; ch_sp])) (combine (seq k (length m)) m) s
    = all_in_order (print_piece w dfmt) (joined (inl (chars ", ")) (map listing m)) s).
  { clear - H0. intros m. induction m as [|r m IH]; intros k s Lk; [reflexivity|]. cbn [length] in Lk. cbn [length seq combine all_in_order map].
    unfold try_ at 1, bind at 1. rewrite debug_list_spec.
    destruct m as [|r2 m].
    - cbn [joined map combine seq length]. destruct (Nat.eqb_spec k (row - 1)); [|cbn in Lk; lia].
      destruct (all_in_order (print_piece w dfmt) (listing r) s) as [[[]| | |] s1]; reflexivity.
    - destruct (Nat.eqb_spec k (row - 1)); [cbn in Lk; lia|].
      change (joined (inl (chars ", ")) (listing r :: map listing (r2 :: m))) with
        (listing r ++ [inl (chars ", ")] ++ joined (inl (chars ", ")) (map listing (r2 :: m))).
      rewrite !all_in_order_app. destruct (all_in_order (print_piece w dfmt) (listing r) s) as [[[]| | |] s1]; try reflexivity.
      cbn [app all_in_order print_piece]. change (w [ch_comma; ch_sp] s1) with (w (chars ", ") s1).
      destruct (w (chars ", ") s1) as [[[]| | |] s2]; try reflexivity. apply IH. cbn in *; lia. }
  unfold indexed. rewrite <- G with (k := 0) by lia. apply all_in_order_ext. intros [i r] s1 _. reflexivity.
Qed.
(** The text is written piece by piece to any sink, elements printing themselves, and
    printing stops at the first write that fails. *)
Theorem C58_vector :
  forall S T (w : str -> M S bool) (dfmt : T -> M S bool) v (s : S),
  vdebug w dfmt v s = all_in_order (print_piece w dfmt) (vector_pieces v) s.
Proof.
  intros. unfold vdebug, vdebug_with, vector_pieces. apply try_app; [intros; apply (all_one (print_piece w dfmt) (inl _))|].
  intros. apply debug_list_spec.
Qed.
Print Assumptions C58_vector.
Theorem C58_vector_text :
  forall T (text : T -> str) v (out : str),
  vdebug string_sink (fun x => string_sink (text x)) v out = (Ok true, out ++ text_of text (vector_pieces v)).
Proof. intros. rewrite C58_vector. apply string_pieces. Qed.
Print Assumptions C58_vector_text.
(** Matrices: for every shape with a row; in a release build for every shape. *)
Theorem C58_matrix_partial :
  forall S T (c : cfg) (w : str -> M S bool) (dfmt : T -> M S bool) row col m (s : S),
  rect row col m -> (0 < row \/ debug c = false) ->
  mdebug c w dfmt row m s = all_in_order (print_piece w dfmt) (matrix_pieces m) s.
Proof.
  intros S T c w dfmt row col m s [L _] H. destruct row as [|row]; [|apply mdebug_spec; auto; lia].
  destruct H as [H|H]; [lia|]. destruct m; [|discriminate]. unfold mdebug, mdebug_with, matrix_pieces.
  apply try_app; [intros; apply (all_one (print_piece w dfmt) (inl _))|].
  clear s. intros s. unfold bind at 1. unfold usz_sub. cbn [Nat.leb]. rewrite H. unfold ret at 1. cbn [map joined app].
  apply (try_app _ []); [reflexivity|]. intros; apply (all_one (print_piece w dfmt) (inl _)).
Qed.
Print Assumptions C58_matrix_partial.
Theorem C58_matrix_text_partial :
  forall T (c : cfg) (text : T -> str) row col m (out : str),
  rect row col m -> (0 < row \/ debug c = false) ->
  mdebug c string_sink (fun x => string_sink (text x)) row m out = (Ok true, out ++ text_of text (matrix_pieces m)).
Proof. intros. erewrite C58_matrix_partial by eassumption. apply string_pieces. Qed.
Print Assumptions C58_matrix_text_partial.
(** Refuted for matrices without rows in a debug build: [len() - 1] underflows. *)
Theorem C58_refuted :
  forall T (c : cfg) (dfmt : T -> M str bool) col (out : str), debug c = true ->
  rect 0 col ([] : list (list T)) /\
  mdebug c string_sink dfmt 0 [] out = (Panic, out ++ chars "Matrix[").
Proof.
  intros T c dfmt col out D. split; [now split|]. unfold mdebug, mdebug_with, try_, bind, usz_sub. cbn [string_sink Nat.leb].
  now rewrite D.
Qed.
Print Assumptions C58_refuted.
Example C58_ex : let digit n := [N.of_nat (48 + n)] in
  rect 2 2 [[1; 2]; [3; 4]] /\
  vdebug string_sink (fun x => string_sink (digit x)) [1; 2; 3] [] = (Ok true, chars "Vector[1, 2, 3]") /\
  mdebug dbg string_sink (fun x => string_sink (digit x)) 2 [[1; 2]; [3; 4]] [] = (Ok true, chars "Matrix[[1, 2], [3, 4]]") /\
  text_of digit (matrix_pieces [[1; 2]; [3; 4]]) = chars "Matrix[[1, 2], [3, 4]]" /\
  text_of digit (vector_pieces []) = chars "Vector[]".
Proof. repeat split; try (repeat constructor; fail); vm_compute; reflexivity. Qed.
