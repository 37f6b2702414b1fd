(** * PropsFlag.v - property C99: formatter flags. *)
From Coq Require Import String List Arith Bool NArith Lia.
From Verif Require Import Rust Iter Elem VectorM MatIterM MatrixM FmtM FlagM SpecCommon SpecFmt Harness
  IterProofs OwnProofs VecProofs MatProofs PropsFmt PropsDisplay.
Import ListNotations.
Open Scope list_scope.

(** ** Specification *)
(** What a matrix writes: fixed text and, in between, its rows, each formatted as a slice. *)
Definition row_pieces {T} (m : list (list T)) : list (str + list T) :=
  [inl (chars "Matrix[")] ++ joined (inl (chars ", ")) (map (fun r => [inr r]) m) ++ [inl (chars "]")].
(** Four spaces at the beginning of every line; [bol]: the text starts at the beginning of a line. *)
Fixpoint indented (bol : bool) (t : str) : str :=
  match t with
  | [] => []
  | x :: t' => (if bol then chars "    " else []) ++ x :: indented (x =? 10)%N t'
  end.
Definition newline : str := [10%N].
(** A list over several lines: every element indented and followed by a comma. *)
Definition pretty_list (texts : list str) : str :=
  match texts with
  | [] => chars "[]"
  | _ => chars "[" ++ newline ++ concat (map (fun t => indented true (t ++ chars "," ++ newline)) texts) ++ chars "]"
  end.
Definition pretty_matrix (rows : list (list str)) : str :=
  chars "Matrix[" ++ concat (joined (chars ", ") (map (fun r => [pretty_list r]) rows)) ++ chars "]".

(** ** Proofs *)
Lemma mdebug_with_spec {S T} c (w : str -> M S bool) (sl : list T -> M S bool) row m s :
  length m = row -> (0 < row \/ debug c = false) ->
  mdebug_with c w sl row m s = all_in_order (print_piece w sl) (row_pieces m) s.
Proof.
  intros L H0. unfold mdebug_with, row_pieces. apply try_app; [intros; apply (all_one (print_piece w sl) (inl _))|].
  clear s. intros s. destruct row as [|k].
  { destruct H0 as [H0|H0]; [lia|]. destruct m; [|discriminate]. unfold bind at 1. unfold usz_sub. cbn [Nat.leb]. rewrite H0. unfold ret at 1.
    cbn [map joined app]. apply (try_app _ []); [reflexivity|]. intros; apply (all_one (print_piece w sl) (inl _)). }
  remember (Datatypes.S k) as row. unfold bind at 1. unfold usz_sub. destruct (Nat.leb_spec 1 row); [|lia]. unfold ret at 1.
  apply try_app; [|intros; apply (all_one (print_piece w sl) (inl _))]. clear s. intros s.
  unfold viter, as_slice.
  rewrite (iall_gives _ _ _ _ _ s (enumerate_ret_gives _ _ _ (slice_iter_gives m)));
    [|rewrite map_length, indexed_length; lia].
  rewrite allm_all.
  assert (G : forall m k s, length m + k = row ->
    all_in_order (fun '(i, r) => try_ (sl r) (if i =? row - 1 then ret true else w [ch_comma; ch_sp])) (combine (seq k (length m)) m) s
    = all_in_order (print_piece w sl) (joined (inl (chars ", ")) (map (fun r => [inr r]) m)) s).
  { clear - H. intros m. induction m as [|r m IH]; intros k s Lk; [reflexivity|]. cbn [length] in Lk. cbn [length seq combine all_in_order map].
    unfold try_ at 1, bind at 1.
    destruct m as [|r2 m].
    - cbn [joined map combine seq length]. destruct (Nat.eqb_spec k (row - 1)); [|cbn in Lk; lia].
      cbn [all_in_order print_piece]. destruct (sl r s) as [[[]| | |] s1]; reflexivity.
    - destruct (Nat.eqb_spec k (row - 1)); [cbn in Lk; lia|].
      change (joined (inl (chars ", ")) ([inr r] :: map (fun r => [inr r]) (r2 :: m))) with
        (@inr str (list T) r :: inl (chars ", ") :: joined (inl (chars ", ")) (map (fun r => [inr r]) (r2 :: m))).
      cbn [all_in_order print_piece]. destruct (sl r s) as [[[]| | |] s1]; try reflexivity.
      change (w [ch_comma; ch_sp] s1) with (w (chars ", ") s1).
      destruct (w (chars ", ") s1) as [[[]| | |] s2]; try reflexivity. apply IH. cbn in *; lia. }
  unfold indexed. rewrite <- G with (k := 0) by lia. apply all_in_order_ext. intros [i r] s1 _. reflexivity.
Qed.

(** Whatever the flags and whatever std's slice formatting does with them (writes, errors, panics): a vector writes "Vector"
    and hands its elements over with the same formatter; a matrix writes "Matrix[", its rows the same way, separated by ", ",
    and "]"; the first error ends it. *)
Theorem C99_debug_any_formatter :
  forall S T (c : cfg) (w : str -> M S bool) (slice : list T -> M S bool) v row col m (s : S),
  vdebug_with w slice v s = all_in_order (print_piece w slice) [inl (chars "Vector"); inr v] s /\
  (rect row col m -> (0 < row \/ debug c = false) ->
   mdebug_with c w slice row m s = all_in_order (print_piece w slice) (row_pieces m) s).
Proof.
  intros S T c w slice v row col m s. split.
  - unfold vdebug_with. apply (try_app _ [inl _]); [intros; apply (all_one (print_piece w slice) (inl _))|].
    intros. apply (all_one (print_piece w slice) (inr _)).
  - intros [L _] H. now apply mdebug_with_spec.
Qed.
Print Assumptions C99_debug_any_formatter.

(** A PadAdapter indents, however the text is cut into writes. *)
Lemma indented_app b t u : indented b (t ++ u) = indented b t ++ indented (match t with [] => b | _ => (last t 0 =? 10)%N end) u.
Proof.
  revert b. induction t as [|x t IH]; intros b; [reflexivity|]. cbn [indented app]. rewrite IH, <- app_assoc. cbn [app].
  destruct t; reflexivity.
Qed.
Definition eol (b : bool) (t : str) : bool := match t with [] => b | _ => (last t 0 =? 10)%N end.
Lemma eol_app b t u : eol b (t ++ u) = eol (eol b t) u.
Proof.
  destruct u as [|y u]; [now rewrite app_nil_r|]. destruct t as [|x t]; [reflexivity|].
  unfold eol at 1 2. cbn [app]. f_equal. change (x :: t ++ y :: u) with ((x :: t) ++ y :: u).
  destruct (@exists_last _ (y :: u)) as (l & z & E); [discriminate|]. rewrite E, app_assoc, !last_last. reflexivity.
Qed.
Lemma pieces_line b p : p <> [] -> (forall q x, p = q ++ [x] -> Forall (fun y => y <> 10%N) q) ->
  indented b p = (if b then chars "    " else []) ++ p.
Proof.
  destruct p as [|x p]; intros H0 H; [congruence|]. cbn [indented]. f_equal. f_equal.
  assert (G : Forall (fun y => y <> 10%N) (removelast (x :: p))) by (apply (H _ (last (x :: p) 0%N)), app_removelast_last; discriminate).
  clear - G. revert x G. induction p as [|y p IH]; intros x G; [reflexivity|]. cbn [removelast] in G. inversion G; subst.
  cbn [indented]. destruct (N.eqb_spec x 10); [contradiction|]. cbn [app]. f_equal. apply IH. exact H2.
Qed.
Definition a_line (p : str) : Prop := p <> [] /\ Forall (fun y => y <> 10%N) (removelast p).
Lemma split_incl s : concat (split_inclusive s) = s /\ Forall a_line (split_inclusive s).
Proof.
  induction s as [|x s [IH1 IH2]]; [split; constructor|]. cbn [split_inclusive]. destruct (N.eqb_spec x ch_nl) as [->|Hx].
  - cbn [concat app]. rewrite IH1. split; [reflexivity|]. constructor; [|exact IH2]. split; [discriminate|constructor].
  - destruct (split_inclusive s) as [|l ls]; cbn [concat app] in *.
    + rewrite <- IH1. split; [reflexivity|]. constructor; [|constructor]. split; [discriminate|constructor].
    + rewrite <- IH1. split; [reflexivity|]. inversion IH2; subst. constructor; [|assumption]. destruct H1 as [H1 H3].
      split; [discriminate|]. destruct l as [|y l]; [congruence|]. cbn [removelast]. constructor; auto.
Qed.
Lemma line_indented b p : a_line p -> indented b p = (if b then chars "    " else []) ++ p.
Proof.
  intros [H0 H]. apply pieces_line; [exact H0|]. intros q x ->. now rewrite removelast_last in H.
Qed.
Lemma pad_string ps b out : Forall a_line ps ->
  pad_pieces string_sink ps (b, out) = (Ok true, (eol b (concat ps), out ++ indented b (concat ps))).
Proof.
  revert b out. induction ps as [|p ps IH]; intros b out H; [cbn; now rewrite app_nil_r|]. inversion H as [|? ? H1 H2]; subst.
  assert (E : pad_pieces string_sink (p :: ps) (b, out) = pad_pieces string_sink ps (ends_nl p, (out ++ if b then chars "    " else []) ++ p)).
  { destruct b; cbn; [reflexivity|]. now rewrite app_nil_r. }
  rewrite E, IH by exact H2. cbn [concat]. rewrite eol_app, indented_app, (line_indented b p H1).
  assert (F : eol b p = ends_nl p) by (destruct p; [now destruct H1|reflexivity]).
  change (match p with [] => b | _ :: _ => (last p 0 =? 10)%N end) with (eol b p). rewrite F. now rewrite <- !app_assoc.
Qed.
Lemma pad_write_string t b out : pad_write string_sink t (b, out) = (Ok true, (eol b t, out ++ indented b t)).
Proof. unfold pad_write. destruct (split_incl t) as [E F]. rewrite pad_string by exact F. now rewrite E. Qed.
Lemma write_all_pad l b out : write_all (pad_write string_sink) l (b, out) = (Ok true, (eol b (concat l), out ++ indented b (concat l))).
Proof.
  revert b out. induction l as [|t l IH]; intros b out; [cbn; now rewrite app_nil_r|]. cbn [write_all]. unfold try_, bind.
  rewrite pad_write_string, IH. cbn [concat]. rewrite eol_app, indented_app. now rewrite <- app_assoc.
Qed.
Lemma pretty_entry_string {T} (writes : T -> list str) x out :
  pretty_entry string_sink writes x out = (Ok true, out ++ indented true (concat (writes x) ++ chars "," ++ newline)).
Proof.
  unfold pretty_entry, try_, bind. rewrite write_all_pad, pad_write_string. rewrite <- app_assoc. f_equal. f_equal.
  rewrite indented_app. reflexivity.
Qed.
Lemma pretty_entries_string {T} (writes : T -> list str) l out :
  pretty_entries string_sink writes false l out
  = (Ok true, out ++ concat (map (fun x => indented true (concat (writes x) ++ chars "," ++ newline)) l)).
Proof.
  revert out. induction l as [|x l IH]; intros out; cbn [pretty_entries map concat]; [now rewrite app_nil_r|].
  unfold try_ at 1, bind, ret. unfold try_, bind. rewrite pretty_entry_string, IH. now rewrite <- app_assoc.
Qed.
Lemma std_list_string {T} (writes : flags -> T -> list str) f l out : f_alternate f = true ->
  std_debug_list string_sink writes f l out = (Ok true, out ++ pretty_list (map (fun x => concat (writes f x)) l)).
Proof.
  intros A. unfold std_debug_list. rewrite A. destruct l as [|x l].
  - unfold try_, bind, ret. cbn [pretty_entries string_sink map pretty_list]. unfold ret. unfold string_sink. now rewrite <- app_assoc.
  - unfold try_, bind. cbn [string_sink]. cbn [pretty_entries]. unfold try_, bind. cbn [string_sink].
    rewrite pretty_entry_string, pretty_entries_string. cbn [map pretty_list concat string_sink].
    unfold string_sink. rewrite map_map. rewrite <- !app_assoc. reflexivity.
Qed.
Lemma write_all_string l out : write_all string_sink l out = (Ok true, out ++ concat l).
Proof.
  revert out. induction l as [|t l IH]; intros out; [cbn; now rewrite app_nil_r|]. cbn [write_all]. unfold try_, bind. cbn [string_sink].
  rewrite IH. cbn [concat]. now rewrite app_assoc.
Qed.
Lemma rows_string {T} (sl : list T -> M str bool) (txt : list T -> str) m out :
  (forall r out, sl r out = (Ok true, out ++ txt r)) ->
  all_in_order (print_piece string_sink sl) (row_pieces m) out
  = (Ok true, out ++ chars "Matrix[" ++ concat (joined (chars ", ") (map (fun r => [txt r]) m)) ++ chars "]").
Proof.
  intros H. unfold row_pieces. rewrite all_in_order_app. cbn [all_in_order print_piece string_sink].
  rewrite all_in_order_app.
  assert (G : forall m out, all_in_order (print_piece string_sink sl) (joined (inl (chars ", ")) (map (fun r => [inr r]) m)) out
    = (Ok true, out ++ concat (joined (chars ", ") (map (fun r => [txt r]) m)))).
  { clear - H. induction m as [|r m IH]; intros out; [cbn; now rewrite app_nil_r|]. destruct m as [|r2 m].
    - cbn [map joined all_in_order print_piece]. rewrite H. cbn [concat]. now rewrite app_nil_r.
    - change (joined (inl (chars ", ")) (map (fun r => [inr r]) (r :: r2 :: m))) with
        (@inr str (list T) r :: inl (chars ", ") :: joined (inl (chars ", ")) (map (fun r => [inr r]) (r2 :: m))).
      change (joined (chars ", ") (map (fun r => [txt r]) (r :: r2 :: m))) with
        (txt r :: chars ", " :: joined (chars ", ") (map (fun r => [txt r]) (r2 :: m))).
      cbn [all_in_order print_piece]. rewrite H. cbn [string_sink]. rewrite IH. cbn [concat]. now rewrite !app_assoc. }
  rewrite G. cbn [all_in_order print_piece string_sink]. now rewrite <- !app_assoc.
Qed.

(** [{:#?}]: the lists over several lines; every element under the flags of the caller. *)
Theorem C99_pretty :
  forall T (c : cfg) (writes : flags -> T -> list str) (f : flags) v row col m (out : str),
  f_alternate f = true ->
  vdebug_flags string_sink writes f v out
    = (Ok true, out ++ chars "Vector" ++ pretty_list (map (fun x => concat (writes f x)) v)) /\
  (rect row col m -> (0 < row \/ debug c = false) ->
   mdebug_flags c string_sink writes f row m out
    = (Ok true, out ++ pretty_matrix (map (map (fun x => concat (writes f x))) m))).
Proof.
  intros T c writes f v row col m out A. split.
  - unfold vdebug_flags, vdebug_with, try_, bind. cbn [string_sink]. rewrite std_list_string by exact A. now rewrite <- app_assoc.
  - intros R H. unfold mdebug_flags. rewrite (proj2 (C99_debug_any_formatter _ _ c _ _ v row col m out) R H).
    rewrite (rows_string _ (fun r => pretty_list (map (fun x => concat (writes f x)) r))) by (intros; now apply std_list_string).
    unfold pretty_matrix. now rewrite map_map.
Qed.
Print Assumptions C99_pretty.

(** Without [#], width, precision, fill and sign go to every element and to nothing else. *)
Theorem C99_flags_reach_elements :
  forall T (c : cfg) (writes : flags -> T -> list str) (f : flags) v row col m (out : str),
  f_alternate f = false ->
  vdebug_flags string_sink writes f v out = (Ok true, out ++ text_of (fun x => concat (writes f x)) (vector_pieces v)) /\
  (rect row col m -> (0 < row \/ debug c = false) ->
   mdebug_flags c string_sink writes f row m out = (Ok true, out ++ text_of (fun x => concat (writes f x)) (matrix_pieces m))).
Proof.
  intros T c writes f v row col m out A.
  assert (P : forall ps out, all_in_order (print_piece string_sink (fun x => write_all string_sink (writes f x))) ps out
                             = (Ok true, out ++ text_of (fun x => concat (writes f x)) ps)).
  { intros ps o. rewrite <- string_pieces. apply all_in_order_ext. intros [t|x] s _; [reflexivity|]. cbn [print_piece]. apply write_all_string. }
  assert (E : std_debug_list string_sink writes f = debug_list string_sink (fun x => write_all string_sink (writes f x))).
  { unfold std_debug_list. now rewrite A. }
  split.
  - unfold vdebug_flags. rewrite E. etransitivity; [apply C58_vector|]. apply P.
  - intros R H. unfold mdebug_flags. rewrite E. etransitivity; [eapply C58_matrix_partial; eassumption|]. apply P.
Qed.
Print Assumptions C99_flags_reach_elements.

(** Display of a matrix does not look at the flags: with [{:.2}], [{:>8}], [{:+}] the same pieces are written, and they show
    the entries as [{}] prints them. *)
Theorem C99_display_ignores_flags :
  forall T (c : cfg) slen bw (text : flags -> T -> str) row col m,
  display_width slen bw -> rect row col m -> row < W c -> col < W c -> fits c slen (text no_flags) m ->
  exists pieces,
  (forall f S (w : str -> M S bool) (show : flags -> T -> M S str) (s : S), (forall f, pure1 (show f) (text f)) ->
     mdisplay_flags c w slen show f row col m s = all_in_order w pieces s) /\
  Forall2 (fun p l => shows_line (text no_flags) slen col m (fst p) (snd p) l) (positions (text no_flags) m) (printed (concat pieces)).
Proof.
  intros T c slen bw text row col m D R H1 H2 F.
  destruct (C60_display_content T c slen bw (text no_flags) row col m D R H1 H2 F) as (ps & H & HS).
  exists ps. split; [|exact HS]. intros f S w show s HP. unfold mdisplay_flags. apply H. apply HP.
Qed.
Print Assumptions C99_display_ignores_flags.

(** A matrix of vectors printed with [{:#?}]: the inner vectors are written in several pieces and indented again. *)
Definition inner (f : flags) (x : nat) : list str :=
  if f_alternate f then [chars "Vector"; chars "["; newline; chars "    "; [N.of_nat (48 + x)]; chars "," ++ newline; chars "]"]
  else [chars "Vector["; [N.of_nat (48 + x)]; chars "]"].
Definition alt : flags := Flags true None (Some 2) 32%N false false.
Definition nl_chars (s : string) : str := map (fun x => if (x =? 47)%N then 10%N else x) (chars s).
Example C99_ex :
  mdebug_flags dbg string_sink inner alt 2 [[1; 2]; [3; 4]] []
  = (Ok true, nl_chars "Matrix[[/    Vector[/        1,/    ],/    Vector[/        2,/    ],/], [/    Vector[/        3,/    ],/    Vector[/        4,/    ],/]]") /\
  vdebug_flags string_sink inner alt [] [] = (Ok true, chars "Vector[]") /\
  mdebug_flags dbg string_sink inner no_flags 1 [[1; 2]] [] = (Ok true, chars "Matrix[[Vector[1], Vector[2]]]") /\
  mdisplay_flags dbg string_sink utf8_len (fun f x => ret (match f_precision f with None => [N.of_nat (48 + x)] | Some _ => chars "?" end)) alt 1 2 [[1; 2]] []
  = (Ok true, [9121; 49; 32; 50; 9124; 10]%N).
Proof. vm_compute. auto. Qed.
