(** * PropsDisplay.v - properties C59, C60: what a displayed matrix looks like. *)
From Coq Require Import String List Arith Bool NArith Lia.
From Verif Require Import Rust Iter Elem VectorM MatIterM MatrixM FmtM SpecCommon SpecFmt Harness
  IterProofs OwnProofs VecProofs MatProofs PropsFmt FmtProofs.
Import ListNotations.
Open Scope list_scope.

(** ** Splitting at newlines *)
Lemma split_line a rest : ~ In ch_nl a -> split_nl (a ++ [ch_nl] ++ rest) = a :: split_nl rest.
Proof.
  induction a as [|x a IH]; intros H; cbn [app split_nl]; [reflexivity|].
  destruct (N.eqb_spec x ch_nl) as [->|N]; [exfalso; apply H; now left|].
  change (a ++ ch_nl :: rest) with (a ++ [ch_nl] ++ rest). rewrite IH by (intros Hx; apply H; now right). reflexivity.
Qed.
Lemma split_one a : ~ In ch_nl a -> split_nl a = [a].
Proof.
  induction a as [|x a IH]; intros H; cbn [split_nl]; [reflexivity|].
  destruct (N.eqb_spec x ch_nl) as [->|N]; [exfalso; apply H; now left|]. now rewrite IH by (intros Hx; apply H; now right).
Qed.
Lemma split_many Q rest : Forall (fun a => ~ In ch_nl a) Q -> split_nl (concat (map (fun a => a ++ [ch_nl]) Q) ++ rest) = Q ++ split_nl rest.
Proof.
  induction 1 as [|a Q H F IH]; [reflexivity|]. cbn [map concat app]. rewrite <- !app_assoc. rewrite split_line by exact H. now rewrite IH.
Qed.
Lemma dle_empty Q : drop_last_empty (Q ++ [[]]) = Q.
Proof. induction Q as [|a Q IH]; [reflexivity|]. cbn [app drop_last_empty]. rewrite IH. destruct a; destruct Q; reflexivity. Qed.
Lemma dle_keep Q a : a <> [] -> drop_last_empty (Q ++ [a]) = Q ++ [a].
Proof.
  intros H. induction Q as [|b Q IH]; [destruct a; [congruence|reflexivity]|]. cbn [app drop_last_empty]. rewrite IH.
  destruct b; destruct Q; reflexivity.
Qed.
Lemma split_no_nl t l : In l (split_nl t) -> ~ In ch_nl l.
Proof.
  revert l. induction t as [|x t IH]; intros l; cbn [split_nl].
  - intros [<-|[]] [].
  - destruct (N.eqb_spec x ch_nl) as [->|N].
    + intros [<-|H]; [intros []|now apply IH].
    + destruct (split_nl t) as [|a ls].
      * intros [<-|[]] [E|[]]; congruence.
      * intros [<-|H]; [|apply IH; now right]. intros [E|Hin]; [congruence|]. apply (IH a); [now left|exact Hin].
Qed.
Lemma dle_in ls l : In l (drop_last_empty ls) -> In l ls.
Proof.
  induction ls as [|a ls IH]; [intros []|]. cbn [drop_last_empty]. intros H.
  assert (G : In l (a :: drop_last_empty ls) -> In l (a :: ls)) by (intros [E|E]; [now left|right; auto]).
  destruct a; [destruct ls; [destruct H|]|]; apply G; exact H.
Qed.
Lemma strip_in l x : In x (strip_cr l) -> In x l.
Proof.
  induction l as [|a l IH]; [intros []|]. cbn [strip_cr]. destruct l as [|b l].
  - destruct (a =? ch_cr)%N; [intros []|auto].
  - intros [E|H]; [now left|right; auto].
Qed.
Lemma lines_no_nl t l : In l (lines t) -> ~ In ch_nl l.
Proof.
  unfold lines. intros H. apply in_map_iff in H. destruct H as (l0 & <- & H). apply dle_in, split_no_nl in H.
  intros Hx. now apply H, strip_in.
Qed.

Section Text.
Context {T : Type}.
Variables (slen : str -> nat) (text : T -> str) (row col : nat) (m : list (list T)).
Hypothesis R : rect row col m.
Notation ew := (entry_width text slen).
Notation cellp := (cell_pieces slen text col m).
Notation linep := (line_pieces slen text col m).
Definition cells (r : list T) (n : nat) : list str := map (fun jx => concat (cellp n jx)) (indexed r).
Definition body (r : list T) (i n : nat) : str :=
  [fst (brackets text m r i n)] ++ concat (cells r n) ++ [snd (brackets text m r i n)].
Definition final_pos (r : list T) (i n : nat) : bool := (i =? length m - 1) && (n =? height text r - 1).
Definition term (r : list T) (i n : nat) : str := if negb ((i =? 0) && (n =? 0)) && final_pos r i n then [] else [ch_nl].
Lemma concat_repeat k : concat (repeat [ch_sp] k) = spaces k.
Proof. unfold spaces. induction k as [|k IH]; [reflexivity|]. cbn [repeat concat app]. now rewrite IH. Qed.
Lemma concat_concat_map {A} (f : A -> list str) l : concat (concat (map f l)) = concat (map (fun x => concat (f x)) l).
Proof. induction l; cbn; [reflexivity|]. rewrite concat_app. congruence. Qed.
Lemma line_text r i n : concat (linep r i n) = body r i n ++ term r i n.
Proof.
  unfold line_pieces, body, term, cells, ending, brackets, final_pos.
  rewrite !concat_app, concat_concat_map. cbn [concat].
  destruct ((i =? 0) && (n =? 0)); cbn [negb andb fst snd app]; [rewrite ?app_nil_r, <- !app_assoc; reflexivity|].
  destruct ((i =? length m - 1) && (n =? height text r - 1)); cbn [fst snd app]; rewrite ?app_nil_r, <- ?app_assoc; reflexivity.
Qed.
Lemma cell_text n j x : concat (cellp n (j, x)) = spaces (leftpad slen text m j x) ++ line_of text x n ++ spaces (rightpad slen text col m n j x).
Proof. unfold cell_pieces. cbn [fst snd]. rewrite !concat_app, !concat_repeat. cbn. now rewrite app_nil_r. Qed.
Lemma line_of_no_nl x n : ~ In ch_nl (line_of text x n).
Proof.
  unfold line_of. destruct (nth_in_or_default n (lines (text x)) []) as [H|E].
  - eapply lines_no_nl; eauto.
  - rewrite E. intros [].
Qed.
Lemma spaces_no_nl k : ~ In ch_nl (spaces k).
Proof. intros H. apply repeat_spec in H. discriminate. Qed.
Lemma bracket_in r i n : In (fst (brackets text m r i n)) [ch_tl; ch_ml; ch_bl; ch_tr; ch_mr; ch_br] /\
   In (snd (brackets text m r i n)) [ch_tl; ch_ml; ch_bl; ch_tr; ch_mr; ch_br].
Proof. unfold brackets. destruct (_ && _); [cbn; tauto|]. destruct (_ && _); cbn; tauto. Qed.
Lemma body_no_nl r i n : ~ In ch_nl (body r i n).
Proof.
  destruct (bracket_in r i n) as [B1 B2].
  assert (B : forall b, In b [ch_tl; ch_ml; ch_bl; ch_tr; ch_mr; ch_br] -> b <> ch_nl) by (intros b Hb; repeat destruct Hb as [<-|Hb]; discriminate || contradiction).
  unfold body. rewrite !in_app_iff. intros [[E|[]]|[H|[E|[]]]]; [now apply B in B1| |now apply B in B2].
  apply in_concat in H. destruct H as (l & Hl & Hin). unfold cells in Hl. apply in_map_iff in Hl. destruct Hl as ([j x] & <- & _).
  rewrite cell_text, !in_app_iff in Hin. destruct Hin as [H|[H|H]]; [eapply spaces_no_nl|eapply line_of_no_nl|eapply spaces_no_nl]; eauto.
Qed.
Definition rowat (i : nat) : list T := nth i m [].
Definition body_at (p : nat * nat) : str := body (rowat (fst p)) (fst p) (snd p).
Definition term_at (p : nat * nat) : str := term (rowat (fst p)) (fst p) (snd p).
Definition final_at (p : nat * nat) : bool := final_pos (rowat (fst p)) (fst p) (snd p).
Lemma display_text : concat (display_pieces slen text col m) = concat (map (fun p => body_at p ++ term_at p) (positions text m)).
Proof.
  unfold display_pieces, positions. rewrite concat_concat_map, concat_map, concat_concat_map, map_map. f_equal. apply map_ext_in. intros [i r] Hin.
  apply indexed_in in Hin. apply (nth_error_nth _ _ []) in Hin. unfold row_pieces. cbn [fst snd]. rewrite concat_concat_map, map_map. f_equal. apply map_ext. intros n.
  rewrite line_text. unfold body_at, term_at, rowat. cbn [fst snd]. now rewrite Hin.
Qed.
Lemma indexed_snoc (l : list (list T)) r : indexed (l ++ [r]) = indexed l ++ [(length l, r)].
Proof.
  unfold indexed. rewrite app_length. cbn [length]. rewrite seq_app. cbn [seq Nat.add].
  assert (G : forall (a : list nat) (b : list (list T)) x y, length a = length b -> combine (a ++ [x]) (b ++ [y]) = combine a b ++ [(x, y)]).
  { clear. induction a as [|x0 a IH]; intros [|y0 b] x y H; cbn in *; try discriminate; [reflexivity|]. rewrite IH by congruence. reflexivity. }
  apply G. now rewrite seq_length.
Qed.
Lemma positions_snoc l r : positions text (l ++ [r]) = positions text l ++ map (pair (length l)) (seq 0 (height text r)).
Proof. unfold positions. rewrite indexed_snoc, map_app, concat_app. cbn. now rewrite app_nil_r. Qed.
Lemma positions_in l i n : In (i, n) (positions text l) <-> exists r, nth_error l i = Some r /\ n < height text r.
Proof.
  unfold positions. rewrite in_concat. split.
  - intros (q & Hq & Hin). apply in_map_iff in Hq. destruct Hq as ([k r] & <- & Hk). cbn [fst snd] in Hin.
    apply in_map_iff in Hin. destruct Hin as (n' & [= <- <-] & Hn). apply in_seq in Hn. apply indexed_in in Hk. exists r. split; [exact Hk|lia].
  - intros (r & Er & Hn). exists (map (pair i) (seq 0 (height text r))). split.
    + apply in_map_iff. exists (i, r). split; [reflexivity|]. apply (nth_error_In _ i). unfold indexed. rewrite combine_nth_error, Er.
      assert (Hi : i < length l) by (apply nth_error_Some; congruence).
      rewrite (nth_error_nth' _ 0) by (now rewrite seq_length). now rewrite seq_nth by exact Hi.
    + apply in_map. apply in_seq. lia.
Qed.
Lemma positions_split :
  Forall (fun p => final_at p = false) (positions text m) \/
  exists Q p, positions text m = Q ++ [p] /\ Forall (fun p => final_at p = false) Q.
Proof.
  destruct (rev m) as [|r l'] eqn:Er.
  - left. assert (E : m = []) by (rewrite <- (rev_involutive m), Er; reflexivity). rewrite E. constructor.
  - assert (E : m = rev l' ++ [r]) by (rewrite <- (rev_involutive m), Er; reflexivity). set (l := rev l') in *. clearbody l. clear Er l'.
    assert (F1 : Forall (fun p => final_at p = false) (positions text l)).
    { apply Forall_forall. intros [i n] Hin. apply positions_in in Hin. destruct Hin as (r0 & E0 & _).
      assert (i < length l) by (apply nth_error_Some; congruence). unfold final_at, final_pos. cbn [fst snd]. rewrite E, app_length. cbn [length].
      destruct (Nat.eqb_spec i (length l + 1 - 1)); [lia|reflexivity]. }
    assert (Er : rowat (length l) = r) by (unfold rowat; rewrite E, app_nth2, Nat.sub_diag by lia; reflexivity).
    assert (EP : positions text m = positions text l ++ map (pair (length l)) (seq 0 (height text r))) by (rewrite E; apply positions_snoc). rewrite EP. clear EP. destruct (height text r) as [|h] eqn:Eh.
    + left. cbn. now rewrite app_nil_r.
    + right. exists (positions text l ++ map (pair (length l)) (seq 0 h)), (length l, h). split.
      * rewrite <- Nat.add_1_r, seq_app, map_app, app_assoc. reflexivity.
      * apply Forall_app. split; [exact F1|]. apply Forall_forall. intros p Hp. apply in_map_iff in Hp. destruct Hp as (n & <- & Hn). apply in_seq in Hn.
        unfold final_at, final_pos. cbn [fst snd]. rewrite Er, Eh. destruct (Nat.eqb_spec n (Datatypes.S h - 1)); [lia|apply andb_false_r].
Qed.
Lemma term_nl p : final_at p = false -> term_at p = [ch_nl].
Proof. unfold final_at, term_at, term. intros ->. now rewrite andb_false_r. Qed.
Lemma body_nonempty p : body_at p <> [].
Proof. discriminate. Qed.
Lemma with_nl Q : Forall (fun p => final_at p = false) Q ->
  concat (map (fun p => body_at p ++ term_at p) Q) = concat (map (fun a => a ++ [ch_nl]) (map body_at Q)).
Proof. intros F. rewrite map_map. f_equal. apply map_ext_in. intros p Hp. rewrite Forall_forall in F. now rewrite term_nl by auto. Qed.
Lemma printed_lines : printed (concat (display_pieces slen text col m)) = map body_at (positions text m).
Proof.
  rewrite display_text. unfold printed.
  assert (N : forall Q, Forall (fun a => ~ In ch_nl a) (map body_at Q)).
  { intros Q. apply Forall_forall. intros a Ha. apply in_map_iff in Ha. destruct Ha as (p & <- & _). apply body_no_nl. }
  destruct positions_split as [F|(Q & p & E & F)].
  - rewrite with_nl by exact F. rewrite <- (app_nil_r (concat _)). rewrite split_many by apply N. apply dle_empty.
  - rewrite E, !map_app, concat_app, with_nl by exact F. cbn [map concat]. rewrite app_nil_r. rewrite split_many by apply N.
    unfold term_at, term. destruct (negb _ && _).
    + rewrite app_nil_r, split_one by apply body_no_nl. apply dle_keep, body_nonempty.
    + rewrite <- (app_nil_r [ch_nl]), split_line by apply body_no_nl.
      change (body_at p :: split_nl []) with ([body_at p] ++ [[]]). rewrite app_assoc. apply dle_empty.
Qed.
Lemma positions_length : length (positions text m) = list_sum (map (height text) m).
Proof.
  unfold positions. rewrite <- (indexed_snd m) at 2. induction (indexed m) as [|[i r] l IH]; [reflexivity|].
  cbn [map concat snd fst list_sum fold_right]. rewrite app_length, map_length, seq_length. f_equal. exact IH.
Qed.
Lemma joined_breaks (l : list str) a : joined ch_nl (l ++ [a]) = concat (map (fun x => x ++ [ch_nl]) l) ++ a.
Proof.
  induction l as [|x l IH]; [reflexivity|]. cbn [map concat app]. rewrite <- !app_assoc, <- IH.
  destruct l; reflexivity.
Qed.
Lemma display_breaks : concat (display_pieces slen text col m)
  = joined ch_nl (map body_at (positions text m)) ++ (if ends_with_break text m then [ch_nl] else []).
Proof.
  rewrite display_text. unfold ends_with_break. rewrite <- positions_length.
  destruct (rev m) as [|r l'] eqn:Er.
  - assert (E : m = []) by (rewrite <- (rev_involutive m), Er; reflexivity).
    assert (EP : positions text m = []) by (rewrite E; reflexivity). rewrite EP. reflexivity.
  - assert (E : m = rev l' ++ [r]) by (rewrite <- (rev_involutive m), Er; reflexivity). set (l := rev l') in *. clearbody l. clear Er l'.
    assert (Er : rowat (length l) = r) by (unfold rowat; rewrite E, app_nth2, Nat.sub_diag by lia; reflexivity).
    assert (El : last m [] = r) by (rewrite E; apply last_last). rewrite El.
    assert (Lm : length m = length l + 1) by (rewrite E, app_length; reflexivity).
    assert (EP : positions text m = positions text l ++ map (pair (length l)) (seq 0 (height text r))) by (rewrite E; apply positions_snoc).
    assert (F1 : Forall (fun p => final_at p = false) (positions text l)).
    { apply Forall_forall. intros [i n] Hin. apply positions_in in Hin. destruct Hin as (r0 & E0 & _).
      assert (i < length l) by (apply nth_error_Some; congruence). unfold final_at, final_pos. cbn [fst snd]. rewrite Lm.
      destruct (Nat.eqb_spec i (length l + 1 - 1)); [lia|reflexivity]. }
    rewrite EP. destruct (height text r) as [|h] eqn:Eh.
    + cbn [seq map]. rewrite app_nil_r. rewrite with_nl by exact F1. cbn [Nat.eqb orb]. rewrite andb_true_r.
      destruct (rev (positions text l)) as [|p q] eqn:Ep.
      * assert (E0 : positions text l = []) by (rewrite <- (rev_involutive (positions text l)), Ep; reflexivity). rewrite E0. reflexivity.
      * assert (E0 : positions text l = rev q ++ [p]) by (rewrite <- (rev_involutive (positions text l)), Ep; reflexivity). rewrite E0.
        rewrite !app_length, Nat.add_comm. cbn [length Nat.add]. change (0 <? Datatypes.S (length (rev q))) with true.
        rewrite !map_app, concat_app. cbn [map concat]. rewrite joined_breaks, app_nil_r. now rewrite <- !app_assoc.
    + set (Q := positions text l ++ map (pair (length l)) (seq 0 h)).
      assert (EQ : positions text l ++ map (pair (length l)) (seq 0 (Datatypes.S h)) = Q ++ [(length l, h)]).
      { unfold Q. rewrite <- Nat.add_1_r, seq_app, map_app, app_assoc. reflexivity. }
      assert (FQ : Forall (fun p => final_at p = false) Q).
      { apply Forall_app. split; [exact F1|]. apply Forall_forall. intros p Hp. apply in_map_iff in Hp. destruct Hp as (n & <- & Hn). apply in_seq in Hn.
        unfold final_at, final_pos. cbn [fst snd]. rewrite Er, Eh. destruct (Nat.eqb_spec n (Datatypes.S h - 1)); [lia|apply andb_false_r]. }
      rewrite EQ. clearbody Q. rewrite app_length, Nat.add_comm. cbn [length Nat.add]. change (0 <? Datatypes.S (length Q)) with true. cbn [andb].
      rewrite !map_app, concat_app, with_nl by exact FQ. cbn [map concat]. rewrite joined_breaks, app_nil_r, app_assoc. f_equal.
      unfold term_at, term, final_pos. cbn [fst snd]. rewrite Er, Eh, Lm. replace (Datatypes.S h - 1) with h by lia. replace (length l + 1 - 1) with (length l) by lia.
      rewrite !Nat.eqb_refl. cbn [andb orb Nat.eqb]. rewrite andb_true_r.
      rewrite (Nat.add_comm (length l)). destruct l as [|r0 l]; destruct h; reflexivity.
Qed.
Lemma positions_nth i n r : nth_error m i = Some r -> n < height text r ->
  nth_error (positions text m) (list_sum (map (height text) (firstn i m)) + n) = Some (i, n).
Proof.
  intros Er Hn. unfold positions, indexed.
  assert (G : forall (l : list (list T)) k i r, nth_error l i = Some r -> n < height text r ->
    nth_error (concat (map (fun ir => map (pair (fst ir)) (seq 0 (height text (snd ir)))) (combine (seq k (length l)) l)))
      (list_sum (map (height text) (firstn i l)) + n) = Some (k + i, n)).
  { clear. induction l as [|r0 l IH]; intros k i r E Hn; [destruct i; discriminate|]. cbn [length seq combine map concat fst snd].
    destruct i as [|i]; cbn [firstn map list_sum fold_right].
    - injection E as ->. cbn [Nat.add]. rewrite nth_error_app1 by (now rewrite map_length, seq_length).
      rewrite nth_error_map, (nth_error_nth' _ 0) by (now rewrite seq_length). rewrite seq_nth by exact Hn. cbn. now rewrite Nat.add_0_r.
    - fold (list_sum (map (height text) (firstn i l))). rewrite nth_error_app2 by (rewrite map_length, seq_length; lia).
      rewrite map_length, seq_length. replace (height text r0 + list_sum (map (height text) (firstn i l)) + n - height text r0)
        with (list_sum (map (height text) (firstn i l)) + n) by lia.
      rewrite (IH (Datatypes.S k) i r E Hn). do 2 f_equal. lia. }
  exact (G m 0 i r Er Hn).
Qed.

(** *** Widths *)
Variable bw : nat.
Hypothesis DW : display_width slen bw.
Lemma slen_spaces k : slen (spaces k) = k.
Proof.
  induction k as [|k IH]; [apply DW|]. change (spaces (Datatypes.S k)) with ([ch_sp] ++ spaces k). rewrite (dw_app _ _ DW), IH, (dw_space _ _ DW). reflexivity.
Qed.
Lemma cell_shows i n r j x : nth_error m i = Some r -> nth_error r j = Some x -> shows text slen m col j n x (concat (cellp n (j, x))).
Proof.
  intros Er Ex. exists (leftpad slen text m j x), (rightpad slen text col m n j x). rewrite cell_text. split; [reflexivity|].
  pose proof (ew_le slen text row col m R i j r x Er Ex) as H1. pose proof (line_le slen text (dw_nil _ _ DW) n x) as H2.
  pose proof (half_le (width text slen m j - ew x)) as H3. fold (leftpad slen text m j x) in H3. split.
  - rewrite !(dw_app _ _ DW), !slen_spaces. unfold rightpad. lia.
  - unfold leftpad. pose proof (Nat.div_mod (width text slen m j - ew x) 2 ltac:(discriminate)) as D.
    pose proof (Nat.mod_upper_bound (width text slen m j - ew x) 2 ltac:(discriminate)) as B. lia.
Qed.
Lemma cells_nth r n j x : nth_error r j = Some x -> nth_error (cells r n) j = Some (concat (cellp n (j, x))).
Proof.
  intros Ex. unfold cells. rewrite nth_error_map. unfold indexed. rewrite combine_nth_error, Ex.
  assert (Hj : j < length r) by (apply nth_error_Some; congruence).
  rewrite (nth_error_nth' _ 0) by (now rewrite seq_length). rewrite seq_nth by exact Hj. reflexivity.
Qed.
Lemma cells_length r n : length (cells r n) = length r.
Proof. unfold cells. now rewrite map_length, indexed_length. Qed.
Lemma body_shows i n r : nth_error m i = Some r -> n < height text r -> shows_line text slen col m i n (body_at (i, n)).
Proof.
  intros Er Hn. assert (Ea : rowat i = r) by (now apply nth_error_nth).
  exists r, (cells r n). repeat split; auto.
  - rewrite cells_length. eapply rect_row; [exact R|eapply nth_error_In; eauto].
  - unfold body_at. cbn [fst snd]. now rewrite Ea.
  - intros j x cell Ex Ec. assert (E2 : Some cell = Some (concat (cellp n (j, x)))) by (rewrite <- Ec; exact (cells_nth r n j x Ex)). injection E2 as ->. eapply cell_shows; eauto.
Qed.
Lemma slen_concat l : slen (concat l) = list_sum (map slen l).
Proof. induction l as [|a l IH]; [apply DW|]. cbn [concat map list_sum fold_right]. rewrite (dw_app _ _ DW), IH. reflexivity. Qed.
Lemma gaps k : list_sum (map (fun j => if j =? k - 1 then 0 else 1) (seq 0 k)) = k - 1.
Proof.
  destruct k as [|k]; [reflexivity|]. rewrite <- Nat.add_1_r, seq_app, map_app, list_sum_app. cbn [seq map Nat.add list_sum fold_right].
  replace (k + 1 - 1) with k by lia. rewrite Nat.eqb_refl.
  assert (G : forall a, (forall j, In j a -> j < k) -> list_sum (map (fun j => if j =? k then 0 else 1) a) = length a).
  { induction a as [|j a IH]; intros H; [reflexivity|]. cbn [map list_sum fold_right length]. fold (list_sum (map (fun j => if j =? k then 0 else 1) a)).
    rewrite IH by (intros; apply H; now right). specialize (H j (or_introl eq_refl)). destruct (Nat.eqb_spec j k); lia. }
  rewrite G by (intros j Hj; apply in_seq in Hj; lia). rewrite seq_length. lia.
Qed.
Lemma list_sum_plus {A} (f g : A -> nat) l : list_sum (map (fun x => f x + g x) l) = list_sum (map f l) + list_sum (map g l).
Proof. induction l as [|a l IH]; [reflexivity|]. cbn [map list_sum fold_right]. unfold list_sum in *. rewrite IH. lia. Qed.
Lemma body_width i n r : nth_error m i = Some r -> slen (body_at (i, n)) = 2 * bw + inner_width text slen col m.
Proof.
  intros Er. assert (Ea : rowat i = r) by (now apply nth_error_nth). pose proof (rect_row _ _ _ _ R (nth_error_In _ _ Er)) as Lr.
  unfold body_at, body. cbn [fst snd]. rewrite Ea. rewrite !(dw_app _ _ DW), slen_concat.
  destruct (bracket_in r i n) as [B1 B2]. pose proof (dw_brackets _ _ DW) as B. rewrite Forall_forall in B. rewrite (B _ B1), (B _ B2).
  assert (E : map slen (cells r n) = map (fun j => width text slen m j + (if j =? col - 1 then 0 else 1)) (seq 0 col)).
  { apply nth_error_ext. intros j. rewrite !nth_error_map. destruct (Nat.lt_ge_cases j col) as [Hj|Hj].
    - destruct (nth_error r j) as [x|] eqn:Ex; [|apply nth_error_None in Ex; lia]. rewrite (cells_nth r n j x Ex).
      rewrite (nth_error_nth' _ 0) by (now rewrite seq_length). rewrite seq_nth by exact Hj. cbn [option_map Nat.add]. f_equal.
      destruct (cell_shows i n r j x Er Ex) as (a & b & _ & H & _). exact H.
    - rewrite !(proj2 (nth_error_None _ _)); [reflexivity|rewrite seq_length; lia|rewrite cells_length; lia]. }
  rewrite E, (list_sum_plus (width text slen m)), gaps. unfold inner_width. lia.
Qed.
End Text.

(** ** The theorems.  [fits]: display widths of the lines of entries fit in [usize]. *)
Definition fits {T} (c : cfg) (slen : str -> nat) (text : T -> str) (m : list (list T)) : Prop :=
  forall r x l, In r m -> In x r -> In l (lines (text x)) -> slen l + 1 < W c.
(** C59: the same pieces are written in order to every sink (until a write fails); their
    text has one line per line of the tallest entry of each row, all of the same width. *)
Theorem C59_display_layout :
  forall T (c : cfg) slen bw (text : T -> str) row col m,
  display_width slen bw -> rect row col m -> row < W c -> col < W c -> fits c slen text m ->
  exists pieces,
  (forall S (w : str -> M S bool) (tofmt : T -> M S str) (s : S), pure1 tofmt text ->
     mdisplay c w slen tofmt row col m s = all_in_order w pieces s) /\
  length (printed (concat pieces)) = list_sum (map (height text) m) /\
  Forall (fun l => slen l = 2 * bw + inner_width text slen col m) (printed (concat pieces)).
Proof.
  intros T c slen bw text row col m DW R HR HC HF. exists (display_pieces slen text col m). split; [|split].
  - intros S w tofmt s HT. exact (display_spec c slen text tofmt row col m R HT HR HC HF w (dw_nil _ _ DW) s).
  - rewrite printed_lines. now rewrite map_length, positions_length.
  - rewrite printed_lines. apply Forall_forall. intros l Hl. apply in_map_iff in Hl. destruct Hl as ([i n] & <- & Hp).
    apply positions_in in Hp. destruct Hp as (r & Er & Hn). eapply body_width; eauto.
Qed.
Print Assumptions C59_display_layout.
(** Displaying never panics by itself: on a sink that always succeeds it returns Ok(()) . *)
Theorem C59_display_succeeds :
  forall T (c : cfg) slen bw (text : T -> str) (tofmt : T -> M str str) row col m out,
  display_width slen bw -> rect row col m -> row < W c -> col < W c -> fits c slen text m -> pure1 tofmt text ->
  exists shown, mdisplay c string_sink slen tofmt row col m out = (Ok true, out ++ shown).
Proof.
  intros T c slen bw text tofmt row col m out DW R HR HC HF HT.
  destruct (C59_display_layout T c slen bw text row col m DW R HR HC HF) as (ps & H & _).
  exists (concat ps). rewrite H by exact HT. apply string_all.
Qed.
Print Assumptions C59_display_succeeds.
(** C60: each printed line consists of the brackets and one cell per column, holding the line
    of the entry and blanks. *)
Theorem C60_display_content :
  forall T (c : cfg) slen bw (text : T -> str) row col m,
  display_width slen bw -> rect row col m -> row < W c -> col < W c -> fits c slen text m ->
  exists pieces,
  (forall S (w : str -> M S bool) (tofmt : T -> M S str) (s : S), pure1 tofmt text ->
     mdisplay c w slen tofmt row col m s = all_in_order w pieces s) /\
  Forall2 (fun p l => shows_line text slen col m (fst p) (snd p) l) (positions text m) (printed (concat pieces)).
Proof.
  intros T c slen bw text row col m DW R HR HC HF. exists (display_pieces slen text col m). split.
  - intros S w tofmt s HT. exact (display_spec c slen text tofmt row col m R HT HR HC HF w (dw_nil _ _ DW) s).
  - rewrite printed_lines.
    assert (G : forall P, (forall p, In p P -> In p (positions text m)) ->
      Forall2 (fun p l => shows_line text slen col m (fst p) (snd p) l) P (map (body_at slen text col m) P)).
    { induction P as [|[i n] P IH]; intros HP; cbn [map]; constructor.
      - pose proof (HP (i, n) (or_introl eq_refl)) as Hin. apply positions_in in Hin. destruct Hin as (r & Er & Hn). eapply body_shows; eauto.
      - apply IH. intros; apply HP; now right. }
    apply G. auto.
Qed.
Print Assumptions C60_display_content.
(** Nothing is lost: line [n] of entry (i, j) is found in the printed line that many lines
    below the rows above it. *)
Theorem C60_nothing_lost :
  forall T (c : cfg) slen bw (text : T -> str) (tofmt : T -> M str str) row col m,
  display_width slen bw -> rect row col m -> row < W c -> col < W c -> fits c slen text m -> pure1 tofmt text ->
  exists shown, mdisplay c string_sink slen tofmt row col m [] = (Ok true, shown) /\
  forall i j x n l, entry m i j = Some x -> nth_error (lines (text x)) n = Some l ->
  exists before after,
    nth_error (printed shown) (list_sum (map (height text) (firstn i m)) + n) = Some (before ++ l ++ after).
Proof.
  intros T c slen bw text tofmt row col m DW R HR HC HF HT.
  exists (concat (display_pieces slen text col m)). split.
  - rewrite (display_spec c slen text tofmt row col m R HT HR HC HF string_sink (dw_nil _ _ DW) []). apply string_all.
  - intros i j x n l Ex El. unfold entry in Ex. destruct (nth_error m i) as [r|] eqn:Er; [|discriminate].
    assert (Hn : n < height text r).
    { apply Nat.lt_le_trans with (length (lines (text x))); [apply nth_error_Some; congruence|].
      apply list_max_in. apply in_map_iff. exists x. split; [reflexivity|eapply nth_error_In; eauto]. }
    rewrite printed_lines. rewrite nth_error_map, (positions_nth text m i n r Er Hn). cbn [option_map].
    destruct (body_shows slen text row col m R bw DW i n r Er Hn) as (r' & cs & Er' & _ & Lc & -> & HS).
    rewrite Er in Er'. injection Er' as <-.
    destruct (nth_error cs j) as [cell|] eqn:Ec.
    2:{ apply nth_error_None in Ec. assert (j < length r) by (apply nth_error_Some; congruence).
        pose proof (rect_row _ _ _ _ R (nth_error_In _ _ Er)). lia. }
    destruct (HS j x cell Ex Ec) as (a & b & -> & _). apply nth_error_split in Ec. destruct Ec as (c1 & c2 & -> & _).
    replace (line_of text x n) with l by (unfold line_of; symmetry; now apply nth_error_nth).
    rewrite concat_app. cbn [concat]. rewrite <- !app_assoc.
    match goal with |- context [?L ++ concat c1 ++ spaces a ++ l ++ ?REST] => exists (L ++ concat c1 ++ spaces a), REST end.
    now rewrite <- !app_assoc.
Qed.
Print Assumptions C60_nothing_lost.
(** C60: between the lines there are line breaks, and at the end only in the two cases of
    [ends_with_break]. *)
Theorem C60_line_breaks :
  forall T (c : cfg) slen bw (text : T -> str) (tofmt : T -> M str str) row col m,
  display_width slen bw -> rect row col m -> row < W c -> col < W c -> fits c slen text m -> pure1 tofmt text ->
  exists shown, mdisplay c string_sink slen tofmt row col m [] = (Ok true, shown) /\
  shown = joined ch_nl (printed shown) ++ (if ends_with_break text m then [ch_nl] else []).
Proof.
  intros T c slen bw text tofmt row col m DW R HR HC HF HT.
  exists (concat (display_pieces slen text col m)). split.
  - rewrite (display_spec c slen text tofmt row col m R HT HR HC HF string_sink (dw_nil _ _ DW) []). apply string_all.
  - rewrite printed_lines. apply display_breaks.
Qed.
Print Assumptions C60_line_breaks.
(** The hypotheses are met by [s.len()] (feature "unicode_width" off) and by counting one
    column per character, the width of ASCII text and brackets. *)
Lemma utf8_display_width : display_width utf8_len 3.
Proof.
  split; try reflexivity; [|repeat constructor]. intros a b. unfold utf8_len. now rewrite map_app, list_sum_app.
Qed.
(** ... and it is the length of the UTF-8 encoding. *)
Theorem C59_byte_width : display_width utf8_len 3 /\
  forall s : str, utf8_len s = length (concat (map utf8_encode s)).
Proof.
  split; [exact utf8_display_width|]. intros s. unfold utf8_len. induction s as [|x s IH]; [reflexivity|].
  cbn [map concat]. rewrite app_length, <- IH. change (list_sum (utf8_bytes x :: map utf8_bytes s)) with (utf8_bytes x + list_sum (map utf8_bytes s)).
  f_equal. unfold utf8_bytes, utf8_encode. destruct (N.leb_spec x 0x7F), (N.ltb_spec x 128); try lia; [reflexivity|].
  destruct (N.leb_spec x 0x7FF), (N.ltb_spec x 2048); try lia; [reflexivity|].
  destruct (N.leb_spec x 0xFFFF), (N.ltb_spec x 65536); try lia; reflexivity.
Qed.
Print Assumptions C59_byte_width.
Example C59_byte_ex : utf8_encode ch_tl = [0xE2; 0x8E; 0xA1]%N /\ utf8_len [97; 233; 2048; 0x1F600]%N = 10.
Proof. now vm_compute. Qed.
Lemma count_display_width : display_width (@length char) 1.
Proof. split; try reflexivity; [|repeat constructor]. intros. apply app_length. Qed.
Definition sample : list (list str) := [[chars "1"; chars "-22"]; [[97; 10; 98; 98; 98]%N; []]].
Example C59_ex : display_width (@length char) 1 /\ rect 2 2 sample /\ pure1 (@ret str str) (fun t => t) /\
  fits dbg (@length char) (fun t => t) sample /\
  snd (mdisplay dbg string_sink (@length char) ret 2 2 sample [])
  = [ch_tl] ++ chars " 1  -22" ++ [ch_tr; ch_nl] ++
    [ch_ml] ++ chars "a      " ++ [ch_mr; ch_nl] ++
    [ch_bl] ++ chars "bbb    " ++ [ch_br].
Proof.
  split; [exact count_display_width|]. split; [repeat constructor|]. split; [intros x s; reflexivity|]. split.
  - intros r x l Hr Hx Hl. apply Nat.lt_trans with 10; [|apply Nat.lt_le_trans with (2 ^ 4); [cbn; lia|apply Nat.pow_le_mono_r; cbn; lia]].
    repeat (destruct Hr as [<-|Hr]; [repeat (destruct Hx as [<-|Hx]; [cbn in Hl; repeat (destruct Hl as [<-|Hl]; [cbn; lia|]); destruct Hl|]); destruct Hx|]). destruct Hr.
  - vm_compute. reflexivity.
Qed.
Example C60_ex :
  positions (fun t => t) sample = [(0, 0); (1, 0); (1, 1)] /\ height (fun t => t) [[97; 10; 98; 98; 98]%N; []] = 2 /\
  width (fun t => t) (@length char) sample 1 = 3 /\
  brackets (fun t => t) sample [[97; 10; 98; 98; 98]%N; []] 1 1 = (ch_bl, ch_br) /\
  ends_with_break (fun t => t) sample = false /\ ends_with_break (fun t => t) [[chars "1"; chars "2"]] = true /\
  snd (mdisplay dbg string_sink (@length char) ret 1 2 [[chars "1"; chars "2"]] [])
  = [ch_tl] ++ chars "1 2" ++ [ch_tr; ch_nl].
Proof. vm_compute. repeat split. Qed.
