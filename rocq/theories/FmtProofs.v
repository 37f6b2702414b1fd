(** * FmtProofs.v - what the Display implementation writes. *)
From Coq Require Import String List Arith Bool NArith Lia.
From Verif Require Import Rust Iter Elem VectorM MatIterM MatrixM FmtM SpecCommon SpecFmt Harness
  IterProofs OwnProofs VecProofs MatProofs PropsFmt.
Import ListNotations.
Open Scope list_scope.

Lemma max_len_spec slen ls : max_len slen ls = list_max (map slen ls).
Proof.
  unfold max_len. assert (G : forall ls a, fold_left (fun a l => Nat.max a (slen l)) ls a = Nat.max a (list_max (map slen ls))).
  { clear. induction ls as [|l ls IH]; intros a; cbn [fold_left map]; [now rewrite Nat.max_0_r|]. rewrite IH. change (list_max (slen l :: map slen ls)) with (Nat.max (slen l) (list_max (map slen ls))). lia. }
  rewrite G. reflexivity.
Qed.
Lemma list_max_in l x : In x l -> x <= list_max l.
Proof. intros H. pose proof (proj1 (list_max_le l (list_max l)) (le_n _)) as F. rewrite Forall_forall in F. auto. Qed.
Lemma list_max_attained l : list_max l = 0 \/ In (list_max l) l.
Proof.
  induction l as [|x l IH]; [left; reflexivity|]. cbn [list_max fold_right]. fold (list_max l).
  destruct (Nat.max_spec x (list_max l)) as [[H ->]|[H ->]]; [|right; left; reflexivity].
  destruct IH as [E|E]; [lia|right; right; exact E].
Qed.
Lemma lub_unique (l : list nat) v : Forall (fun x => x <= v) l -> (v = 0 \/ In v l) -> v = list_max l.
Proof.
  intros F H. apply Nat.le_antisymm.
  - destruct H as [->|H]; [lia|now apply list_max_in].
  - now apply list_max_le.
Qed.
Lemma nth_list_set {A} (l : list A) i k x d : i < length l -> nth k (list_set l i x) d = if k =? i then x else nth k l d.
Proof.
  revert i k. induction l as [|y l IH]; intros i k H; [cbn in H; lia|]. destruct i, k; cbn [list_set nth].
  - reflexivity.
  - now destruct (Nat.eqb_spec (Datatypes.S k) 0); [lia|].
  - now destruct (Nat.eqb_spec 0 (Datatypes.S i)); [lia|].
  - rewrite IH by (cbn in H; lia). now destruct (Nat.eqb_spec k i), (Nat.eqb_spec (Datatypes.S k) (Datatypes.S i)); try lia.
Qed.
Lemma list_set_len {A} (l : list A) i x : length (list_set l i x) = length l.
Proof. revert i. induction l; intros [|i]; cbn; auto. Qed.
Lemma vindex_hit {S A} (l : list A) i d (s : S) : i < length l -> vindex l i s = (Ok (nth i l d), s).
Proof. intros H. unfold vindex, slice_index, as_slice. now rewrite (nth_error_nth' l d H). Qed.
Lemma vindex_set_hit {S A} (l : list A) i x (s : S) : i < length l -> vindex_set l i x s = (Ok (list_set l i x), s).
Proof. intros H. unfold vindex_set, slice_assign. destruct (Nat.ltb_spec i (length l)); [reflexivity|lia]. Qed.

Lemma nth_map_seq {A} (f : nat -> A) n j d : j < n -> nth j (map f (seq 0 n)) d = f j.
Proof.
  intros Hj. apply nth_error_nth. rewrite nth_error_map, (nth_error_nth' _ 0) by (now rewrite seq_length). now rewrite seq_nth by exact Hj.
Qed.
Lemma half_le a : a / 2 <= a.
Proof. apply Nat.div_le_upper_bound; lia. Qed.
Section Disp.
Context {S T : Type}.
Variables (c : cfg) (slen : str -> nat) (text : T -> str) (tofmt : T -> M S str) (row col : nat) (m : list (list T)).
Hypothesis R : rect row col m.
Hypothesis HT : pure1 tofmt text.
Hypothesis HR : row < W c.
Hypothesis HC : col < W c.
Hypothesis fits : forall r x l, In r m -> In x r -> In l (lines (text x)) -> slen l + 1 < W c.
Notation ew := (entry_width text slen).
Notation eh := (fun x => length (lines (text x))).

(** *** Measuring *)
Definition at_ (ij : nat * nat) (f : T -> nat) : nat := match entry m (fst ij) (snd ij) with Some x => f x | None => 0 end.
Definition cell_at (ij : nat * nat) : str * nat := match entry m (fst ij) (snd ij) with Some x => (text x, ew x) | None => ([], 0) end.
(** [ws] and [hs] are the least upper bounds over the positions [P] seen so far. *)
Definition lubs (P : list (nat * nat)) (ws hs : list nat) : Prop :=
  length ws = col /\ length hs = row /\
  (forall ij, In ij P -> at_ ij ew <= nth (snd ij) ws 0 /\ at_ ij eh <= nth (fst ij) hs 0) /\
  (forall j, nth j ws 0 = 0 \/ exists ij, In ij P /\ snd ij = j /\ nth j ws 0 = at_ ij ew) /\
  (forall i, nth i hs 0 = 0 \/ exists ij, In ij P /\ fst ij = i /\ nth i hs 0 = at_ ij eh).
Lemma measure_step P ws hs i j s : lubs P ws hs -> i < row -> j < col ->
  exists ws' hs', measure slen tofmt m i j ((ws, hs), s) = (Ok (cell_at (i, j)), ((ws', hs'), s)) /\ lubs (P ++ [(i, j)]) ws' hs'.
Proof.
  intros (Lw & Lh & HU & HA & HB) Hi Hj. destruct (entry_some _ _ _ i j R Hi Hj) as (x & Ex).
  assert (Em : forall s : (list nat * list nat) * S, mindex m (i, j) s = (Ok x, s)).
  { intros s0. unfold entry in Ex. unfold mindex, vindex, as_slice, slice_index, bind. destruct (nth_error m i) as [r|]; [|discriminate].
    cbn. now rewrite Ex. }
  assert (Ea : forall f, at_ (i, j) f = f x) by (intros; unfold at_; cbn; now rewrite Ex).
  assert (Ec : cell_at (i, j) = (text x, ew x)) by (unfold cell_at; cbn; now rewrite Ex).
  set (ws' := if nth j ws 0 <? ew x then list_set ws j (ew x) else ws).
  set (hs' := if nth i hs 0 <? eh x then list_set hs i (eh x) else hs).
  exists ws', hs'. split.
  - unfold measure. unfold bind at 1. rewrite Em. unfold bind at 1. unfold lift at 1. cbn [snd fst]. rewrite HT. unfold bind at 1, self at 1. cbn [fst].
    rewrite max_len_spec. change (list_max (map slen (lines (text x)))) with (ew x).
    unfold bind at 1. rewrite (vindex_hit ws j 0) by lia. unfold bind at 1.
    replace ((if nth j ws 0 <? ew x then vindex_set ws j (ew x) else ret ws) (ws, hs, s)) with (@Ok (list nat) ws', (ws, hs, s)).
    2:{ unfold ws'. destruct (nth j ws 0 <? ew x); [now rewrite vindex_set_hit by lia|reflexivity]. }
    unfold bind at 1, set_self at 1. cbn [snd]. unfold bind at 1. rewrite (vindex_hit hs i 0) by lia. unfold bind at 1.
    replace ((if nth i hs 0 <? length (lines (text x)) then vindex_set hs i (length (lines (text x))) else ret hs) (ws', hs, s)) with (@Ok (list nat) hs', (ws', hs, s)).
    2:{ unfold hs'. destruct (nth i hs 0 <? eh x); [now rewrite vindex_set_hit by lia|reflexivity]. }
    unfold bind, set_self, ret. cbn [snd]. now rewrite Ec.
  - assert (Nw : forall k, nth k ws' 0 = if k =? j then Nat.max (nth j ws 0) (ew x) else nth k ws 0).
    { intros k. unfold ws'. destruct (Nat.ltb_spec (nth j ws 0) (ew x)).
      - rewrite nth_list_set by lia. destruct (k =? j); [lia|reflexivity].
      - destruct (Nat.eqb_spec k j); [subst; lia|reflexivity]. }
    assert (Nh : forall k, nth k hs' 0 = if k =? i then Nat.max (nth i hs 0) (eh x) else nth k hs 0).
    { intros k. unfold hs'. destruct (Nat.ltb_spec (nth i hs 0) (eh x)).
      - rewrite nth_list_set by lia. destruct (k =? i); [lia|reflexivity].
      - destruct (Nat.eqb_spec k i); [subst; lia|reflexivity]. }
    split; [|split; [|split; [|split]]].
    + unfold ws'. destruct (nth j ws 0 <? ew x); rewrite ?list_set_len; exact Lw.
    + unfold hs'. destruct (nth i hs 0 <? length (lines (text x))); rewrite ?list_set_len; exact Lh.
    + intros ij Hin. apply in_app_or in Hin. rewrite Nw, Nh. destruct Hin as [Hin|[<-|[]]].
      * destruct (HU ij Hin) as [H1 H2]. destruct (Nat.eqb_spec (snd ij) j) as [<-|], (Nat.eqb_spec (fst ij) i) as [<-|]; lia.
      * cbn [fst snd]. rewrite !Nat.eqb_refl, !Ea. lia.
    + intros k. rewrite Nw. destruct (Nat.eqb_spec k j) as [->|N].
      * destruct (Nat.max_spec (nth j ws 0) (ew x)) as [[_ ->]|[_ ->]].
        -- right. exists (i, j). rewrite in_app_iff, Ea. cbn. auto.
        -- destruct (HA j) as [E|(ij & E1 & E2 & E3)]; [auto|]. right. exists ij. rewrite in_app_iff. auto.
      * destruct (HA k) as [E|(ij & E1 & E2 & E3)]; [auto|]. right. exists ij. rewrite in_app_iff. auto.
    + intros k. rewrite Nh. destruct (Nat.eqb_spec k i) as [->|N].
      * destruct (Nat.max_spec (nth i hs 0) (eh x)) as [[_ ->]|[_ ->]].
        -- right. exists (i, j). rewrite in_app_iff, Ea. cbn. auto.
        -- destruct (HB i) as [E|(ij & E1 & E2 & E3)]; [auto|]. right. exists ij. rewrite in_app_iff. auto.
      * destruct (HB k) as [E|(ij & E1 & E2 & E3)]; [auto|]. right. exists ij. rewrite in_app_iff. auto.
Qed.
Lemma measure_row i js : i < row -> Forall (fun j => j < col) js -> forall P ws hs s, lubs P ws hs ->
  exists ws' hs', in_order (measure slen tofmt m i) js ((ws, hs), s) = (Ok (map (fun j => cell_at (i, j)) js), ((ws', hs'), s)) /\
    lubs (P ++ map (pair i) js) ws' hs'.
Proof.
  intros Hi F. induction F as [|j js Hj F IH]; intros P ws hs s HL; cbn [in_order map].
  - exists ws, hs. rewrite app_nil_r. auto.
  - destruct (measure_step P ws hs i j s HL Hi Hj) as (ws1 & hs1 & -> & HL1).
    destruct (IH _ ws1 hs1 s HL1) as (ws2 & hs2 & -> & HL2). exists ws2, hs2. rewrite <- app_assoc in HL2. auto.
Qed.
Lemma measure_all is : Forall (fun i => i < row) is -> forall P ws hs s, lubs P ws hs ->
  exists ws' hs', in_order (fun i => in_order (measure slen tofmt m i) (seq 0 col)) is ((ws, hs), s)
     = (Ok (map (fun i => map (fun j => cell_at (i, j)) (seq 0 col)) is), ((ws', hs'), s)) /\
    lubs (P ++ list_prod is (seq 0 col)) ws' hs'.
Proof.
  intros F. induction F as [|i is Hi F IH]; intros P ws hs s HL; cbn [in_order map list_prod].
  - exists ws, hs. rewrite app_nil_r. auto.
  - destruct (measure_row i (seq 0 col) Hi) with (P := P) (ws := ws) (hs := hs) (s := s) as (ws1 & hs1 & -> & HL1); auto.
    { apply Forall_forall. intros j Hj. apply in_seq in Hj. lia. }
    destruct (IH _ ws1 hs1 s HL1) as (ws2 & hs2 & -> & HL2). exists ws2, hs2. rewrite <- app_assoc in HL2. auto.
Qed.
Lemma lubs_widths ws hs : lubs (list_prod (seq 0 row) (seq 0 col)) ws hs ->
  ws = map (width text slen m) (seq 0 col) /\ hs = map (height text) m.
Proof.
  intros (Lw & Lh & HU & HA & HB). split.
  - apply (nth_ext _ _ 0 0); [now rewrite map_length, seq_length|]. intros j Hj. rewrite Lw in Hj.
    rewrite nth_map_seq by exact Hj. unfold width. apply lub_unique.
    + apply Forall_forall. intros v Hv. apply in_map_iff in Hv. destruct Hv as (x & <- & Hx).
      apply In_nth_error in Hx. destruct Hx as (i & Ei).
      assert (Hi : i < row). { rewrite <- (col_of_length _ _ _ _ R Hj). apply nth_error_Some. congruence. }
      rewrite (col_of_nth _ _ _ _ _ R Hj) in Ei. destruct (HU (i, j)) as [H1 _].
      { apply in_prod; apply in_seq; lia. }
      unfold at_ in H1. cbn [fst snd] in H1. now rewrite Ei in H1.
    + destruct (HA j) as [E|((i & j') & Hin & <- & E)]; [auto|]. cbn [snd] in *. right. rewrite E. apply in_prod_iff in Hin. rewrite !in_seq in Hin.
      destruct (entry_some _ _ _ i j' R) as (x & Ex); try lia. unfold at_. cbn [fst snd]. rewrite Ex. apply in_map.
      rewrite <- (col_of_nth _ _ _ _ _ R) in Ex by lia. now apply nth_error_In in Ex.
  - apply (nth_ext _ _ 0 0); [rewrite map_length; now rewrite Lh, (proj1 R)|]. intros i Hi. rewrite Lh in Hi.
    destruct (entry_row _ _ _ _ R Hi) as (r & Er & Lr).
    assert (En : nth i (map (height text) m) 0 = height text r).
    { apply nth_error_nth. now rewrite nth_error_map, Er. }
    rewrite En. unfold height. apply lub_unique.
    + apply Forall_forall. intros v Hv. apply in_map_iff in Hv. destruct Hv as (x & <- & Hx).
      apply In_nth_error in Hx. destruct Hx as (j & Ej).
      assert (Hj : j < col). { rewrite <- Lr. apply nth_error_Some. congruence. }
      destruct (HU (i, j)) as [_ H2]. { apply in_prod; apply in_seq; lia. }
      unfold at_, entry in H2. cbn [fst snd] in H2. now rewrite Er, Ej in H2.
    + destruct (HB i) as [E|((i' & j) & Hin & <- & E)]; [auto|]. cbn [fst] in *. right. rewrite E. apply in_prod_iff in Hin. rewrite !in_seq in Hin.
      unfold at_, entry. cbn [fst snd]. rewrite Er. destruct (nth_error r j) as [x|] eqn:Ex; [|apply nth_error_None in Ex; lia].
      apply in_map_iff. exists x. split; [reflexivity|]. now apply nth_error_In in Ex.
Qed.
Lemma cells_rows : map (fun i => map (fun j => cell_at (i, j)) (seq 0 col)) (seq 0 row) = map (map (fun x => (text x, ew x))) m.
Proof.
  apply nth_error_ext. intros i. rewrite !nth_error_map. destruct (Nat.lt_ge_cases i row) as [Hi|Hi].
  - rewrite (nth_error_nth' _ 0) by (now rewrite seq_length). rewrite seq_nth by exact Hi. cbn [option_map Nat.add].
    destruct (entry_row _ _ _ _ R Hi) as (r & Er & Lr). rewrite Er. cbn. f_equal. apply nth_error_ext. intros j. rewrite !nth_error_map.
    destruct (Nat.lt_ge_cases j col) as [Hj|Hj].
    + rewrite (nth_error_nth' _ 0) by (now rewrite seq_length). rewrite seq_nth by exact Hj. cbn [option_map Nat.add].
      unfold cell_at, entry. cbn [fst snd]. rewrite Er. destruct (nth_error r j) eqn:E; [reflexivity|apply nth_error_None in E; lia].
    + rewrite !(proj2 (nth_error_None _ _)); [reflexivity|rewrite Lr; lia|rewrite seq_length; lia].
  - rewrite !(proj2 (nth_error_None _ _)); [reflexivity|rewrite (proj1 R); lia|rewrite seq_length; lia].
Qed.

(** *** Printing *)
Variable w : str -> M S bool.
Lemma pad_spec k s : pad w k s = all_in_order w (repeat [ch_sp] k) s.
Proof.
  unfold pad. rewrite (iall_gives _ _ _ _ _ s (range_gives 0 k)) by (rewrite map_length, seq_length; lia).
  rewrite allm_all, Nat.sub_0_r. generalize 0. revert s. induction k as [|k IH]; intros s a; cbn; [reflexivity|].
  destruct (w [ch_sp] s) as [[[]| | |] s1]; auto.
Qed.
Definition leftpad (j : nat) (x : T) : nat := (width text slen m j - ew x) / 2.
Definition rightpad (n j : nat) (x : T) : nat :=
  width text slen m j - slen (line_of text x n) - leftpad j x + (if j =? col - 1 then 0 else 1).
Definition cell_pieces (n : nat) (jx : nat * T) : list str :=
  repeat [ch_sp] (leftpad (fst jx) (snd jx)) ++ [line_of text (snd jx) n] ++ repeat [ch_sp] (rightpad n (fst jx) (snd jx)).
Hypothesis slen0 : slen [] = 0.
Lemma line_le n x : slen (line_of text x n) <= ew x.
Proof using slen0.
  unfold line_of, entry_width. destruct (nth_in_or_default n (lines (text x)) []) as [H|E].
  - apply list_max_in. now apply in_map.
  - rewrite E, slen0. apply Nat.le_0_l.
Qed.
Lemma ew_le i j r x : nth_error m i = Some r -> nth_error r j = Some x -> ew x <= width text slen m j.
Proof.
  intros Er Ex. assert (Hj : j < col). { rewrite <- (rect_row _ _ _ _ R (nth_error_In _ _ Er)). apply nth_error_Some. congruence. }
  unfold width. apply list_max_in, in_map. apply (nth_error_In _ i). rewrite (col_of_nth _ _ _ _ _ R Hj). unfold entry. now rewrite Er.
Qed.
Lemma width_fits j : j < col -> width text slen m j + 1 < W c.
Proof.
  intros Hj. unfold width. destruct (list_max_attained (map ew (col_of m j))) as [->|H]; [lia|].
  apply in_map_iff in H. destruct H as (x & <- & Hx). apply In_nth_error in Hx. destruct Hx as (i & Ei).
  rewrite (col_of_nth _ _ _ _ _ R Hj) in Ei. unfold entry in Ei. destruct (nth_error m i) as [r|] eqn:Er; [|discriminate].
  unfold entry_width. destruct (list_max_attained (map slen (lines (text x)))) as [->|H]; [lia|].
  apply in_map_iff in H. destruct H as (l & <- & Hl). eapply fits; eauto using nth_error_In.
Qed.
Notation ws := (map (width text slen m) (seq 0 col)).
Notation hs := (map (height text) m).
Lemma nth_ws j d : j < col -> nth j ws d = width text slen m j.
Proof. apply nth_map_seq. Qed.
Lemma cell_spec i n r j x s : nth_error m i = Some r -> nth_error r j = Some x ->
  print_cell c w slen col ws n j (text x, ew x) s = all_in_order w (cell_pieces n (j, x)) s.
Proof.
  intros Er Ex. assert (Hj : j < col). { rewrite <- (rect_row _ _ _ _ R (nth_error_In _ _ Er)). apply nth_error_Some. congruence. }
  pose proof (ew_le i j r x Er Ex) as He. pose proof (line_le n x) as Hl. pose proof (width_fits j Hj) as Hw.
  pose proof (half_le (width text slen m j - ew x)) as Ha. fold (leftpad j x) in Ha.
  assert (Lws : length ws = col) by (now rewrite map_length, seq_length).
  unfold print_cell. unfold bind at 1. rewrite (vindex_hit _ j 0) by lia. rewrite nth_ws by exact Hj.
  unfold bind at 1. unfold usz_sub at 1. destruct (Nat.leb_spec (ew x) (width text slen m j)); [|lia]. unfold ret at 1.
  fold (leftpad j x). unfold cell_pieces. cbn [fst snd].
  apply try_app; [apply pad_spec|]. clear s. intros s.
  replace (match nth_error (lines (text x)) n with Some l => l | None => [] end) with (line_of text x n).
  2:{ unfold line_of. destruct (nth_error (lines (text x)) n) eqn:E; [now apply nth_error_nth|]. apply nth_overflow. now apply nth_error_None. }
  apply try_app; [intros; apply (all_one w)|]. clear s. intros s.
  unfold bind at 1. rewrite (vindex_hit _ j 0) by lia. rewrite nth_ws by exact Hj.
  unfold bind at 1. unfold usz_sub at 1. destruct (Nat.leb_spec (slen (line_of text x n)) (width text slen m j)); [|lia]. unfold ret at 1.
  unfold bind at 1. unfold usz_sub at 1. destruct (Nat.leb_spec (leftpad j x) (width text slen m j - slen (line_of text x n))); [|lia]. unfold ret at 1.
  unfold bind at 1. unfold usz_sub at 1. destruct (Nat.leb_spec 1 col); [|lia]. unfold ret at 1.
  unfold bind at 1. unfold usz_add. destruct (Nat.ltb_spec (width text slen m j - slen (line_of text x n) - leftpad j x + (if j =? col - 1 then 0 else 1)) (W c)).
  2:{ destruct (j =? col - 1); lia. }
  unfold ret at 1. apply pad_spec.
Qed.
Definition ending (r : list T) (i n : nat) : str :=
  if (i =? 0) && (n =? 0) then [ch_tr; ch_nl]
  else if (i =? length m - 1) && (n =? height text r - 1) then [ch_br] else [ch_mr; ch_nl].
Definition line_pieces (r : list T) (i n : nat) : list str :=
  [[fst (brackets text m r i n)]] ++ concat (map (cell_pieces n) (indexed r)) ++ [ending r i n].
Lemma last_spec r i n (s : S) : nth_error m i = Some r -> n < height text r ->
  is_last c row hs i n s = (Ok ((i =? length m - 1) && (n =? height text r - 1)), s).
Proof.
  intros Er Hn. assert (Hi : i < row) by (rewrite <- (proj1 R); apply nth_error_Some; congruence).
  unfold is_last. unfold bind at 1. unfold usz_sub at 1. destruct (Nat.leb_spec 1 row); [|lia]. unfold ret at 1. rewrite (proj1 R).
  destruct (i =? row - 1); [|reflexivity]. unfold bind at 1. unfold vindex, slice_index, as_slice. rewrite nth_error_map, Er. cbn [option_map].
  unfold ret at 1. unfold bind, usz_sub. destruct (Nat.leb_spec 1 (height text r)); [|lia]. reflexivity.
Qed.
Lemma line_spec r i n s : nth_error m i = Some r -> n < height text r ->
  print_line c w slen row col ws hs i (map (fun x => (text x, ew x)) r) n s = all_in_order w (line_pieces r i n) s.
Proof.
  intros Er Hn. pose proof (rect_row _ _ _ _ R (nth_error_In _ _ Er)) as Lr. unfold print_line, line_pieces, brackets, ending. unfold bind at 1.
  destruct ((i =? 0) && (n =? 0)).
  - unfold ret at 1. apply try_app; [intros; apply (all_one w)|]. clear s; intros s. apply try_app.
    + clear s; intros s. unfold viter, as_slice.
      rewrite (iall_gives _ _ _ _ _ s (enumerate_ret_gives _ _ _ (slice_iter_gives _)));
        [|rewrite map_length, indexed_length, map_length; lia].
      rewrite allm_all, all_nested, indexed_map, all_in_order_map. apply all_in_order_ext. intros [j x] s1 Hin. cbn [fst snd].
      apply indexed_in in Hin. eapply cell_spec; eauto.
    + clear s; intros s. unfold bind, ret. apply (all_one w).
  - unfold bind at 1. rewrite (last_spec r) by assumption. unfold ret at 1.
    replace (if (i =? length m - 1) && (n =? height text r - 1) then ch_bl else ch_ml) with
      (fst (if (i =? length m - 1) && (n =? height text r - 1) then (ch_bl, ch_br) else (ch_ml, ch_mr))) by (now destruct (_ && _)).
    apply try_app; [intros; apply (all_one w)|]. clear s; intros s. apply try_app.
    + clear s; intros s. unfold viter, as_slice.
      rewrite (iall_gives _ _ _ _ _ s (enumerate_ret_gives _ _ _ (slice_iter_gives _)));
        [|rewrite map_length, indexed_length, map_length; lia].
      rewrite allm_all, all_nested, indexed_map, all_in_order_map. apply all_in_order_ext. intros [j x] s1 Hin. cbn [fst snd].
      apply indexed_in in Hin. eapply cell_spec; eauto.
    + clear s; intros s. unfold bind. rewrite (last_spec r) by assumption. unfold ret.
      destruct ((i =? length m - 1) && (n =? height text r - 1)); apply (all_one w).
Qed.
Definition row_pieces (ir : nat * list T) : list str := concat (map (line_pieces (snd ir) (fst ir)) (seq 0 (height text (snd ir)))).
Definition display_pieces : list str := concat (map row_pieces (indexed m)).
Lemma allm_pure {A} (p : A -> M S bool) l dr s : (forall k s, dr k s = s) -> allm false (map ret l) dr p s = all_in_order p l s.
Proof.
  intros HD. revert s. induction l as [|x l IH]; intros s; cbn; [now rewrite HD|].
  destruct (p x s) as [[[]| | |] s1]; cbn; rewrite ?HD; auto.
Qed.
Lemma rows_spec s : print_rows c w slen row col ws hs (map (map (fun x => (text x, ew x))) m) s = all_in_order w display_pieces s.
Proof.
  unfold print_rows. rewrite <- (app_nil_r display_pieces). apply try_app; [|reflexivity]. clear s; intros s.
  pose proof (into_it_gives (S := S) c (vec_ety pod_ety) row (map (map (fun x => (text x, ew x))) m) ltac:(rewrite map_length; apply R) HR) as G.
  apply enumerate_ret_gives in G. erewrite (iall_gives _ _ _ _ _ s G) by (rewrite map_length, indexed_length, map_length, (proj1 R); lia).
  rewrite allm_pure.
  2:{ intros k s0. assert (D : forall (l : list (str * nat)) (s : S), drop_all pod_ety l s = s) by (induction l as [|y l IHl]; intros s2; [reflexivity|exact (IHl s2)]).
      generalize (lastn k (map (map (fun x => (text x, ew x))) m)). intros l. revert s0. induction l as [|a l IH]; intros s0; [reflexivity|].
      change (drop_all (vec_ety pod_ety) l (drop_all pod_ety a s0) = s0). rewrite IH. apply D. }
  unfold display_pieces. rewrite all_nested, indexed_map, all_in_order_map. apply all_in_order_ext. intros [i r] s1 Hin. cbn [fst snd].
  apply indexed_in in Hin. unfold bind at 1. unfold vindex at 1, slice_index at 1, as_slice. rewrite nth_error_map, Hin. cbn [option_map]. unfold ret at 1.
  rewrite (iall_gives _ _ _ _ _ s1 (range_gives 0 (height text r))) by (rewrite map_length, seq_length; lia).
  rewrite allm_all, Nat.sub_0_r. unfold row_pieces. rewrite all_nested. cbn [fst snd]. apply all_in_order_ext. intros n s2 Hn.
  apply in_seq in Hn. apply line_spec; auto; lia.
Qed.
Lemma display_spec s : mdisplay c w slen tofmt row col m s = all_in_order w display_pieces s.
Proof.
  unfold mdisplay. unfold bind at 1. rewrite vdefault_const. unfold bind at 1. rewrite vdefault_const.
  pose proof (mgenerate_nested c pod_ety row col (fun ij => measure slen tofmt m (fst ij) (snd ij)) ((repeat 0 col, repeat 0 row), s)) as G.
  unfold mgenerate, vgenerate in G. cbn [fst snd] in G. rewrite G. clear G.
  destruct (measure_all (seq 0 row)) with (P := @nil (nat * nat)) (ws := repeat 0 col) (hs := repeat 0 row) (s := s) as (ws' & hs' & E & HL).
  { apply Forall_forall. intros i Hi. apply in_seq in Hi. lia. }
  { repeat split; try (now rewrite repeat_length); try contradiction; intros; left; apply nth_repeat. }
  match goal with |- context [in_order ?f (seq 0 row) ?st] => change (in_order f (seq 0 row) st) with (in_order (fun i => in_order (measure slen tofmt m i) (seq 0 col)) (seq 0 row) st) end.
  rewrite E. cbn [app] in HL. apply lubs_widths in HL. destruct HL as [-> ->]. rewrite cells_rows. apply rows_spec.
Qed.
End Disp.
