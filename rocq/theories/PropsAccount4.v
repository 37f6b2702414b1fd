(** * PropsAccount4.v - C106: iterators keep the books through every history: what has been yielded, what the
    iterator still owns and what it has dropped are, together, what it was made of. *)
From Coq Require Import List Arith Bool Lia Permutation.
From Verif Require Import Rust Iter Elem VectorM MatIterM MatrixM NumM SpecCommon Harness IterProofs OwnProofs VecProofs MatProofs ChunkProofs CursorProofs PropsIter SpecAccount SpecAccountMut AccountProofs AccountLib AccountMut PropsAccount.
Import ListNotations.

(** The values handed to the caller in a history; an item consists of the values [vals x]. *)
Definition yielded {X T} (vals : X -> list T) (outs : list (qout X)) : list T :=
  concat (map (fun o => match o with Item (Some x) => vals x | _ => [] end) outs).

Section Deque.
Context {S T X : Type} (live : S -> list T) (vals : X -> list T) (drop : X -> S -> S).
Hypothesis Hd : forall x s R, Permutation (live s) (vals x ++ R) -> Permutation (live (drop x s)) R.
Lemma drop_fold l : forall s R, Permutation (live s) (concat (map vals l) ++ R) -> Permutation (live (fold_left (fun s x => drop x s) l s)) R.
Proof. induction l as [|x l IH]; intros s R P; [exact P|]. cbn [fold_left map concat] in *. apply IH, Hd. rewrite P. psolve. Qed.
Lemma deque_accounts ops : forall q s R, Permutation (live s) (concat (map vals q) ++ R) ->
  let '(outs, (q', s')) := deque_run drop ops q s in
  Permutation (live s') (yielded vals outs ++ concat (map vals q') ++ R).
Proof.
  induction ops as [|op ops IH]; intros q s R P; cbn [deque_run]; [exact P|].
  assert (K : let '(o, (q1, s1)) := deque_step drop op q s in Permutation (live s1) (yielded vals [o] ++ concat (map vals q1) ++ R)).
  { destruct op; cbn [deque_step].
    - destruct q as [|x q]; unfold yielded; cbn [map concat app]; [exact P|]. rewrite P. cbn [map concat]. psolve.
    - destruct (rev q) as [|x r] eqn:E; unfold yielded; cbn [map concat app].
      + apply (f_equal (@rev X)) in E. rewrite rev_involutive in E. subst q. exact P.
      + apply (f_equal (@rev X)) in E. rewrite rev_involutive in E. subst q. cbn [rev] in P.
        rewrite map_app, concat_app in P. cbn [map concat] in P. rewrite P. psolve.
    - unfold yielded. cbn [map concat]. apply drop_fold. rewrite P. rewrite <- (firstn_skipn k q) at 1.
      assert (E : skipn k q = match nth_error q k with Some x => [x] | None => [] end ++ skipn (k + 1) q).
      { clear. revert k. induction q as [|y q IH]; intros [|k]; cbn; auto. }
      rewrite E, !map_app, !concat_app. destruct (nth_error q k) as [x|]; cbn [map concat]; psolve.
    - destruct (rev q) as [|x r] eqn:E; unfold yielded; cbn [map concat app].
      + apply (f_equal (@rev X)) in E. rewrite rev_involutive in E. subst q. exact P.
      + apply (f_equal (@rev X)) in E. rewrite rev_involutive in E. subst q. cbn [rev] in P.
        rewrite map_app, concat_app in P. cbn [map concat] in P. rewrite P. psolve.
    - exact P.
    - exact P. }
  destruct (deque_step drop op q s) as [o [q1 s1]].
  assert (P1 : Permutation (live s1) (concat (map vals q1) ++ yielded vals [o] ++ R)) by (rewrite K; psolve).
  specialize (IH q1 s1 _ P1). destruct (deque_run drop ops q1 s1) as [os [q2 s2]]. rewrite IH.
  unfold yielded. cbn [map concat]. psolve.
Qed.
End Deque.

(** The owning iterator: after any history that C07_exact allows, the values yielded are the caller's, and
    dropping the iterator is the end of all others. *)
Theorem C106_into_iter : forall S T (live : S -> list T) (c : cfg) (d : ety S T) n v ops (s : S) rest,
  drops live d -> length v = n -> n < W c -> guarded false ops v -> Permutation (live s) (v ++ rest) ->
  exists outs it s', run_history (ii_step c d n) ops (into_iter n v, s) = (Ok outs, (it, s')) /\
  (exists own, Permutation (live s') (yielded one outs ++ own ++ rest)) /\
  exists s'', ii_drop d it s' = (Ok tt, s'') /\ Permutation (live s'') (yielded one outs ++ rest).
Proof.
  intros S T live c d n v ops s rest Hd L HW G P.
  assert (Hd1 : forall x s R, Permutation (live s) (one x ++ R) -> Permutation (live (e_drop d x s)) R) by (intros x s0 R; apply Hd).
  assert (C1 : forall l : list T, concat (map one l) = l) by (intros l; apply concat_sing).
  pose proof (ii_deque c d n v ops s L HW G) as H.
  pose proof (deque_accounts live one (e_drop d) Hd1 ops v s rest) as A. rewrite C1 in A. specialize (A P).
  destruct (deque_run (e_drop d) ops v s) as [outs [q' s']]. destruct H as (it & E1 & E2 & _).
  exists outs, it, s'. split; [exact E1|]. split; [eexists; exact A|]. eexists. split; [exact E2|].
  apply (drop_fold live one (e_drop d) Hd1). rewrite A. psolve.
Qed.
Print Assumptions C106_into_iter.
(** The chunk iterator: after any history whatever. *)
Theorem C106_chunks : forall S T (live : S -> list T) (c : cfg) (d : ety S T) k pieces ops (s : S) rest,
  drops live d -> Forall (fun x => length x = k) pieces -> 0 < k -> length (concat pieces) < W c -> no_last ops ->
  Permutation (live s) (concat pieces ++ rest) ->
  let n := length (concat pieces) in
  exists outs it s', run_history (ch_step c d n k) ops (into_chunks n (concat pieces), s) = (Ok outs, (it, s')) /\
  (exists own, Permutation (live s') (yielded (fun r => r) outs ++ own ++ rest)) /\
  exists s'', ch_drop d it s' = (Ok tt, s'') /\ Permutation (live s'') (yielded (fun r => r) outs ++ rest).
Proof.
  intros S T live c d k Q ops s rest Hd FQ Hk HW NL P n.
  pose proof (ch_deque c d k Q ops s FQ Hk HW NL) as H. cbv zeta in H. fold n in H.
  assert (Hd1 : forall x s R, Permutation (live s) (x ++ R) -> Permutation (live (drop_all d x s)) R) by (intros; now apply (dl live d Hd)).
  pose proof (deque_accounts live (fun r => r) (drop_all d) Hd1 ops Q s rest) as A. rewrite map_id in A. specialize (A P).
  destruct (deque_run (drop_all d) ops Q s) as [outs [q' s']]. destruct H as (it & E1 & E2).
  rewrite map_id in A.
  exists outs, it, s'. split; [exact E1|]. split; [eexists; exact A|]. eexists. split; [exact E2|].
  apply Hd1. rewrite A. psolve.
Qed.
Print Assumptions C106_chunks.

(** The iterators over the rows and columns of a borrowed matrix clone what they yield. *)
Section Cloning.
Context {S T A : Type} (live : S -> list T) (D : Prop) (F : list T) (c : cfg).
Variables (items : list A) (get : A -> M S (list T)) (step : qop -> M (cursor * S) (qout (list T))).
Hypothesis HC : cursor_ok c items get Cursor step.
Hypothesis Hg : forall a, In a items -> tk live D F (get a) [] (fun r => r) any.
Hypothesis Hn : forall k f b s, (exists f', step (Nth k) (Cursor f b, s) = step Next (Cursor f' b, s)) \/ (exists st, step (Nth k) (Cursor f b, s) = (Panic, (st, s))).
Hypothesis Hl : forall op st s, is_len op = true -> (exists o, step op (st, s) = (Ok o, (st, s)) /\ yielded (fun r => r) [o] = []) \/ step op (st, s) = (Panic, (st, s)).
Lemma step_accounts op f b s R : b <= length items -> incl F R -> Permutation (live s) R ->
  match step op (Cursor f b, s) with
  | (Ok o, (st, s')) => cback st <= length items /\ Permutation (live s') (yielded (fun r => r) [o] ++ R)
  | (Panic, (_, s')) => exists left, Permutation (live s') (left ++ R)
  | (UB, _) => False
  | (Diverge, _) => D
  end.
Proof using HC Hg Hn Hl.
  intros Hb HI P.
  assert (Y : forall op f b i f1 b1, b1 <= length items -> i < length items -> CursorProofs.takes items get Cursor step op (Cursor f b) s i f1 b1 ->
    match step op (Cursor f b, s) with
    | (Ok o, (st, s')) => cback st <= length items /\ Permutation (live s') (yielded (fun r => r) [o] ++ R)
    | (Panic, (_, s')) => exists left, Permutation (live s') (left ++ R)
    | (UB, _) => False
    | (Diverge, _) => D
    end).
  { clear op f b Hb. intros op f b i f1 b1 Hb1 Hi HT. destruct (nth_error items i) as [a|] eqn:E; [|apply nth_error_None in E; lia].
    specialize (HT a E). pose proof (Hg a (nth_error_In _ _ E) s R HI P) as G.
    destruct (get a s) as [[y| | |] s'].
    - rewrite HT. split; [exact Hb1|]. unfold yielded. cbn [map concat]. rewrite app_nil_r. apply G.
    - destruct HT as [st ->]. exact G.
    - contradiction.
    - destruct HT as [st ->]. exact G. }
  assert (N0 : forall f, match step Next (Cursor f b, s) with
    | (Ok o, (st, s')) => cback st <= length items /\ Permutation (live s') (yielded (fun r => r) [o] ++ R)
    | (Panic, (_, s')) => exists left, Permutation (live s') (left ++ R)
    | (UB, _) => False
    | (Diverge, _) => D
    end).
  { clear f. intros f. destruct (HC f b s Hb) as (H1 & _ & H3 & _). destruct (le_lt_dec b f) as [L|L].
    - rewrite H3 by exact L. split; [exact Hb|exact P].
    - apply (Y Next f b f (f + 1) b); [exact Hb|lia|exact (H1 L)]. }
  assert (B0 : match step NextBack (Cursor f b, s) with
    | (Ok o, (st, s')) => cback st <= length items /\ Permutation (live s') (yielded (fun r => r) [o] ++ R)
    | (Panic, (_, s')) => exists left, Permutation (live s') (left ++ R)
    | (UB, _) => False
    | (Diverge, _) => D
    end).
  { destruct (HC f b s Hb) as (_ & H2 & _ & H4 & _). destruct (le_lt_dec b f) as [L|L].
    - rewrite H4 by exact L. split; [exact Hb|exact P].
    - apply (Y NextBack f b (b - 1) f (b - 1)); [lia|lia|exact (H2 L)]. }
  destruct op.
  - apply N0.
  - exact B0.
  - destruct (Hn k f b s) as [[f' ->]|[st ->]]; [apply N0|]. exists []. exact P.
  - destruct (HC f b s Hb) as (_ & _ & _ & _ & H5 & _). rewrite H5. exact B0.
  - destruct (Hl Len (Cursor f b) s eq_refl) as [(o & -> & Ho)| ->]; [rewrite Ho; split; [exact Hb|exact P]|exists []; exact P].
  - destruct (Hl SizeHint (Cursor f b) s eq_refl) as [(o & -> & Ho)| ->]; [rewrite Ho; split; [exact Hb|exact P]|exists []; exact P].
Qed.
Lemma history_accounts ops : forall f b s R, b <= length items -> incl F R -> Permutation (live s) R ->
  match run_history step ops (Cursor f b, s) with
  | (Ok outs, (_, s')) => Permutation (live s') (yielded (fun r => r) outs ++ R)
  | (Panic, (_, s')) => exists left, Permutation (live s') (left ++ R)
  | (UB, _) => False
  | (Diverge, _) => D
  end.
Proof using HC Hg Hn Hl.
  induction ops as [|op ops IH]; intros f b s R Hb HI P; cbn [run_history]; [exact P|].
  pose proof (step_accounts op f b s R Hb HI P) as H. unfold bind. destruct (step op (Cursor f b, s)) as [[o| | |] [st s1]]; try exact H.
  destruct H as [Hb1 P1]. destruct st as [f1 b1]. specialize (IH f1 b1 s1 _ Hb1 (incl_appr _ HI) P1).
  destruct (run_history step ops (Cursor f1 b1, s1)) as [[os| | |] [st2 s2]]; try exact IH.
  - cbn. rewrite IH. unfold yielded. cbn [map concat]. psolve.
  - destruct IH as [L PL]. exists (L ++ yielded (fun r => r) [o]). rewrite PL. psolve.
Qed.
End Cloning.

(** [rows_iter] and [cols_iter]: any history whatever, with any skips, even past the end and even when the
    position overflows; the matrix is only looked at. *)
Theorem C106_rows : forall S T (live : S -> list T) (D : Prop) (c : cfg) (d : ety S T) clone row col m ops (s : S) rest,
  copies live D clone -> rect row col m -> row < W c -> incl (concat m) rest -> Permutation (live s) rest ->
  match run_history (ri_step c row col m d clone) ops (ri_new row, s) with
  | (Ok outs, (_, s')) => Permutation (live s') (yielded (fun r => r) outs ++ rest)
  | (Panic, (_, s')) => exists left, Permutation (live s') (left ++ rest)
  | (UB, _) => False
  | (Diverge, _) => D
  end.
Proof.
  intros S T live D c d clone row col m ops s rest Hcl R HW HI P. unfold ri_new.
  assert (Hm : length m = row) by apply R.
  apply (history_accounts live D (concat m) c m (in_order clone) (ri_step c row col m d clone)); try assumption; try lia.
  - now apply ri_cursor.
  - intros a Ha. pose proof (tk_in_order live D (concat m) clone (fun _ => []) (fun y => [y]) any a) as K. rewrite concat_nil in K.
    eapply tk_conv; [apply K|reflexivity| |now intros].
    + intros x Hx. apply (tk_refs live D [x]); [apply takes_tk, Hcl|]. intros u [<-|[]]. apply in_concat. now exists a.
    + intros ys _. cbv beta. now rewrite concat_sing.
  - intros k f b s0. unfold ri_step, item, ri_nth, bind, self, lift, set_self. cbn [fst snd cfront cback].
    unfold usz_add. destruct (f + k <? W c); [left; eexists; reflexivity|]. destruct (debug c); [right; eexists; reflexivity|left; eexists; reflexivity].
  - intros op st s0 Ho. destruct op; try discriminate; unfold ri_step, num, hint, lift, ri_len, ri_size_hint, bind, self, usz_sub, ret, panic; cbn [fst snd];
      (destruct (cfront st <=? row); [left; eexists; split; reflexivity|destruct (debug c); [right; reflexivity|left; eexists; split; reflexivity]]).
Qed.
Print Assumptions C106_rows.
Theorem C106_cols : forall S T (live : S -> list T) (D : Prop) (c : cfg) (d : ety S T) clone row col m ops (s : S) rest,
  copies live D clone -> rect row col m -> col < W c -> incl (concat m) rest -> Permutation (live s) rest ->
  match run_history (ci_step c row col m d clone) ops (ci_new col, s) with
  | (Ok outs, (_, s')) => Permutation (live s') (yielded (fun r => r) outs ++ rest)
  | (Panic, (_, s')) => exists left, Permutation (live s') (left ++ rest)
  | (UB, _) => False
  | (Diverge, _) => D
  end.
Proof.
  intros S T live D c d clone row col m ops s rest Hcl R HW HI P. unfold ci_new.
  apply (history_accounts live D (concat m) c (columns col m) (in_order clone) (ci_step c row col m d clone)); try assumption; try (rewrite columns_len; lia).
  - now apply ci_cursor.
  - intros a Ha. pose proof (tk_in_order live D (concat m) clone (fun _ => []) (fun y => [y]) any a) as K. rewrite concat_nil in K.
    eapply tk_conv; [apply K|reflexivity| |now intros].
    + intros x Hx. apply (tk_refs live D [x]); [apply takes_tk, Hcl|]. intros u [<-|[]].
      unfold columns in Ha. apply in_map_iff in Ha. destruct Ha as (j & <- & _).
      apply in_flat_map in Hx. destruct Hx as (r & Hr & Hx). apply in_concat. exists r. split; [exact Hr|].
      destruct (nth_error r j) as [y|] eqn:E; [|contradiction]. destruct Hx as [<-|[]]. now apply nth_error_In in E.
    + intros ys _. cbv beta. now rewrite concat_sing.
  - intros k f b s0. unfold ci_step, item, ci_nth, bind, self, lift, set_self. cbn [fst snd cfront cback].
    unfold usz_add. destruct (f + k <? W c); [left; eexists; reflexivity|]. destruct (debug c); [right; eexists; reflexivity|left; eexists; reflexivity].
  - intros op st s0 Ho. destruct op; try discriminate; unfold ci_step, num, hint, lift, ci_len, ci_size_hint, bind, self, usz_sub, ret, panic; cbn [fst snd];
      (destruct (cfront st <=? col); [left; eexists; split; reflexivity|destruct (debug c); [right; reflexivity|left; eexists; split; reflexivity]]).
Qed.
Print Assumptions C106_cols.
(** The iterators over references do nothing to the world. *)
Section Still.
Context {X S : Type}.
Definition still {A} (m : M (X * S) A) : Prop := forall w, snd (snd (m w)) = snd w.
Lemma still_bind {A B} (m : M (X * S) A) (k : A -> M (X * S) B) : still m -> (forall a, still (k a)) -> still (bind m k).
Proof. intros Hm Hk w. unfold bind. specialize (Hm w). destruct (m w) as [[a| | |] w1]; cbn in *; try exact Hm. now rewrite Hk. Qed.
Lemma still_ret {A} (a : A) : still (ret a).
Proof. now intros w. Qed.
Lemma still_self : still self.
Proof. now intros []. Qed.
Lemma still_set x : still (set_self x).
Proof. now intros []. Qed.
Lemma still_add c a b : still (usz_add c a b).
Proof. intros w. unfold usz_add. destruct (a + b <? W c); [reflexivity|]. now destruct (debug c). Qed.
Lemma still_sub c a b : still (usz_sub c a b).
Proof. intros w. unfold usz_sub. destruct (b <=? a); [reflexivity|]. now destruct (debug c). Qed.
Lemma still_assert c b : still (debug_assert c b).
Proof. intros w. unfold debug_assert. now destruct (debug c), b. Qed.
Lemma still_slice {A} (v : list A) i : still (slice_get_unchecked v i).
Proof. intros w. unfold slice_get_unchecked. now destruct (nth_error v i). Qed.
Lemma still_lift {A} (m : M S A) : (forall s, snd (m s) = s) -> still (lift m).
Proof. intros H [x s]. unfold lift. cbn [fst snd]. specialize (H s). destruct (m s) as [r s1]. exact H. Qed.
Lemma still_if {A} (b : bool) (m k : M (X * S) A) : still m -> still k -> still (if b then m else k).
Proof. now destruct b. Qed.
End Still.
Lemma quiet_sub {S} c a b (s : S) : snd (usz_sub c a b s) = s.
Proof. unfold usz_sub. destruct (b <=? a); [reflexivity|]. now destruct (debug c). Qed.
Lemma quiet_assert {S} c b (s : S) : snd (debug_assert c b s) = s.
Proof. unfold debug_assert. now destruct (debug c), b. Qed.
Theorem C106_references : forall S T (c : cfg) row col m ops (s : S),
  (forall it, snd (snd (run_history (@rr_step S T c row m) ops (it, s))) = s) /\
  (forall it, snd (snd (run_history (@cr_step S c row col) ops (it, s))) = s) /\
  (forall it, snd (snd (run_history (@cin_step S T c row col m) ops (it, s))) = s).
Proof.
  intros S T c row col m ops s.
  assert (K : forall X B (step : qop -> M (X * S) (qout B)), (forall op, still (step op)) ->
    forall it, snd (snd (run_history step ops (it, s))) = s).
  { intros X B step Hs it. assert (H : still (run_history step ops)); [|exact (H (it, s))].
    induction ops as [|op l IH]; cbn [run_history]; [apply still_ret|]. apply still_bind; [apply Hs|]. intros o.
    apply still_bind; [exact IH|]. intros; apply still_ret. }
  split; [|split]; apply K; clear; intros op; destruct op;
    unfold rr_step, cr_step, cin_step, item, num, hint, rr_last, rr_nth, cr_last, cr_nth, cin_last, cin_nth, cin_len, cin_size_hint, cur_len, cur_size_hint,
      rr_next, rr_next_back, cr_next, cr_next_back, cin_next, cin_next_back, cur_len;
    repeat (first [apply still_bind; [|intros] | apply still_ret | apply still_self | apply still_set | apply still_add | apply still_sub
      | apply still_assert | apply still_slice | apply still_if
      | match goal with |- still (let (_, _) := ?x in _) => destruct x end
      | apply still_lift; intros; unfold bind, ret, cin_new;
        repeat (match goal with |- context [usz_sub c ?a ?b ?s] => generalize (quiet_sub c a b s); destruct (usz_sub c a b s) as [[| | |] ?]; cbn; intros
                | |- context [debug_assert c ?b ?s] => generalize (quiet_assert c b s); destruct (debug_assert c b s) as [[| | |] ?]; cbn; intros end); unfold bind, ret; auto ]).
  all: unfold debug_assert; match goal with |- context [?a <? ?n] => destruct (debug c), (a <? n) end; reflexivity.
Qed.
Print Assumptions C106_references.
(** In the world of C103_ex: consuming a vector of four from both ends, skipping; rows of a 2 x 2 matrix, with
    a skip past the end. *)
Definition v106 : list (nat * nat) := named [5; 6; 7; 8; 9].
Definition w106 : world := World 6 (v106 ++ [(5, 100)]) false.
Definition m106 : list (list (nat * nat)) := [[(0, 5); (1, 6)]; [(2, 7); (3, 8)]].
Example C106_ex :
  drops w_live e103 /\ copies w_live False (o_clone (z_ops z103)) /\
  guarded false [Next; Nth 1; NextBack; Len] v106 /\ Permutation (w_live w106) (v106 ++ [(5, 100)]) /\
  rect 2 2 m106 /\ incl (concat m106) (w_live w106) /\
  (match run_history (ii_step dbg e103 5) [Next; Nth 1; NextBack; Len] (into_iter 5 v106, w106) with
   | (Ok outs, (it, w)) => yielded one outs = [(0, 5); (2, 7); (4, 9)] /\ w_bad w = false /\
       (match ii_drop e103 it w with (Ok _, w') => w_live w' = [(0, 5); (2, 7); (4, 9); (5, 100)] /\ w_bad w' = false | _ => False end)
   | _ => False end) /\
  (match run_history (ri_step dbg 2 2 m106 e103 (o_clone (z_ops z103))) [NextBack; Nth 7; Next; Last] (ri_new 2, w106) with
   | (Ok outs, (_, w)) => yielded (fun r => r) outs = [(6, 7); (7, 8)] /\ length (w_live w) = 8 /\ w_bad w = false
   | _ => False end) /\
  (match run_history (ci_step dbg 2 2 m106 e103 (o_clone (z_ops z103))) [Nth 1; Next; NextBack] (ci_new 2, w106) with
   | (Ok outs, (_, w)) => yielded (fun r => r) outs = [(6, 6); (7, 8)] /\ length (w_live w) = 8 /\ w_bad w = false
   | _ => False end).
Proof.
  split; [intros x s rest P; exact (bk_drop _ _ _ _ _ books103 x s rest P)|].
  split; [exact (bk_clone _ _ _ _ _ books103)|]. split; [cbn; repeat split; auto with arith; left; discriminate|].
  split; [reflexivity|]. split; [now repeat constructor|]. split; [intros x Hx; vm_compute in *; tauto|].
  vm_compute. intuition.
Qed.
Print Assumptions C106_ex.
