(** * PropsAccount3.v - C105: constructors, conversions, maps and collecting keep the books: what comes out of
    the closure or the source iterator ends up in the result, once, or is dropped. *)
From Coq Require Import List Arith Bool Lia Permutation.
From Verif Require Import Rust Iter Elem VectorM MatIterM MatrixM ArithM OpsM NumM CmpM ScopeM ScopeMutM SpecCommon Harness IterProofs OwnProofs VecProofs MatProofs AccProofs ChunkProofs PropsOrder PropsOrder2 PropsNum4 SpecAccount SpecAccountMut SpecSource AccountProofs AccountLib AccountMut AccountIter PropsAccount PropsAccount2.
Import ListNotations.

(** [from_iter] / [collect] into a vector of length [n], from any source.  On a panic at most the slots that
    were already filled are left behind, and only when the source itself panicked or there were too many
    items in a debug build: when there are too few, nothing is. *)
Theorem C105_collect : forall S T U (live : S -> list T) (D leaky : Prop) refs (c : cfg) (d : ety S U) (item : U -> list T) I n it own s rest,
  (forall u s rest, Permutation (live s) (item u ++ rest) -> Permutation (live (e_drop d u s)) rest) ->
  source live D leaky refs item I -> (debug c = true -> D) -> I it own ->
  incl refs rest -> Permutation (live s) (own ++ rest) ->
  match from_iter c d n it s with
  | (Ok v, s') => length v = n /\ Permutation (live s') (concat (map item v) ++ rest)
  | (Panic, s') => exists filled left, length filled <= n /\
      Permutation (live s') (concat (map item filled) ++ left ++ rest) /\ (left = [] \/ leaky) /\
      (filled = [] \/ (exists it own s, I it own /\ fst (next (it, s)) = Panic) \/ (debug c = true /\ length filled = n))
  | (UB, _) => False
  | (Diverge, _) => D
  end.
Proof.
  intros S T U live D leaky refs c d item I n it own s rest Hd HI HD H0 HF P.
  exact (collect_source live D leaky refs d item Hd c I HI HD n it own [] s rest H0 HF P).
Qed.
Print Assumptions C105_collect.
(** Such sources are the crate's own iterators: the owning iterator, its chunks, slice iterators, and what
    [map] makes of a source. *)
Theorem C105_sources : forall S T (live : S -> list T) (D leaky : Prop) (c : cfg) (d : ety S T),
  drops live d ->
  (forall refs n v, length v = n -> n < W c -> exists I, source live D leaky refs one I /\ I (into_it c d n v) v) /\
  (forall refs rows k, Forall (fun r => length r = k) rows -> 0 < k -> length (concat rows) < W c ->
     exists I, source live D leaky refs (fun r => r) I /\
               I (ch_iter c d (length (concat rows)) k (into_chunks (length (concat rows)) (concat rows))) (concat rows)) /\
  (forall v, exists I, source live D leaky v (fun _ => []) I /\ I (viter v) []) /\
  (forall refs A B (f : A -> M S B) (a : A -> list T) (b : B -> list T) I it own,
     source live D leaky refs a I -> I it own -> (forall x, tidies live D leaky refs (f x) (a x) b) ->
     exists I', source live D leaky refs b I' /\ I' (imap f it) own).
Proof.
  intros S T live D leaky c d Hd. split; [|split; [|split]].
  - intros refs n v L HW. exists (acting live (fun x => ret x) one). split.
    + apply source_acting. intros x s R _ P. exact P.
    + exists v, (fun k => drop_all d (lastn k v)). split; [now apply into_it_gives|]. split; [symmetry; apply concat_sing|].
      intros k s R _ P. apply (dl live d Hd). unfold one in P. now rewrite concat_sing in P.
  - intros refs rows k HFr Hk HW. exists (acting live (fun x => ret x) (fun r => r)). split.
    + apply source_acting. intros x s R _ P. exact P.
    + exists rows, (fun j => drop_all d (concat (lastn j rows))). split; [now apply ch_iter_gives|]. split; [now rewrite map_id|].
      intros j s R _ P. apply (dl live d Hd). now rewrite map_id in P.
  - intros v. exists (acting live (fun x => ret x) (fun _ => [])). split.
    + apply source_acting. intros x s R _ P. exact P.
    + exists v, nodrop. split; [apply slice_iter_gives|]. split; [now rewrite concat_nil|].
      intros k s R _ P. now rewrite concat_nil in P.
  - intros refs A B f a b I it own HI H0 Hf. exists (mapped f I). split; [now apply (source_map live D leaky refs f a b I)|]. now exists it.
Qed.
Print Assumptions C105_sources.

(** [generate], [default], [min_value], [max_value]: the closure makes the elements. *)
Theorem C105_generate : forall S T (live : S -> list T) (D : Prop) refs (c : cfg) (d : ety S T),
  (forall n f, (forall i, i < n -> borrows live D refs (f i) [] (fun r => [r])) ->
     borrows live D refs (vgenerate c d n f) [] (fun v => v)) /\
  (forall row col f, (forall i j, i < row -> j < col -> borrows live D refs (f (i, j)) [] (fun r => [r])) ->
     borrows live D refs (mgenerate c d row col f) [] (fun m => concat m)) /\
  (forall make, borrows live D refs make [] (fun r => [r]) ->
     (forall n, borrows live D refs (vdefault c d n make) [] (fun v => v) /\ borrows live D refs (vbounded_z c d n make) [] (fun v => v)) /\
     (forall row col, borrows live D refs (mdefault c d make row col) [] (fun m => concat m) /\
                      borrows live D refs (mbounded_z c d make row col) [] (fun m => concat m))).
Proof.
  intros S T live D refs c d.
  assert (V : forall n f, (forall i, i < n -> borrows live D refs (f i) [] (fun r => [r])) -> borrows live D refs (vgenerate c d n f) [] (fun v => v)).
  { intros n f Hf. eapply tk_takes, tk_ext; [intros s; apply vgenerate_spec|].
    apply (tk_row live D _ _ _ n (seq_length n 0)). intros i Hi. apply in_seq in Hi. apply takes_tk, Hf. lia. }
  assert (Mg : forall row col f, (forall i j, i < row -> j < col -> borrows live D refs (f (i, j)) [] (fun r => [r])) -> borrows live D refs (mgenerate c d row col f) [] (fun m => concat m)).
  { intros row col f Hf. eapply tk_takes. apply (tk_generate live D c d row col f refs). intros i j Hi Hj. now apply takes_tk, Hf. }
  split; [exact V|]. split; [exact Mg|]. intros make Hm. split; intros; split.
  - unfold vdefault. now apply V.
  - unfold vbounded_z. now apply V.
  - eapply tk_takes. eapply tk_ext; [intros s; apply vgenerate_spec|].
    apply (tk_rows live D _ _ _ row col (seq_length row 0)). intros i _. eapply tk_ext; [intros s; apply vgenerate_spec|].
    apply (tk_row live D _ _ _ col (seq_length col 0)). intros j _. now apply takes_tk.
  - unfold mbounded_z. now apply Mg.
Qed.
Print Assumptions C105_generate.

(** [map]: every entry is handed to the closure, once; when the closure panics, the entries not yet handed
    over are dropped. *)
Theorem C105_map : forall S T U (live : S -> list T) (D : Prop) refs (c : cfg) (d : ety S T) (du : ety S U) (item : U -> list T) row col f m,
  drops live d -> rect row col m -> row < W c -> col < W c ->
  (forall ij x, borrows live D refs (f ij x) [x] item) ->
  borrows live D refs (mmap c d du row col f m) (concat m) (fun r => concat (map item (concat r))).
Proof.
  intros S T U live D refs c d du item row col f m Hd R H1 H2 Hf s Rr HF P.
  pose proof (mmap_flat c d du row col f m s R H1 H2) as E.
  pose proof (tk_unwind live D refs (fun rest => drop_all d (map snd rest)) (fun e => f (fst e) (snd e)) (fun e => [snd e]) item any (SpecCommon.entries m)) as K.
  assert (L : forall l : list (nat * nat * T), concat (map (fun e => [snd e]) l) = map snd l).
  { induction l as [|e l IH]; [reflexivity|]. cbn. now f_equal. }
  rewrite L, entries_snd in K. unfold tk in K.
  specialize (K (fun x _ => takes_tk live D refs _ _ _ (Hf (fst x) (snd x)))).
  assert (HU : forall l' s R, Permutation (live s) (concat (map (fun e : nat * nat * T => [snd e]) l') ++ R) -> Permutation (live (drop_all d (map snd l') s)) R).
  { intros l' s0 R0 P0. apply (dl live d Hd). now rewrite L in P0. }
  specialize (K HU s Rr HF P).
  destruct (mmap c d du row col f m s) as [[r| | |] s']; rewrite E in K; cbn [omap] in K; try exact K. apply K.
Qed.
Print Assumptions C105_map.
(** [conjugate]: the clone is used up, the matrix itself is not. *)
Definition parts {T} (x : complex T) : list T := [re x; im x].
Theorem C105_conjugate : forall S T (live : S -> list T) (D : Prop) (c : cfg) (dz : ety S (complex T)) (o : ops S T) row col m,
  (forall x s rest, Permutation (live s) (parts x ++ rest) -> Permutation (live (e_drop dz x s)) rest) ->
  copies live D (o_clone o) -> consumes live D (o_neg o) -> rect row col m -> row < W c -> col < W c ->
  borrows live D (concat (map parts (concat m))) (mconjugate_s c dz o row col m) [] (fun r => concat (map parts (concat r))).
Proof.
  intros S T live D c dz o row col m Hdz Hcl Hn R H1 H2. set (F := concat (map parts (concat m))).
  assert (Fin : forall r x, In r m -> In x r -> In (re x) F /\ In (im x) F).
  { intros r x Hr Hx. assert (HI : incl (parts x) F).
    { intros y Hy. apply in_concat. exists (parts x). split; [|exact Hy]. apply in_map. apply in_concat. now exists r. }
    split; apply HI; cbn; auto. }
  assert (CL : forall x, In (re x) F -> In (im x) F -> tk live D F (complex_clone o x) [] parts any).
  { intros x Hr Hi. unfold complex_clone.
    pose proof (tk_refs live D _ F _ _ _ _ (takes_tk live D _ _ _ _ (Hcl (re x))) ltac:(intros u [<-|[]]; exact Hr)) as A1.
    pose proof (tk_refs live D _ F _ _ _ _ (takes_tk live D _ _ _ _ (Hcl (im x))) ltac:(intros u [<-|[]]; exact Hi)) as A2.
    tstep A1. intros r _. tstep A2. intros i _. apply tk_ret; [unfold parts; cbn [re im]; psolve|exact Logic.I]. }
  assert (CJ : forall x F, tk live D F (owning dz x (conj o x)) (parts x) parts any).
  { clear F Fin CL. intros x F.
    assert (K : tk live D [re x; im x] (conj o x) [] parts any).
    { unfold conj.
      pose proof (tk_refs live D _ [re x; im x] _ _ _ _ (takes_tk live D _ _ _ _ (Hcl (re x))) ltac:(intros u [<-|[]]; cbn; auto)) as A1.
      pose proof (tk_refs live D _ [re x; im x] _ _ _ _ (takes_tk live D _ _ _ _ (Hcl (im x))) ltac:(intros u [<-|[]]; cbn; auto)) as A2.
      tstep A1. intros r _. tstep A2. intros i _.
      pose proof (tk_refs live D [] [re x; im x] _ _ _ _ (takes_tk live D _ _ _ _ (Hn i)) (incl_nil_l _)) as A3.
      tstep A3. intros ni _. apply tk_ret; [unfold parts; cbn [re im]; psolve|exact Logic.I]. }
    intros s R0 HF P. assert (HI : incl [re x; im x] (parts x ++ R0)) by (apply incl_appl, incl_refl).
    specialize (K s (parts x ++ R0) HI P). unfold owning. destruct (conj o x s) as [[y| | |] s1]; try exact K.
    - destruct K as [K _]. split; [|exact Logic.I]. apply Hdz. rewrite K. psolve.
    - destruct K as [L K]. exists L. apply Hdz. rewrite K. psolve. }
  eapply tk_takes with (Q := any). unfold mconjugate_s.
  assert (MC : tk live D F (mclone c dz (complex_clone o) row col m) [] (fun m' => concat (map parts (concat m'))) (rect row col)).
  { eapply tk_ext; [intros s; now apply mclone_spec|].
    pose proof (tk_in_order live D F (in_order (complex_clone o)) (fun _ => []) (fun r => concat (map parts r)) (fun r => length r = col) m) as K.
    rewrite concat_nil in K. eapply tk_conv; [apply K|reflexivity| |].
    - intros r Hr. pose proof (tk_in_order live D F (complex_clone o) (fun _ => []) parts any r) as K2. rewrite concat_nil in K2.
      eapply tk_conv; [apply K2|reflexivity|reflexivity|].
      + intros x Hx. destruct (Fin r x Hr Hx). now apply CL.
      + intros ys [L _]. rewrite L. exact (rect_row row col m r R Hr).
    - intros m' _. cbv beta. clear. induction m' as [|r m' IH]; [reflexivity|]. cbn [map concat]. rewrite map_app, concat_app. now apply Permutation_app_head.
    - intros m' [L Q]. split; [|exact Q]. rewrite L. apply R. }
  eapply (tk_bind live D F _ _ _ _ [] _ []); [exact MC|reflexivity|apply incl_refl|]. intros m' R'. rewrite app_nil_r.
  eapply tk_ext; [intros s; now apply mmap_nested|].
  assert (UW : forall (l : list (complex T)) s R0, Permutation (live s) (concat (map parts l) ++ R0) -> Permutation (live (drop_all dz l s)) R0).
  { induction l as [|x l IH]; intros s R0 P; [exact P|]. unfold drop_all in *. cbn [fold_left map concat] in *. apply IH, Hdz. rewrite P. psolve. }
  pose proof (tk_unwind live D F (fun rest => drop_all (vec_ety dz) (map snd rest))
      (fun ir : nat * list (complex T) => in_order_unwind (fun rest => drop_all dz (map snd rest)) (fun ja => owning dz (snd ja) (conj o (snd ja))) (indexed (snd ir)))
      (fun ir => concat (map parts (snd ir))) (fun r => concat (map parts r)) any (indexed m')) as K.
  eapply tk_conv; [apply K| | |now intros].
  - intros [i r] _. cbn [fst snd].
    pose proof (tk_unwind live D F (fun rest => drop_all dz (map snd rest)) (fun ja : nat * complex T => owning dz (snd ja) (conj o (snd ja))) (fun ja => parts (snd ja)) parts any (indexed r)) as K2.
    eapply tk_conv; [apply K2| |reflexivity|now intros].
    + intros [j x] _. apply CJ.
    + intros l s R0 P. apply UW. now rewrite map_map.
    + rewrite <- (map_map snd parts), indexed_snd. reflexivity.
  - intros l s R0 P. rewrite drop_all_concat. apply UW. rewrite P. apply Permutation_app_tail. clear. 
    induction l as [|[i r] l IH]; [reflexivity|]. cbn [map concat snd]. rewrite map_app, concat_app. now apply Permutation_app_head.
  - rewrite <- (map_map snd (fun r => concat (map parts r))), indexed_snd. clear.
    induction m' as [|r m' IH]; [reflexivity|]. cbn [map concat]. rewrite map_app, concat_app. now apply Permutation_app_head.
  - intros m2 _. cbv beta. clear. induction m2 as [|r m2 IH]; [reflexivity|]. cbn [map concat]. rewrite map_app, concat_app. now apply Permutation_app_head.
Qed.
Print Assumptions C105_conjugate.
(** [cross] borrows both vectors. *)
Section Eval.
Context {S T : Type} (live : S -> list T) (D : Prop) (o : ops S T) (x : nat -> nat -> T) (F : list T).
Hypothesis Ka : by_value live D (o_add o). Hypothesis Ks : by_value live D (o_sub o). Hypothesis Km : by_value live D (o_mul o).
Hypothesis Kn : consumes live D (o_neg o). Hypothesis Kc : copies live D (o_clone o). Hypothesis Kx : forall i j, In (x i j) F.
Lemma tk_eval e : tk live D F (eval o x e) [] (fun r => [r]) any.
Proof using Ka Ks Km Kn Kc Kx.
  induction e as [i j|e1 IH1 e2 IH2|e1 IH1 e2 IH2|e1 IH1 e2 IH2|e IH]; cbn [eval].
  - apply (tk_refs live D [x i j]); [apply takes_tk, Kc|]. intros u [<-|[]]. apply Kx.
  - tstep IH1. intros u _. tstep IH2. intros v _. apply (tk_refs live D []); [|apply incl_nil_l].
    eapply tk_conv; [apply (takes_tk live D _ _ _ _ (Ka u v))|psolve|reflexivity|now intros].
  - tstep IH1. intros u _. tstep IH2. intros v _. apply (tk_refs live D []); [|apply incl_nil_l].
    eapply tk_conv; [apply (takes_tk live D _ _ _ _ (Ks u v))|psolve|reflexivity|now intros].
  - tstep IH1. intros u _. tstep IH2. intros v _. apply (tk_refs live D []); [|apply incl_nil_l].
    eapply tk_conv; [apply (takes_tk live D _ _ _ _ (Km u v))|psolve|reflexivity|now intros].
  - tstep IH. intros u _. apply (tk_refs live D []); [apply takes_tk, Kn|apply incl_nil_l].
Qed.
End Eval.
Theorem C105_cross : forall S T (live : S -> list T) (D : Prop) (c : cfg) (d : ety S T) z a b,
  books live D (by_value live D) d z -> length a = 3 -> length b = 3 ->
  borrows live D (a ++ b) (vcross c (z_ops z) a b) [] (fun v => v).
Proof.
  intros S T live D c d z a b H La Lb.
  destruct a as [|a0 [|a1 [|a2 [|]]]]; try discriminate. set (a := [a0; a1; a2]) in *.
  set (x := fun i j => nth j (if i =? 0 then a else b) a0).
  assert (Kx : forall i j, In (x i j) (a ++ b)).
  { intros i j. apply in_or_app. unfold x. destruct (i =? 0).
    - left. destruct (Nat.lt_ge_cases j (length a)) as [L|L]; [now apply nth_In|rewrite nth_overflow by exact L; now left].
    - destruct (Nat.lt_ge_cases j (length b)) as [L|L]; [right; now apply nth_In|left; rewrite nth_overflow by exact L; now left]. }
  eapply tk_takes with (Q := fun v => length v = 3).
  eapply tk_ext.
  - intros s. apply (C70_cross S T c (z_ops z) a b x s La Lb). intros i Hi. unfold x. cbn [Nat.eqb].
    split; apply nth_error_nth'; [change (i < length a)|change (i < length b)]; lia.
  - apply (tk_row live D _ _ e_cross 3 eq_refl). intros e _.
    apply tk_eval; try apply H. exact Kx.
Qed.
Print Assumptions C105_cross.
(** A matrix made of a vector owns the vector's elements, and a vector that is only read - [from] cannot
    panic - does not lose any. *)
Theorem C105_from_vector : forall S T (live : S -> list T) (D : Prop) (c : cfg) (d : ety S T) row col v,
  length v = row * col -> 0 < col -> row * col < W c ->
  takes live D (mfrom_vector c d row col v) v (fun m => concat m) /\
  (forall s, match mfrom_vector c d row col v s with (Ok m, s') => concat m = v /\ rect row col m /\ s' = s | _ => False end).
Proof.
  intros S T live D c d row col v L Hc HW. destruct (chunks_exist col row v L) as (Q & -> & LQ & FQ). split.
  - intros s R _ P. now rewrite (mfrom_vector_concat c d row col Q s LQ FQ Hc HW).
  - intros s. rewrite (mfrom_vector_concat c d row col Q s LQ FQ Hc HW). split; [reflexivity|]. now split.
Qed.
Print Assumptions C105_from_vector.
(** [diag] puts every element on the diagonal, or drops it. *)
Theorem C105_diag : forall S T (live : S -> list T) (D : Prop) (c : cfg) (d : ety S T) z row col elems,
  drops live d -> creates live D (z_zero z) -> length elems < W c ->
  takes live D (mdiag_z c d z row col (length elems) elems) elems (fun m => concat m).
Proof.
  intros S T live D c d z row col elems Hd Hz HW s R0 _ P.
  pose proof (C102_diag S T c d z row col elems s HW) as E.
  assert (K : forall pl es s R, Permutation (live s) (es ++ R) ->
    match dealt d (z_zero z) pl es s with
    | (Ok m, s') => Permutation (live s') (m ++ R)
    | (Panic, s') => exists left, Permutation (live s') (left ++ R)
    | (UB, _) => False | (Diverge, _) => D end).
  { clear s R0 P E elems HW. induction pl as [|[i j] pl IH]; intros es s R P; cbn [dealt].
    - change (fold_left (fun s x => e_drop d x s) es s) with (drop_all d es s). now apply (dl live d Hd).
    - destruct (i =? j).
      + destruct es as [|x es]; [now exists []|]. unfold bind, ret.
        assert (P1 : Permutation (live s) (es ++ x :: R)) by (rewrite P; psolve).
        specialize (IH es s (x :: R) P1). destruct (dealt d (z_zero z) pl es s) as [[m| | |] s1]; try exact IH.
        * rewrite IH. psolve.
        * destruct IH as [L PL]. exists (L ++ [x]). rewrite PL. psolve.
      + specialize (Hz s (es ++ R) (incl_nil_l _) P). destruct (z_zero z s) as [[x| | |] s1]; try exact Hz.
        * unfold bind, ret. assert (P1 : Permutation (live s1) (es ++ x :: R)) by (rewrite Hz; psolve).
          specialize (IH es s1 (x :: R) P1). destruct (dealt d (z_zero z) pl es s1) as [[m| | |] s2]; try exact IH.
          -- rewrite IH. psolve.
          -- destruct IH as [L PL]. exists (L ++ [x]). rewrite PL. psolve.
        * destruct Hz as [L PL]. exists L. change (fold_left (fun s x => e_drop d x s) es s1) with (drop_all d es s1).
          apply (dl live d Hd). rewrite PL. psolve. }
  specialize (K (list_prod (seq 0 row) (seq 0 col)) elems s R0 P). rewrite <- E in K.
  destruct (mdiag_z c d z row col (length elems) elems s) as [[m| | |] s1]; exact K.
Qed.
Print Assumptions C105_diag.
(** Searching ([all], [any]) only borrows. *)
Theorem C105_searches : forall S T (live : S -> list T) (D : Prop) row col (f : nat * nat -> T -> M S bool) m,
  rect row col m -> (forall ij x, borrows live D [x] (f ij x) [] (fun _ => [])) ->
  borrows live D (concat m) (mall row col f m) [] (fun _ => []) /\
  borrows live D (concat m) (many row col f m) [] (fun _ => []).
Proof.
  intros S T live D row col f m R Hf.
  assert (K : forall l : list (nat * nat * T), incl (map snd l) (concat m) ->
    tk live D (concat m) (all_in_order (fun e => f (fst e) (snd e)) l) [] (fun _ => []) any /\
    tk live D (concat m) (any_in_order (fun e => f (fst e) (snd e)) l) [] (fun _ => []) any).
  { induction l as [|[ij x] l IH]; intros HI; cbn [all_in_order any_in_order fst snd]; [split; now apply tk_ret|].
    destruct IH as [IH1 IH2]; [intros u Hu; apply HI; now right|].
    pose proof (tk_refs live D _ (concat m) _ _ _ _ (takes_tk live D _ _ _ _ (Hf ij x)) ltac:(intros u [<-|[]]; apply HI; now left)) as Hx.
    split; (eapply tk_ext; [|eapply (tk_bind live D _ _ _ _ _ [] _ []);
      [exact Hx|reflexivity|apply incl_refl|]]).
    - intros s. instantiate (1 := fun b => if b then all_in_order (fun e => f (fst e) (snd e)) l else ret false).
      unfold bind. destruct (f ij x s) as [[[|]| | |] s1]; reflexivity.
    - intros [|] _; [exact IH1|now apply tk_ret].
    - intros s. instantiate (1 := fun b => if b then ret true else any_in_order (fun e => f (fst e) (snd e)) l).
      unfold bind. destruct (f ij x s) as [[[|]| | |] s1]; reflexivity.
    - intros [|] _; [now apply tk_ret|exact IH2]. }
  destruct (K (SpecCommon.entries m)) as [K1 K2]; [rewrite entries_snd; apply incl_refl|].
  split; eapply tk_takes, tk_ext; try (intros s; first [now apply mall_spec|now apply many_spec]); eassumption.
Qed.
Print Assumptions C105_searches.
(** ScopeMutM.v adds nothing but the drops of the closure's arguments. *)
Theorem C105_agrees : forall S T (c : cfg) (dz : ety S (complex T)) (o : ops S T) row col m, (forall x s, e_drop dz x s = s) ->
  rect row col m -> row < W c -> col < W c ->
  forall s, mconjugate_s c dz o row col m s = mconjugate c dz o row col m s.
Proof.
  intros S T c dz o row col m ND R H1 H2 s. unfold mconjugate_s, mconjugate, bind.
  assert (RR : forall (l : list (list (complex T))) s m' s1, Forall (fun r => length r = col) l -> in_order (in_order (complex_clone o)) l s = (Ok m', s1) -> length m' = length l /\ Forall (fun r => length r = col) m').
  { induction l as [|r l IH]; intros s0 m' s1 Fl E; cbn [in_order] in E; [injection E as <- <-; now split|]. inversion Fl; subst.
    destruct (in_order (complex_clone o) r s0) as [[y| | |] s2] eqn:E1; try discriminate.
    destruct (in_order (in_order (complex_clone o)) l s2) as [[ys| | |] s3] eqn:E2; try discriminate.
    injection E as <- <-. destruct (IH _ _ _ H4 E2) as [L Fy]. split; [cbn; now f_equal|]. constructor; [|exact Fy]. now rewrite (in_order_length _ _ _ _ _ E1). }
  rewrite (mclone_spec c dz (complex_clone o) row col m s R).
  destruct (in_order (in_order (complex_clone o)) m s) as [[m'| | |] s1] eqn:E; try reflexivity.
  destruct (RR m s m' s1 (proj2 R) E) as [L Fm]. assert (R' : rect row col m') by (split; [rewrite L; apply R|exact Fm]).
  rewrite !mmap_nested by assumption. apply unwind_ext; [|reflexivity]. intros [i r] s2 _. apply unwind_ext; [|reflexivity]. intros [j x] s3 _.
  unfold owning. cbn [fst snd]. destruct (conj o x s3) as [[y| | |] s4]; rewrite ?ND; reflexivity.
Qed.
Print Assumptions C105_agrees.
(** In the world of C103_ex, with elements 1, 2, 3 (the last two with the same number 9): collecting too few,
    as many as needed, and too many, mapping with a closure that panics on 9, and [diag]. *)
Definition bump (ij : nat * nat) (x : nat * nat) : M world (nat * nat) := use x ;;; if snd x =? 9 then panic else fresh (snd x + fst ij).
Definition l105 : list (nat * nat) := named [5; 9; 9].
Definition w105 : world := World 4 (l105 ++ [(3, 100)]) false.
Lemma bump_borrows ij x : borrows w_live False [] (bump ij x) [x] (fun r => [r]).
Proof.
  apply (tk_takes w_live False _ _ _ _ any). unfold bump. tstep (takes_tk w_live False [] _ _ _ (use_takes x)). intros _ _.
  destruct (snd x =? 9); [apply tk_panic|apply takes_tk, fresh_takes].
Qed.
Example C105_ex :
  drops w_live e103 /\ (forall ij x, borrows w_live False [] (bump ij x) [x] (fun r => [r])) /\ creates w_live False (fresh 0) /\
  Permutation (w_live w105) (l105 ++ [(3, 100)]) /\
  (match from_iter dbg e103 3 (into_it dbg e103 3 l105) w105 with
   | (Ok v, w) => v = l105 /\ w_bad w = false /\ length (w_live w) = 4 | _ => False end) /\
  (match from_iter dbg e103 4 (into_it dbg e103 3 l105) w105 with
   | (Panic, w) => w_live w = [(3, 100)] /\ w_bad w = false | _ => False end) /\
  (match from_iter dbg e103 2 (into_it dbg e103 3 l105) w105 with
   | (Panic, w) => w_live w = [(0, 5); (1, 9); (3, 100)] /\ w_bad w = false | _ => False end) /\
  (match from_iter rel e103 2 (into_it rel e103 3 l105) w105 with
   | (Ok v, w) => v = [(0, 5); (1, 9)] /\ w_live w = [(0, 5); (1, 9); (3, 100)] /\ w_bad w = false | _ => False end) /\
  (match mmap dbg e103 e103 1 3 bump [l105] w105 with
   | (Panic, w) => w_live w = [(4, 5); (3, 100)] /\ w_bad w = false | _ => False end) /\
  (match mdiag_z dbg e103 z103 2 2 3 l105 w105 with
   | (Ok m, w) => map (map snd) m = [[5; 0]; [0; 9]] /\ length (w_live w) = 5 /\ w_bad w = false | _ => False end).
Proof.
  split; [intros x s rest P; exact (bk_drop _ _ _ _ _ books103 x s rest P)|].
  split; [exact bump_borrows|]. split; [apply fresh_takes|]. split; [reflexivity|].
  vm_compute. intuition.
Qed.
Print Assumptions C105_ex.
