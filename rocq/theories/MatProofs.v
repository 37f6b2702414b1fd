(** * MatProofs.v - closed forms of the matrix operations. *)
From Coq Require Import List Arith Bool Lia.
From Verif Require Import Rust Iter Elem VectorM MatIterM MatrixM ArithM SpecCommon Harness IterProofs OwnProofs VecProofs.
Import ListNotations.

(** ** Nested runs flattened *)
Lemma in_order_map {S A B C} (g : A -> B) (f : B -> M S C) l s :
  in_order f (map g l) s = in_order (fun x => f (g x)) l s.
Proof.
  revert s. induction l as [|x l IH]; intros s; cbn; [reflexivity|].
  destruct (f (g x) s) as [[y| | |] s1]; try reflexivity. now rewrite IH.
Qed.
Lemma unwind_map {S A B C} uw (g : A -> B) (f : B -> M S C) l s :
  in_order_unwind uw f (map g l) s = in_order_unwind (fun l => uw (map g l)) (fun x => f (g x)) l s.
Proof.
  revert s. induction l as [|x l IH]; intros s; cbn; [reflexivity|].
  destruct (f (g x) s) as [[y| | |] s1]; try reflexivity. now rewrite IH.
Qed.

Lemma unwind_app {S A B} uw (f : A -> M S B) l1 l2 s :
  in_order_unwind uw f (l1 ++ l2) s =
  match in_order_unwind (fun l => uw (l ++ l2)) f l1 s with
  | (Ok ys, s1) => match in_order_unwind uw f l2 s1 with
                   | (Ok zs, s2) => (Ok (ys ++ zs), s2)
                   | (r, s2) => (r, s2)
                   end
  | (r, s1) => (r, s1)
  end.
Proof.
  revert s. induction l1 as [|x l1 IH]; intros s; cbn.
  - destruct (in_order_unwind uw f l2 s) as [[]]; reflexivity.
  - destruct (f x s) as [[y| | |] s1]; try reflexivity. rewrite IH.
    destruct (in_order_unwind _ f l1 s1) as [[ys| | |] s2]; try reflexivity.
    destruct (in_order_unwind uw f l2 s2) as [[zs| | |] s3]; reflexivity.
Qed.

(** A run over pieces, each run as a whole, against the run over the concatenation. *)
Lemma nested_flat {S A B C} (uo : list A -> S -> S) (ui : list B -> S -> S) (uf : list B -> S -> S)
    (pieces : A -> list B) (f : B -> M S C) l s :
  (forall l b s, uf (b ++ concat (map pieces l)) s = uo l (ui b s)) ->
  let (r, s') := in_order_unwind uo (fun a => in_order_unwind ui f (pieces a)) l s in
  in_order_unwind uf f (concat (map pieces l)) s = (omap (@concat C) r, s').
Proof.
  intros HU. revert s. induction l as [|a l IH]; intros s; cbn; [reflexivity|].
  rewrite unwind_app.
  assert (E : forall s, in_order_unwind (fun l0 => uf (l0 ++ concat (map pieces l))) f (pieces a) s
     = let (r, s') := in_order_unwind ui f (pieces a) s in
       (r, match r with Panic => uo l s' | _ => s' end)).
  { intros s0. generalize (pieces a). intros p. revert s0. induction p as [|x p IHp]; intros s0; cbn; [reflexivity|].
    destruct (f x s0) as [[y| | |] s1]; try reflexivity.
    - rewrite IHp. destruct (in_order_unwind ui f p s1) as [[ys| | |] s2]; reflexivity.
    - now rewrite HU. }
  rewrite E. destruct (in_order_unwind ui f (pieces a) s) as [[ys| | |] s1]; try reflexivity.
  specialize (IH s1). destruct (in_order_unwind uo _ l s1) as [[yss| | |] s2]; rewrite IH; reflexivity.
Qed.

Lemma nested_flat0 {S A B C} (pieces : A -> list B) (f : B -> M S C) l s :
  let (r, s') := in_order (fun a => in_order f (pieces a)) l s in
  in_order f (concat (map pieces l)) s = (omap (@concat C) r, s').
Proof.
  pose proof (nested_flat (fun _ s => s) (fun _ s => s) (fun _ s => s) pieces f l s (fun _ _ _ => eq_refl)) as H.
  rewrite unwind_id in H.
  rewrite (in_order_ext _ (fun a => in_order f (pieces a))) in H by (intros; apply unwind_id).
  destruct (in_order _ l s) as [r s']. now rewrite <- unwind_id.
Qed.

Lemma indexed_snd {T} (l : list T) : map snd (indexed l) = l.
Proof. apply map_snd_combine. now rewrite seq_length. Qed.
Lemma indexed_length {T} (l : list T) : length (indexed l) = length l.
Proof. unfold indexed. rewrite combine_length, seq_length. apply Nat.min_id. Qed.
Lemma indexed_in {T} (l : list T) i x : In (i, x) (indexed l) -> nth_error l i = Some x.
Proof.
  unfold indexed. assert (H : forall k, In (i, x) (combine (seq k (length l)) l) -> k <= i /\ nth_error l (i - k) = Some x).
  { induction l as [|y l IH]; intros k Hin; cbn in *; [contradiction|].
    destruct Hin as [E|Hin].
    - injection E as -> ->. rewrite Nat.sub_diag. auto.
    - apply IH in Hin. destruct Hin as [L E]. split; [lia|].
      replace (i - k) with (Datatypes.S (i - Datatypes.S k)) by lia. exact E. }
  intros Hin. apply H in Hin. now rewrite Nat.sub_0_r in Hin.
Qed.
Lemma indexed_map {A B} (f : A -> B) l : indexed (map f l) = map (fun p => (fst p, f (snd p))) (indexed l).
Proof.
  unfold indexed. rewrite map_length. rewrite <- (map_id (seq 0 (length l))) at 1.
  now rewrite combine_map.
Qed.

(** ** rect, entry, col_of *)
Lemma rect_row {T} row col (m : list (list T)) r : rect row col m -> In r m -> length r = col.
Proof. intros [_ F] H. now apply (proj1 (Forall_forall _ _) F). Qed.
Lemma rect_cons {T} row col (r : list T) m :
  rect (Datatypes.S row) col (r :: m) <-> length r = col /\ rect row col m.
Proof.
  unfold rect; cbn. split.
  - intros [L F]. inv F. repeat split; auto.
  - intros (L & L' & F). split; [lia|]. now constructor.
Qed.
Lemma col_of_length {T} row col (m : list (list T)) j : rect row col m -> j < col -> length (col_of m j) = row.
Proof.
  revert row. induction m as [|r m IH]; intros row H Hj.
  - destruct H as [<- _]. reflexivity.
  - destruct row as [|row]; [destruct H; discriminate|]. apply rect_cons in H. destruct H as [L H].
    cbn. destruct (nth_error r j) eqn:E; [|apply nth_error_None in E; lia].
    cbn. f_equal. now apply IH.
Qed.
Lemma col_of_nth {T} row col (m : list (list T)) i j : rect row col m -> j < col ->
  nth_error (col_of m j) i = entry m i j.
Proof.
  revert row i. induction m as [|r m IH]; intros row i H Hj.
  - destruct i; reflexivity.
  - destruct row as [|row]; [destruct H; discriminate|]. apply rect_cons in H. destruct H as [L H].
    cbn. unfold entry. destruct (nth_error r j) eqn:E; [|apply nth_error_None in E; lia].
    destruct i; cbn; [now rewrite E|]. now apply (IH row).
Qed.
Lemma entry_row {T} row col (m : list (list T)) i : rect row col m -> i < row ->
  exists r, nth_error m i = Some r /\ length r = col.
Proof.
  intros H Hi. destruct (nth_error m i) as [r|] eqn:E.
  - exists r. split; [reflexivity|]. apply nth_error_In in E. eapply rect_row; eauto.
  - apply nth_error_None in E. destruct H. lia.
Qed.
Lemma entry_some {T} row col (m : list (list T)) i j : rect row col m -> i < row -> j < col ->
  exists x, entry m i j = Some x.
Proof.
  intros H Hi Hj. destruct (entry_row _ _ _ _ H Hi) as (r & E & L). unfold entry. rewrite E.
  destruct (nth_error r j) eqn:E2; [eauto|]. apply nth_error_None in E2. lia.
Qed.
Lemma entry_none_row {T} row col (m : list (list T)) i j : rect row col m -> row <= i -> entry m i j = None.
Proof. intros [L _] H. unfold entry. rewrite (proj2 (nth_error_None m i)); [reflexivity|lia]. Qed.
Lemma entry_none_col {T} row col (m : list (list T)) i j : rect row col m -> col <= j -> entry m i j = None.
Proof.
  intros R H. unfold entry. destruct (nth_error m i) eqn:E; [|reflexivity].
  apply nth_error_In in E. apply (rect_row _ _ _ _ R) in E. apply nth_error_None. lia.
Qed.

Lemma combine_nth_error {A B} (a : list A) (b : list B) i :
  nth_error (combine a b) i = match nth_error a i, nth_error b i with Some x, Some y => Some (x, y) | _, _ => None end.
Proof.
  revert b i. induction a as [|x a IH]; intros b i; [destruct i; reflexivity|].
  destruct b as [|y b]; [destruct i; cbn; [reflexivity|]; destruct (nth_error a i); reflexivity|].
  destruct i; cbn; [reflexivity|]. apply IH.
Qed.

Lemma nth_error_ext {T} (a b : list T) : (forall i, nth_error a i = nth_error b i) -> a = b.
Proof.
  revert b. induction a as [|x a IH]; intros [|y b] H; auto; try (specialize (H 0); discriminate).
  pose proof (H 0) as E. injection E as ->. f_equal. apply IH. intros i. exact (H (Datatypes.S i)).
Qed.
Lemma mat_ext {T} row col (a b : list (list T)) : rect row col a -> rect row col b ->
  (forall i j, i < row -> j < col -> entry a i j = entry b i j) -> a = b.
Proof.
  intros Ha Hb H. apply nth_error_ext. intros i.
  destruct (Nat.lt_ge_cases i row) as [Hi|Hi].
  - destruct (entry_row _ _ _ _ Ha Hi) as (ra & Ea & La). destruct (entry_row _ _ _ _ Hb Hi) as (rb & Eb & Lb).
    rewrite Ea, Eb. f_equal. apply nth_error_ext. intros j. destruct (Nat.lt_ge_cases j col) as [Hj|Hj].
    + specialize (H i j Hi Hj). unfold entry in H. now rewrite Ea, Eb in H.
    + rewrite (proj2 (nth_error_None ra j)), (proj2 (nth_error_None rb j)); lia || reflexivity.
  - destruct Ha, Hb. rewrite (proj2 (nth_error_None a i)), (proj2 (nth_error_None b i)); lia || reflexivity.
Qed.

(** ** generate, map, all, any, clone, new, default *)
Lemma mgenerate_nested {S T} c (d : ety S T) row col f s :
  mgenerate c d row col f s = in_order (fun i => in_order (fun j => f (i, j)) (seq 0 col)) (seq 0 row) s.
Proof.
  unfold mgenerate. erewrite from_iter_gives.
  2:{ apply imap_ret_gives. apply range_gives. }
  - rewrite Nat.sub_0_r, seqm_in_order. apply in_order_ext. intros; apply vgenerate_spec.
  - now rewrite map_length, seq_length, Nat.sub_0_r.
Qed.

Lemma gives_ext {S T} (it : iter S T) l l' dr :
  Forall2 (fun a b : M S T => forall s, a s = b s) l l' -> gives it l dr -> gives it l' dr.
Proof.
  intros F. revert it. induction F as [|a b l l' E F IH]; intros it G; [exact G|].
  pose proof (Forall2_length _ _ _ F) as EL.
  destruct G as [Gd G]. split. { intros s. rewrite Gd. cbn. now rewrite EL. }
  intros s. destruct (G s) as (it' & En & D & K). exists it'. rewrite <- E. split; [exact En|].
  split; [intros s1; rewrite D, EL; reflexivity|]. auto.
Qed.
Lemma enumerate_ret_gives {S T} (it : iter S T) l dr :
  gives it (map ret l) dr -> gives (enumerate it) (map ret (indexed l)) dr.
Proof.
  intros G. apply enumerate_gives in G. rewrite map_length in G.
  rewrite <- (map_id (seq 0 (length l))), combine_map, map_map in G.
  unfold indexed. refine (gives_ext _ _ _ _ _ G). apply Forall2_map_map. intros [k x] _ s. reflexivity.
Qed.

Lemma mmap_nested {S T U} c (d : ety S T) (du : ety S U) row col f m s :
  rect row col m -> row < W c -> col < W c ->
  mmap c d du row col f m s
  = in_order_unwind (fun rest => drop_all (vec_ety d) (map snd rest))
      (fun ir => in_order_unwind (fun rest => drop_all d (map snd rest))
                   (fun ja => f (fst ir, fst ja) (snd ja)) (indexed (snd ir)))
      (indexed m) s.
Proof.
  intros R HW1 HW2. unfold mmap.
  pose proof (into_it_gives c (vec_ety d) row m (proj1 R) HW1) as G.
  apply enumerate_ret_gives in G.
  rewrite (from_iter_gives _ _ row _ _ _ s (imap_ret_gives _ _ _ _ G)).
  2:{ rewrite map_length, indexed_length. apply R. }
  rewrite (seqm_unwind (fun rest => drop_all (vec_ety d) (map snd rest))); auto.
  2:{ intros l1 l2 s0 E. f_equal.
      rewrite <- (indexed_snd m), E, map_app, <- (map_length snd l2). apply lastn_app. }
  apply unwind_ext; [|reflexivity]. intros [i r] s0 Hin. cbn [fst snd].
  apply indexed_in, nth_error_In in Hin. pose proof (rect_row _ _ _ _ R Hin) as L.
  pose proof (into_it_gives c d col r L HW2) as G2. apply enumerate_ret_gives in G2.
  rewrite (from_iter_gives _ _ col _ _ _ s0 (imap_ret_gives _ _ _ _ G2)).
  2:{ now rewrite map_length, indexed_length. }
  rewrite (seqm_unwind (fun rest => drop_all d (map snd rest))); auto.
  - apply unwind_ext; [|reflexivity]. intros [j a] s1 _. reflexivity.
  - intros l1 l2 s1 E. f_equal. rewrite <- (indexed_snd r), E, map_app, <- (map_length snd l2). apply lastn_app.
Qed.

Lemma drop_all_app' {S T} (d : ety S T) a b s : drop_all d (a ++ b) s = drop_all d b (drop_all d a s).
Proof. unfold drop_all. apply fold_left_app. Qed.
Lemma drop_all_concat {S T} (d : ety S T) m s : drop_all (vec_ety d) m s = drop_all d (concat m) s.
Proof.
  revert s. induction m as [|r m IH]; intros s; [reflexivity|]. cbn [concat]. rewrite drop_all_app'. exact (IH _).
Qed.

Lemma map_snd_tag {T} (i : nat) (r : list T) :
  map snd (map (fun ja => ((i, fst ja), snd ja)) (indexed r)) = r.
Proof. rewrite map_map. exact (indexed_snd r). Qed.
Lemma entries_snd {T} (m : list (list T)) : map snd (entries m) = concat m.
Proof.
  unfold entries. rewrite concat_map, map_map. f_equal.
  transitivity (map (@snd nat (list T)) (indexed m)); [|apply indexed_snd].
  apply map_ext. intros [i r]. apply map_snd_tag.
Qed.

(** The map of a matrix as one run over its entries in row-major order. *)
Lemma mmap_flat {S T U} c (d : ety S T) (du : ety S U) row col f m s :
  rect row col m -> row < W c -> col < W c ->
  let (r, s') := mmap c d du row col f m s in
  in_order_unwind (fun rest => drop_all d (map snd rest)) (fun e => f (fst e) (snd e)) (entries m) s
  = (omap (@concat U) r, s').
Proof.
  intros R H1 H2. rewrite mmap_nested by assumption. unfold entries.
  pose proof (nested_flat (fun rest => drop_all (vec_ety d) (map (@snd nat (list T)) rest))
    (fun rest => drop_all d (map (@snd (nat * nat) T) rest)) (fun rest => drop_all d (map (@snd (nat * nat) T) rest))
    (fun ir => map (fun ja => ((fst ir, fst ja), snd ja)) (indexed (snd ir)))
    (fun e => f (fst e) (snd e)) (indexed m) s) as H.
  assert (HU : forall (l : list (nat * list T)) b s, drop_all d
    (map snd (b ++ concat (map (fun ir => map (fun ja => ((fst ir, fst ja), snd ja)) (indexed (snd ir))) l))) s
    = drop_all (vec_ety d) (map snd l) (drop_all d (map snd b) s)).
  { intros l b s0. rewrite map_app, drop_all_app'. generalize (drop_all d (map snd b) s0). clear. intros s.
    rewrite drop_all_concat, concat_map, map_map. f_equal. f_equal. apply map_ext. intros [i r]. apply map_snd_tag. }
  specialize (H HU). clear HU.
  erewrite (unwind_ext _ _ _ (fun ir => in_order_unwind (fun rest => drop_all d (map snd rest))
                   (fun ja => f (fst ir, fst ja) (snd ja)) (indexed (snd ir)))) in H; [exact H| |reflexivity].
  intros [i r] s0 _. cbn [fst snd]. rewrite unwind_map. apply unwind_ext; [reflexivity|].
  intros l s1. rewrite map_map. reflexivity.
Qed.

Lemma mgenerate_flat {S T} c (d : ety S T) row col f s :
  let (r, s') := mgenerate c d row col f s in
  in_order f (list_prod (seq 0 row) (seq 0 col)) s = (omap (@concat T) r, s').
Proof.
  rewrite mgenerate_nested.
  pose proof (nested_flat0 (fun i => map (fun j => (i, j)) (seq 0 col)) f (seq 0 row) s) as H.
  rewrite (in_order_ext _ (fun i => in_order (fun j => f (i, j)) (seq 0 col))) in H
    by (intros; apply in_order_map).
  assert (E : list_prod (seq 0 row) (seq 0 col) = concat (map (fun i => map (fun j => (i, j)) (seq 0 col)) (seq 0 row))).
  { clear. induction (seq 0 row) as [|i l IH]; cbn; [reflexivity|]. now rewrite IH. }
  rewrite E. exact H.
Qed.

Lemma mgenerate_rect {S T} c (d : ety S T) row col f s m s' :
  mgenerate c d row col f s = (Ok m, s') -> rect row col m.
Proof.
  rewrite mgenerate_nested. intros H. split.
  - apply in_order_length in H. now rewrite seq_length in H.
  - revert s m s' H. generalize (seq 0 row). intros l. induction l as [|i l IH]; intros s m s' H; cbn in H.
    + injection H as <- _. constructor.
    + destruct (in_order _ (seq 0 col) s) as [[r| | |] s1] eqn:E; try discriminate.
      destruct (in_order _ l s1) as [[m'| | |] s2] eqn:E2; try discriminate.
      injection H as <- <-. constructor; [|eapply IH; eauto].
      apply in_order_length in E. now rewrite seq_length in E.
Qed.

Lemma all_in_order_app {S A} (p : A -> M S bool) l1 l2 s :
  all_in_order p (l1 ++ l2) s =
  match all_in_order p l1 s with (Ok true, s1) => all_in_order p l2 s1 | (r, s1) => (r, s1) end.
Proof.
  revert s. induction l1 as [|x l1 IH]; intros s; cbn; [reflexivity|].
  destruct (p x s) as [[[]| | |] s1]; try reflexivity. apply IH.
Qed.
Lemma any_in_order_app {S A} (p : A -> M S bool) l1 l2 s :
  any_in_order p (l1 ++ l2) s =
  match any_in_order p l1 s with (Ok false, s1) => any_in_order p l2 s1 | (r, s1) => (r, s1) end.
Proof.
  revert s. induction l1 as [|x l1 IH]; intros s; cbn; [reflexivity|].
  destruct (p x s) as [[[]| | |] s1]; try reflexivity. apply IH.
Qed.
Lemma all_in_order_map {S A B} (g : A -> B) (p : B -> M S bool) l s :
  all_in_order p (map g l) s = all_in_order (fun x => p (g x)) l s.
Proof. revert s. induction l as [|x l IH]; intros s; cbn; [reflexivity|]. destruct (p (g x) s) as [[[]| | |] s1]; auto. Qed.
Lemma any_in_order_map {S A B} (g : A -> B) (p : B -> M S bool) l s :
  any_in_order p (map g l) s = any_in_order (fun x => p (g x)) l s.
Proof. revert s. induction l as [|x l IH]; intros s; cbn; [reflexivity|]. destruct (p (g x) s) as [[[]| | |] s1]; auto. Qed.
Lemma all_nested {S A B} (pieces : A -> list B) (p : B -> M S bool) l s :
  all_in_order p (concat (map pieces l)) s = all_in_order (fun a => all_in_order p (pieces a)) l s.
Proof.
  revert s. induction l as [|a l IH]; intros s; cbn; [reflexivity|]. rewrite all_in_order_app.
  destruct (all_in_order p (pieces a) s) as [[[]| | |] s1]; auto.
Qed.
Lemma any_nested {S A B} (pieces : A -> list B) (p : B -> M S bool) l s :
  any_in_order p (concat (map pieces l)) s = any_in_order (fun a => any_in_order p (pieces a)) l s.
Proof.
  revert s. induction l as [|a l IH]; intros s; cbn; [reflexivity|]. rewrite any_in_order_app.
  destruct (any_in_order p (pieces a) s) as [[[]| | |] s1]; auto.
Qed.
Lemma all_in_order_ext {S A} (f g : A -> M S bool) l s :
  (forall x s, In x l -> f x s = g x s) -> all_in_order f l s = all_in_order g l s.
Proof.
  revert s. induction l as [|x l IH]; intros s H; cbn; [reflexivity|]. rewrite H by now left.
  destruct (g x s) as [[[]| | |] s1]; try reflexivity. apply IH. intros; apply H; now right.
Qed.
Lemma any_in_order_ext {S A} (f g : A -> M S bool) l s :
  (forall x s, In x l -> f x s = g x s) -> any_in_order f l s = any_in_order g l s.
Proof.
  revert s. induction l as [|x l IH]; intros s H; cbn; [reflexivity|]. rewrite H by now left.
  destruct (g x s) as [[[]| | |] s1]; try reflexivity. apply IH. intros; apply H; now right.
Qed.

Lemma mall_spec {S T} row col (pred : nat * nat -> T -> M S bool) m s :
  rect row col m ->
  mall row col pred m s = all_in_order (fun e => pred (fst e) (snd e)) (entries m) s.
Proof.
  intros R. unfold mall, viter, as_slice.
  rewrite (iall_gives _ _ _ _ _ s (enumerate_ret_gives _ _ _ (slice_iter_gives m)));
    [|rewrite map_length, indexed_length; destruct R; lia].
  rewrite allm_all. unfold entries. rewrite all_nested. apply all_in_order_ext.
  intros [i r] s0 Hin. cbn [fst snd]. apply indexed_in, nth_error_In in Hin.
  pose proof (rect_row _ _ _ _ R Hin) as L.
  rewrite (iall_gives _ _ _ _ _ s0 (enumerate_ret_gives _ _ _ (slice_iter_gives r)));
    [|rewrite map_length, indexed_length; lia].
  rewrite allm_all, all_in_order_map. apply all_in_order_ext. now intros [j a].
Qed.
Lemma many_spec {S T} row col (pred : nat * nat -> T -> M S bool) m s :
  rect row col m ->
  many row col pred m s = any_in_order (fun e => pred (fst e) (snd e)) (entries m) s.
Proof.
  intros R. unfold many, viter, as_slice.
  rewrite (iany_gives _ _ _ _ _ s (enumerate_ret_gives _ _ _ (slice_iter_gives m)));
    [|rewrite map_length, indexed_length; destruct R; lia].
  rewrite allm_any. unfold entries. rewrite any_nested. apply any_in_order_ext.
  intros [i r] s0 Hin. cbn [fst snd]. apply indexed_in, nth_error_In in Hin.
  pose proof (rect_row _ _ _ _ R Hin) as L.
  rewrite (iany_gives _ _ _ _ _ s0 (enumerate_ret_gives _ _ _ (slice_iter_gives r)));
    [|rewrite map_length, indexed_length; lia].
  rewrite allm_any, any_in_order_map. apply any_in_order_ext. now intros [j a].
Qed.

Lemma mclone_spec {S T} c (d : ety S T) clone row col m s : rect row col m ->
  mclone c d clone row col m s = in_order (in_order clone) m s.
Proof.
  intros R. unfold mclone. rewrite vclone_spec by apply R. apply in_order_ext.
  intros r s0 Hin. apply vclone_spec. eapply rect_row; eauto.
Qed.
Lemma mclone_id {S T} c (d : ety S T) clone row col m s : rect row col m ->
  (forall x s, clone x s = (Ok x, s)) -> mclone c d clone row col m s = (Ok m, s).
Proof.
  intros R HC. rewrite mclone_spec by exact R.
  rewrite (in_order_pure _ (fun r => r)); [now rewrite map_id|].
  intros r s0 _. rewrite (in_order_pure _ (fun r => r)); [now rewrite map_id|]. auto.
Qed.
Lemma mnew_spec {S T} c (d : ety S T) row (rows : list (list T)) s : length rows = row -> row < W c ->
  mnew c d row rows s = (Ok rows, s).
Proof.
  intros L HW. unfold mnew, vnew. rewrite collect_map_owned by assumption.
  rewrite (unwind_pure _ _ (fun r => r)); [now rewrite map_id|]. reflexivity.
Qed.
Lemma vdefault_spec {S T} c (d : ety S T) n dflt s :
  vdefault c d n dflt s = in_order (fun _ => dflt) (seq 0 n) s.
Proof. apply vgenerate_spec. Qed.
Lemma map_const {A B} (l : list A) (x : B) : map (fun _ => x) l = repeat x (length l).
Proof. induction l; cbn; congruence. Qed.
Lemma vdefault_const {S T} c (d : ety S T) n x s :
  vdefault c d n (ret x) s = (Ok (repeat x n), s).
Proof.
  rewrite vdefault_spec, (in_order_pure _ (fun _ => x)) by reflexivity. now rewrite map_const, seq_length.
Qed.
Lemma mgenerate_pure {S T} c (d : ety S T) row col f (g : nat -> nat -> T) s :
  (forall i j s, i < row -> j < col -> f (i, j) s = (Ok (g i j), s)) ->
  mgenerate c d row col f s = (Ok (map (fun i => map (g i) (seq 0 col)) (seq 0 row)), s).
Proof.
  intros H. rewrite mgenerate_nested. apply in_order_pure. intros i s0 Hi. apply in_seq in Hi.
  apply in_order_pure. intros j s1 Hj. apply in_seq in Hj. apply H; lia.
Qed.

(** ** Rows and columns as sources *)
Lemma rr_gives {S T} c row (m : list (list T)) : length m = row -> row < W c ->
  gives (@rows_iter_ref S T c row m) (map ret m) nodrop.
Proof.
  intros L HW. unfold rows_iter_ref, rr_iter, rr_new.
  apply (gives_intro _ _ (fun st acts => exists pre rest, m = pre ++ rest /\ st = Cursor (length pre) row /\ acts = map ret rest)).
  - reflexivity.
  - intros st (pre & rest & E & -> & EN) s. destruct rest; [|discriminate]. rewrite app_nil_r in E. subst pre.
    exists (Cursor row row). rewrite L. split; [|reflexivity]. unfold rr_next, bind, self, debug_assert. cbn.
    now rewrite Nat.leb_refl, andb_false_r, Nat.ltb_irrefl.
  - intros st a l (pre & rest & E & -> & EN) s. destruct rest as [|r rest]; [discriminate|]. injection EN as -> ->.
    assert (Lt : length pre < row) by (rewrite <- L, E, app_length; cbn; lia).
    exists (Cursor (length pre + 1) row). split; [|split; [reflexivity|]].
    + unfold rr_next, bind, self, debug_assert, vget_unchecked, vlen, usz_add. cbn.
      rewrite Nat.leb_refl, andb_false_r. destruct (Nat.ltb_spec (length pre) row); [|lia].
      destruct (Nat.ltb_spec (length pre + 1) (W c)); [|lia]. cbn.
      unfold debug_assert, bind. destruct (Nat.ltb_spec (length pre) row); [|lia]. rewrite andb_false_r. cbn.
      unfold slice_get_unchecked, as_slice. rewrite E, nth_error_mid. reflexivity.
    + intros _. exists (pre ++ [r]), rest. rewrite <- app_assoc, app_length. auto.
  - exists [], m. auto.
Qed.

Lemma cr_gives {S} c row col : col < W c ->
  gives (@cols_iter_ref S c row col) (map ret (map (fun j => (j, Cursor 0 row)) (seq 0 col))) nodrop.
Proof.
  intros HW. unfold cols_iter_ref, cr_iter, cr_new.
  apply (gives_intro _ _ (fun st acts => exists k, k <= col /\ st = Cursor k col /\
     acts = map ret (map (fun j => (j, Cursor 0 row)) (seq k (col - k))))).
  - reflexivity.
  - intros st (k & Hk & -> & EN) s. destruct (col - k) as [|x] eqn:Ex; [|discriminate]. assert (k = col) by lia. subst k.
    exists (Cursor col col). split; [|reflexivity]. unfold cr_next, bind, self, debug_assert. cbn.
    now rewrite Nat.leb_refl, andb_false_r, Nat.ltb_irrefl.
  - intros st a l (k & Hk & -> & EN) s. destruct (col - k) as [|x] eqn:Ex; [discriminate|].
    cbn in EN. injection EN as -> ->. exists (Cursor (k + 1) col). split; [|split; [reflexivity|]].
    + unfold cr_next, bind, self, debug_assert, usz_add. cbn.
      rewrite Nat.leb_refl, andb_false_r. destruct (Nat.ltb_spec k col); [|lia].
      destruct (Nat.ltb_spec (k + 1) (W c)); [|lia]. cbn. unfold lift, cin_new, debug_assert, bind. cbn.
      destruct (Nat.ltb_spec k col); [|lia]. rewrite andb_false_r. reflexivity.
    + intros _. exists (k + 1). replace (Datatypes.S k) with (k + 1) by lia.
      replace (col - (k + 1)) with x by lia. repeat split. lia.
  - exists 0. rewrite Nat.sub_0_r. split; [lia|]. split; reflexivity.
Qed.

Lemma vget_ok {S T} c n (v : list T) i x (s : S) : length v = n -> nth_error v i = Some x ->
  vget_unchecked c n v i s = (Ok x, s).
Proof.
  intros L E. unfold vget_unchecked, vlen, debug_assert, bind, slice_get_unchecked, as_slice.
  assert (i < n) by (rewrite <- L; apply nth_error_Some; congruence).
  destruct (Nat.ltb_spec i n); [|lia]. rewrite andb_false_r. cbn. rewrite E. reflexivity.
Qed.

Lemma col_of_mid {T} (pre : list (list T)) r rest j x : nth_error r j = Some x ->
  col_of (pre ++ r :: rest) j = col_of pre j ++ x :: col_of rest j.
Proof. intros E. unfold col_of. rewrite flat_map_app. cbn. now rewrite E. Qed.

Lemma cin_gives {S T} c row col (m : list (list T)) j : rect row col m -> j < col -> row < W c ->
  gives (@cin_iter S T c row col m (j, Cursor 0 row)) (map ret (col_of m j)) nodrop.
Proof.
  intros R Hj HW. unfold cin_iter.
  apply (gives_intro _ _ (fun st acts => exists pre rest, m = pre ++ rest /\ st = (j, Cursor (length pre) row) /\ acts = map ret (col_of rest j))).
  - reflexivity.
  - intros st (pre & rest & E & -> & EN) s. destruct rest as [|r rest].
    + rewrite app_nil_r in E. subst pre. exists (j, Cursor row row). rewrite (proj1 R). split; [|reflexivity].
      unfold cin_next, bind, self. cbn. now rewrite Nat.ltb_irrefl.
    + exfalso. cbn in EN. assert (Hin : In r m) by (rewrite E; apply in_elt).
      apply (rect_row _ _ _ _ R) in Hin. destruct (nth_error r j) eqn:E2; [discriminate|].
      apply nth_error_None in E2. lia.
  - intros st a l (pre & rest & E & -> & EN) s. destruct rest as [|r rest]; [discriminate|].
    assert (Hin : In r m) by (rewrite E; apply in_elt).
    apply (rect_row _ _ _ _ R) in Hin. cbn in EN. destruct (nth_error r j) as [x|] eqn:E2.
    2:{ apply nth_error_None in E2. lia. }
    cbn in EN. injection EN as -> ->.
    assert (Lt : length pre < row) by (rewrite <- (proj1 R), E, app_length; cbn; lia).
    exists (j, Cursor (length pre + 1) row). split; [|split; [reflexivity|]].
    + unfold cin_next, bind, self. cbn.
      destruct (Nat.ltb_spec (length pre) row); [|lia]. unfold usz_add.
      destruct (Nat.ltb_spec (length pre + 1) (W c)); [|lia]. cbn.
      rewrite (vget_ok c row m (length pre) r) by (apply R || (rewrite E; apply nth_error_mid)).
      rewrite (vget_ok c col r j x) by auto. reflexivity.
    + intros _. exists (pre ++ [r]), rest. rewrite <- app_assoc, app_length. auto.
  - exists [], m. auto.
Qed.

Lemma collect_col_spec {S T} c row col (m : list (list T)) (d : ety S T) clone j s :
  rect row col m -> j < col ->
  collect_col c row m d clone j s = in_order clone (col_of m j) s.
Proof.
  intros R Hj. unfold collect_col. rewrite collect_map_ref by apply R.
  destruct R as [_ F]. revert s. induction F as [|r m L F IH]; intros s; cbn; [reflexivity|].
  destruct (nth_error r j) as [x|] eqn:E; [|apply nth_error_None in E; lia].
  unfold bind, slice_get_unchecked, as_slice. rewrite E. cbn.
  destruct (clone x s) as [[y| | |] s1]; try reflexivity. now rewrite IH.
Qed.

Lemma ci_gives {S T} c row col (d : ety S T) clone (m : list (list T)) : rect row col m -> col < W c ->
  gives (cols_iter c row col d clone m) (map (fun j => in_order clone (col_of m j)) (seq 0 col)) nodrop.
Proof.
  intros R HW. unfold cols_iter, ci_iter, ci_new.
  apply (gives_intro _ _ (fun st acts => exists k, k <= col /\ st = Cursor k col /\
     acts = map (fun j => in_order clone (col_of m j)) (seq k (col - k)))).
  - reflexivity.
  - intros st (k & Hk & -> & EN) s. destruct (col - k) as [|x] eqn:Ex; [|discriminate]. assert (k = col) by lia. subst k.
    exists (Cursor col col). split; [|reflexivity]. unfold ci_next, bind, self, debug_assert. cbn.
    now rewrite Nat.leb_refl, andb_false_r, Nat.ltb_irrefl.
  - intros st a l (k & Hk & -> & EN) s. destruct (col - k) as [|x] eqn:Ex; [discriminate|].
    cbn in EN. injection EN as -> ->. exists (Cursor (k + 1) col). split; [|split; [reflexivity|]].
    + unfold ci_next, bind, self, debug_assert, usz_add. cbn.
      rewrite Nat.leb_refl, andb_false_r. destruct (Nat.ltb_spec k col); [|lia].
      destruct (Nat.ltb_spec (k + 1) (W c)); [|lia]. cbn. unfold lift. cbn.
      rewrite (collect_col_spec c row col) by (auto; lia).
      destruct (in_order clone (col_of m k) s) as [[]]; reflexivity.
    + intros _. exists (k + 1). replace (Datatypes.S k) with (k + 1) by lia.
      replace (col - (k + 1)) with x by lia. repeat split. lia.
  - exists 0. rewrite Nat.sub_0_r. split; [lia|]. split; reflexivity.
Qed.

Lemma mtransposed_spec {S T} c (d : ety S T) clone row col m s : rect row col m -> col < W c ->
  mtransposed c d clone row col m s = in_order (fun j => in_order clone (col_of m j)) (seq 0 col) s.
Proof.
  intros R HW. unfold mtransposed. rewrite (from_iter_gives _ _ col _ _ _ s (ci_gives c row col d clone m R HW)).
  2:{ now rewrite map_length, seq_length. }
  apply seqm_in_order.
Qed.

(** ** Arithmetic *)
Lemma mzip_rr_spec {S A B C} c (dc : ety S C) row col op (a : list (list A)) (b : list (list B)) s :
  rect row col a -> rect row col b ->
  mzip_rr c dc row col op a b s
  = in_order (op2 (fun ra rb => in_order (op2 op) (combine ra rb))) (combine a b) s.
Proof.
  intros Ra Rb. unfold mzip_rr. rewrite vzip_rr_spec by (apply Ra || apply Rb).
  apply in_order_ext. intros [ra rb] s0 Hin. unfold op2 at 1 2; cbn.
  apply vzip_rr_spec; [eapply rect_row; [exact Ra|]; eapply in_combine_l; eauto|
                       eapply rect_row; [exact Rb|]; eapply in_combine_r; eauto].
Qed.
Lemma mzip_vv_spec {S A B C} c (da : ety S A) (db : ety S B) (dc : ety S C) row col op a b s :
  rect row col a -> rect row col b -> row < W c -> col < W c ->
  mzip_vv c da db dc row col op a b s
  = in_order_unwind (drop2 (vec_ety da) (vec_ety db))
     (op2 (fun ra rb => in_order_unwind (drop2 da db) (op2 op) (combine ra rb))) (combine a b) s.
Proof.
  intros Ra Rb H1 H2. unfold mzip_vv. rewrite vzip_vv_spec by (apply Ra || apply Rb || assumption).
  apply unwind_ext; [|reflexivity]. intros [ra rb] s0 Hin. unfold op2 at 1 2; cbn.
  apply vzip_vv_spec; auto; [eapply rect_row; [exact Ra|]; eapply in_combine_l; eauto|
                       eapply rect_row; [exact Rb|]; eapply in_combine_r; eauto].
Qed.
Lemma mzip_vr_spec {S A B C} c (da : ety S A) (dc : ety S C) row col op a (b : list (list B)) s :
  rect row col a -> rect row col b -> row < W c -> col < W c ->
  mzip_vr c da dc row col op a b s
  = in_order_unwind (fun l => drop_all (vec_ety da) (map fst l))
     (op2 (fun ra rb => in_order_unwind (fun l => drop_all da (map fst l)) (op2 op) (combine ra rb))) (combine a b) s.
Proof.
  intros Ra Rb H1 H2. unfold mzip_vr. rewrite vzip_vr_spec by (apply Ra || apply Rb || assumption).
  apply unwind_ext; [|reflexivity]. intros [ra rb] s0 Hin. unfold op2 at 1 2; cbn.
  apply vzip_vr_spec; auto; [eapply rect_row; [exact Ra|]; eapply in_combine_l; eauto|
                       eapply rect_row; [exact Rb|]; eapply in_combine_r; eauto].
Qed.
Lemma mzip_rv_spec {S A B C} c (db : ety S B) (dc : ety S C) row col op (a : list (list A)) b s :
  rect row col a -> rect row col b -> row < W c -> col < W c ->
  mzip_rv c db dc row col op a b s
  = in_order_unwind (fun l => drop_all (vec_ety db) (map snd l))
     (op2 (fun ra rb => in_order_unwind (fun l => drop_all db (map snd l)) (op2 op) (combine ra rb))) (combine a b) s.
Proof.
  intros Ra Rb H1 H2. unfold mzip_rv. rewrite vzip_rv_spec by (apply Ra || apply Rb || assumption).
  apply unwind_ext; [|reflexivity]. intros [ra rb] s0 Hin. unfold op2 at 1 2; cbn.
  apply vzip_rv_spec; auto; [eapply rect_row; [exact Ra|]; eapply in_combine_l; eauto|
                       eapply rect_row; [exact Rb|]; eapply in_combine_r; eauto].
Qed.

(** A by-value run that returns is the by-reference run that returns. *)
Lemma nested_ok {S A B C} uo ui (f : A -> list B) (g : B -> M S C) l s r s' :
  in_order_unwind uo (fun x => in_order_unwind ui g (f x)) l s = (Ok r, s') <->
  in_order (fun x => in_order g (f x)) l s = (Ok r, s').
Proof.
  rewrite unwind_ok. revert s r s'. induction l as [|x l IH]; intros s r s'; cbn; [reflexivity|].
  destruct (in_order_unwind ui g (f x) s) as [[y| | |] s1] eqn:E1.
  { apply unwind_ok in E1. rewrite E1.
    destruct (in_order (fun x0 => in_order_unwind ui g (f x0)) l s1) as [[zs| | |] s2] eqn:E2.
    { apply IH in E2. now rewrite E2. }
    all: destruct (in_order (fun x0 => in_order g (f x0)) l s1) as [[zs'| | |] s2'] eqn:E3;
       try (split; intros; discriminate); exfalso; apply IH in E3; rewrite E3 in E2; discriminate. }
  all: destruct (in_order g (f x) s) as [[zs'| | |] s2'] eqn:E3;
       try (split; intros; discriminate); exfalso; apply (unwind_ok ui) in E3; rewrite E3 in E1; discriminate.
Qed.

Lemma mscale_spec {S T} c (d : ety S T) row col op clone m rhs s :
  rect row col m -> row < W c -> col < W c ->
  mscale c d row col op clone m rhs s
  = in_order_unwind (drop_all (vec_ety d))
      (fun r => x <- clone rhs ;; fun s => in_order_unwind (drop_all d) (fun e => y <- clone x ;; op e y) r s) m s.
Proof.
  intros R H1 H2. unfold mscale. rewrite collect_map_owned by (apply R || assumption).
  apply unwind_ext; [|reflexivity]. intros r s0 Hin. unfold bind at 1 2.
  destruct (clone rhs s0) as [[x| | |] s1]; try reflexivity.
  apply vscale_spec; auto. eapply rect_row; eauto.
Qed.
Lemma mscale_ref_spec {S T} c (d : ety S T) row col op m rhs s :
  rect row col m -> row < W c -> col < W c ->
  mscale_ref c d row col op m rhs s
  = in_order_unwind (drop_all (vec_ety d))
      (fun r s => in_order_unwind (drop_all d) (fun e => op e rhs) r s) m s.
Proof.
  intros R H1 H2. unfold mscale_ref. rewrite collect_map_owned by (apply R || assumption).
  apply unwind_ext; [|reflexivity]. intros r s0 Hin.
  rewrite vscale_spec; auto. eapply rect_row; eauto.
Qed.
Lemma mneg_spec {S T C} c (d : ety S T) (dc : ety S C) row col neg m s :
  rect row col m -> row < W c -> col < W c ->
  mneg c d dc row col neg m s
  = in_order_unwind (drop_all (vec_ety d)) (in_order_unwind (drop_all d) neg) m s.
Proof.
  intros R H1 H2. unfold mneg. rewrite collect_map_owned by (apply R || assumption).
  apply unwind_ext; [|reflexivity]. intros r s0 Hin. apply vneg_spec; auto. eapply rect_row; eauto.
Qed.

(** ** Products *)
(** The sum of products, left to right. *)
Definition dotm {S T} (o : ops S T) (a b : list T) : M S T :=
  fun s => fold_in_order (fun acc p => t <- o_mul o (fst p) (snd p) ;; o_add o acc t) (combine a b) (o_zero o) s.


Lemma fold_ref_dot {S T} (d : ety S T) (o : ops S T) fuel (ia ib : iter S T) a b s :
  faithful (o_clone o) ->
  gives ia (map ret a) nodrop -> gives ib (map ret b) nodrop -> length a = length b -> length a < fuel ->
  fold fuel (imap (fun p => o_mul o (fst p) (snd p)) (zip d ia ib)) (o_zero o) (o_add o) s = dotm o a b s.
Proof.
  intros HC Ga Gb HL HF. unfold fold.
  pose proof (zip_gives d ia ib _ _ nodrop nodrop Ga Gb ltac:(now rewrite !map_length) ltac:(reflexivity) ltac:(right; reflexivity)) as G.
  rewrite combine_map, map_map in G. apply (imap_gives (fun p => o_mul o (fst p) (snd p))) in G. rewrite map_map in G.
  rewrite (for_each_gives _ _ _ _ _ _ s G); [|rewrite map_length, combine_length; lia].
  change (fun (k : nat) (s0 : S) => nodrop k (nodrop k s0)) with (@nodrop S).
  rewrite foldm_in_order, fold_in_order_map. unfold dotm. apply fold_in_order_ext. reflexivity.
Qed.
Lemma cloned_gives {S T} (clone : T -> M S T) (it : iter S T) l dr :
  faithful clone -> gives it (map ret l) dr -> gives (cloned clone it) (map ret l) dr.
Proof.
  intros HC G. unfold cloned. apply (gives_ext _ (map clone l)).
  - apply Forall2_map_map. intros x _ s. apply HC.
  - now apply imap_ret_gives.
Qed.

Lemma mmul_spec_gen {S T} c (d : ety S T) (o : ops S T) lr n rc (a b : list (list T)) en s :
  rect lr n a -> rect n rc b -> lr < W c -> rc < W c ->
  (forall lrow j s, length lrow = n -> j < rc -> en lrow (j, Cursor 0 n) s = dotm o lrow (col_of b j) s) ->
  from_iter c (vec_ety d) lr
    (imap (fun lrow => from_iter c d rc (imap (en lrow) (cols_iter_ref c n rc))) (rows_iter_ref c lr a)) s
  = in_order (fun r => in_order (fun j => dotm o r (col_of b j)) (seq 0 rc)) a s.
Proof.
  intros Ra Rb H1 H2 HE.
  rewrite (from_iter_gives _ _ lr _ _ _ s (imap_ret_gives _ _ _ _ (rr_gives c lr a (proj1 Ra) H1))).
  2:{ rewrite map_length. apply Ra. }
  rewrite seqm_in_order. apply in_order_ext. intros r s0 Hin.
  rewrite (from_iter_gives _ _ rc _ _ _ s0 (imap_ret_gives _ _ _ _ (cr_gives c n rc H2))).
  2:{ now rewrite !map_length, seq_length. }
  rewrite seqm_in_order, in_order_map. apply in_order_ext. intros j s1 Hj. apply in_seq in Hj.
  apply HE; [eapply rect_row; eauto|lia].
Qed.

Section Mul.
Context {S T : Type} (c : cfg) (d : ety S T) (o : ops S T) (lr n rc : nat) (a b : list (list T)).
Hypothesis HC : faithful (o_clone o).
Hypothesis Ra : rect lr n a.
Hypothesis Rb : rect n rc b.
Hypothesis Hlr : lr < W c.
Hypothesis Hn : n < W c.
Hypothesis Hrc : rc < W c.

Definition mul_form (s : S) := in_order (fun r => in_order (fun j => dotm o r (col_of b j)) (seq 0 rc)) a s.

Lemma entry_cloned_spec lrow j s : length lrow = n -> j < rc ->
  entry_cloned c d o n rc b lrow (j, Cursor 0 n) s = dotm o lrow (col_of b j) s.
Proof.
  intros L Hj. unfold entry_cloned. apply fold_ref_dot; auto.
  - apply cloned_gives; auto. apply slice_iter_gives.
  - apply cloned_gives; auto. now apply cin_gives.
  - now rewrite (col_of_length n rc).
  - lia.
Qed.
Lemma entry_ref_spec lrow j s : length lrow = n -> j < rc ->
  entry_ref c d o n rc b lrow (j, Cursor 0 n) s = dotm o lrow (col_of b j) s.
Proof.
  intros L Hj. unfold entry_ref. apply fold_ref_dot; auto.
  - apply cloned_gives; auto. apply slice_iter_gives.
  - now apply cin_gives.
  - now rewrite (col_of_length n rc).
  - lia.
Qed.
Lemma mmul_vv_spec s : mmul_vv c d o lr n rc a b s = mul_form s.
Proof. apply mmul_spec_gen; auto. intros; now apply entry_cloned_spec. Qed.
Lemma mmul_rv_spec s : mmul_rv c d o lr n rc a b s = mul_form s.
Proof. apply mmul_spec_gen; auto. intros; now apply entry_cloned_spec. Qed.
Lemma mmul_vr_spec s : mmul_vr c d o lr n rc a b s = mul_form s.
Proof. apply mmul_spec_gen; auto. intros; now apply entry_ref_spec. Qed.
Lemma mmul_rr_spec s : mmul_rr c d o lr n rc a b s = mul_form s.
Proof. apply mmul_spec_gen; auto. intros; now apply entry_ref_spec. Qed.
End Mul.

Lemma mmul_assign_spec {S T} c (d : ety S T) (o : ops S T) n (a b : list (list T)) s :
  faithful (o_clone o) -> rect n n a -> rect n n b -> n < W c ->
  mmul_assign c d o n b (a, s)
  = match mul_form o n a b s with
    | (Ok p, s') => (Ok tt, (p, s'))
    | (Panic, s') => (Panic, (a, s'))
    | (UB, s') => (UB, (a, s'))
    | (Diverge, s') => (Diverge, (a, s'))
    end.
Proof.
  intros HC Ra Rb HW. unfold mmul_assign, bind, self, lift. cbn.
  pose proof (mmul_vv_spec c d o n n n a b HC Ra Rb HW HW HW s) as E. unfold mmul_vv in E. rewrite E.
  destruct (mul_form o n a b s) as [[p| | |] s']; reflexivity.
Qed.

Lemma mmulv_spec {S T} c (d : ety S T) (o : ops S T) row col (m : list (list T)) v s :
  faithful (o_clone o) -> rect row col m -> length v = col -> row < W c ->
  mmulv c d o row col m v s = in_order (fun r => dotm o r v) m s.
Proof.
  intros HC R Lv HW. unfold mmulv.
  rewrite (from_iter_gives _ _ row _ _ _ s (imap_ret_gives _ _ _ _ (rr_gives c row m (proj1 R) HW))).
  2:{ rewrite map_length. apply R. }
  rewrite seqm_in_order. apply in_order_ext. intros r s0 Hin.
  pose proof (rect_row _ _ _ _ R Hin) as Lr. unfold fold.
  pose proof (zip_gives ref_ety (slice_iter r) (cloned (o_clone o) (viter v)) _ _ nodrop nodrop
     (slice_iter_gives r) (cloned_gives (o_clone o) _ v nodrop HC (slice_iter_gives v))
     ltac:(rewrite !map_length; congruence) ltac:(reflexivity) ltac:(right; reflexivity)) as G.
  rewrite combine_map, map_map in G.
  apply (imap_gives (fun p => a <- o_clone o (fst p) ;; o_mul o a (snd p))) in G. rewrite map_map in G.
  rewrite (for_each_gives _ _ _ _ _ _ s0 G); [|rewrite map_length, combine_length; lia].
  change (fun (k : nat) (s0 : S) => nodrop k (nodrop k s0)) with (@nodrop S).
  rewrite foldm_in_order, fold_in_order_map. unfold dotm. apply fold_in_order_ext.
  intros acc [x y] s1 _. unfold bind, pairm, ret. cbn. now rewrite HC.
Qed.

(** Reading a vector owned by the fold: the rest is dropped on unwinding; when the
    fold returns, nothing is left. *)
Definition fold_unwind {S A B} := fix go (uw : list A -> S -> S) (body : B -> A -> M S B) (l : list A) (b : B) (s : S) : res B * S :=
  match l with
  | [] => (Ok b, s)
  | x :: l' => match body b x s with
               | (Ok b', s') => go uw body l' b' s'
               | (Panic, s') => (Panic, uw l' s')
               | (r, s') => (r, s')
               end
  end.
Lemma foldm_unwind {S A B} (l : list A) dr uw (body : B -> A -> M S B) b s :
  (forall l1 l2 s, l = l1 ++ l2 -> dr (length l2) s = uw l2 s) -> (forall s, uw [] s = s) ->
  foldm (map ret l) dr b body s = fold_unwind uw body l b s.
Proof.
  intros H H0. revert b s. induction l as [|x l IH]; intros b s; cbn.
  - specialize (H [] [] s eq_refl). cbn in H. now rewrite H, H0.
  - destruct (body b x s) as [[y| | |] s1]; try reflexivity.
    + apply IH. intros l1 l2 s2 E. apply (H (x :: l1)). now rewrite E.
    + rewrite map_length. now rewrite (H [x] l s1 eq_refl).
Qed.
Lemma fold_unwind_ok {S A B} uw (body : B -> A -> M S B) l b s r s' :
  fold_unwind uw body l b s = (Ok r, s') <-> fold_in_order body l b s = (Ok r, s').
Proof.
  revert b s. induction l as [|x l IH]; intros b s; cbn; [reflexivity|].
  destruct (body b x s) as [[y| | |] s1]; try (split; intros; discriminate). apply IH.
Qed.
Lemma fold_unwind_fst {S A B} uw (body : B -> A -> M S B) l b s :
  fst (fold_unwind uw body l b s) = fst (fold_in_order body l b s).
Proof.
  revert b s. induction l as [|x l IH]; intros b s; cbn; [reflexivity|].
  destruct (body b x s) as [[y| | |] s1]; try reflexivity. apply IH.
Qed.

Lemma mmulv_ref_spec {S T} c (d : ety S T) (o : ops S T) row col (m : list (list T)) v s :
  rect row col m -> length v = col -> row < W c -> col < W c ->
  mmulv_ref c d o row col m v s
  = in_order_unwind (drop_all (vec_ety d))
      (fun r => fold_unwind (fun l => drop_all d (map fst l))
                  (fun acc p => t <- o_mul o (fst p) (snd p) ;; o_add o acc t) (combine r v) (o_zero o)) m s.
Proof.
  intros R Lv HW HW2. unfold mmulv_ref. rewrite collect_map_owned by (apply R || assumption).
  apply unwind_ext; [|reflexivity]. intros r s0 Hin.
  pose proof (rect_row _ _ _ _ R Hin) as Lr. unfold fold.
  pose proof (zip_gives d (into_it c d col r) (viter v) _ _ (fun k => drop_all d (lastn k r)) nodrop
     (into_it_gives c d col r Lr HW2) (slice_iter_gives v)
     ltac:(rewrite !map_length; congruence) ltac:(intros s1; cbn beta; now rewrite lastn_0) ltac:(right; reflexivity)) as G.
  rewrite combine_map, map_map in G.
  apply (imap_gives (fun p => o_mul o (fst p) (snd p))) in G. rewrite map_map in G.
  rewrite (for_each_gives _ _ _ _ _ _ s0 G); [|rewrite map_length, combine_length; lia].
  clear G. generalize (o_zero o) as z. revert s0.
  assert (H : forall pre l s0 z, combine r v = pre ++ l ->
    foldm (map (fun x : T * T => a <- pairm d (ret (fst x)) (ret (snd x)) ;; o_mul o (fst a) (snd a)) l)
      (fun k s => nodrop k (drop_all d (lastn k r) s)) z (o_add o) s0
    = fold_unwind (fun l => drop_all d (map fst l)) (fun acc p => t <- o_mul o (fst p) (snd p) ;; o_add o acc t) l z s0).
  { intros pre l. revert pre. induction l as [|[x y] l IH]; intros pre s0 z E; cbn.
    - now rewrite lastn_0.
    - assert (EL : lastn (length l) r = map fst l).
      { rewrite <- (map_fst_combine r v) by congruence. rewrite E, map_app. cbn.
        replace (map fst pre ++ x :: map fst l) with ((map fst pre ++ [x]) ++ map fst l) by now rewrite <- app_assoc.
        rewrite <- (map_length fst l). apply lastn_app. }
      unfold bind, pairm, ret. cbn. rewrite map_length, EL.
      destruct (o_mul o x y s0) as [[t| | |] s1]; try reflexivity.
      destruct (o_add o z t s1) as [[t'| | |] s2]; try reflexivity.
      apply (IH (pre ++ [(x, y)])). now rewrite <- app_assoc. }
  intros s0 z. apply (H []). reflexivity.
Qed.

(** ** sum, is_zero *)
Lemma msum_spec {S T} (o : ops S T) row col m s : rect row col m ->
  msum o row col m s
  = fold_in_order (fun acc r => t <- (fun s => fold_in_order (fun acc x => y <- o_clone o x ;; o_add o acc y) r (o_zero o) s) ;; o_add o acc t)
      m (o_zero o) s.
Proof.
  intros R. unfold msum, fold.
  rewrite (for_each_gives _ _ _ _ _ _ s (imap_ret_gives (vsum o col) _ _ _ (slice_iter_gives m)));
    [|unfold as_slice; rewrite map_length; destruct R; lia].
  rewrite foldm_in_order, fold_in_order_map. apply fold_in_order_ext. intros acc r s0 Hin. unfold bind at 1 2.
  rewrite vsum_spec; [reflexivity|]. eapply rect_row; eauto.
Qed.
Lemma mis_zero_spec {S T} (o : ops S T) row col m (s : S) : rect row col m ->
  mis_zero o row col m s = (Ok (forallb (forallb (o_is_zero o)) m), s).
Proof.
  intros R. unfold mis_zero, viter, as_slice.
  rewrite (iall_gives _ _ _ _ _ s (slice_iter_gives m)); [|rewrite map_length; destruct R; lia].
  rewrite allm_all. destruct R as [_ F]. revert s. induction F as [|r m L F IH]; intros s; cbn [all_in_order forallb]; [reflexivity|].
  pose proof (vis_zero_spec o col r s L) as E. unfold vis_zero, viter, as_slice in E. rewrite E.
  destruct (forallb (o_is_zero o) r); cbn; [apply IH|reflexivity].
Qed.

(** ** approximate equality *)
Lemma zip_ref_gives {S A B} (a : list A) (b : list B) (ia : iter S A) (ib : iter S B) :
  gives ia (map ret a) nodrop -> gives ib (map ret b) nodrop -> length a = length b ->
  gives (zip ref_ety ia ib) (map ret (combine a b)) nodrop.
Proof.
  intros Ga Gb HL.
  pose proof (zip_gives ref_ety ia ib _ _ nodrop nodrop Ga Gb ltac:(now rewrite !map_length) ltac:(reflexivity) ltac:(right; reflexivity)) as G.
  rewrite combine_map, map_map in G. apply (gives_ext _ _ (map ret (combine a b))) in G; [exact G|].
  apply Forall2_map_map. intros [x y] _ s. reflexivity.
Qed.
Lemma mapprox_spec {S T} c (aeq : T -> T -> M S bool) row col a b s :
  rect row col a -> rect row col b -> row < W c ->
  mapprox_eq c aeq row col a b s
  = fold_in_order (fun acc p => y <- (fun s => all_in_order (op2 aeq) (combine (fst p) (snd p)) s) ;; ret (acc && y))
      (combine a b) true s.
Proof.
  intros Ra Rb HW. unfold mapprox_eq, fold.
  pose proof (zip_ref_gives a b _ _ (@rr_gives S T c row a (proj1 Ra) HW) (@rr_gives S T c row b (proj1 Rb) HW)
     ltac:(destruct Ra, Rb; congruence)) as G.
  rewrite (for_each_gives _ _ _ _ _ _ s (imap_ret_gives _ _ _ _ G));
    [|rewrite map_length, combine_length; destruct Ra, Rb; lia].
  rewrite foldm_in_order, fold_in_order_map. apply fold_in_order_ext. intros acc [ra rb] s0 Hin.
  pose proof (rect_row _ _ _ _ Ra (in_combine_l _ _ _ _ Hin)) as La.
  pose proof (rect_row _ _ _ _ Rb (in_combine_r _ _ _ _ Hin)) as Lb.
  unfold bind at 1 2. cbn [fst snd].
  rewrite (iall_gives _ _ _ _ _ s0 (zip_ref_gives ra rb _ _ (slice_iter_gives ra) (slice_iter_gives rb) ltac:(congruence)));
    [|rewrite map_length, combine_length; lia].
  rewrite allm_all. rewrite (all_in_order_ext _ (op2 aeq)); [reflexivity|]. now intros [x y].
Qed.
