(** * VecProofs.v - closed forms of the vector operations. *)
From Coq Require Import List Arith Bool Lia.
From Verif Require Import Rust Iter Elem VectorM SpecCommon Harness IterProofs OwnProofs.
Import ListNotations.

(** ** Runs with unwinding *)
Lemma seqm_unwind {S A B} (uw : list A -> S -> S) (f : A -> M S B) l dr s :
  (forall l1 l2 s, l = l1 ++ l2 -> dr (length l2) s = uw l2 s) ->
  uw [] s = s -> (forall s, uw [] s = s) ->
  seqm (map f l) dr s = in_order_unwind uw f l s.
Proof.
  intros H _ H0. revert s. induction l as [|x l IH]; intros s; cbn.
  - specialize (H [] [] s eq_refl). cbn in H. now rewrite H, H0.
  - destruct (f x s) as [[y| | |] s1]; try reflexivity.
    + rewrite IH; [reflexivity|]. intros l1 l2 s2 E. apply (H (x :: l1)). now rewrite E.
    + rewrite map_length. now rewrite (H [x] l s1 eq_refl).
Qed.

Lemma unwind_id {S A B} (f : A -> M S B) l s : in_order_unwind (fun _ s => s) f l s = in_order f l s.
Proof.
  revert s. induction l as [|x l IH]; intros s; cbn; [reflexivity|].
  destruct (f x s) as [[y| | |] s1]; try reflexivity. now rewrite IH.
Qed.

Lemma unwind_ok {S A B} uw (f : A -> M S B) l s ys s' :
  in_order_unwind uw f l s = (Ok ys, s') <-> in_order f l s = (Ok ys, s').
Proof.
  revert s ys s'. induction l as [|x l IH]; intros s ys s'; cbn; [reflexivity|].
  destruct (f x s) as [[y| | |] s1]; try (split; intros; discriminate); try reflexivity.
  destruct (in_order_unwind uw f l s1) as [[zs| | |] s2] eqn:E1.
  { apply IH in E1. now rewrite E1. }
  all: destruct (in_order f l s1) as [[zs'| | |] s2'] eqn:E2;
       try (split; intros; discriminate);
       exfalso; apply IH in E2; rewrite E2 in E1; discriminate.
Qed.

Lemma in_order_pure {S A B} (f : A -> M S B) (g : A -> B) l s :
  (forall x s, In x l -> f x s = (Ok (g x), s)) -> in_order f l s = (Ok (map g l), s).
Proof.
  intros H. revert s. induction l as [|x l IH]; intros s; cbn; [reflexivity|].
  rewrite H by now left. rewrite IH; [reflexivity|]. intros; apply H; now right.
Qed.

Lemma unwind_pure {S A B} uw (f : A -> M S B) (g : A -> B) l s :
  (forall x s, In x l -> f x s = (Ok (g x), s)) -> in_order_unwind uw f l s = (Ok (map g l), s).
Proof. intros H. apply unwind_ok. now apply in_order_pure. Qed.

Lemma in_order_length {S A B} (f : A -> M S B) l s ys s' :
  in_order f l s = (Ok ys, s') -> length ys = length l.
Proof.
  revert s ys s'. induction l as [|x l IH]; intros s ys s' H; cbn in H; [now injection H as <- _|].
  destruct (f x s) as [[y| | |] s1]; try discriminate.
  destruct (in_order f l s1) as [[zs| | |] s2] eqn:E; try discriminate.
  injection H as <- <-. cbn. f_equal. eapply IH; eauto.
Qed.

Lemma unwind_ext {S A B} uw uw' (f g : A -> M S B) l s :
  (forall x s, In x l -> f x s = g x s) -> (forall l s, uw l s = uw' l s) ->
  in_order_unwind uw f l s = in_order_unwind uw' g l s.
Proof.
  revert s. induction l as [|x l IH]; intros s H HU; cbn; [reflexivity|].
  rewrite H by now left. destruct (g x s) as [[y| | |] s1]; try reflexivity.
  - rewrite IH; auto. intros; apply H; now right.
  - now rewrite HU.
Qed.

(** A panic at a position after a prefix that ran normally. *)
Lemma in_order_app {S A B} (f : A -> M S B) l1 l2 s :
  in_order f (l1 ++ l2) s =
  match in_order f l1 s with
  | (Ok ys, s1) => match in_order f l2 s1 with
                   | (Ok zs, s2) => (Ok (ys ++ zs), s2)
                   | (r, s2) => (r, s2)
                   end
  | (r, s1) => (r, s1)
  end.
Proof.
  revert s. induction l1 as [|x l1 IH]; intros s; cbn.
  - destruct (in_order f l2 s) as [[]]; reflexivity.
  - destruct (f x s) as [[y| | |] s1]; try reflexivity. rewrite IH.
    destruct (in_order f l1 s1) as [[ys| | |] s2]; try reflexivity.
    destruct (in_order f l2 s2) as [[zs| | |] s3]; reflexivity.
Qed.

Lemma unwind_panic_at {S A B} uw (f : A -> M S B) l1 x l2 s ys s1 s2 :
  in_order f l1 s = (Ok ys, s1) -> f x s1 = (Panic, s2) ->
  in_order_unwind uw f (l1 ++ x :: l2) s = (Panic, uw l2 s2).
Proof.
  revert s ys. induction l1 as [|y l1 IH]; intros s ys H1 H2; cbn in *.
  - injection H1 as _ ->. now rewrite H2.
  - destruct (f y s) as [[z| | |] s0]; try discriminate.
    destruct (in_order f l1 s0) as [[zs| | |] s3] eqn:E; try discriminate.
    injection H1 as _ ->. now rewrite (IH _ _ E H2).
Qed.

(** ** Elementwise binary operations *)
Definition op2 {S A B C} (op : A -> B -> M S C) (p : A * B) : M S C := op (fst p) (snd p).

(** Dropping the rest of both operands on unwinding (left first). *)
Definition drop2 {S A B} (da : ety S A) (db : ety S B) (l : list (A * B)) (s : S) : S :=
  drop_all db (map snd l) (drop_all da (map fst l) s).

Lemma map_fst_combine {A B} (a : list A) (b : list B) : length a = length b -> map fst (combine a b) = a.
Proof. revert b. induction a as [|x a IH]; intros [|y b] H; cbn in *; try discriminate; [reflexivity|]. f_equal; apply IH; lia. Qed.
Lemma map_snd_combine {A B} (a : list A) (b : list B) : length a = length b -> map snd (combine a b) = b.
Proof. revert b. induction a as [|x a IH]; intros [|y b] H; cbn in *; try discriminate; [reflexivity|]. f_equal; apply IH; lia. Qed.

Lemma lastn_map {A B} (f : A -> B) k l : lastn k (map f l) = map f (lastn k l).
Proof. unfold lastn. rewrite map_length. apply skipn_map. Qed.

Lemma combine_map {A B A' B'} (f : A -> A') (g : B -> B') a b :
  combine (map f a) (map g b) = map (fun p => (f (fst p), g (snd p))) (combine a b).
Proof. revert b. induction a as [|x a IH]; intros [|y b]; cbn; auto. now rewrite IH. Qed.

(** The generic elementwise operation over two effect-free sources. *)
Lemma zip_map_collect {S A B C} c (da : ety S A) (dc : ety S C) n (op : A -> B -> M S C)
    (ia : iter S A) (ib : iter S B) (a : list A) (b : list B) dra drb uw s :
  gives ia (map ret a) dra -> gives ib (map ret b) drb ->
  length a = n -> length b = n ->
  (forall s, dra 0 s = s) ->
  (forall s, uw [] s = s) ->
  (forall l1 l2 s, combine a b = l1 ++ l2 -> drb (length l2) (dra (length l2) s) = uw l2 s) ->
  from_iter c dc n (imap (fun p => op (fst p) (snd p)) (zip da ia ib)) s
  = in_order_unwind uw (op2 op) (combine a b) s.
Proof.
  intros Ga Gb Ha Hb H0 HU HD.
  assert (HL : length (map (@ret S A) a) = length (map (@ret S B) b)) by (rewrite !map_length; congruence).
  pose proof (zip_gives da ia ib _ _ dra drb Ga Gb HL H0) as G.
  assert (HO : (forall m s, In m (map (@ret S A) a) -> is_ok (fst (m s))) \/ (forall k s, drb k s = s)).
  { left. intros m s0 Hm. apply in_map_iff in Hm. destruct Hm as (x & <- & _). exact I. }
  specialize (G HO). rewrite combine_map, map_map in G.
  assert (G2 := imap_gives (fun p => op (fst p) (snd p)) _ _ _ G). rewrite map_map in G2.
  rewrite (from_iter_gives _ _ n _ _ _ s G2).
  2:{ rewrite map_length, combine_length. lia. }
  erewrite seqm_ext with (dr' := fun k s => drb k (dra k s)) (l' := map (op2 op) (combine a b)); [|apply Forall2_map_map; intros [x y] _ s0; reflexivity|reflexivity].
  apply seqm_unwind; auto.
Qed.

Lemma lastn_len_app {A} (l1 l2 l : list A) : l = l1 ++ l2 -> lastn (length l2) l = l2.
Proof. intros ->. apply lastn_app. Qed.

Lemma vzip_vv_spec {S A B C} c (da : ety S A) (db : ety S B) (dc : ety S C) n op a b s :
  length a = n -> length b = n -> n < W c ->
  vzip_vv c da db dc n op a b s = in_order_unwind (drop2 da db) (op2 op) (combine a b) s.
Proof.
  intros Ha Hb HW. unfold vzip_vv.
  apply (zip_map_collect c da dc n op _ _ a b (fun k => drop_all da (lastn k a)) (fun k => drop_all db (lastn k b)));
    auto using into_it_gives.
  - intros s0. now rewrite lastn_0.
  - intros l1 l2 s0 E. unfold drop2.
    assert (Ea : lastn (length l2) a = map fst l2).
    { rewrite <- (map_fst_combine a b) by congruence. now rewrite lastn_map, E, lastn_app. }
    assert (Eb : lastn (length l2) b = map snd l2).
    { rewrite <- (map_snd_combine a b) by congruence. now rewrite lastn_map, E, lastn_app. }
    now rewrite Ea, Eb.
Qed.

Lemma vzip_vr_spec {S A B C} c (da : ety S A) (dc : ety S C) n op a (b : list B) s :
  length a = n -> length b = n -> n < W c ->
  vzip_vr c da dc n op a b s = in_order_unwind (fun l => drop_all da (map fst l)) (op2 op) (combine a b) s.
Proof.
  intros Ha Hb HW. unfold vzip_vr.
  apply (zip_map_collect c da dc n op _ _ a b (fun k => drop_all da (lastn k a)) nodrop);
    auto using into_it_gives, slice_iter_gives.
  - intros s0. now rewrite lastn_0.
  - intros l1 l2 s0 E. unfold nodrop.
    rewrite <- (map_fst_combine a b) by congruence. now rewrite lastn_map, E, lastn_app.
Qed.

Lemma vzip_rv_spec {S A B C} c (db : ety S B) (dc : ety S C) n op (a : list A) b s :
  length a = n -> length b = n -> n < W c ->
  vzip_rv c db dc n op a b s = in_order_unwind (fun l => drop_all db (map snd l)) (op2 op) (combine a b) s.
Proof.
  intros Ha Hb HW. unfold vzip_rv.
  apply (zip_map_collect c ref_ety dc n op _ _ a b nodrop (fun k => drop_all db (lastn k b)));
    auto using into_it_gives.
  - apply slice_iter_gives.
  - intros l1 l2 s0 E. unfold nodrop.
    rewrite <- (map_snd_combine a b) by congruence. now rewrite lastn_map, E, lastn_app.
Qed.

Lemma vzip_rr_spec {S A B C} c (dc : ety S C) n op (a : list A) (b : list B) s :
  length a = n -> length b = n ->
  vzip_rr c dc n op a b s = in_order (op2 op) (combine a b) s.
Proof.
  intros Ha Hb. unfold vzip_rr. rewrite <- unwind_id.
  apply (zip_map_collect c ref_ety dc n op _ _ a b nodrop nodrop); auto; apply slice_iter_gives.
Qed.

(** ** Unary operations *)
Lemma collect_map_owned {S T C} c (d : ety S T) (dc : ety S C) n (f : T -> M S C) v s :
  length v = n -> n < W c ->
  from_iter c dc n (imap f (into_it c d n v)) s = in_order_unwind (drop_all d) f v s.
Proof.
  intros Hv HW. rewrite (from_iter_gives _ _ n _ _ _ s (imap_ret_gives f _ _ _ (into_it_gives c d n v Hv HW))).
  2:{ now rewrite map_length. }
  apply seqm_unwind; auto. intros l1 l2 s0 ->. now rewrite lastn_app.
Qed.
Lemma collect_map_ref {S T C} c (dc : ety S C) n (f : T -> M S C) v s :
  length v = n ->
  from_iter c dc n (imap f (viter v)) s = in_order f v s.
Proof.
  intros Hv. rewrite (from_iter_gives _ _ n _ _ _ s (imap_ret_gives f _ _ _ (slice_iter_gives v))).
  2:{ now rewrite map_length. }
  apply seqm_in_order.
Qed.

Lemma vscale_spec {S T U C} c (d : ety S T) (dc : ety S C) n op (cloneU : U -> M S U) v rhs s :
  length v = n -> n < W c ->
  vscale c d dc n op cloneU v rhs s
  = in_order_unwind (drop_all d) (fun e => r <- cloneU rhs ;; op e r) v s.
Proof. intros; unfold vscale; now apply collect_map_owned. Qed.
Lemma vneg_spec {S T C} c (d : ety S T) (dc : ety S C) n neg v s :
  length v = n -> n < W c ->
  vneg c d dc n neg v s = in_order_unwind (drop_all d) neg v s.
Proof. intros; unfold vneg; now apply collect_map_owned. Qed.
Lemma vclone_spec {S T} c (d : ety S T) n clone v s :
  length v = n -> vclone c d n clone v s = in_order clone v s.
Proof. intros; unfold vclone, cloned; now apply collect_map_ref. Qed.
Lemma vclamped_spec {S T} c (d : ety S T) clone cmp n v mn mx s :
  length v = n ->
  vclamped c d clone cmp n v mn mx s
  = in_order (fun x => clone (cmp_min cmp mx (cmp_max cmp mn x))) v s.
Proof. intros; unfold vclamped; now apply collect_map_ref. Qed.

(** ** Folds *)
Lemma foldm_in_order {S A B} (l : list (M S A)) (body : B -> A -> M S B) b s :
  foldm l nodrop b body s = fold_in_order (fun b m => a <- m ;; body b a) l b s.
Proof.
  revert b s. induction l as [|m l IH]; intros b s; cbn; [reflexivity|].
  unfold bind. destruct (m s) as [[a| | |] s1]; try reflexivity.
  destruct (body b a s1) as [[b'| | |] s2]; try reflexivity. apply IH.
Qed.
Lemma fold_in_order_map {S A B C} (f : A -> C) (body : B -> C -> M S B) l b s :
  fold_in_order body (map f l) b s = fold_in_order (fun b a => body b (f a)) l b s.
Proof.
  revert b s. induction l as [|x l IH]; intros b s; cbn; [reflexivity|].
  destruct (body b (f x) s) as [[b'| | |] s1]; try reflexivity. apply IH.
Qed.
Lemma fold_in_order_ext {S A B} (f g : B -> A -> M S B) l b s :
  (forall b a s, In a l -> f b a s = g b a s) ->
  fold_in_order f l b s = fold_in_order g l b s.
Proof.
  revert b s. induction l as [|x l IH]; intros b s H; cbn; [reflexivity|].
  rewrite H by now left. destruct (g b x s) as [[b'| | |] s1]; try reflexivity.
  apply IH. intros; apply H; now right.
Qed.
Lemma fold_in_order_pure {S A B} (f : B -> A -> M S B) (g : B -> A -> B) l b s :
  (forall b a s, In a l -> f b a s = (Ok (g b a), s)) ->
  fold_in_order f l b s = (Ok (fold_left g l b), s).
Proof.
  revert b s. induction l as [|x l IH]; intros b s H; cbn; [reflexivity|].
  rewrite H by now left. apply IH. intros; apply H; now right.
Qed.

Lemma fold_gives_ret {S A B} fuel (it : iter S A) (l : list A) b (body : B -> A -> M S B) s :
  gives it (map ret l) nodrop -> length l < fuel ->
  for_each fuel it b body s = fold_in_order body l b s.
Proof.
  intros G HF. rewrite (for_each_gives body _ fuel it _ b s G) by now rewrite map_length.
  rewrite foldm_in_order, fold_in_order_map. now apply fold_in_order_ext.
Qed.

Lemma vsum_spec {S T} (o : ops S T) n v s : length v = n ->
  vsum o n v s = fold_in_order (fun acc x => y <- o_clone o x ;; o_add o acc y) v (o_zero o) s.
Proof.
  intros Hv. unfold vsum, fold, cloned.
  rewrite (for_each_gives _ _ _ _ _ _ s (imap_ret_gives (o_clone o) _ _ _ (slice_iter_gives v)));
    [|rewrite map_length; lia].
  rewrite foldm_in_order, fold_in_order_map. reflexivity.
Qed.

(** One term of a dot product: clone both factors, multiply. *)
Definition mul2 {S T} (o : ops S T) (x y : T) : M S T :=
  a <- o_clone o x ;; b <- o_clone o y ;; o_mul o a b.

Lemma dot_gives {S T} (d : ety S T) (o : ops S T) (ia ib : iter S T) (a b : list T) :
  gives ia (map ret a) nodrop -> gives ib (map ret b) nodrop -> length a = length b ->
  gives (imap (fun p => o_mul o (fst p) (snd p)) (zip d (cloned (o_clone o) ia) (cloned (o_clone o) ib)))
    (map (fun p => q <- pairm d (o_clone o (fst p)) (o_clone o (snd p)) ;; o_mul o (fst q) (snd q)) (combine a b)) nodrop.
Proof.
  intros Ga Gb HL. unfold cloned.
  pose proof (imap_ret_gives (o_clone o) _ _ _ Ga) as Ga'. pose proof (imap_ret_gives (o_clone o) _ _ _ Gb) as Gb'.
  assert (G : gives (zip d (imap (o_clone o) ia) (imap (o_clone o) ib))
     (map (fun p => pairm d (fst p) (snd p)) (combine (map (o_clone o) a) (map (o_clone o) b))) nodrop).
  { apply (zip_gives d _ _ _ _ nodrop nodrop Ga' Gb'); [now rewrite !map_length|reflexivity|right; reflexivity]. }
  rewrite combine_map, map_map in G.
  pose proof (imap_gives (fun p => o_mul o (fst p) (snd p)) _ _ _ G) as G2. rewrite map_map in G2. exact G2.
Qed.

Lemma vdot_spec {S T} (o : ops S T) n a b s : length a = n -> length b = n ->
  vdot o n a b s
  = fold_in_order (fun acc p => t <- mul2 o (fst p) (snd p) ;; o_add o acc t) (combine a b) (o_zero o) s.
Proof.
  intros Ha Hb. unfold vdot, fold.
  rewrite (for_each_gives _ _ _ _ _ _ s (dot_gives ref_ety o _ _ a b (slice_iter_gives a) (slice_iter_gives b) ltac:(congruence)));
    [|rewrite map_length, combine_length; lia].
  rewrite foldm_in_order, fold_in_order_map. apply fold_in_order_ext.
  intros acc [x y] s0 _. unfold mul2, bind, pairm; cbn.
  destruct (o_clone o x s0) as [[u| | |] s1]; try reflexivity.
  destruct (o_clone o y s1) as [[w| | |] s2]; try reflexivity.
Qed.

Lemma vnorm_spec {S T} (o : fops S T) n v s : length v = n ->
  vnorm o n v s
  = (p <- (fun s => fold_in_order (fun acc x => y <- o_clone (f_ops o) x ;; z <- f_powi2 o y ;; o_add (f_ops o) acc z)
             v (o_zero (f_ops o)) s) ;; f_sqrt o p) s.
Proof.
  intros Hv. unfold vnorm.
  assert (E : fold (Datatypes.S n) (imap (f_powi2 o) (cloned (o_clone (f_ops o)) (viter v)))
            (o_zero (f_ops o)) (o_add (f_ops o)) s
    = fold_in_order (fun acc x => y <- o_clone (f_ops o) x ;; z <- f_powi2 o y ;; o_add (f_ops o) acc z) v (o_zero (f_ops o)) s).
  { unfold fold, cloned.
    pose proof (imap_gives (f_powi2 o) _ _ _ (imap_ret_gives (o_clone (f_ops o)) _ _ _ (slice_iter_gives v))) as G.
    rewrite map_map in G.
    rewrite (for_each_gives _ _ _ _ _ _ s G); [|rewrite map_length; lia].
    rewrite foldm_in_order, fold_in_order_map. apply fold_in_order_ext. intros b x s1 _. unfold bind.
    destruct (o_clone (f_ops o) x s1) as [[y| | |] s2]; reflexivity. }
  unfold bind at 1 2. now rewrite E.
Qed.

Lemma vis_zero_spec {S T} (o : ops S T) n v (s : S) : length v = n ->
  vis_zero o n v s = (Ok (forallb (o_is_zero o) v), s).
Proof.
  intros Hv. unfold vis_zero, viter.
  rewrite (iall_gives _ _ _ _ _ s (slice_iter_gives v)); [|rewrite map_length; unfold as_slice; lia].
  unfold as_slice. clear Hv. revert s. induction v as [|x v IH]; intros s; cbn; [reflexivity|].
  destruct (o_is_zero o x); cbn; [apply IH|reflexivity].
Qed.

Lemma allm_all {S A} (p : A -> M S bool) l s : allm false (map ret l) nodrop p s = all_in_order p l s.
Proof.
  revert s. induction l as [|x l IH]; intros s; cbn; [reflexivity|].
  destruct (p x s) as [[[]| | |] s1]; cbn; auto.
Qed.
Lemma allm_any {S A} (p : A -> M S bool) l s : allm true (map ret l) nodrop p s = any_in_order p l s.
Proof.
  revert s. induction l as [|x l IH]; intros s; cbn; [reflexivity|].
  destruct (p x s) as [[[]| | |] s1]; cbn; auto.
Qed.

(** ** In-place operations *)
(** What the body does to one slot, as a function of the old content and the operand. *)
Definition slot {S T U} (body : U -> M (T * S) unit) (p : T * U) : M S T :=
  fun s => let '(r, (y, s')) := body (snd p) (fst p, s) in (omap (fun _ => y) r, s').
Definition slot0 {S T} (body : M (T * S) unit) (x : T) : M S T :=
  fun s => let '(r, (y, s')) := body (x, s) in (omap (fun _ => y) r, s').

Lemma iter_mut_ok {S T} (body : M (T * S) unit) v s w s' :
  in_order (slot0 body) v s = (Ok w, s') -> iter_mut_for body v s = (Ok tt, (w, s')).
Proof.
  revert s w s'. induction v as [|x v IH]; intros s w s' H; cbn in *; [now injection H as <- <-|].
  unfold slot0 at 1 in H. destruct (body (x, s)) as [[[]| | |] [y s1]]; cbn in H; try discriminate.
  destruct (in_order (slot0 body) v s1) as [[w1| | |] s2] eqn:E; try discriminate.
  injection H as <- <-. now rewrite (IH _ _ _ E).
Qed.
Lemma iter_mut_panic {S T} (body : M (T * S) unit) v1 x v2 s w1 s1 x' s2 :
  in_order (slot0 body) v1 s = (Ok w1, s1) -> body (x, s1) = (Panic, (x', s2)) ->
  iter_mut_for body (v1 ++ x :: v2) s = (Panic, (w1 ++ x' :: v2, s2)).
Proof.
  revert s w1. induction v1 as [|y v1 IH]; intros s w1 H HB; cbn in *.
  - injection H as <- <-. now rewrite HB.
  - unfold slot0 at 1 in H. destruct (body (y, s)) as [[[]| | |] [y' s3]]; cbn in H; try discriminate.
    destruct (in_order (slot0 body) v1 s3) as [[w| | |] s4] eqn:E; try discriminate.
    injection H as <- <-. now rewrite (IH _ _ E HB).
Qed.
Lemma iter_mut_zip_ok {S T U} (body : U -> M (T * S) unit) dr : (forall s, dr 0 s = s) ->
  forall v us it s w s', gives it (map ret us) dr -> length v = length us ->
  in_order (slot body) (combine v us) s = (Ok w, s') -> iter_mut_zip_for it body v s = (Ok tt, (w, s')).
Proof.
  intros H0. induction v as [|x v IH]; intros us it s w s' G HL H; destruct us as [|u us]; try discriminate.
  - cbn in *. injection H as <- <-. destruct G as [D _]. rewrite (oos_eq _ _ _ _ D). now rewrite H0.
  - destruct G as [Gd G]. destruct (G s) as (it' & E & D & K). specialize (K I). injection HL as HL.
    cbn in H |- *. rewrite E. cbn. unfold slot at 1 in H. cbn in H.
    destruct (body u (x, s)) as [[[]| | |] [y s1]]; cbn in H; try discriminate.
    destruct (in_order (slot body) (combine v us) s1) as [[w1| | |] s2] eqn:E2; try discriminate.
    injection H as <- <-. now rewrite (IH _ _ _ _ _ K HL E2).
Qed.
Lemma iter_mut_zip_panic {S T U} (body : U -> M (T * S) unit) dr :
  forall v1 x v2 u1 u u2 it s w1 s1 x' s2, gives it (map ret (u1 ++ u :: u2)) dr -> length v1 = length u1 ->
  in_order (slot body) (combine v1 u1) s = (Ok w1, s1) -> body u (x, s1) = (Panic, (x', s2)) ->
  iter_mut_zip_for it body (v1 ++ x :: v2) s = (Panic, (w1 ++ x' :: v2, dr (length u2) s2)).
Proof.
  induction v1 as [|y v1 IH]; intros x v2 u1 u u2 it s w1 s1 x' s2 G HL H HB; destruct u1 as [|u0 u1]; try discriminate;
    destruct G as [Gd G]; destruct (G s) as (it' & E & D & K); specialize (K I); cbn in H |- *; rewrite E; cbn.
  - injection H as <- <-. rewrite HB. rewrite (oos_eq _ _ _ _ D). now rewrite map_length.
  - injection HL as HL. unfold slot at 1 in H. cbn in H.
    destruct (body u0 (y, s)) as [[[]| | |] [y' s3]]; cbn in H; try discriminate.
    destruct (in_order (slot body) (combine v1 u1) s3) as [[w| | |] s4] eqn:E2; try discriminate.
    injection H as <- <-. now rewrite (IH _ _ _ _ _ _ _ _ _ _ _ K HL E2 HB).
Qed.
