(** * PropsCont.v - properties C23-C32, C34, C35, C57: reductions, ordering, clamping,
    equality, cloning, construction, closures. *)
From Coq Require Import List Arith Bool Lia ZArith SpecFloat.
From Verif Require Import Rust Iter Elem VectorM MatIterM MatrixM ArithM SpecCommon Harness
  IterProofs OwnProofs VecProofs MatProofs AccProofs.
Import ListNotations.
Open Scope nat_scope.

(** ** C24: max, min. *)
Theorem C24_vector_max_min :
  forall S T (clone : T -> M S T) (cmp : T -> T -> comparison) n v (s : S),
  length v = n -> 0 < n -> total_preorder cmp ->
  (exists pre x post, v = pre ++ x :: post /\ last_max cmp pre x post /\ vmax clone cmp n v s = clone x s) /\
  (exists pre x post, v = pre ++ x :: post /\ first_min cmp pre x post /\ vmin clone cmp n v s = clone x s).
Proof. intros. split; [now apply vmax_spec|now apply vmin_spec]. Qed.
Print Assumptions C24_vector_max_min.
Theorem C24_matrix_max_min :
  forall S T (clone : T -> M S T) (cmp : T -> T -> comparison) n m (s : S),
  rect n n m -> 0 < n -> total_preorder cmp -> faithful clone ->
  (exists pre x post, concat m = pre ++ x :: post /\ last_max cmp pre x post /\ mmax clone cmp n m s = (Ok x, s)) /\
  (exists pre x post, concat m = pre ++ x :: post /\ first_min cmp pre x post /\ mmin clone cmp n m s = (Ok x, s)).
Proof. intros. split; [now apply mmax_spec|now apply mmin_spec]. Qed.
Print Assumptions C24_matrix_max_min.
Definition cmp_fst (x y : nat * nat) : comparison := Nat.compare (fst x) (fst y).
Lemma cmp_fst_preorder : total_preorder cmp_fst.
Proof.
  split; unfold cmp_fst; intros.
  - apply Nat.compare_antisym.
  - intros HG. apply Nat.compare_gt_iff in HG.
    assert (A : fst x <= fst y) by (destruct (Nat.compare_spec (fst x) (fst y)); congruence || lia).
    assert (B : fst y <= fst z) by (destruct (Nat.compare_spec (fst y) (fst z)); congruence || lia). lia.
Qed.
Example C24_ex : total_preorder cmp_fst /\
  vmax ret cmp_fst 4 [(1, 0); (3, 1); (3, 2); (1, 3)] tt = (Ok (3, 2), tt) /\
  vmin ret cmp_fst 4 [(1, 0); (3, 1); (3, 2); (1, 3)] tt = (Ok (1, 0), tt) /\
  mmax ret cmp_fst 2 [[(1, 0); (3, 1)]; [(3, 2); (1, 3)]] tt = (Ok (3, 2), tt).
Proof. split; [exact cmp_fst_preorder|]. vm_compute. auto. Qed.

(** ** C25: max_by, min_by.  The comparator may change the world; [tick] is what each
    call does to it, so the final world counts the calls. *)
Lemma iter_out {A} (f : A -> A) k x : Nat.iter k f (f x) = f (Nat.iter k f x).
Proof. induction k as [|k IH]; [reflexivity|]. change (f (Nat.iter k f (f x)) = f (f (Nat.iter k f x))). now rewrite IH. Qed.
Lemma fold_tick {S T} (comp : T -> T -> M S comparison) cmp tick l : (forall x y s, comp x y s = (Ok (cmp x y), tick s)) ->
  forall x s, fold_in_order (fun st y => o <- comp y st ;; ret (match o with Gt => y | _ => st end)) l x s
  = (Ok (fold_left (fun a y => match cmp y a with Gt => y | _ => a end) l x), Nat.iter (length l) tick s).
Proof.
  intros H. induction l as [|y l IH]; intros x s; [reflexivity|]. cbn [fold_in_order fold_left length]. unfold bind at 1.
  rewrite H. unfold ret. rewrite IH, iter_out. reflexivity.
Qed.
Lemma rect_concat {T} row col (m : list (list T)) : rect row col m -> length (concat m) = row * col.
Proof.
  intros [L F]. subst row. induction F; cbn; [reflexivity|]. rewrite app_length. lia.
Qed.
Lemma flip_preorder {T} (cmp : T -> T -> comparison) : total_preorder cmp -> total_preorder (fun a b => cmp b a).
Proof. intros [A B]. split; intros; [apply A|]. eapply B; eauto. Qed.
Lemma flip_first {T} (cmp : T -> T -> comparison) pre x post : total_preorder cmp ->
  first_max (fun a b => cmp b a) pre x post -> first_min cmp pre x post.
Proof.
  intros TP [H1 H2]. split; (eapply Forall_impl; [|eassumption]); cbn; intros y Hy.
  - now apply (cmp_gt_lt cmp TP).
  - intros HL. apply Hy. now apply (cmp_gt_lt cmp TP).
Qed.
Theorem C25_vector_max_by :
  forall S T (clone : T -> M S T) (comp : T -> T -> M S comparison) cmp tick n v (s : S),
  length v = n -> 0 < n -> faithful clone -> total_preorder cmp ->
  (forall x y s, comp x y s = (Ok (cmp x y), tick s)) ->
  (exists pre x post, v = pre ++ x :: post /\ first_max cmp pre x post /\
     vmax_by clone comp n v s = (Ok x, Nat.iter (n - 1) tick s)) /\
  (exists pre x post, v = pre ++ x :: post /\ first_min cmp pre x post /\
     vmin_by clone comp n v s = (Ok x, Nat.iter (n - 1) tick s)).
Proof.
  intros S T clone comp cmp tick n v s L Hn HC TP H. destruct v as [|x l]; cbn in L; [lia|].
  assert (G : forall comp cmp, total_preorder cmp -> (forall x y s, comp x y s = (Ok (cmp x y), tick s)) ->
    exists pre y post, x :: l = pre ++ y :: post /\ first_max cmp pre y post /\
     vmax_by clone comp n (x :: l) s = (Ok y, Nat.iter (n - 1) tick s)).
  { clear comp cmp TP H. intros comp cmp TP H.
    destruct (scan_first_max cmp TP l [] x []) as (pre & y & post & E1 & E2 & E3); [split; constructor|].
    exists pre, y, post. split; [exact E1|]. split; [exact E2|]. rewrite vmax_by_fold by exact L.
    unfold bind at 1. rewrite (fold_tick comp cmp tick l H), E3, HC. now replace (n - 1) with (length l) by lia. }
  split; [now apply G|]. destruct (G (fun a b => comp b a) (fun a b => cmp b a) (flip_preorder _ TP)) as (pre & y & post & E1 & E2 & E3).
  { intros; apply H. }
  exists pre, y, post. split; [exact E1|]. split; [now apply flip_first|]. exact E3.
Qed.
Print Assumptions C25_vector_max_by.
Theorem C25_matrix_max_by :
  forall S T (clone : T -> M S T) (comp : T -> T -> M S comparison) cmp tick n m (s : S),
  rect n n m -> 0 < n -> faithful clone -> total_preorder cmp ->
  (forall x y s, comp x y s = (Ok (cmp x y), tick s)) ->
  (exists pre x post, concat m = pre ++ x :: post /\ first_max cmp pre x post /\
     mmax_by clone comp n m s = (Ok x, Nat.iter (n * n - 1) tick s)) /\
  (exists pre x post, concat m = pre ++ x :: post /\ first_min cmp pre x post /\
     mmin_by clone comp n m s = (Ok x, Nat.iter (n * n - 1) tick s)).
Proof.
  intros S T clone comp cmp tick n m s R Hn HC TP H. pose proof (rect_concat _ _ _ R) as L.
  destruct (concat m) as [|x l] eqn:E; cbn in L; [nia|].
  assert (G : forall comp cmp, total_preorder cmp -> (forall x y s, comp x y s = (Ok (cmp x y), tick s)) ->
    exists pre y post, x :: l = pre ++ y :: post /\ first_max cmp pre y post /\
     mmax_by clone comp n m s = (Ok y, Nat.iter (n * n - 1) tick s)).
  { clear comp cmp TP H. intros comp cmp TP H.
    destruct (scan_first_max cmp TP l [] x []) as (pre & y & post & E1 & E2 & E3); [split; constructor|].
    exists pre, y, post. split; [exact E1|]. split; [exact E2|]. rewrite (mmax_by_fold clone comp n m x l s R E).
    unfold bind at 1. rewrite (fold_tick comp cmp tick l H), E3, HC. now replace (n * n - 1) with (length l) by lia. }
  split; [now apply G|]. destruct (G (fun a b => comp b a) (fun a b => cmp b a) (flip_preorder _ TP)) as (pre & y & post & E1 & E2 & E3).
  { intros; apply H. }
  exists pre, y, post. split; [exact E1|]. split; [now apply flip_first|]. exact E3.
Qed.
Print Assumptions C25_matrix_max_by.
(** For a comparator that is no order at all: still no panic, the same number of
    calls, and the result is an element. *)
Theorem C25_any_comparator :
  forall S T (clone : T -> M S T) (comp : T -> T -> M S comparison) cmp tick n v m (s : S),
  length v = n -> rect n n m -> 0 < n -> faithful clone ->
  (forall x y s, comp x y s = (Ok (cmp x y), tick s)) ->
  (exists x, In x v /\ vmax_by clone comp n v s = (Ok x, Nat.iter (n - 1) tick s)) /\
  (exists x, In x (concat m) /\ mmax_by clone comp n m s = (Ok x, Nat.iter (n * n - 1) tick s)).
Proof.
  intros S T clone comp cmp tick n v m s L R Hn HC H.
  assert (I : forall l x, In (fold_left (fun a y => match cmp y a with Gt => y | _ => a end) l x) (x :: l)).
  { induction l as [|y l IH]; intros x; [now left|]. cbn [fold_left].
    destruct (cmp y x); [destruct (IH x) as [<-|]; [now left|right; now right]
                        |destruct (IH x) as [<-|]; [now left|right; now right]|right; apply IH]. }
  split.
  - destruct v as [|x l]; cbn in L; [lia|]. eexists. split; [apply (I l x)|]. rewrite vmax_by_fold by exact L.
    unfold bind at 1. rewrite (fold_tick comp cmp tick l H), HC. now replace (n - 1) with (length l) by lia.
  - pose proof (rect_concat _ _ _ R) as LL. destruct (concat m) as [|x l] eqn:E; cbn in LL; [nia|].
    eexists. split; [apply (I l x)|]. rewrite (mmax_by_fold clone comp n m x l s R E).
    unfold bind at 1. rewrite (fold_tick comp cmp tick l H), HC. now replace (n * n - 1) with (length l) by lia.
Qed.
Print Assumptions C25_any_comparator.
Example C25_ex :
  let comp := fun x y s => (Ok (cmp_fst x y), Datatypes.S s) in
  vmax_by ret comp 4 [(1, 0); (3, 1); (3, 2); (1, 3)] 0 = (Ok (3, 1), 3) /\
  vmin_by ret comp 4 [(2, 0); (1, 1); (3, 2); (1, 3)] 0 = (Ok (1, 1), 3) /\
  mmax_by ret comp 2 [[(1, 0); (3, 1)]; [(3, 2); (1, 3)]] 0 = (Ok (3, 1), 3).
Proof. vm_compute. auto. Qed.

(** ** C26: clamping.  [y] is what the entry [x] must become. *)
Definition clamps {T} (cmp : T -> T -> comparison) (lo hi x y : T) : Prop :=
  (cmp lo y <> Gt /\ cmp y hi <> Gt) /\
  (cmp lo x <> Gt -> cmp x hi <> Gt -> y = x) /\
  (cmp x lo = Lt -> y = lo) /\ (cmp x hi = Gt -> y = hi).
(** A total order: a total preorder whose equivalent values are equal. *)
Definition total_order {T} (cmp : T -> T -> comparison) : Prop :=
  total_preorder cmp /\ forall x y, cmp x y = Eq -> x = y.

Lemma clampx_clamps {T} (cmp : T -> T -> comparison) lo hi x : total_order cmp -> cmp lo hi <> Gt ->
  clamps cmp lo hi x (clampx cmp lo hi x).
Proof.
  intros [TP AE] H. unfold clamps, clampx, cmp_min, cmp_max.
  pose proof (cmp_refl cmp TP) as RF. pose proof (cmp_anti cmp TP) as AN. destruct TP as [_ TR].
  destruct (cmp x lo) eqn:E1; rewrite (AN x lo), E1; cbn [CompOpp].
  - apply AE in E1. subst x. rewrite (AN lo hi). destruct (cmp lo hi) eqn:E2; cbn [CompOpp].
    + apply AE in E2. subst hi. rewrite RF. repeat split; congruence.
    + rewrite E2, RF. repeat split; congruence.
    + congruence.
  - rewrite (AN lo hi). destruct (cmp lo hi) eqn:E2; cbn [CompOpp].
    + apply AE in E2. subst hi. rewrite RF. repeat split; congruence.
    + rewrite E2, RF. repeat split; try congruence. intros HX. exfalso. apply (TR x lo hi); congruence.
    + congruence.
  - rewrite (AN x hi). destruct (cmp x hi) eqn:E2; cbn [CompOpp].
    + apply AE in E2. subst hi. rewrite RF. repeat split; try congruence.
    + rewrite (AN x lo), E1, E2. cbn. repeat split; congruence.
    + rewrite RF. repeat split; congruence.
Qed.
Lemma clampx_mono {T} (cmp : T -> T -> comparison) lo hi x x' : total_order cmp ->
  cmp x x' <> Gt -> cmp (clampx cmp lo hi x) (clampx cmp lo hi x') <> Gt.
Proof.
  intros [TP AE] H. unfold clampx, cmp_min, cmp_max.
  pose proof (cmp_refl cmp TP) as RF. pose proof (cmp_anti cmp TP) as AN. pose proof TP as [_ TR].
  assert (HM : cmp (match cmp x lo with Lt => lo | _ => x end) (match cmp x' lo with Lt => lo | _ => x' end) <> Gt).
  { destruct (cmp x lo) eqn:E1, (cmp x' lo) eqn:E2; try congruence; try (rewrite RF; congruence).
    - apply AE in E2. subst. rewrite RF. congruence.
    - rewrite AN, E2. cbn. congruence.
    - exfalso. apply (TR x x' lo); congruence. }
  revert HM. generalize (match cmp x lo with Lt => lo | _ => x end) (match cmp x' lo with Lt => lo | _ => x' end).
  intros p q HM. destruct (cmp hi p) eqn:E1, (cmp hi q) eqn:E2; try (rewrite RF; congruence); try assumption.
  - apply AE in E1. subst p. exact HM.
  - exfalso. apply (TR hi p q); congruence.
  - apply AE in E2. subst q. exact HM.
  - rewrite AN, E1. cbn. congruence.
Qed.
Lemma clampx_crossed {T} (cmp : T -> T -> comparison) lo hi x : total_order cmp -> cmp lo hi = Gt ->
  clampx cmp lo hi x = hi.
Proof.
  intros [TP AE] H. unfold clampx, cmp_min, cmp_max. pose proof (cmp_anti cmp TP) as AN. pose proof TP as [_ TR].
  destruct (cmp x lo) eqn:E1.
  - apply AE in E1. subst x. now rewrite (AN lo hi), H.
  - now rewrite (AN lo hi), H.
  - assert (cmp hi x <> Gt); [|destruct (cmp hi x); congruence]. apply (TR hi lo x); [rewrite (AN lo hi), H; cbn; congruence|].
    rewrite (AN x lo), E1. cbn. congruence.
Qed.
Lemma clamps_id {T} (cmp : T -> T -> comparison) lo hi x y : clamps cmp lo hi x y -> forall z, clamps cmp lo hi y z -> z = y.
Proof. intros ((A & B) & _) z (_ & C & _). auto. Qed.

Lemma clamped_vec {S T} c (d : ety S T) clone cmp n v lo hi s : length v = n -> faithful clone ->
  vclamped c d clone cmp n v lo hi s = (Ok (map (clampx cmp lo hi) v), s).
Proof. intros L HC. rewrite vclamped_spec by exact L. apply in_order_pure. intros; apply HC. Qed.
Lemma clamped_mat {S T} c (d : ety S T) clone cmp row col m lo hi s : rect row col m -> faithful clone ->
  mclamped c d clone cmp row col m lo hi s = (Ok (map (map (clampx cmp lo hi)) m), s).
Proof. intros R HC. rewrite mclamped_spec by exact R. apply in_order_pure. intros. apply in_order_pure. intros; apply HC. Qed.

Theorem C26_clamped :
  forall S T (c : cfg) (d : ety S T) (clone : T -> M S T) cmp n v lo hi (s : S),
  length v = n -> faithful clone -> total_order cmp -> cmp lo hi <> Gt ->
  exists w, Forall2 (clamps cmp lo hi) v w /\
    vclamped c d clone cmp n v lo hi s = (Ok w, s) /\
    vclamp clone cmp lo hi (v, s) = (Ok tt, (w, s)) /\
    vclamped c d clone cmp n w lo hi s = (Ok w, s).
Proof.
  intros S T c d clone cmp n v lo hi s L HC TO H. exists (map (clampx cmp lo hi) v). repeat split.
  - clear L. induction v; cbn; constructor; auto. now apply clampx_clamps.
  - now apply clamped_vec.
  - apply vclamp_ok. apply in_order_pure. intros; apply HC.
  - rewrite clamped_vec by (rewrite ?map_length; assumption). f_equal. f_equal. rewrite map_map. apply map_ext. intros x.
    pose proof (clampx_clamps cmp lo hi x TO H). pose proof (clampx_clamps cmp lo hi (clampx cmp lo hi x) TO H).
    eapply clamps_id; eauto.
Qed.
Print Assumptions C26_clamped.
Theorem C26_matrix_clamped :
  forall S T (c : cfg) (d : ety S T) (clone : T -> M S T) cmp row col m lo hi (s : S),
  rect row col m -> faithful clone -> total_order cmp -> cmp lo hi <> Gt ->
  exists w, Forall2 (Forall2 (clamps cmp lo hi)) m w /\
    mclamped c d clone cmp row col m lo hi s = (Ok w, s) /\
    mclamp clone cmp lo hi (m, s) = (Ok tt, (w, s)) /\
    mclamped c d clone cmp row col w lo hi s = (Ok w, s).
Proof.
  intros S T c d clone cmp row col m lo hi s R HC TO H. exists (map (map (clampx cmp lo hi)) m). repeat split.
  - clear R. induction m as [|r m IH]; cbn; constructor; auto. induction r; cbn; constructor; auto. now apply clampx_clamps.
  - now apply clamped_mat.
  - apply mclamp_ok. apply in_order_pure. intros. apply in_order_pure. intros; apply HC.
  - rewrite clamped_mat.
    + f_equal. f_equal. rewrite map_map. apply map_ext. intros r. rewrite map_map. apply map_ext. intros x.
      pose proof (clampx_clamps cmp lo hi x TO H). pose proof (clampx_clamps cmp lo hi (clampx cmp lo hi x) TO H).
      eapply clamps_id; eauto.
    + split; [rewrite map_length; apply R|]. rewrite Forall_forall. intros r Hr. apply in_map_iff in Hr.
      destruct Hr as (r' & <- & Hin). rewrite map_length. eapply rect_row; eauto.
    + exact HC.
Qed.
Print Assumptions C26_matrix_clamped.
Theorem C26_monotone :
  forall S T (c : cfg) (d : ety S T) (clone : T -> M S T) cmp n v v' lo hi (s : S) w w',
  length v = n -> length v' = n -> faithful clone -> total_order cmp ->
  Forall2 (fun x y => cmp x y <> Gt) v v' ->
  vclamped c d clone cmp n v lo hi s = (Ok w, s) -> vclamped c d clone cmp n v' lo hi s = (Ok w', s) ->
  Forall2 (fun x y => cmp x y <> Gt) w w'.
Proof.
  intros S T c d clone cmp n v v' lo hi s w w' L L' HC TO F E1 E2.
  rewrite clamped_vec in E1, E2 by assumption. injection E1 as <-. injection E2 as <-. clear -F TO.
  induction F; cbn; constructor; auto. now apply clampx_mono.
Qed.
Print Assumptions C26_monotone.
Theorem C26_crossed_bounds :
  forall S T (c : cfg) (d : ety S T) (clone : T -> M S T) cmp n v row col m lo hi (s : S),
  length v = n -> rect row col m -> faithful clone -> total_order cmp -> cmp lo hi = Gt ->
  vclamped c d clone cmp n v lo hi s = (Ok (repeat hi n), s) /\
  vclamp clone cmp lo hi (v, s) = (Ok tt, (repeat hi n, s)) /\
  mclamped c d clone cmp row col m lo hi s = (Ok (repeat (repeat hi col) row), s).
Proof.
  intros S T c d clone cmp n v row col m lo hi s L R HC TO H.
  assert (E : forall l : list T, map (clampx cmp lo hi) l = repeat hi (length l)).
  { induction l; cbn; [reflexivity|]. f_equal; auto. now apply clampx_crossed. }
  split; [|split].
  - rewrite clamped_vec by assumption. rewrite E. now rewrite L.
  - erewrite vclamp_ok; [|apply in_order_pure; intros; apply HC]. rewrite E. now rewrite L.
  - rewrite clamped_mat by assumption. f_equal. f_equal. destruct R as [<- F]. clear -F E.
    induction F as [|r m Lr F IH]; cbn; [reflexivity|]. now rewrite E, Lr, IH.
Qed.
Print Assumptions C26_crossed_bounds.
Example C26_ex : total_order Nat.compare /\
  vclamped dbg copy_ety ret Nat.compare 4 [1; 5; 9; 3] 3 6 ([] : list nat) = (Ok [3; 5; 6; 3], []) /\
  vclamp ret Nat.compare 3 6 ([1; 5; 9; 3], tt) = (Ok tt, ([3; 5; 6; 3], tt)) /\
  vclamped dbg copy_ety ret Nat.compare 4 [1; 5; 9; 3] 6 3 ([] : list nat) = (Ok [3; 3; 3; 3], []).
Proof.
  split; [|vm_compute; auto]. split; [split|].
  - intros. apply Nat.compare_antisym.
  - intros x y z A B HG. apply Nat.compare_gt_iff in HG.
    assert (x <= y) by (destruct (Nat.compare_spec x y); congruence || lia).
    assert (y <= z) by (destruct (Nat.compare_spec y z); congruence || lia). lia.
  - intros x y. apply Nat.compare_eq_iff.
Qed.

(** ** C27: equality. *)
Theorem C27_equality :
  forall T U (peq : T -> U -> bool) (a : list T) (b : list U),
  veq peq a b = true <-> Forall2 (fun x y => peq x y = true) a b.
Proof. intros. apply slice_eq_forall2. Qed.
Print Assumptions C27_equality.
Lemma Forall2_nth {A B} (P : A -> B -> Prop) a b : length a = length b ->
  (Forall2 P a b <-> forall i x y, nth_error a i = Some x -> nth_error b i = Some y -> P x y).
Proof.
  revert b. induction a as [|u a IH]; intros [|v b] L; cbn in L; try discriminate.
  - split; [intros _ [|i]; discriminate|constructor].
  - injection L as L. split.
    + intros F [|i] x y; cbn; inv F; [now intros [= <-] [= <-]|]. revert i x y. now apply (IH b L).
    + intros H. constructor; [now apply (H 0)|]. apply (IH b L). intros i. apply (H (Datatypes.S i)).
Qed.
Theorem C27_matrix_equality :
  forall T (peq : T -> T -> bool) (a b : list (list T)) row col,
  rect row col a -> rect row col b ->
  (meq peq a b = true <->
   forall i j x y, entry a i j = Some x -> entry b i j = Some y -> peq x y = true).
Proof.
  intros T peq a b row col Ra Rb. unfold meq. rewrite C27_equality.
  rewrite Forall2_nth by (destruct Ra, Rb; congruence). unfold entry. split.
  - intros H i j x y. destruct (nth_error a i) as [ra|] eqn:Ea; [|discriminate]. destruct (nth_error b i) as [rb|] eqn:Eb; [|discriminate].
    specialize (H i ra rb Ea Eb). apply C27_equality in H. revert j x y. apply Forall2_nth; [|exact H].
    now rewrite (rect_row _ _ _ _ Ra (nth_error_In _ _ Ea)), (rect_row _ _ _ _ Rb (nth_error_In _ _ Eb)).
  - intros H i ra rb Ea Eb. apply C27_equality. apply Forall2_nth.
    + now rewrite (rect_row _ _ _ _ Ra (nth_error_In _ _ Ea)), (rect_row _ _ _ _ Rb (nth_error_In _ _ Eb)).
    + intros j x y. specialize (H i j x y). now rewrite Ea, Eb in H.
Qed.
Print Assumptions C27_matrix_equality.
Theorem C27_equivalence :
  forall T (peq : T -> T -> bool),
  ((forall x, peq x x = true) -> (forall a, veq peq a a = true) /\ (forall m, meq peq m m = true)) /\
  ((forall x y, peq x y = peq y x) ->
     (forall a b, veq peq a b = veq peq b a) /\ (forall a b, meq peq a b = meq peq b a)) /\
  ((forall x y z, peq x y = true -> peq y z = true -> peq x z = true) ->
     (forall a b e, veq peq a b = true -> veq peq b e = true -> veq peq a e = true) /\
  (forall a b e, meq peq a b = true -> meq peq b e = true -> meq peq a e = true)).
Proof.
  assert (R : forall T (peq : T -> T -> bool), (forall x, peq x x = true) -> forall a, veq peq a a = true).
  { intros T peq H a. apply C27_equality. induction a; constructor; auto. }
  assert (Y : forall T (peq : T -> T -> bool), (forall x y, peq x y = peq y x) -> forall a b, veq peq a b = veq peq b a).
  { intros T peq H. unfold veq, as_slice. induction a as [|x a IH]; intros [|y b]; cbn; auto. now rewrite H, IH. }
  assert (Tr : forall T (peq : T -> T -> bool), (forall x y z, peq x y = true -> peq y z = true -> peq x z = true) ->
     forall a b e, veq peq a b = true -> veq peq b e = true -> veq peq a e = true).
  { intros T peq H a b e. rewrite !C27_equality. intros F. revert e. induction F; intros e G; inv G; constructor; eauto. }
  intros T peq. unfold meq. split; [|split]; intros H; split; eauto.
Qed.
Print Assumptions C27_equivalence.
Example C27_ex : veq Nat.eqb [1; 2; 3] [1; 2; 3] = true /\ veq Nat.eqb [1; 2; 3] [1; 2; 4] = false /\
  meq Nat.eqb [[1; 2]; [3; 4]] [[1; 2]; [3; 4]] = true /\ meq Nat.eqb [[1; 2]; [3; 4]] [[1; 2]; [3; 5]] = false.
Proof. vm_compute. auto. Qed.

(** ** C28: [impl Eq for Vector<T, N> where T: PartialEq] (src/vector.rs:209-214; Matrix:
    src/matrix/mod.rs:295-301).  The contract of [PartialEq] is symmetry and transitivity;
    [Eq] adds reflexivity. *)
Definition partial_equality {T} (peq : T -> T -> bool) : Prop :=
  (forall x y, peq x y = peq y x) /\ (forall x y z, peq x y = true -> peq y z = true -> peq x z = true).
Definition C28_statement : Prop :=
  forall T (peq : T -> T -> bool), partial_equality peq -> forall v : list T, veq peq v v = true.
(** IEEE equality of floats is a partial equality: *)
Lemma sfeqb_spec x y : SFeqb x y = true ->
  (exists b b', x = S754_zero b /\ y = S754_zero b') \/ (x = y /\ x <> S754_nan).
Proof.
  destruct x as [b|b| |b m e], y as [b'|b'| |b' m' e']; unfold SFeqb; cbn; try (destruct b); try (destruct b'); try discriminate; intros H;
    try (left; do 2 eexists; split; reflexivity); right; (split; [|discriminate]); try reflexivity;
    destruct (Z.compare_spec e e'); try discriminate; subst e';
    [ destruct (Pos.compare_cont Eq m m') eqn:E; cbn in H; try discriminate; apply Pos.compare_eq in E
    | destruct (Pos.compare_cont Eq m m') eqn:E; cbn in H; try discriminate; apply Pos.compare_eq in E ]; now subst.
Qed.
Lemma sfeqb_refl x : x <> S754_nan -> SFeqb x x = true.
Proof.
  intros H. destruct x as [[]|[]| |[] m e]; unfold SFeqb; cbn; try reflexivity; try congruence;
    rewrite Z.compare_refl; change (Pos.compare_cont Eq m m) with (Pos.compare m m); now rewrite Pos.compare_refl.
Qed.
Lemma f64_eq_partial : partial_equality SFeqb.
Proof.
  assert (Sy : forall x y, SFeqb x y = true -> SFeqb y x = true).
  { intros x y H. apply sfeqb_spec in H. destruct H as [(b & b' & -> & ->)|[<- H]]; [reflexivity|now apply sfeqb_refl]. }
  split.
  - intros x y. destruct (SFeqb x y) eqn:E, (SFeqb y x) eqn:E'; try reflexivity.
    + apply Sy in E. congruence. + apply Sy in E'. congruence.
  - intros x y z H1 H2. apply sfeqb_spec in H1. apply sfeqb_spec in H2.
    destruct H1 as [(b & b' & -> & ->)|[<- H1]], H2 as [(b2 & b3 & E & ->)|[<- H2]]; try reflexivity; subst.
    + reflexivity. + now apply sfeqb_refl.
Qed.
(** The vector [NaN] of floats (Vector<f64, U1> is [Eq]) differs from itself. *)
Theorem C28_refuted : ~ C28_statement.
Proof. intros H. specialize (H _ SFeqb f64_eq_partial [S754_nan]). discriminate. Qed.
Print Assumptions C28_refuted.
Theorem C28_nan_refuted :
  partial_equality SFeqb /\ veq SFeqb [S754_nan] [S754_nan] = false /\ meq SFeqb [[S754_nan]] [[S754_nan]] = false.
Proof. split; [exact f64_eq_partial|]. vm_compute. auto. Qed.
Print Assumptions C28_nan_refuted.
(** What holds: reflexivity for element types that are themselves [Eq].  Missing: the
    element types that are only [PartialEq] (above). *)
Theorem C28_eq_partial :
  forall T (peq : T -> T -> bool), (forall x, peq x x = true) ->
  (forall v, veq peq v v = true) /\ (forall m, meq peq m m = true).
Proof. intros T peq. exact (proj1 (C27_equivalence T peq)). Qed.
Print Assumptions C28_eq_partial.
Example C28_ex : forall x, Nat.eqb x x = true.
Proof. exact Nat.eqb_refl. Qed.

(** ** C29: clone. *)
Theorem C29_clone :
  forall S T (c : cfg) (d : ety S T) (clone : T -> M S T) n v (s : S), length v = n ->
  vclone c d n clone v s = in_order clone v s.
Proof. intros. now apply vclone_spec. Qed.
Print Assumptions C29_clone.
Theorem C29_matrix_clone :
  forall S T (c : cfg) (d : ety S T) (clone : T -> M S T) row col m (s : S), rect row col m ->
  match mclone c d clone row col m s with
  | (Ok m', s') => rect row col m' /\ in_order clone (concat m) s = (Ok (concat m'), s')
  | (Panic, s') => in_order clone (concat m) s = (Panic, s')
  | (UB, s') => in_order clone (concat m) s = (UB, s')
  | (Diverge, s') => in_order clone (concat m) s = (Diverge, s')
  end.
Proof.
  intros S T c d clone row col m s R. rewrite mclone_spec by exact R.
  assert (NF := nested_flat0 (fun r : list T => r) clone m s). rewrite map_id in NF.
  change (fun a : list T => in_order clone a) with (in_order clone) in NF.
  destruct (in_order (in_order clone) m s) as [r s'] eqn:E. destruct r; try exact NF. split; [|exact NF]. destruct R as [L F]. split.
  - rewrite (in_order_length _ _ _ _ _ E). exact L.
  - clear L NF. revert a s s' E. induction F as [|x m Lx F IH]; intros a s s' E; cbn in E; [injection E as <- <-; constructor|].
    destruct (in_order clone x s) as [[y| | |] s1] eqn:E1; try discriminate.
    destruct (in_order _ m s1) as [[ys| | |] s2] eqn:E2; try discriminate. injection E as <- <-.
    constructor; [rewrite (in_order_length _ _ _ _ _ E1); exact Lx|]. eapply IH; eauto.
Qed.
Print Assumptions C29_matrix_clone.
Theorem C29_faithful :
  forall S T (c : cfg) (d : ety S T) (clone : T -> M S T) n v row col m (s : S),
  length v = n -> rect row col m -> faithful clone ->
  vclone c d n clone v s = (Ok v, s) /\ mclone c d clone row col m s = (Ok m, s).
Proof.
  intros S T c d clone n v row col m s L R HC. split; [|now apply mclone_id].
  rewrite vclone_spec by exact L. rewrite (in_order_pure _ (fun x => x)) by (intros; apply HC). now rewrite map_id.
Qed.
Print Assumptions C29_faithful.
Example C29_ex : vclone dbg copy_ety 3 (fun x s => (Ok (x + 1), s ++ [x])) [7; 8; 9] [] = (Ok [8; 9; 10], [7; 8; 9]) /\
  mclone rel copy_ety (fun x s => (Ok (x + 1), s ++ [x])) 2 2 [[1; 2]; [3; 4]] [] = (Ok [[2; 3]; [4; 5]], [1; 2; 3; 4]).
Proof. vm_compute. auto. Qed.

(** ** C30: zero, default, bounds, is_zero. *)
Lemma repeat_entry {T} (x : T) row col : rect row col (repeat (repeat x col) row) /\
  forall i j, i < row -> j < col -> entry (repeat (repeat x col) row) i j = Some x.
Proof.
  split; [split|].
  - apply repeat_length.
  - rewrite Forall_forall. intros r Hr. apply repeat_spec in Hr. subst. apply repeat_length.
  - intros i j Hi Hj. unfold entry. rewrite nth_error_repeat by exact Hi. now apply nth_error_repeat.
Qed.
Lemma map_const2 {A B C} (x : C) (l : list A) (k : list B) : map (fun _ => map (fun _ => x) k) l = repeat (repeat x (length k)) (length l).
Proof. rewrite (map_const k x). apply map_const. Qed.
Theorem C30_vector_constants :
  forall S T (c : cfg) (d : ety S T) (o : ops S T) n bound dflt (s : S),
  vzero c d o n s = (Ok (repeat (o_zero o) n), s) /\
  vbounded c d n bound s = (Ok (repeat bound n), s) /\
  vdefault c d n (ret dflt) s = (Ok (repeat dflt n), s).
Proof. intros. repeat split; apply vdefault_const. Qed.
Print Assumptions C30_vector_constants.
Theorem C30_matrix_constants :
  forall S T (c : cfg) (d : ety S T) (o : ops S T) row col bound dflt (s : S),
  mzero c d o row col s = (Ok (repeat (repeat (o_zero o) col) row), s) /\
  mbounded c d bound row col s = (Ok (repeat (repeat bound col) row), s) /\
  mdefault c d (ret dflt) row col s = (Ok (repeat (repeat dflt col) row), s).
Proof.
  intros S T c d o row col bound dflt s. repeat split.
  - unfold mzero. rewrite (mgenerate_pure _ _ _ _ _ (fun _ _ => o_zero o)) by reflexivity.
    now rewrite map_const2, !seq_length.
  - unfold mbounded. rewrite (mgenerate_pure _ _ _ _ _ (fun _ _ => bound)) by reflexivity.
    now rewrite map_const2, !seq_length.
  - unfold mdefault. rewrite vdefault_spec.
    rewrite (in_order_pure _ (fun _ => repeat dflt col)) by (intros; apply vdefault_const).
    now rewrite map_const, seq_length.
Qed.
Print Assumptions C30_matrix_constants.
Theorem C30_is_zero :
  forall S T (o : ops S T) n v row col m (s : S), length v = n -> rect row col m ->
  (exists b, vis_zero o n v s = (Ok b, s) /\ (b = true <-> Forall (fun x => o_is_zero o x = true) v)) /\
  (exists b, mis_zero o row col m s = (Ok b, s) /\
     (b = true <-> forall i j x, entry m i j = Some x -> o_is_zero o x = true)).
Proof.
  intros S T o n v row col m s L R. split.
  - eexists. split; [now apply vis_zero_spec|]. rewrite forallb_forall, Forall_forall. reflexivity.
  - eexists. split; [now apply mis_zero_spec|]. rewrite forallb_forall. split.
    + intros H i j x. unfold entry. destruct (nth_error m i) as [r|] eqn:E; [|discriminate]. intros E2.
      specialize (H r (nth_error_In _ _ E)). rewrite forallb_forall in H. apply H. eapply nth_error_In; eauto.
    + intros H r Hr. apply forallb_forall. intros x Hx. apply In_nth_error in Hr. destruct Hr as (i & Ei).
      apply In_nth_error in Hx. destruct Hx as (j & Ej). apply (H i j). unfold entry. now rewrite Ei.
Qed.
Print Assumptions C30_is_zero.
(** zero() is neutral for +. *)
Theorem C30_zero_neutral :
  forall S T (c : cfg) (d : ety S T) (op : T -> T -> M S T) add z n v row col m (s : S),
  length v = n -> n < W c -> rect row col m -> row < W c -> col < W c ->
  pure2 op add -> (forall x, add x z = x) -> (forall x, add z x = x) ->
  vzip_vv c d d d n op v (repeat z n) s = (Ok v, s) /\ vzip_vv c d d d n op (repeat z n) v s = (Ok v, s) /\
  mzip_vv c d d d row col op m (repeat (repeat z col) row) s = (Ok m, s) /\
  mzip_vv c d d d row col op (repeat (repeat z col) row) m s = (Ok m, s).
Proof.
  intros S T c d op add z n v row col m s L HW R HW1 HW2 P ZR ZL.
  assert (A : forall v : list T, map (fun p => add (fst p) (snd p)) (combine v (repeat z (length v))) = v).
  { induction v0; cbn; [reflexivity|]. now rewrite ZR, IHv0. }
  assert (B : forall v : list T, map (fun p => add (fst p) (snd p)) (combine (repeat z (length v)) v) = v).
  { induction v0; cbn; [reflexivity|]. now rewrite ZL, IHv0. }
  assert (RZ := proj1 (repeat_entry z row col)).
  split; [|split; [|split]].
  - rewrite vzip_vv_spec by (rewrite ?repeat_length; auto). erewrite unwind_pure by (intros; apply P). subst n. now rewrite A.
  - rewrite vzip_vv_spec by (rewrite ?repeat_length; auto). erewrite unwind_pure by (intros; apply P). subst n. now rewrite B.
  - rewrite mzip_vv_spec by assumption.
    rewrite (unwind_pure _ _ (fun p => map (fun q => add (fst q) (snd q)) (combine (fst p) (snd p))))
      by (intros p s0 _; apply unwind_pure; intros; apply P).
    f_equal. f_equal. destruct R as [<- F]. clear -F A. induction F as [|r m Lr F IH]; cbn; [reflexivity|].
    rewrite IH. subst col. now rewrite A.
  - rewrite mzip_vv_spec by assumption.
    rewrite (unwind_pure _ _ (fun p => map (fun q => add (fst q) (snd q)) (combine (fst p) (snd p))))
      by (intros p s0 _; apply unwind_pure; intros; apply P).
    f_equal. f_equal. destruct R as [<- F]. clear -F B. induction F as [|r m Lr F IH]; cbn; [reflexivity|].
    rewrite IH. subst col. now rewrite B.
Qed.
Print Assumptions C30_zero_neutral.
Example C30_ex : vbounded dbg copy_ety 3 255 ([] : list nat) = (Ok [255; 255; 255], []) /\
  mdefault dbg copy_ety (ret 0) 2 3 ([] : list nat) = (Ok [[0; 0; 0]; [0; 0; 0]], []).
Proof. vm_compute. auto. Qed.

(** ** C31: Matrix::new and the dimensions. *)
Theorem C31_new :
  forall S T (c : cfg) (d : ety S T) row col (rows : list (list T)) (s : S),
  rect row col rows -> row < W c ->
  mnew c d row rows s = (Ok rows, s) /\
  mdim row col = (length rows, col) /\ mrows row = length rows /\
  forall r, In r rows -> mcols col = length r.
Proof.
  intros S T c d row col rows s R HW. split; [apply mnew_spec; [apply R|exact HW]|].
  destruct R as [<- F]. repeat split. intros r Hr. rewrite Forall_forall in F. now rewrite (F r Hr).
Qed.
Print Assumptions C31_new.
(** Vectors: [new], [as_slice], [iter], [len], [is_empty]. *)
Theorem C31_vector :
  forall S T (array : list T) (s : S),
  as_slice (vnew array) = array /\
  (exists it it', yields (viter (vnew array)) s array it s /\ next (it, s) = (Ok None, (it', s))) /\
  vlen (length array) = length array /\
  (vis_empty (length array) = true <-> array = []).
Proof.
  intros S T array s. split; [reflexivity|]. split; [|split; [reflexivity|]].
  - exists (@slice_iter S T []), (@slice_iter S T []). split; [|reflexivity].
    unfold viter, as_slice, vnew. induction array as [|x l IH]; [constructor|].
    econstructor; [reflexivity|exact IH].
  - unfold vis_empty. rewrite Nat.eqb_eq. destruct array; cbn; split; congruence.
Qed.
Print Assumptions C31_vector.
Example C31_ex : rect 2 3 [[1; 2; 3]; [4; 5; 6]] /\ mnew dbg log_ety 2 [[1; 2; 3]; [4; 5; 6]] [] = (Ok [[1; 2; 3]; [4; 5; 6]], []).
Proof. split; [repeat constructor|vm_compute; reflexivity]. Qed.

(** ** C32: Matrix::diag. *)
Theorem C32_diag :
  forall S T (c : cfg) (d : ety S T) (o : ops S T) row col elems (s : S),
  length elems = Nat.min row col -> row < W c ->
  exists m, mdiag c d o row col (Nat.min row col) elems s = (Ok m, s) /\ rect row col m /\
    forall i j, i < row -> j < col -> entry m i j = if i =? j then nth_error elems i else Some (o_zero o).
Proof. exact (@mdiag_spec). Qed.
Print Assumptions C32_diag.
Definition nat_ops {S} : ops S nat :=
  Ops 0 1 (fun x y => ret (x + y)) (fun x y => ret (x - y)) (fun x y => ret (x * y)) (fun x y => ret (x / y))
    (fun x => ret (0 - x)) (fun x => x =? 0) ret.
Example C32_ex :
  mdiag dbg log_ety nat_ops 2 3 2 [7; 8] [] = (Ok [[7; 0; 0]; [0; 8; 0]], []) /\
  mdiag rel log_ety nat_ops 3 2 2 [7; 8] [] = (Ok [[7; 0]; [0; 8]; [0; 0]], []).
Proof. vm_compute. auto. Qed.

(** ** C34: generate, map, all, any: one call per entry, in row-major order, with the
    right index and entry; the results are the entries of the result. *)
Theorem C34_generate :
  forall S T (c : cfg) (d : ety S T) row col (f : nat * nat -> M S T) (s : S),
  let calls := list_prod (seq 0 row) (seq 0 col) in
  match mgenerate c d row col f s with
  | (Ok m, s') => rect row col m /\ in_order f calls s = (Ok (concat m), s')
  | (Panic, s') => in_order f calls s = (Panic, s')
  | (UB, s') => in_order f calls s = (UB, s')
  | (Diverge, s') => in_order f calls s = (Diverge, s')
  end.
Proof.
  intros S T c d row col f s calls. pose proof (mgenerate_flat c d row col f s) as H.
  destruct (mgenerate c d row col f s) as [r s'] eqn:E. destruct r; try exact H.
  split; [|exact H]. eapply mgenerate_rect; eauto.
Qed.
Print Assumptions C34_generate.
Theorem C34_map :
  forall S T U (c : cfg) (d : ety S T) (du : ety S U) row col (f : nat * nat -> T -> M S U) m (s : S),
  rect row col m -> row < W c -> col < W c ->
  let call := fun e => f (fst e) (snd e) in
  let unwind := fun rest => drop_all d (map snd rest) in
  match mmap c d du row col f m s with
  | (Ok m', s') => rect row col m' /\ in_order_unwind unwind call (entries m) s = (Ok (concat m'), s')
  | (Panic, s') => in_order_unwind unwind call (entries m) s = (Panic, s')
  | (UB, s') => in_order_unwind unwind call (entries m) s = (UB, s')
  | (Diverge, s') => in_order_unwind unwind call (entries m) s = (Diverge, s')
  end.
Proof.
  intros S T U c d du row col f m s R H1 H2 call unwind. pose proof (mmap_flat c d du row col f m s R H1 H2) as H.
  destruct (mmap c d du row col f m s) as [r s'] eqn:E. destruct r; try exact H.
  split; [|exact H]. rewrite mmap_nested in E by assumption. apply unwind_ok in E.
  destruct R as [L F]. split.
  - rewrite (in_order_length _ _ _ _ _ E), indexed_length. exact L.
  - assert (F' : Forall (fun ir => length (snd ir) = col) (indexed m)).
    { rewrite Forall_forall. intros [i r] Hin. apply indexed_in in Hin. rewrite Forall_forall in F. apply F.
      eapply nth_error_In; eauto. }
    clear -F' E. revert a s s' E. induction F' as [|x l Lx F IH]; intros a s s' E; cbn in E; [injection E as <- <-; constructor|].
    destruct (in_order_unwind _ _ (indexed (snd x)) s) as [[y| | |] s1] eqn:E1; try discriminate.
    destruct (in_order _ l s1) as [[ys| | |] s2] eqn:E2; try discriminate. injection E as <- <-.
    constructor; [|eapply IH; eauto]. apply unwind_ok in E1. rewrite (in_order_length _ _ _ _ _ E1), indexed_length. exact Lx.
Qed.
Print Assumptions C34_map.
Theorem C34_all_any :
  forall S T row col (pred : nat * nat -> T -> M S bool) m (s : S), rect row col m ->
  mall row col pred m s = all_in_order (fun e => pred (fst e) (snd e)) (entries m) s /\
  many row col pred m s = any_in_order (fun e => pred (fst e) (snd e)) (entries m) s.
Proof. intros. split; [now apply mall_spec|now apply many_spec]. Qed.
Print Assumptions C34_all_any.
(** [entries] lists every entry once with its index, row-major. *)
Theorem C34_entries :
  forall T row col (m : list (list T)), rect row col m ->
  map fst (entries m) = list_prod (seq 0 row) (seq 0 col) /\ map snd (entries m) = concat m /\
  forall i j x, In ((i, j), x) (entries m) -> entry m i j = Some x.
Proof.
  intros T row col m R. split; [|split; [apply entries_snd|]].
  - destruct R as [<- F]. unfold entries, indexed. rewrite concat_map, map_map.
    assert (G : forall k (m : list (list T)), Forall (fun r => length r = col) m ->
      concat (map (fun x => map fst (map (fun ja => (fst x, fst ja, snd ja)) (combine (seq 0 (length (snd x))) (snd x)))) (combine (seq k (length m)) m))
      = list_prod (seq k (length m)) (seq 0 col)).
    { clear. intros k m F. revert k. induction F as [|r m Lr F IH]; intros k; cbn; [reflexivity|]. rewrite IH. f_equal.
      rewrite map_map. cbn. subst col. rewrite <- (map_map fst (fun j => (k, j))).
      now rewrite map_fst_combine by (rewrite seq_length; reflexivity). }
    apply G. exact F.
  - intros i j x H. unfold entries in H. apply in_concat in H. destruct H as (l & H1 & H2). apply in_map_iff in H1.
    destruct H1 as ([i' r] & <- & H1). apply in_map_iff in H2. destruct H2 as ([j' y] & E & H2). cbn in *.
    injection E as <- <- <-. apply indexed_in in H1. apply indexed_in in H2. unfold entry. now rewrite H1.
Qed.
Print Assumptions C34_entries.
Example C34_ex :
  mgenerate dbg ref_ety 2 2 (fun ij s => (Ok (10 * fst ij + snd ij), s ++ [ij])) ([] : list (nat * nat))
    = (Ok [[0; 1]; [10; 11]], [(0, 0); (0, 1); (1, 0); (1, 1)]) /\
  mmap dbg log_ety log_ety 2 2 (fun ij x s => (Ok (x + fst ij), s ++ [x])) [[1; 2]; [3; 4]] [] = (Ok [[1; 2]; [4; 5]], [1; 2; 3; 4]) /\
  mall 2 2 (fun _ x s => (Ok (x <? 3), s ++ [x])) [[1; 2]; [3; 4]] [] = (Ok false, [1; 2; 3]) /\
  many 2 2 (fun _ x s => (Ok (x =? 2), s ++ [x])) [[1; 2]; [3; 4]] [] = (Ok true, [1; 2]).
Proof. vm_compute. auto. Qed.

(** ** C35: the closure of [map] panics on the entry [x]: the entries after it are dropped,
    once each, and nothing else. *)
Theorem C35_map_panic :
  forall S T U (c : cfg) (d : ety S T) (du : ety S U) row col (f : nat * nat -> T -> M S U) m l1 ij x l2 (s : S) r1 s1 s2,
  rect row col m -> row < W c -> col < W c ->
  entries m = l1 ++ (ij, x) :: l2 ->
  in_order (fun e => f (fst e) (snd e)) l1 s = (Ok r1, s1) -> f ij x s1 = (Panic, s2) ->
  mmap c d du row col f m s = (Panic, drop_all d (map snd l2) s2).
Proof.
  intros S T U c d du row col f m l1 ij x l2 s r1 s1 s2 R H1 H2 E E1 E2.
  pose proof (mmap_flat c d du row col f m s R H1 H2) as H. destruct (mmap c d du row col f m s) as [r s'].
  rewrite E in H. rewrite (unwind_panic_at _ (fun e => f (fst e) (snd e)) l1 (ij, x) l2 s r1 s1 s2 E1 E2) in H.
  destruct r; cbn in H; congruence.
Qed.
Print Assumptions C35_map_panic.
Example C35_ex :
  mmap dbg log_ety log_ety 2 2 (fun ij x s => if x =? 2 then (Panic, s ++ [x]) else (Ok x, s ++ [x])) [[1; 2]; [3; 4]] []
  = (Panic, [1; 2; 3; 4]).
Proof. vm_compute. reflexivity. Qed.

(** ** C57: relative_eq, ulps_eq. *)
Theorem C57_approx_eq :
  forall S T (c : cfg) (aeq : T -> T -> M S bool) g row col a b (s : S),
  rect row col a -> rect row col b -> row < W c -> pure2 aeq g ->
  exists r, mapprox_eq c aeq row col a b s = (Ok r, s) /\
    (r = true <-> forall i j x y, entry a i j = Some x -> entry b i j = Some y -> g x y = true).
Proof.
  intros S T c aeq g row col a b s Ra Rb HW P. exists (meq g a b).
  rewrite <- (C27_matrix_equality T g a b row col Ra Rb). split; [|reflexivity].
  rewrite mapprox_spec by assumption.
  rewrite (fold_in_order_pure _ (fun acc p => acc && slice_eq g (fst p) (snd p))).
  - f_equal. f_equal. unfold meq, veq, as_slice. destruct Ra as [La _], Rb as [Lb _]. rewrite <- Lb in La. clear Lb.
    assert (G : forall b0 (a b : list (list T)), length a = length b ->
      fold_left (fun acc p => acc && slice_eq g (fst p) (snd p)) (combine a b) b0 = b0 && slice_eq (slice_eq g) a b).
    { clear. intros b0 a. revert b0. induction a as [|x a IH]; intros b0 [|y b] L; cbn in *; try discriminate; [now rewrite andb_true_r|].
      rewrite IH by lia. now rewrite andb_assoc. }
    now rewrite G by exact La.
  - intros acc [ra rb] s0 Hin. unfold bind. cbn [fst snd].
    assert (Lr : length ra = length rb).
    { pose proof (in_combine_l _ _ _ _ Hin). pose proof (in_combine_r _ _ _ _ Hin).
      now rewrite (rect_row _ _ _ _ Ra H), (rect_row _ _ _ _ Rb H0). }
    assert (E : all_in_order (op2 aeq) (combine ra rb) s0 = (Ok (slice_eq g ra rb), s0)).
    { clear -P Lr. revert rb Lr. induction ra as [|x ra IH]; intros [|y rb] Lr; cbn in *; try discriminate; [reflexivity|].
      unfold op2 at 1. cbn. rewrite P. destruct (g x y); [apply IH; lia|reflexivity]. }
    now rewrite E.
Qed.
Print Assumptions C57_approx_eq.
Example C57_ex :
  mapprox_eq dbg (fun x y => ret (x - y + (y - x) <=? 1)) 2 2 [[1; 2]; [3; 4]] [[2; 2]; [3; 5]] tt = (Ok true, tt) /\
  mapprox_eq dbg (fun x y => ret (x - y + (y - x) <=? 1)) 2 2 [[1; 2]; [3; 4]] [[2; 2]; [5; 5]] tt = (Ok false, tt).
Proof. vm_compute. auto. Qed.
