(** * PropsCmp.v - property C83: what user-written comparisons are called on, in which
    order, and what happens when one panics. *)
From Coq Require Import List Arith Bool Lia.
From Verif Require Import Rust Iter Elem VectorM MatIterM MatrixM CmpM SpecCommon Harness
  IterProofs OwnProofs VecProofs MatProofs AccProofs PropsCont.
Import ListNotations.
Open Scope nat_scope.

(** ** Specification *)
(** [p] on each pair. *)
Definition on_pair {S A B C} (p : A -> B -> M S C) : A * B -> M S C := fun ab => p (fst ab) (snd ab).
(** Clamping one value: compare it with the lower bound, then the upper bound with
    the larger of the two, then clone the winner. *)
Definition clamp_calls {S T} (clone : T -> M S T) (cmp : T -> T -> M S comparison) (lo hi x : T) : M S T :=
  o1 <- cmp x lo ;;
  let a := match o1 with Lt => lo | _ => x end in
  o2 <- cmp hi a ;;
  clone (match o2 with Gt => a | _ => hi end).
(** The champion of a sequence of items meets each further item in turn; [wins o] says
    whether the newcomer wins when comparing the champion with it gave [o].  The
    loser is dropped at once; if obtaining or comparing an item panics, everything held is dropped. *)
Fixpoint champion {S A T} (drop : T -> S -> S) (cmp : T -> T -> M S comparison) (wins : comparison -> bool)
    (get : A -> M S T) (l : list A) (sel : T) (s : S) : res T * S :=
  match l with
  | [] => (Ok sel, s)
  | y :: l' =>
      match get y s with
      | (Ok x, s1) =>
          match cmp sel x s1 with
          | (Ok o, s2) => if wins o then champion drop cmp wins get l' x (drop sel s2)
                          else champion drop cmp wins get l' sel (drop x s2)
          | (Panic, s2) => (Panic, drop sel (drop x s2))
          | (r, s2) => (UB, s2)
          end
      | (Panic, s1) => (Panic, drop sel s1)
      | (r, s1) => (UB, s1)
      end
  end.
(** User code that returns or panics. *)
Definition behaves {S A} (m : M S A) : Prop := forall s, match m s with (Ok _, _) | (Panic, _) => True | _ => False end.

(** ** Proofs *)
Lemma eq_loop_all {S T U} (peq : T -> U -> M S bool) a : forall b s, length a = length b ->
  slice_eq_loop peq a b s = all_in_order (on_pair peq) (combine a b) s.
Proof.
  induction a as [|x a IH]; intros [|y b] s L; cbn in *; try discriminate; [reflexivity|].
  unfold bind, on_pair at 1. cbn. destruct (peq x y s) as [[[]| | |] s1]; try reflexivity. apply IH. lia.
Qed.
Lemma veq_m_all {S T U} (peq : T -> U -> M S bool) a b s : length a = length b ->
  veq_m peq a b s = all_in_order (on_pair peq) (combine a b) s.
Proof. intros L. unfold veq_m, slice_eq_m, as_slice. rewrite L, Nat.eqb_refl. now apply eq_loop_all. Qed.
Lemma combine_app {A B} (a1 a2 : list A) (b1 b2 : list B) : length a1 = length b1 ->
  combine (a1 ++ a2) (b1 ++ b2) = combine a1 b1 ++ combine a2 b2.
Proof.
  revert b1. induction a1 as [|x a1 IH]; intros [|y b1] L; cbn in *; try discriminate; [reflexivity|].
  now rewrite IH by lia.
Qed.
Lemma combine_concat {A B} row col (a : list (list A)) (b : list (list B)) : rect row col a -> rect row col b ->
  combine (concat a) (concat b) = concat (map (fun p => combine (fst p) (snd p)) (combine a b)).
Proof.
  intros [La Fa] [Lb Fb]. rewrite <- Lb in La. clear Lb row. revert b La Fb.
  induction Fa as [|r a Lr Fa IH]; intros [|r' b] L Fb; cbn in *; try discriminate; [reflexivity|].
  inversion Fb; subst. rewrite combine_app by congruence. now rewrite IH by (auto; lia).
Qed.
Lemma all_concat {S A} (p : A -> M S bool) l s :
  all_in_order p (concat l) s = all_in_order (fun x s => all_in_order p x s) l s.
Proof.
  revert s. induction l as [|x l IH]; intros s; cbn; [reflexivity|]. rewrite all_in_order_app.
  destruct (all_in_order p x s) as [[[]| | |] s1]; try reflexivity. apply IH.
Qed.
Lemma all_map {S A B} (g : A -> B) (p : B -> M S bool) l s :
  all_in_order p (map g l) s = all_in_order (fun x => p (g x)) l s.
Proof. apply all_in_order_map. Qed.

Theorem C83_equality :
  forall S T U (peq : T -> U -> M S bool) n (a : list T) (b : list U) (s : S),
  length a = n -> length b = n ->
  veq_m peq a b s = all_in_order (on_pair peq) (combine a b) s.
Proof. intros S T U peq n a b s La Lb. apply veq_m_all. congruence. Qed.
Print Assumptions C83_equality.
Theorem C83_matrix_equality :
  forall S T (peq : T -> T -> M S bool) row col (a b : list (list T)) (s : S),
  rect row col a -> rect row col b ->
  meq_m peq a b s = all_in_order (on_pair peq) (combine (concat a) (concat b)) s.
Proof.
  intros S T peq row col a b s Ra Rb. unfold meq_m.
  rewrite veq_m_all by (destruct Ra, Rb; congruence). rewrite (combine_concat _ _ _ _ Ra Rb), all_concat, all_map.
  apply all_in_order_ext. intros [ra rb] s0 Hin. unfold on_pair at 1. cbn [fst snd]. apply veq_m_all.
  pose proof (in_combine_l _ _ _ _ Hin). pose proof (in_combine_r _ _ _ _ Hin).
  now rewrite (rect_row _ _ _ _ Ra H), (rect_row _ _ _ _ Rb H0).
Qed.
Print Assumptions C83_matrix_equality.
(** The number of comparisons: up to and including the first unequal pair, all of
    them if there is none.  The elements past it are not looked at ([g] is only
    known up to there). *)
Theorem C83_equality_calls :
  forall S T U (peq : T -> U -> M S bool) tick n (a : list T) (b : list U) (s : S),
  length a = n -> length b = n ->
  (forall i x y, nth_error a i = Some x -> nth_error b i = Some y ->
     (forall j x' y', j < i -> nth_error a j = Some x' -> nth_error b j = Some y' ->
        forall s, peq x' y' s = (Ok true, tick s)) ->
     (forall s, peq x y s = (Ok true, tick s)) \/ (forall s, peq x y s = (Ok false, tick s))) ->
  (exists i x y, nth_error a i = Some x /\ nth_error b i = Some y /\ (forall s, peq x y s = (Ok false, tick s)) /\
     (forall j x' y', j < i -> nth_error a j = Some x' -> nth_error b j = Some y' ->
        forall s, peq x' y' s = (Ok true, tick s)) /\
     veq_m peq a b s = (Ok false, Nat.iter (i + 1) tick s)) \/
  ((forall i x y, nth_error a i = Some x -> nth_error b i = Some y -> forall s, peq x y s = (Ok true, tick s)) /\
   veq_m peq a b s = (Ok true, Nat.iter n tick s)).
Proof.
  intros S T U peq tick n a b s La Lb. rewrite veq_m_all by congruence. subst n. revert b s Lb.
  induction a as [|x a IH]; intros [|y b] s Lb H; cbn in Lb; try discriminate.
  - right. split; [intros [|i]; discriminate|reflexivity].
  - destruct (H 0 x y) as [E|E]; [reflexivity|reflexivity|intros; lia| |].
    + cbn [combine all_in_order]. unfold on_pair at 1 3. cbn [fst snd]. rewrite E.
      destruct (IH b (tick s)) as [(i & x' & y' & Ex & Ey & Hf & Hb & R)|[Ht R]]; [lia| | |].
      * intros i x' y' Ex Ey HP. apply (H (Datatypes.S i) x' y' Ex Ey). intros [|j] x2 y2 Hj E1 E2.
        { cbn in E1, E2. injection E1 as <-. injection E2 as <-. exact E. }
        apply (HP j x2 y2); [lia|exact E1|exact E2].
      * left. exists (Datatypes.S i), x', y'. split; [exact Ex|]. split; [exact Ey|]. split; [exact Hf|]. split.
        { intros [|j] x2 y2 Hj E1 E2; [cbn in E1, E2; injection E1 as <-; injection E2 as <-; exact E|].
          apply (Hb j x2 y2); [lia|exact E1|exact E2]. }
        rewrite R, iter_out. reflexivity.
      * right. split.
        { intros [|i] x2 y2 E1 E2; [cbn in E1, E2; injection E1 as <-; injection E2 as <-; exact E|]. now apply (Ht i). }
        rewrite R, iter_out. reflexivity.
    + left. exists 0, x, y. split; [reflexivity|]. split; [reflexivity|]. split; [exact E|]. split; [intros; lia|].
      cbn [combine all_in_order]. unfold on_pair at 1. cbn [fst snd]. rewrite E. reflexivity.
Qed.
Print Assumptions C83_equality_calls.

(** *** max, min *)
Lemma select_champion {S A T} (d : ety S T) (cmp : T -> T -> M S comparison) wins (get : A -> M S T) :
  (forall x, behaves (get x)) -> (forall x y, behaves (cmp x y)) ->
  forall l fuel it sel s, gives it (map get l) nodrop -> length l < fuel ->
  select_loop d cmp wins fuel it sel s = champion (e_drop d) cmp wins get l sel s.
Proof.
  intros HG HC. induction l as [|y l IH]; intros fuel it sel s [Hd H] HF; (destruct fuel as [|fuel]; [lia|]); cbn.
  - destruct (H s) as (it' & E & D). rewrite E. now rewrite (oos_eq _ _ _ _ D).
  - destruct (H s) as (it' & E & D & K). rewrite E. pose proof (HG y s) as B. destruct (get y s) as [r s1]. cbn in K.
    destruct r as [x| | |]; cbn; try contradiction.
    + pose proof (HC sel x s1) as B2. destruct (cmp sel x s1) as [[o| | |] s2]; try contradiction.
      * specialize (K I). destruct (wins o); apply IH; auto; cbn in HF; lia.
      * unfold owning. rewrite (oos_eq _ _ _ _ D). reflexivity.
    + unfold owning. rewrite (oos_eq _ _ _ _ D). reflexivity.
Qed.
Lemma select_all {S A T} (d : ety S T) (cmp : T -> T -> M S comparison) wins (get : A -> M S T) x l fuel it s :
  (forall x, behaves (get x)) -> (forall x y, behaves (cmp x y)) ->
  gives it (map get (x :: l)) nodrop -> length l < fuel ->
  select d cmp wins fuel it s
  = (a <- get x ;; r <- champion (e_drop d) cmp wins get l a ;; ret (Some r)) s.
Proof.
  intros HG HC [Hd H] HF. unfold select. destruct (H s) as (it' & E & D & K). rewrite E. unfold bind at 2.
  pose proof (HG x s) as B. destruct (get x s) as [r s1]. cbn in K.
  destruct r as [a| | |]; cbn; try contradiction; [|now rewrite (oos_eq _ _ _ _ D)].
  specialize (K I). unfold bind. now rewrite (select_champion d cmp wins get HG HC l fuel it' a s1 K HF).
Qed.
Lemma behaves_ret {S A} (a : A) : @behaves S A (ret a).
Proof. intros s. exact I. Qed.

Lemma vselect_champion {S T} wins (clone : T -> M S T) cmp n x l s :
  (forall x y, behaves (cmp x y)) -> length (x :: l) = n ->
  vselect_m wins clone cmp n (x :: l) s
  = (r <- champion (fun _ s => s) cmp wins ret l x ;; clone r) s.
Proof.
  intros HC L. unfold vselect_m.
  assert (E : forall s, select ref_ety cmp wins n (viter (x :: l)) s
    = (r <- champion (fun _ s => s) cmp wins ret l x ;; ret (Some r)) s).
  { intros s0. unfold viter, as_slice. rewrite (select_all ref_ety cmp wins ret x l n _ s0 behaves_ret HC (slice_iter_gives (x :: l))) by (cbn in L; lia).
    reflexivity. }
  unfold bind at 1. rewrite E. unfold bind.
  destruct (champion (fun _ s => s) cmp wins ret l x s) as [[r| | |] s1]; try reflexivity. cbn.
  destruct (clone r s1) as [[y| | |] s2]; reflexivity.
Qed.
Lemma champion_behaves {S A T} drop (cmp : T -> T -> M S comparison) wins (get : A -> M S T) l :
  (forall x, behaves (get x)) -> (forall x y, behaves (cmp x y)) ->
  forall sel, behaves (champion drop cmp wins get l sel).
Proof.
  intros HG HC. induction l as [|y l IH]; intros sel s; cbn; [exact I|].
  pose proof (HG y s) as B. destruct (get y s) as [[x| | |] s1]; try exact B.
  pose proof (HC sel x s1) as B2. destruct (cmp sel x s1) as [[o| | |] s2]; try exact B2.
  destruct (wins o); apply IH.
Qed.
Lemma behaves_bind {S A B} (m : M S A) (k : A -> M S B) : behaves m -> (forall a, behaves (k a)) -> behaves (bind m k).
Proof.
  intros H1 H2 s. unfold bind. pose proof (H1 s) as B1. destruct (m s) as [[a| | |] s1]; try exact B1. apply H2.
Qed.
Lemma vselect_behaves {S T} wins (clone : T -> M S T) cmp n v :
  (forall x, behaves (clone x)) -> (forall x y, behaves (cmp x y)) -> length v = n -> 0 < n ->
  behaves (vselect_m wins clone cmp n v).
Proof.
  intros HG HC L Hn. destruct v as [|x l]; [cbn in L; lia|]. intros s. rewrite (vselect_champion wins clone cmp n x l s HC L).
  apply behaves_bind; [|exact HG]. apply champion_behaves; auto. intros; apply behaves_ret.
Qed.

(** [max] and [min] of a vector: each further element meets the champion once, in
    index order; on equality the later one wins for [max] and the earlier for [min];
    a single clone at the end; nothing else. *)
Theorem C83_vector_max_min :
  forall S T (clone : T -> M S T) (cmp : T -> T -> M S comparison) n x l (s : S),
  length (x :: l) = n -> (forall x y, behaves (cmp x y)) ->
  vmax_m clone cmp n (x :: l) s
  = (r <- champion (fun _ s => s) cmp (fun o => match o with Gt => false | _ => true end) ret l x ;; clone r) s /\
  vmin_m clone cmp n (x :: l) s
  = (r <- champion (fun _ s => s) cmp (fun o => match o with Gt => true | _ => false end) ret l x ;; clone r) s.
Proof. intros S T clone cmp n x l s L HC. split; now apply vselect_champion. Qed.
Print Assumptions C83_vector_max_min.

Lemma champion_ext {S A T} drop (cmp : T -> T -> M S comparison) wins (get get' : A -> M S T) l sel s :
  (forall x s, In x l -> get x s = get' x s) ->
  champion drop cmp wins get l sel s = champion drop cmp wins get' l sel s.
Proof.
  revert sel s. induction l as [|y l IH]; intros sel s H; cbn; [reflexivity|]. rewrite <- (H y s) by now left.
  destruct (get y s) as [[x| | |] s1]; try reflexivity. destruct (cmp sel x s1) as [[o| | |] s2]; try reflexivity.
  destruct (wins o); apply IH; intros; apply H; now right.
Qed.

Section MatSel.
Context {S T : Type} (d : ety S T) (clone : T -> M S T) (cmp : T -> T -> M S comparison) (wins : comparison -> bool).
Hypothesis HG : forall x, behaves (clone x).
Hypothesis HC : forall x y, behaves (cmp x y).
(** The champion of one row, cloned. *)
Definition row_champion (r : list T) : M S T :=
  match r with
  | [] => panic
  | x :: l => y <- champion (fun _ s => s) cmp wins ret l x ;; clone y
  end.
Lemma row_behaves r : behaves (row_champion r).
Proof.
  destruct r as [|x l]; [intros s; exact I|]. apply behaves_bind; [|exact HG]. apply champion_behaves; auto.
  intros; apply behaves_ret.
Qed.
Lemma mselect_champion n r m s : rect n n (r :: m) ->
  (o <- select d cmp wins n (imap (vselect_m wins clone cmp n) (viter (r :: m))) ;; unwrap o) s
  = (x <- row_champion r ;; champion (e_drop d) cmp wins row_champion m x) s.
Proof.
  intros R. pose proof R as [L F].
  assert (Hn : 0 < n) by (cbn in L; lia).
  assert (E : forall r, length r = n -> forall s, vselect_m wins clone cmp n r s = row_champion r s).
  { intros r0 Lr s0. destruct r0 as [|x l]; [cbn in Lr; lia|]. now apply vselect_champion. }
  assert (G : gives (imap (vselect_m wins clone cmp n) (@viter S _ (r :: m))) (map row_champion (r :: m)) nodrop).
  { eapply gives_ext; [|apply (imap_ret_gives (vselect_m wins clone cmp n) _ _ _ (slice_iter_gives (r :: m)))].
    clear -E F. induction F as [|r0 l Lr F IH]; [constructor|]. cbn [map]. constructor; [|exact IH]. intros s. now apply E. }
  unfold bind at 1. rewrite (select_all d cmp wins row_champion r m n _ s row_behaves HC G) by (cbn in L; lia).
  unfold bind. destruct (row_champion r s) as [[x| | |] s1]; try reflexivity.
  destruct (champion (e_drop d) cmp wins row_champion m x s1) as [[y| | |] s2]; reflexivity.
Qed.
End MatSel.

(** [max] and [min] of a matrix: the rows in order; each row's champion is cloned and
    then meets the champion of the rows before it; the loser is dropped. *)
Theorem C83_matrix_max_min :
  forall S T (d : ety S T) (clone : T -> M S T) (cmp : T -> T -> M S comparison) n r m (s : S),
  rect n n (r :: m) -> (forall x, behaves (clone x)) -> (forall x y, behaves (cmp x y)) ->
  let max := fun o => match o with Gt => false | _ => true end in
  let min := fun o => match o with Gt => true | _ => false end in
  mmax_m d clone cmp n (r :: m) s
  = (x <- row_champion clone cmp max r ;; champion (e_drop d) cmp max (row_champion clone cmp max) m x) s /\
  mmin_m d clone cmp n (r :: m) s
  = (x <- row_champion clone cmp min r ;; champion (e_drop d) cmp min (row_champion clone cmp min) m x) s.
Proof. intros S T d clone cmp n r m s R HG HC. split; now apply mselect_champion. Qed.
Print Assumptions C83_matrix_max_min.

(** Counting: whatever the comparison and the clone answer and wherever one of them
    panics, every clone made is returned or dropped exactly once, and a run that
    returns made n^2 - 1 comparisons and n clones. *)
Section Count.
Context {S T : Type} (clones drops cmps : S -> nat) (d : ety S T) (clone : T -> M S T) (cmp : T -> T -> M S comparison).
Hypothesis Hcmp : forall x y s, match cmp x y s with
  | (Ok _, s') | (Panic, s') => clones s' = clones s /\ drops s' = drops s /\ cmps s' = cmps s + 1
  | _ => False end.
Hypothesis Hclone : forall x s, match clone x s with
  | (Ok _, s') => clones s' = clones s + 1 /\ drops s' = drops s /\ cmps s' = cmps s
  | (Panic, s') => clones s' = clones s /\ drops s' = drops s /\ cmps s' = cmps s
  | _ => False end.
Hypothesis Hdrop : forall x s, let s' := e_drop d x s in
  clones s' = clones s /\ drops s' = drops s + 1 /\ cmps s' = cmps s.
Lemma row_count wins l : forall sel s,
  match champion (fun _ s => s) cmp wins ret l sel s with
  | (Ok _, s') => clones s' = clones s /\ drops s' = drops s /\ cmps s' = cmps s + length l
  | (Panic, s') => clones s' = clones s /\ drops s' = drops s
  | _ => False
  end.
Proof using Hcmp.
  induction l as [|y l IH]; intros sel s; cbn; [lia|].
  pose proof (Hcmp sel y s) as H. destruct (cmp sel y s) as [[o| | |] s1]; try exact H; [|tauto].
  destruct (wins o).
  - specialize (IH y s1). destruct (champion _ _ _ _ l y s1) as [[z| | |] s2]; try exact IH; lia.
  - specialize (IH sel s1). destruct (champion _ _ _ _ l sel s1) as [[z| | |] s2]; try exact IH; lia.
Qed.
Lemma row_champion_count wins r n s : length r = n -> 0 < n ->
  match row_champion clone cmp wins r s with
  | (Ok _, s') => clones s' = clones s + 1 /\ drops s' = drops s /\ cmps s' = cmps s + (n - 1)
  | (Panic, s') => clones s' = clones s /\ drops s' = drops s
  | _ => False
  end.
Proof using Hcmp Hclone.
  intros L Hn. destruct r as [|x l]; [cbn in L; lia|]. unfold row_champion, bind. pose proof (row_count wins l x s) as H.
  destruct (champion _ _ _ _ l x s) as [[y| | |] s1]; try exact H. pose proof (Hclone y s1) as H2.
  destruct (clone y s1) as [[z| | |] s2]; try exact H2; cbn in L; lia.
Qed.
Lemma mat_count wins n m : 0 < n -> Forall (fun r : list T => length r = n) m -> forall sel s,
  match champion (e_drop d) cmp wins (row_champion clone cmp wins) m sel s with
  | (Ok _, s') => clones s' = clones s + length m /\ drops s' = drops s + length m /\ cmps s' = cmps s + n * length m
  | (Panic, s') => clones s' + drops s + 1 = clones s + drops s'
  | _ => False
  end.
Proof using Hcmp Hclone Hdrop.
  intros Hn. induction m as [|r m IH]; intros F sel s; cbn [champion]; [cbn [length]; lia|]. inversion F; subst.
  pose proof (row_champion_count wins r (length r) s eq_refl Hn) as HR.
  destruct (row_champion clone cmp wins r s) as [[x| | |] s1]; try exact HR.
  - pose proof (Hcmp sel x s1) as H. destruct (cmp sel x s1) as [[o| | |] s2]; try exact H.
    + destruct (wins o).
      * specialize (IH H2 x (e_drop d sel s2)). pose proof (Hdrop sel s2) as HD. cbv zeta in HD.
        destruct (champion _ _ _ _ m x _) as [[z| | |] s3]; try exact IH; cbn [length]; nia.
      * specialize (IH H2 sel (e_drop d x s2)). pose proof (Hdrop x s2) as HD. cbv zeta in HD.
        destruct (champion _ _ _ _ m sel _) as [[z| | |] s3]; try exact IH; cbn [length]; nia.
    + pose proof (Hdrop x s2) as H3. pose proof (Hdrop sel (e_drop d x s2)) as H4. cbv zeta in *. lia.
  - pose proof (Hdrop sel s1) as H3. cbv zeta in *. lia.
Qed.
End Count.

Theorem C83_matrix_max_min_counts :
  forall S T (clones drops cmps : S -> nat) (d : ety S T) (clone : T -> M S T) (cmp : T -> T -> M S comparison) n m (s : S),
  rect n n m -> 0 < n ->
  (forall x y s, match cmp x y s with
     | (Ok _, s') | (Panic, s') => clones s' = clones s /\ drops s' = drops s /\ cmps s' = cmps s + 1
     | _ => False end) ->
  (forall x s, match clone x s with
     | (Ok _, s') => clones s' = clones s + 1 /\ drops s' = drops s /\ cmps s' = cmps s
     | (Panic, s') => clones s' = clones s /\ drops s' = drops s /\ cmps s' = cmps s
     | _ => False end) ->
  (forall x s, let s' := e_drop d x s in clones s' = clones s /\ drops s' = drops s + 1 /\ cmps s' = cmps s) ->
  forall run, run = mmax_m d clone cmp n m \/ run = mmin_m d clone cmp n m ->
  match run s with
  | (Ok _, s') => cmps s' = cmps s + (n * n - 1) /\ clones s' = clones s + n /\ drops s' = drops s + (n - 1)
  | (Panic, s') => clones s' + drops s = clones s + drops s'
  | _ => False
  end.
Proof.
  intros S T clones drops cmps d clone cmp n m s R Hn Hcmp Hclone Hdrop run Hrun.
  destruct m as [|r m]; [destruct R as [L _]; cbn in L; lia|].
  assert (HG : forall x, behaves (clone x)).
  { intros x s0. pose proof (Hclone x s0). destruct (clone x s0) as [[]]; auto. }
  assert (HC : forall x y, behaves (cmp x y)).
  { intros x y s0. pose proof (Hcmp x y s0). destruct (cmp x y s0) as [[]]; auto. }
  assert (K : forall wins, match (x <- row_champion clone cmp wins r ;; champion (e_drop d) cmp wins (row_champion clone cmp wins) m x) s with
    | (Ok _, s') => cmps s' = cmps s + (n * n - 1) /\ clones s' = clones s + n /\ drops s' = drops s + (n - 1)
    | (Panic, s') => clones s' + drops s = clones s + drops s'
    | _ => False end).
  { intros wins. pose proof R as [L F]. inversion F; subst. unfold bind.
    pose proof (row_champion_count clones drops cmps clone cmp Hcmp Hclone wins r _ s H1 Hn) as H.
    destruct (row_champion clone cmp wins r s) as [[x| | |] s1]; try exact H; [|lia].
    pose proof (mat_count clones drops cmps d clone cmp Hcmp Hclone Hdrop wins _ m Hn H2 x s1) as H3.
    destruct (champion _ _ _ _ m x s1) as [[y| | |] s2]; try exact H3; cbn [length] in *; nia. }
  destruct (C83_matrix_max_min S T d clone cmp n r m s R HG HC) as [E1 E2].
  destruct Hrun as [->| ->]; [rewrite E1|rewrite E2]; apply K.
Qed.
Print Assumptions C83_matrix_max_min_counts.

(** *** Clamping *)
Lemma clamp_one_calls {S T} (clone : T -> M S T) cmp lo hi x (s : S) :
  clamp_one clone cmp lo hi x s = clamp_calls clone cmp lo hi x s.
Proof.
  unfold clamp_one, clamp_calls, cmp_max_m, cmp_min_m, bind. destruct (cmp x lo s) as [[[]| | |] s1]; try reflexivity; cbn;
    match goal with |- context [cmp hi ?a s1] => destruct (cmp hi a s1) as [[[]| | |] s2]; reflexivity end.
Qed.
(** After [m], drop the upper bound and then the lower bound, also when unwinding. *)
Definition then_drop_bounds {S T A} (d : ety S T) (lo hi : T) (o : res A * S) : res A * S :=
  match o with
  | (Ok a, s) => (Ok a, e_drop d lo (e_drop d hi s))
  | (Panic, s) => (Panic, e_drop d lo (e_drop d hi s))
  | (r, s) => (r, s)
  end.
Theorem C83_clamped :
  forall S T (c : cfg) (d : ety S T) (clone : T -> M S T) (cmp : T -> T -> M S comparison) n v row col m lo hi (s : S),
  length v = n -> rect row col m ->
  vclamped_m c d clone cmp n v lo hi s
  = then_drop_bounds d lo hi (in_order (clamp_calls clone cmp lo hi) v s) /\
  mclamped_m c d clone cmp row col m lo hi s
  = then_drop_bounds d lo hi (in_order (in_order (clamp_calls clone cmp lo hi)) m s).
Proof.
  intros S T c d clone cmp n v row col m lo hi s L R.
  assert (E : forall n v s, length v = n -> from_iter c d n (imap (clamp_one clone cmp lo hi) (viter v)) s
    = in_order (clamp_calls clone cmp lo hi) v s).
  { intros n0 v0 s0 L0. rewrite collect_map_ref by exact L0. apply in_order_ext. intros; apply clamp_one_calls. }
  split.
  - unfold vclamped_m, owning_bounds, owning. rewrite E by exact L.
    destruct (in_order _ v s) as [[]]; reflexivity.
  - unfold mclamped_m, owning_bounds, owning. rewrite collect_map_ref by apply R.
    rewrite (in_order_ext _ (in_order (clamp_calls clone cmp lo hi))).
    + destruct (in_order _ m s) as [[]]; reflexivity.
    + intros r s0 Hin. apply E. eapply rect_row; eauto.
Qed.
Print Assumptions C83_clamped.

(** In place: each element is clamped as above and its old value dropped once the new
    one exists.  If a comparison or clone panics at some element, the elements before
    it are clamped and that element and all later ones are as they were. *)
Definition clamp_replace {S T} (d : ety S T) (clone : T -> M S T) (cmp : T -> T -> M S comparison) (lo hi x : T) : M S T :=
  y <- clamp_calls clone cmp lo hi x ;; tick (e_drop d x) ;;; ret y.
Lemma clamp_slot_ok {S T} (d : ety S T) (clone : T -> M S T) cmp lo hi x (s : S) :
  slot0 (clamp_slot d clone cmp lo hi) x s = clamp_replace d clone cmp lo hi x s.
Proof.
  unfold slot0, clamp_slot, clamp_replace, self, lift, set_self, tick, ret, bind. cbn. rewrite clamp_one_calls.
  destruct (clamp_calls clone cmp lo hi x s) as [[]]; reflexivity.
Qed.
Lemma clamp_slot_panic {S T} (d : ety S T) (clone : T -> M S T) cmp lo hi x (s s' : S) :
  clamp_calls clone cmp lo hi x s = (Panic, s') -> clamp_slot d clone cmp lo hi (x, s) = (Panic, (x, s')).
Proof. intros E. unfold clamp_slot, self, lift, bind. cbn. rewrite clamp_one_calls, E. reflexivity. Qed.
Lemma clamp_row {S T} (d : ety S T) (clone : T -> M S T) cmp lo hi r (s : S) w s' :
  in_order (clamp_replace d clone cmp lo hi) r s = (Ok w, s') ->
  iter_mut_for (clamp_slot d clone cmp lo hi) r s = (Ok tt, (w, s')).
Proof.
  intros H. apply iter_mut_ok. rewrite <- H. apply in_order_ext. intros; apply clamp_slot_ok.
Qed.
Lemma clamp_row_panic {S T} (d : ety S T) (clone : T -> M S T) cmp lo hi v1 x v2 (s : S) w1 s1 s2 :
  in_order (clamp_replace d clone cmp lo hi) v1 s = (Ok w1, s1) ->
  clamp_calls clone cmp lo hi x s1 = (Panic, s2) ->
  iter_mut_for (clamp_slot d clone cmp lo hi) (v1 ++ x :: v2) s = (Panic, (w1 ++ x :: v2, s2)).
Proof.
  intros H1 H2. eapply iter_mut_panic; [|apply clamp_slot_panic, H2].
  rewrite <- H1. apply in_order_ext. intros; apply clamp_slot_ok.
Qed.
Lemma clamp_rows {S T} (d : ety S T) (clone : T -> M S T) cmp lo hi m : forall (s : S) w s',
  in_order (in_order (clamp_replace d clone cmp lo hi)) m s = (Ok w, s') ->
  in_order (slot0 (fun rs => iter_mut_for (clamp_slot d clone cmp lo hi) (fst rs) (snd rs))) m s = (Ok w, s').
Proof.
  induction m as [|r m IH]; intros s w s' H; cbn [in_order] in *; [exact H|].
  destruct (in_order (clamp_replace d clone cmp lo hi) r s) as [[r'| | |] s1] eqn:E; try discriminate.
  unfold slot0 at 1. cbn [fst snd]. rewrite (clamp_row d clone cmp lo hi r s r' s1 E). cbn [omap].
  destruct (in_order (in_order (clamp_replace d clone cmp lo hi)) m s1) as [[w'| | |] s2] eqn:E2; try discriminate.
  now rewrite (IH _ _ _ E2).
Qed.
Theorem C83_clamp_in_place :
  forall S T (d : ety S T) (clone : T -> M S T) (cmp : T -> T -> M S comparison) lo hi,
  let after s := e_drop d lo (e_drop d hi s) in
  (forall v (s : S) w s', in_order (clamp_replace d clone cmp lo hi) v s = (Ok w, s') ->
     vclamp_m d clone cmp lo hi (v, s) = (Ok tt, (w, after s'))) /\
  (forall v1 x v2 (s : S) w1 s1 s2, in_order (clamp_replace d clone cmp lo hi) v1 s = (Ok w1, s1) ->
     clamp_calls clone cmp lo hi x s1 = (Panic, s2) ->
     vclamp_m d clone cmp lo hi (v1 ++ x :: v2, s) = (Panic, (w1 ++ x :: v2, after s2))) /\
  (forall m (s : S) w s', in_order (in_order (clamp_replace d clone cmp lo hi)) m s = (Ok w, s') ->
     mclamp_m d clone cmp lo hi (m, s) = (Ok tt, (w, after s'))) /\
  (forall m1 v1 x v2 m2 (s : S) k1 s0 w1 s1 s2,
     in_order (in_order (clamp_replace d clone cmp lo hi)) m1 s = (Ok k1, s0) ->
     in_order (clamp_replace d clone cmp lo hi) v1 s0 = (Ok w1, s1) ->
     clamp_calls clone cmp lo hi x s1 = (Panic, s2) ->
     mclamp_m d clone cmp lo hi (m1 ++ (v1 ++ x :: v2) :: m2, s)
     = (Panic, (k1 ++ (w1 ++ x :: v2) :: m2, after s2))).
Proof.
  intros S T d clone cmp lo hi after. repeat split.
  - intros v s w s' H. unfold vclamp_m, owning_mut, owning. cbn [fst snd]. now rewrite (clamp_row _ _ _ _ _ _ _ _ _ H).
  - intros v1 x v2 s w1 s1 s2 H1 H2. unfold vclamp_m, owning_mut, owning. cbn [fst snd].
    now rewrite (clamp_row_panic _ _ _ _ _ _ _ _ _ _ _ _ H1 H2).
  - intros m s w s' H. unfold mclamp_m, owning_mut, owning. cbn [fst snd].
    rewrite (iter_mut_ok _ _ _ _ _ (clamp_rows d clone cmp lo hi m s w s' H)). reflexivity.
  - intros m1 v1 x v2 m2 s k1 s0 w1 s1 s2 H0 H1 H2. unfold mclamp_m, owning_mut, owning. cbn [fst snd].
    rewrite (iter_mut_panic _ m1 (v1 ++ x :: v2) m2 s k1 s0 (w1 ++ x :: v2) s2); [reflexivity| |].
    + now apply clamp_rows.
    + cbn [fst snd]. now apply clamp_row_panic with (s1 := s1).
Qed.
Print Assumptions C83_clamp_in_place.

Lemma champion_for_each {S A T} (cmp : T -> T -> comparison) (wins : comparison -> bool) (get : A -> M S T) :
  (forall x, behaves (get x)) ->
  forall l fuel it sel s, gives it (map get l) nodrop -> length l < fuel ->
  for_each fuel it (Some sel) (fun acc x => match acc with
    | None => ret (Some x)
    | Some a => ret (Some (if wins (cmp a x) then x else a)) end) s
  = (r <- champion (fun _ s => s) (fun x y => ret (cmp x y)) wins get l sel ;; ret (Some r)) s.
Proof.
  intros HG. induction l as [|y l IH]; intros fuel it sel s [Hd H] HF; (destruct fuel as [|fuel]; [lia|]); cbn.
  - destruct (H s) as (it' & E & D). rewrite E. now rewrite (oos_eq _ _ _ _ D).
  - destruct (H s) as (it' & E & D & K). rewrite E. pose proof (HG y s) as B. unfold bind. cbn. destruct (get y s) as [r s1]. cbn in K.
    destruct r as [x| | |]; cbn; try contradiction.
    + specialize (K I). destruct (wins (cmp sel x)); (rewrite IH; [reflexivity|exact K|cbn in HF; lia]).
    + now rewrite (oos_eq _ _ _ _ D).
Qed.
Lemma for_each_ext {S A B} (f g : B -> A -> M S B) : (forall b a s, f b a s = g b a s) ->
  forall fuel (it : iter S A) b s, for_each fuel it b f s = for_each fuel it b g s.
Proof.
  intros H. induction fuel as [|fuel IH]; intros it b s; cbn; [reflexivity|].
  destruct (next (it, s)) as [[[x|]| | |] [it' s']]; try reflexivity. rewrite H. destruct (g b x s') as [[b'| | |] s'']; try reflexivity. apply IH.
Qed.
(** [Iterator::max]/[min] with a pure comparison, over items obtained one after the other. *)
Lemma imax_champion {S A T} (cmp : T -> T -> comparison) (get : A -> M S T) y l fuel it s :
  (forall x, behaves (get x)) -> gives it (map get (y :: l)) nodrop -> Datatypes.S (length l) < fuel ->
  imax fuel cmp it s = (x <- get y ;; r <- champion (fun _ s => s) (fun x y => ret (cmp x y)) for_max get l x ;; ret (Some r)) s /\
  imin fuel cmp it s = (x <- get y ;; r <- champion (fun _ s => s) (fun x y => ret (cmp x y)) for_min get l x ;; ret (Some r)) s.
Proof.
  intros HG [Hd H] HF. destruct fuel as [|fuel]; [lia|]. unfold imax, imin. cbn [for_each].
  destruct (H s) as (it' & E & D & K). rewrite E. pose proof (HG y s) as B. unfold bind at 1 3. destruct (get y s) as [r s1]. cbn in K.
  destruct r as [x| | |]; cbn [omap]; try contradiction.
  - specialize (K I). split.
    + change (ret (Some x) s1) with (@Ok (option T) (Some x), s1). cbv beta iota.
      refine (eq_trans (for_each_ext _ _ _ fuel it' (Some x) s1) (champion_for_each cmp for_max get HG l fuel it' x s1 K ltac:(lia))).
      intros [a|] z s0; try reflexivity; unfold for_max; destruct (cmp a z); reflexivity.
    + unfold bind at 1. change (ret (Some x) s1) with (@Ok (option T) (Some x), s1). cbv beta iota.
      refine (eq_trans (for_each_ext _ _ _ fuel it' (Some x) s1) (champion_for_each cmp for_min get HG l fuel it' x s1 K ltac:(lia))).
      intros [a|] z s0; try reflexivity; unfold for_min; destruct (cmp a z); reflexivity.
  - split; now rewrite (oos_eq _ _ _ _ D).
Qed.
(** With pure comparisons (and element drops that do nothing observable) these are the
    functions of C24, C26 and C27. *)
Theorem C83_agrees_with_pure :
  forall S T (c : cfg) (clone : T -> M S T) (peq : T -> T -> bool) (cmp : T -> T -> comparison) n v w row col m k lo hi (s : S),
  length v = n -> length w = n -> rect row col m -> rect row col k ->
  let d := ref_ety in
  let peq' := fun x y => ret (peq x y) in
  let cmp' := fun x y => ret (cmp x y) in
  veq_m peq' v w s = (Ok (veq peq v w), s) /\
  meq_m peq' m k s = (Ok (meq peq m k), s) /\
  (0 < n -> vmax_m clone cmp' n v s = vmax clone cmp n v s /\ vmin_m clone cmp' n v s = vmin clone cmp n v s) /\
  (0 < row -> row = col -> (forall x, behaves (clone x)) ->
     mmax_m d clone cmp' row m s = mmax clone cmp row m s /\ mmin_m d clone cmp' row m s = mmin clone cmp row m s) /\
  vclamped_m c d clone cmp' n v lo hi s = vclamped c d clone cmp n v lo hi s /\
  mclamped_m c d clone cmp' row col m lo hi s = mclamped c d clone cmp row col m lo hi s.
Proof.
  intros S T c clone peq cmp n v w row col m k lo hi s Lv Lw Rm Rk d peq' cmp'.
  assert (E : forall U V (p : U -> V -> bool) (a : list U) (b : list V) (s : S) (q : U -> V -> M S bool),
    (forall x y s, q x y s = (Ok (p x y), s)) -> veq_m q a b s = (Ok (veq p a b), s)).
  { clear. intros U V p a b s q Hq. unfold veq_m, slice_eq_m, veq, as_slice. revert b.
    induction a as [|x a IH]; intros [|y b]; try reflexivity. specialize (IH b).
    cbn [length slice_eq slice_eq_loop]. change (Datatypes.S (length a) =? Datatypes.S (length b)) with (length a =? length b).
    destruct (length a =? length b) eqn:EL.
    - unfold bind. rewrite Hq. destruct (p x y); [exact IH|reflexivity].
    - destruct (p x y); cbn [andb]; [exact IH|reflexivity]. }
  split; [now apply E|]. split; [unfold meq_m, meq; apply E; intros; now apply E|].
  assert (HC : forall x y, behaves (cmp' x y)) by (intros; apply behaves_ret).
  assert (V : forall v n s, length v = n -> 0 < n ->
    vmax_m clone cmp' n v s = vmax clone cmp n v s /\ vmin_m clone cmp' n v s = vmin clone cmp n v s).
  { clear -HC. intros v n s Lv Hn. destruct v as [|x l]; [cbn in Lv; lia|].
    destruct (C83_vector_max_min S T clone cmp' n x l s Lv HC) as [E1 E2].
    destruct (imax_champion cmp ret x l (Datatypes.S n) (viter (x :: l)) s behaves_ret (slice_iter_gives (x :: l)) ltac:(cbn in Lv; lia)) as [E3 E4].
    assert (B : forall A C (p q : M S A) (k : A -> M S C), p s = q s -> bind p k s = bind q k s) by (intros A C p q k EQ; unfold bind; now rewrite EQ).
    rewrite E1, E2. unfold vmax, vmin. rewrite (B _ _ _ _ _ E3), (B _ _ _ _ _ E4). unfold bind, ret at 3 7.
    change (fun o => match o with Gt => false | _ => true end) with for_max.
    change (fun o => match o with Gt => true | _ => false end) with for_min. fold cmp'.
    change (ret x s) with (@Ok T x, s). cbv beta iota.
    split; [destruct (champion _ _ for_max _ _ _ s) as [[r| | |] s1]|destruct (champion _ _ for_min _ _ _ s) as [[r| | |] s1]];
      try reflexivity; cbn; destruct (clone r s1) as [[]]; reflexivity. }
  split; [intros Hn; now apply V|]. split.
  { intros Hn <- HG. destruct m as [|r m]; [destruct Rm as [L _]; cbn in L; lia|]. pose proof Rm as [L F].
    assert (G : forall wins, gives (imap (vselect_m wins clone cmp' row) (@viter S _ (r :: m))) (map (row_champion clone cmp' wins) (r :: m)) nodrop).
    { intros wins. eapply gives_ext; [|apply (imap_ret_gives (vselect_m wins clone cmp' row) _ _ _ (slice_iter_gives (r :: m)))].
      clear -F Hn HC. induction F as [|r0 l Lr F IH]; [constructor|]. cbn [map]. constructor; [|exact IH]. intros s.
      destruct r0 as [|x l0]; [cbn in Lr; lia|]. now apply vselect_champion. }
    destruct (C83_matrix_max_min S T d clone cmp' row r m s Rm HG HC) as [E1 E2]. cbv zeta in E1, E2. rewrite E1, E2.
    assert (Gx : gives (imap (vmax clone cmp row) (@viter S _ (r :: m))) (map (row_champion clone cmp' for_max) (r :: m)) nodrop).
    { eapply gives_ext; [|apply (imap_ret_gives (vmax clone cmp row) _ _ _ (slice_iter_gives (r :: m)))].
      clear -F Hn HC V. induction F as [|r0 l Lr F IH]; [constructor|]. cbn [map]. constructor; [|exact IH]. intros s.
      rewrite <- (proj1 (V r0 row s Lr Hn)). destruct r0 as [|x l0]; [cbn in Lr; lia|]. now apply vselect_champion. }
    assert (Gn : gives (imap (vmin clone cmp row) (@viter S _ (r :: m))) (map (row_champion clone cmp' for_min) (r :: m)) nodrop).
    { eapply gives_ext; [|apply (imap_ret_gives (vmin clone cmp row) _ _ _ (slice_iter_gives (r :: m)))].
      clear -F Hn HC V. induction F as [|r0 l Lr F IH]; [constructor|]. cbn [map]. constructor; [|exact IH]. intros s.
      rewrite <- (proj2 (V r0 row s Lr Hn)). destruct r0 as [|x l0]; [cbn in Lr; lia|]. now apply vselect_champion. }
    pose proof (proj1 (imax_champion cmp (row_champion clone cmp' for_max) r m (Datatypes.S row) _ s
      (row_behaves clone cmp' for_max HG HC) Gx ltac:(cbn in L; lia))) as Ex.
    pose proof (proj2 (imax_champion cmp (row_champion clone cmp' for_min) r m (Datatypes.S row) _ s
      (row_behaves clone cmp' for_min HG HC) Gn ltac:(cbn in L; lia))) as En.
    assert (B : forall A C (p q : M S A) (k : A -> M S C), p s = q s -> bind p k s = bind q k s) by (intros A C p q k0 EQ; unfold bind; now rewrite EQ).
    unfold mmax, mmin. rewrite (B _ _ _ _ _ Ex), (B _ _ _ _ _ En). unfold bind. split.
    - change (fun o => match o with Gt => false | _ => true end) with for_max.
      destruct (row_champion clone cmp' for_max r s) as [[x| | |] s1]; try reflexivity.
      change (e_drop d) with (fun (_ : T) (s : S) => s). fold cmp'.
      destruct (champion (fun _ s => s) cmp' for_max (row_champion clone cmp' for_max) m x s1) as [[y| | |] s2]; reflexivity.
    - change (fun o => match o with Gt => true | _ => false end) with for_min.
      destruct (row_champion clone cmp' for_min r s) as [[x| | |] s1]; try reflexivity.
      change (e_drop d) with (fun (_ : T) (s : S) => s). fold cmp'.
      destruct (champion (fun _ s => s) cmp' for_min (row_champion clone cmp' for_min) m x s1) as [[y| | |] s2]; reflexivity. }
  destruct (C83_clamped S T c d clone cmp' n v row col m lo hi s Lv Rm) as [E1 E2]. rewrite E1, E2.
  assert (K : forall x s, clamp_calls clone cmp' lo hi x s = clone (cmp_min cmp hi (cmp_max cmp lo x)) s).
  { intros x s0. unfold clamp_calls, cmp_min, cmp_max, cmp', ret, bind. destruct (cmp x lo); [destruct (cmp hi x)|destruct (cmp hi lo)|destruct (cmp hi x)]; reflexivity. }
  split.
  - rewrite vclamped_spec by exact Lv. rewrite (in_order_ext _ (fun x => clone (cmp_min cmp hi (cmp_max cmp lo x)))) by (intros; apply K).
    destruct (in_order _ v s) as [[]]; reflexivity.
  - rewrite mclamped_spec by exact Rm. rewrite (in_order_ext _ (in_order (fun x => clone (clampx cmp lo hi x)))).
    + destruct (in_order _ m s) as [[]]; reflexivity.
    + intros r s0 _. apply in_order_ext. intros; apply K.
Qed.
Print Assumptions C83_agrees_with_pure.

(** A world that logs comparisons; the comparison panics on the value 9. *)
Definition log_cmp (x y : nat) : M (list (nat * nat)) comparison :=
  fun s => if (x =? 9) || (y =? 9) then (Panic, s ++ [(x, y)]) else (Ok (Nat.compare x y), s ++ [(x, y)]).
Definition log_eq (x y : nat) : M (list (nat * nat)) bool :=
  fun s => if (x =? 9) || (y =? 9) then (Panic, s ++ [(x, y)]) else (Ok (x =? y), s ++ [(x, y)]).
Example C83_ex :
  meq_m log_eq [[1; 2]; [3; 4]] [[1; 5]; [9; 4]] [] = (Ok false, [(1, 1); (2, 5)]) /\
  meq_m log_eq [[1; 2]; [3; 4]] [[1; 2]; [9; 4]] [] = (Panic, [(1, 1); (2, 2); (3, 9)]) /\
  mmax_m ref_ety ret log_cmp 2 [[1; 2]; [4; 3]] [] = (Ok 4, [(1, 2); (4, 3); (2, 4)]) /\
  vclamp_m ref_ety ret log_cmp 2 5 ([1; 7; 9; 8], []) = (Panic, ([2; 5; 9; 8], [(1, 2); (5, 2); (7, 2); (5, 7); (9, 2)])).
Proof. vm_compute. auto. Qed.
