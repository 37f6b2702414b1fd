(** * PropsAccount2.v - C104: operations in place and comparisons keep the books.  Operands by value are gone
    afterwards, overwritten entries are dropped once; when an element operation panics, every entry of the
    edited vector or matrix still exists, and nothing is left behind unless the element operations
    themselves leave something behind. *)
From Coq Require Import List Arith Bool Lia Permutation.
From Verif Require Import Rust Iter Elem VectorM MatIterM MatrixM ArithM OpsM NumM CmpM ScopeM ScopeMutM SpecCommon Harness IterProofs OwnProofs VecProofs MatProofs AccProofs SpecAccount SpecAccountMut AccountProofs AccountLib AccountMut PropsAccount PropsCmp PropsCont.
Import ListNotations.

(** [a += b], [a -= b] ([op] is the element's operator) of vectors and matrices. *)
Theorem C104_compound : forall S T (live : S -> list T) (D leaky : Prop) (c : cfg) (d : ety S T) op,
  drops live d -> updates live D leaky op ->
  (forall n a b, length a = n -> length b = n -> n < W c ->
     edits live D leaky (fun v => v) [] (vop_assign c d n op b) a b) /\
  (forall row col a b, rect row col a -> rect row col b -> row < W c -> col < W c ->
     edits live D leaky (fun m => concat m) [] (mop_assign c d row col op b) a (concat b)).
Proof.
  intros S T live D leaky c d op Hd Hop. split; intros.
  - now apply ed_vop.
  - now apply ed_mop.
Qed.
Print Assumptions C104_compound.

(** [a *= k], [a /= k]: [k] is cloned for each entry and dropped at the end; with [&k], the reference is
    copied, and [k] lives on. *)
Theorem C104_scale : forall S T (live : S -> list T) (D leaky : Prop) (d : ety S T) op clone k,
  drops live d ->
  (updates live D leaky op -> tidies live D leaky [k] (clone k) [] (fun r => [r]) ->
     (forall v, edits live D leaky (fun v => v) [] (vscale_assign_s d op clone k) v [k]) /\
     (forall m, edits live D leaky (fun m => concat m) [] (mscale_assign_s d op clone k) m [k])) /\
  ((forall x, edits live D leaky one [k] (op k) x []) ->
     forall v, edits live D leaky (fun v => v) [k] (vscale_assign op (fun r => ret r) k) v []).
Proof.
  intros S T live D leaky d op clone k Hd. split; [intros Hop Hc; split; intros|intros Hop v].
  - apply ed_owning; [exact Hd|]. apply ed_vscale; [exact Hop|exact Hc|now left].
  - apply ed_owning; [exact Hd|]. apply ed_mscale; [exact Hop|exact Hc|now left].
  - apply (ed_own live D leaky (fun v => concat (map one v)) (fun v => v)); [intros w; apply concat_sing|].
    apply ed_for. intros x _ s R HF P. exact (Hop x s R HF P).
Qed.
Print Assumptions C104_scale.

(** [clamp]: each entry is replaced by a clone of itself or of a bound, and dropped; so are the bounds. *)
Theorem C104_clamp : forall S T (live : S -> list T) (D leaky : Prop) (d : ety S T) clone cmp mn mx,
  drops live d -> (forall x y, tidies live D leaky [x; y] (cmp x y) [] (fun _ => [])) ->
  (forall x, tidies live D leaky [x] (clone x) [] (fun r => [r])) ->
  (forall v, edits live D leaky (fun v => v) [] (vclamp_m d clone cmp mn mx) v [mn; mx]) /\
  (forall m, edits live D leaky (fun m => concat m) [] (mclamp_m d clone cmp mn mx) m [mn; mx]).
Proof.
  intros S T live D leaky d clone cmp mn mx Hd HC Hcl.
  assert (O : forall X (own : X -> list T) (m : M (X * S) unit) x, edits live D leaky own [mx; mn] m x [] ->
     edits live D leaky own [] (owning_mut d mn (owning_mut d mx m)) x [mn; mx]).
  { intros X own m x H s R HF P. unfold owning_mut at 1, owning.
    pose proof (ed_owning live D leaky own d mx [mn] m x Hd H s (mn :: R)) as K.
    assert (HI : incl [mn] (mn :: R)) by (intros y [->|[]]; now left).
    specialize (K HI). assert (P1 : Permutation (live s) (own x ++ [mx] ++ mn :: R)) by (rewrite P; psolve).
    specialize (K P1). destruct (owning_mut d mx m (x, s)) as [[u| | |] [x' s1]]; try exact K; cbn.
    - apply Hd. rewrite K. psolve.
    - destruct K as (L & PL & HL). exists L. split; [|exact HL]. apply Hd. rewrite PL. psolve. }
  assert (V : forall v, edits live D leaky (fun v => v) [mx; mn] (fun ls => iter_mut_for (clamp_slot d clone cmp mn mx) (fst ls) (snd ls)) v []).
  { intros v. apply (ed_own live D leaky (fun v => concat (map one v)) (fun v => v)); [intros w; apply concat_sing|].
    apply ed_for. intros x _. apply (ed_clamp_slot live D leaky d Hd clone cmp mn mx x [mx; mn] HC Hcl); cbn; auto. }
  split; intros; apply O; [apply V|].
  apply (ed_own live D leaky (fun m => concat (map (fun r => r) m)) (fun m => concat m)); [intros w; now rewrite map_id|].
  apply (ed_for live D leaky (fun r => r)). intros r _. apply V.
Qed.
Print Assumptions C104_clamp.

(** [max], [min]: a clone of an entry; the maxima of the rows that are not selected are dropped. *)
Theorem C104_max_min : forall S T (live : S -> list T) (D leaky : Prop) (d : ety S T) clone cmp,
  drops live d -> (forall x y, tidies live D leaky [x; y] (cmp x y) [] (fun _ => [])) ->
  (forall x, tidies live D leaky [x] (clone x) [] (fun r => [r])) ->
  (forall n v, length v = n ->
     tidies live D leaky v (vmax_m clone cmp n v) [] (fun r => [r]) /\
     tidies live D leaky v (vmin_m clone cmp n v) [] (fun r => [r])) /\
  (forall n m, rect n n m ->
     tidies live D leaky (concat m) (mmax_m d clone cmp n m) [] (fun r => [r]) /\
     tidies live D leaky (concat m) (mmin_m d clone cmp n m) [] (fun r => [r])).
Proof.
  intros S T live D leaky d clone cmp Hd HC Hcl. split.
  - intros n v L. split; now apply td_vselect.
  - intros n m R. split; now apply td_mselect.
Qed.
Print Assumptions C104_max_min.

(** [==]: both operands are only looked at. *)
Theorem C104_equality : forall S T (live : S -> list T) (D leaky : Prop) (peq : T -> T -> M S bool),
  (forall x y, tidies live D leaky [x; y] (peq x y) [] (fun _ => [])) ->
  (forall a b, tidies live D leaky (a ++ b) (veq_m peq a b) [] (fun _ => [])) /\
  (forall a b, tidies live D leaky (concat a ++ concat b) (meq_m peq a b) [] (fun _ => [])).
Proof. intros. split; intros; [now apply td_veq|now apply td_meq]. Qed.
Print Assumptions C104_equality.

(** [max_by], [min_by]: as [max] and [min], with a comparison that the caller supplies. *)
Theorem C104_max_by : forall S T (live : S -> list T) (D leaky : Prop) clone comp,
  (forall x y, tidies live D leaky [x; y] (comp x y) [] (fun _ => [])) ->
  (forall x, tidies live D leaky [x] (clone x) [] (fun r => [r])) ->
  (forall n v, length v = n ->
     tidies live D leaky v (vmax_by clone comp n v) [] (fun r => [r]) /\
     tidies live D leaky v (vmin_by clone comp n v) [] (fun r => [r])) /\
  (forall n m, rect n n m ->
     tidies live D leaky (concat m) (mmax_by clone comp n m) [] (fun r => [r]) /\
     tidies live D leaky (concat m) (mmin_by clone comp n m) [] (fun r => [r])).
Proof.
  intros S T live D leaky clone comp0 HC0 Hcl.
  assert (K : forall comp, (forall x y, tidies live D leaky [x; y] (comp x y) [] (fun _ => [])) ->
    forall l x F, incl (x :: l) F ->
    tidies live D leaky F (r <- fold_in_order (fun st y => o <- comp y st ;; ret (match o with Gt => y | _ => st end)) l x ;; clone r) [] (fun r => [r])).
  { clear comp0 HC0. intros comp HC. induction l as [|y l IH]; intros x F HI s R HF P.
    - unfold bind. cbn [fold_in_order]. unfold ret. apply (Hcl x s R); [|exact P]. intros u [<-|[]]. apply HF, HI. now left.
    - assert (I1 : incl [y; x] R) by (intros u [<-|[<-|[]]]; apply HF, HI; cbn; auto).
      pose proof (HC y x s R I1 P) as H. unfold bind, ret in *. cbn [fold_in_order]. 
      destruct (comp y x s) as [[o| | |] s1]; try exact H.
      apply (IH (match o with Gt => y | _ => x end) F); [|exact HF|exact H].
      intros u [<-|Hu]; [destruct o|]; apply HI; cbn; auto. }
  assert (V : forall comp, (forall x y, tidies live D leaky [x; y] (comp x y) [] (fun _ => [])) ->
    forall n v, length v = n -> tidies live D leaky v (vmax_by clone comp n v) [] (fun r => [r])).
  { intros comp HC n [|x l] L s R HF P.
    - exists []. split; [exact P|now left].
    - rewrite vmax_by_fold by exact L. exact (K comp HC l x (x :: l) (incl_refl _) s R HF P). }
  assert (M : forall comp, (forall x y, tidies live D leaky [x; y] (comp x y) [] (fun _ => [])) ->
    forall n m, rect n n m -> tidies live D leaky (concat m) (mmax_by clone comp n m) [] (fun r => [r])).
  { intros comp HC n m Rm s R HF P. destruct (concat m) as [|x l] eqn:E.
    - assert (m = []) as ->. { destruct Rm as [L Fm]. destruct m as [|r m]; [reflexivity|]. inversion Fm; subst. destruct r; [discriminate|discriminate]. }
      exists []. split; [exact P|now left].
    - rewrite (mmax_by_fold clone comp n m x l s Rm E). exact (K comp HC l x (x :: l) (incl_refl _) s R HF P). }
  assert (HS : forall x y, tidies live D leaky [x; y] (comp0 y x) [] (fun _ => [])).
  { intros x y s R HF P. apply (HC0 y x s R); [|exact P]. intros u [<-|[<-|[]]]; apply HF; cbn; auto. }
  split; intros; (split; [now apply V || now apply M|]).
  - unfold vmin_by. now apply V.
  - unfold mmin_by. now apply M.
Qed.
Print Assumptions C104_max_by.
(** [clamped]: clones of the entries and bounds; the bounds are dropped. *)
Theorem C104_clamped : forall S T (live : S -> list T) (D : Prop) (c : cfg) (d : ety S T) clone cmp mn mx,
  drops live d -> looks live D cmp -> copies live D clone ->
  (forall n v, length v = n -> borrows live D v (vclamped_m c d clone cmp n v mn mx) [mn; mx] (fun r => r)) /\
  (forall row col m, rect row col m ->
     borrows live D (concat m) (mclamped_m c d clone cmp row col m mn mx) [mn; mx] (fun r => concat r)).
Proof.
  intros S T live D c d clone cmp mn mx Hd HC Hcl.
  assert (O1 : forall x F, In mn F -> In mx F -> In x F -> tk live D F (clamp_calls clone cmp mn mx x) [] (fun t => [t]) any).
  { intros x F H1 H2 H3. apply (tk_ext live D F _ (clamp_one clone cmp mn mx x)); [intros s; symmetry; apply clamp_one_calls|].
    unfold clamp_one, cmp_max_m, cmp_min_m.
    assert (CR : forall a b, In a F -> In b F -> forall (k : comparison -> M S T) E, (forall o, tk live D F (k o) [] E any) -> tk live D F (o <- cmp a b ;; k o) [] E any).
    { intros a b Ha Hb k E Hk. eapply (tk_bind live D F _ _ _ _ [] (fun _ => []) []); [apply takes_tk, HC|reflexivity|intros u [<-|[<-|[]]]; assumption|].
      intros o _. apply Hk. }
    apply (tk_ext live D F _ (o <- cmp x mn ;; o' <- cmp mx (match o with Lt => mn | _ => x end) ;; clone (match o' with Gt => match o with Lt => mn | _ => x end | _ => mx end))).
    { intros s. unfold bind, ret. destruct (cmp x mn s) as [[o| | |] s1]; try reflexivity. destruct (cmp mx _ s1) as [[o'| | |] s2]; reflexivity. }
    apply CR; [exact H3|exact H1|]. intros o. apply CR; [exact H2|destruct o; assumption|]. intros o'.
    apply (tk_refs live D [match o' with Gt => match o with Lt => mn | _ => x end | _ => mx end]); [apply takes_tk, Hcl|].
    intros u [<-|[]]. destruct o'; [exact H2|exact H2|]. destruct o; assumption. }
  assert (O : forall A F (m : M S A) E, tk live D (mn :: mx :: F) m [] E any ->
    forall s R, incl F R -> Permutation (live s) ([mn; mx] ++ R) ->
    match then_drop_bounds d mn mx (m s) with
    | (Ok r, s') => Permutation (live s') (E r ++ R)
    | (Panic, s') => exists left, Permutation (live s') (left ++ R)
    | (UB, _) => False | (Diverge, _) => D end).
  { intros A F m E Hm s R HF P. specialize (Hm s (mn :: mx :: R) ltac:(isolve) P).
    destruct (m s) as [[r| | |] s1]; cbn; try exact Hm.
    - destruct Hm as [Hm _]. apply Hd, Hd. rewrite Hm. psolve.
    - destruct Hm as [L Hm]. exists L. apply Hd, Hd. rewrite Hm. psolve. }
  split.
  - intros n v L s R HF P. rewrite (proj1 (C83_clamped S T c d clone cmp n v 0 0 [] mn mx s L ltac:(now split))).
    apply (O _ v _ (fun r => r)); [|exact HF|exact P].
    eapply tk_conv; [apply (tk_row live D _ _ v n L)|reflexivity|reflexivity|now intros].
    intros x Hx. apply O1; cbn; auto.
  - intros row col m Rm s R HF P. rewrite (proj2 (C83_clamped S T c d clone cmp 0 [] row col m mn mx s eq_refl Rm)).
    apply (O _ (concat m) _ (fun r => concat r)); [|exact HF|exact P].
    eapply tk_conv; [apply (tk_rows live D _ _ m row col (proj1 Rm))|reflexivity|reflexivity|now intros].
    intros r Hr. apply (tk_row live D); [exact (rect_row row col m r Rm Hr)|].
    intros x Hx. apply O1; cbn; auto. right; right. now apply (In_concat x r).
Qed.
Print Assumptions C104_clamped.
(** ScopeMutM.v adds nothing but the drop. *)
Theorem C104_agrees : forall S T (d : ety S T) op clone k, (forall x s, e_drop d x s = s) ->
  (forall v (s : S), vscale_assign_s d op clone k (v, s) = vscale_assign op clone k (v, s)) /\
  (forall m (s : S), mscale_assign_s d op clone k (m, s) = mscale_assign op clone k (m, s)).
Proof.
  intros S T d op clone k ND. unfold vscale_assign_s, mscale_assign_s, owning_mut, owning, lift_ety. cbn [e_drop].
  split; intros v s; [destruct (vscale_assign op clone k (v, s)) as [[u| | |] [v' s1]]|destruct (mscale_assign op clone k (v, s)) as [[u| | |] [v' s1]]];
    cbn; rewrite ?ND; reflexivity.
Qed.
Print Assumptions C104_agrees.

(** In the world of C103_ex: adding in place uses up both operands and makes a new element; adding 9 panics,
    with the left operand still in its place. *)
Definition add_to (y : nat * nat) : M ((nat * nat) * world) unit :=
  lift (use y) ;;; (if snd y =? 9 then panic else x <- self ;; lift (use x) ;;; r <- lift (fresh (snd x + snd y)) ;; set_self r).
Definition clone103 (x : nat * nat) : M world (nat * nat) := look x ;;; fresh (snd x).
Definition cmp103 (x y : nat * nat) : M world comparison := look x ;;; look y ;;; ret (Nat.compare (snd x) (snd y)).
Lemma look_tidy x y : tidies w_live False False [x; y] (look x) [] (fun _ => []) /\ tidies w_live False False [x; y] (look y) [] (fun _ => []).
Proof.
  assert (K : forall z w R, In z R -> Permutation (w_live w) R -> look z w = (Ok tt, w)).
  { intros z w R Hz P. destruct (in_split z R Hz) as (r1 & r2 & ->). unfold look.
    destruct (without_perm z (w_live w) (r1 ++ r2)) as (l' & -> & _); [rewrite P; psolve|reflexivity]. }
  split; intros w R HI P; (rewrite (K _ w R); [exact P|apply HI; cbn; auto|exact P]).
Qed.
Lemma clone_tidy x : tidies w_live False False [x] (clone103 x) [] (fun r => [r]).
Proof.
  intros w R HI P. pose proof (proj1 (look_tidy x x) w R ltac:(intros u [<-|[<-|[]]]; apply HI; now left) P) as H.
  unfold clone103, bind. destruct (look x w) as [[u| | |] w1]; try exact H. cbn. now apply perm_skip.
Qed.
Lemma cmp_tidy x y : tidies w_live False False [x; y] (cmp103 x y) [] (fun _ => []).
Proof.
  intros w R HI P. destruct (look_tidy x y) as [H1 H2]. specialize (H1 w R HI P). unfold cmp103, bind.
  destruct (look x w) as [[u| | |] w1]; try exact H1. specialize (H2 w1 R HI H1). destruct (look y w1) as [[u'| | |] w2]; exact H2.
Qed.
Lemma use_ok x w R : Permutation (w_live w) (x :: R) ->
  exists l, use x w = (Ok tt, World (w_next w) l (w_bad w)) /\ Permutation l R.
Proof. intros P. unfold use. destruct (without_perm x _ R P) as (l & -> & P'). now exists l. Qed.
Lemma add_updates : updates w_live False False add_to.
Proof.
  intros x y w R _ P. unfold add_to, bind, lift, self, set_self, one in *. cbn [fst snd app] in *.
  destruct (use_ok y w (x :: R)) as (l & -> & P1); [rewrite P; apply perm_swap|]. cbn [fst snd].
  destruct (snd y =? 9); [exists []; split; [exact P1|now left]|]. cbn [fst snd].
  destruct (use_ok x (World (w_next w) l (w_bad w)) R P1) as (l2 & -> & P2). cbn. now apply perm_skip.
Qed.
Lemma drops103 : drops w_live e103.
Proof. intros x w R P. exact (bk_drop _ _ _ _ _ books103 x w R P). Qed.
(** [[1; 2; 3] += [4; 9; 5]] panics at the second entry: of the six elements, the first sum, the other two
    entries and a bystander are alive; 9 and the 5 that was not reached are gone. *)
Definition wv103 : world := World 7 (named [1; 2; 3; 4; 9; 5; 100]) false.
Example C104_ex :
  drops w_live e103 /\ updates w_live False False add_to /\
  (forall x, tidies w_live False False [x] (clone103 x) [] (fun r => [r])) /\
  (forall x y, tidies w_live False False [x; y] (cmp103 x y) [] (fun _ => [])) /\
  (match vop_assign dbg e103 3 add_to (skipn 3 (named [1; 2; 3; 4; 9; 5])) (named [1; 2; 3], wv103) with
   | (Panic, (v, w)) => map snd v = [5; 2; 3] /\ w_bad w = false /\ length (w_live w) = 4 /\ In (6, 100) (w_live w)
   | _ => False end) /\
  (match mscale_assign_s e103 add_to clone103 (14, 5) (rows_of 2 l103, w103) with
   | (Ok _, (m, w)) => map (map snd) m = [[6; 7]; [8; 9]] /\ w_bad w = false /\ length (w_live w) = 16 /\ ~ In (14, 5) (w_live w)
   | _ => False end) /\
  (match mclamp_m e103 clone103 cmp103 (0, 1) (2, 3) (rows_of 2 (skipn 3 l103), w103) with
   | (Ok _, (m, w)) => map (map snd) m = [[3; 1]; [3; 1]] /\ w_bad w = false /\ length (w_live w) = 15
   | _ => False end) /\
  (match mmax_m e103 clone103 cmp103 2 (rows_of 2 l103) w103 with
   | (Ok x, w) => snd x = 4 /\ w_bad w = false /\ length (w_live w) = 18
   | _ => False end).
Proof.
  split; [exact drops103|]. split; [exact add_updates|]. split; [exact clone_tidy|]. split; [exact cmp_tidy|].
  vm_compute. intuition congruence.
Qed.
