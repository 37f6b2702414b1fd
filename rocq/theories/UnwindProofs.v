(** * UnwindProofs.v - the accounts of the functions of UnwindM.v. *)
From Coq Require Import List Arith Bool Lia Permutation.
From Verif Require Import Rust Iter Elem VectorM MatIterM MatrixM ArithM OpsM NumM UnwindM SpecCommon IterProofs OwnProofs VecProofs MatProofs AccProofs SpecAccount SpecAccountMut AccountProofs AccountLib PropsOrder2 OpsPure.
Import ListNotations.

(** An element type whose operations leave nothing behind when they panic (unless [leaky]). *)
Section Tidy.
Context {S T : Type} (live : S -> list T) (D leaky : Prop).
Local Notation td F m B E := (tidies live D leaky F m B E).
Lemma td_ext {A} F (m m' : M S A) B E : (forall s, m s = m' s) -> td F m' B E -> td F m B E.
Proof. intros H Hm s R HF P. rewrite H. now apply Hm. Qed.
Lemma td_refs {A} F F' (m : M S A) B E : td F m B E -> incl F F' -> td F' m B E.
Proof. intros H HI s R HF P. apply H; [now apply (incl_tran HI)|exact P]. Qed.
Lemma td_conv {A} F (m : M S A) B B' E E' : td F m B E -> Permutation B' B -> (forall r, Permutation (E r) (E' r)) -> td F m B' E'.
Proof.
  intros H HB HE s R HF P. assert (P' : Permutation (live s) (B ++ R)) by (rewrite P; now apply Permutation_app_tail).
  specialize (H s R HF P'). destruct (m s) as [[r| | |] s']; try exact H. rewrite H. apply Permutation_app_tail, HE.
Qed.
Lemma td_ret {A} F (a : A) B E : Permutation B (E a) -> td F (ret a) B E.
Proof. intros H s R HF P. cbn. rewrite P. now apply Permutation_app_tail. Qed.
Lemma td_bind {A B} F (m : M S A) (k : A -> M S B) B0 B1 B2 E :
  td F m B1 B2 -> Permutation B0 B1 -> (forall a, td F (k a) (B2 a) E) -> td F (bind m k) B0 E.
Proof.
  intros H HP K s R HF P. assert (P' : Permutation (live s) (B1 ++ R)) by (rewrite P; now apply Permutation_app_tail).
  specialize (H s R HF P'). unfold bind. destruct (m s) as [[r| | |] s']; try exact H. now apply K.
Qed.
Variable d : ety S T.
Hypothesis Hd : drops live d.
Lemma td_hold {A} F x (m : M S A) B E : td F m B E -> td F (hold d x m) (x :: B) (fun r => x :: E r).
Proof using Hd.
  intros H s R HF P. assert (P' : Permutation (live s) (B ++ x :: R)) by (rewrite P; psolve).
  assert (HF' : incl F (x :: R)) by (intros y Hy; right; now apply HF).
  specialize (H s (x :: R) HF' P'). unfold hold. destruct (m s) as [[r| | |] s']; try exact H.
  - rewrite H. psolve.
  - destruct H as (L & PL & HL). exists L. split; [|exact HL]. apply Hd. rewrite PL. psolve.
Qed.
(** The held value is visible to [m]. *)
Lemma td_hold_ref {A} F x (m : M S A) B E : td (x :: F) m B E -> td F (hold d x m) (x :: B) (fun r => x :: E r).
Proof using Hd.
  intros H s R HF P. assert (P' : Permutation (live s) (B ++ x :: R)) by (rewrite P; psolve).
  assert (HF' : incl (x :: F) (x :: R)) by (intros y [->|Hy]; [now left|right; now apply HF]).
  specialize (H s (x :: R) HF' P'). unfold hold. destruct (m s) as [[r| | |] s']; try exact H.
  - rewrite H. psolve.
  - destruct H as (L & PL & HL). exists L. split; [|exact HL]. apply Hd. rewrite PL. psolve.
Qed.
Lemma td_fold {A} F (f : T -> A -> M S T) (Own : A -> list T) :
  (forall st x, td [] (f st x) (st :: Own x) (fun r => [r])) ->
  forall l fuel it st, gives it l nodrop -> length l < fuel -> (forall g, In g l -> td F g [] Own) ->
  td F (fold_u d fuel it st f) [st] (fun r => [r]).
Proof using Hd.
  intros Hf. induction l as [|g l IH]; intros fuel it st [Gd G] HL Hg s R HF P; (destruct fuel as [|fuel]; [cbn in HL; lia|]); cbn [fold_u].
  - destruct (G s) as (it' & E & Dr). rewrite E, (oos_eq _ _ _ _ Dr). exact P.
  - destruct (G s) as (it' & E & Dr & K). rewrite E.
    assert (HF' : incl F (st :: R)) by (intros y Hy; right; now apply HF).
    pose proof (Hg g (or_introl eq_refl) s (st :: R) HF' P) as H. destruct (g s) as [[x| | |] s1]; cbn in K |- *; try exact H.
    + specialize (K Logic.I).
      assert (P1 : Permutation (live s1) ((st :: Own x) ++ R)) by (rewrite H; psolve).
      pose proof (Hf st x s1 R (incl_nil_l _) P1) as H1. destruct (f st x s1) as [[st'| | |] s2]; try exact H1.
      * apply (IH fuel it' st' K ltac:(cbn in HL; lia) (fun g Hin => Hg g (or_intror Hin)) s2 R HF H1).
      * now rewrite (oos_eq _ _ _ _ Dr).
    + destruct H as (L & PL & HLk). rewrite (oos_eq _ _ _ _ Dr). exists L. split; [|exact HLk]. unfold nodrop. apply Hd. rewrite PL. psolve.
Qed.
Lemma td_fold_from {A} F (f : T -> A -> M S T) (Own : A -> list T) init l fuel it :
  td [] init [] (fun r => [r]) -> (forall st x, td [] (f st x) (st :: Own x) (fun r => [r])) ->
  gives it l nodrop -> length l < fuel -> (forall g, In g l -> td F g [] Own) ->
  td F (fold_from_u d fuel it init f) [] (fun r => [r]).
Proof using Hd.
  intros Hi Hf G HL Hg s R HF P. unfold fold_from_u. pose proof (Hi s R (incl_nil_l _) P) as H.
  destruct (init s) as [[st| | |] s1]; try exact H.
  - now apply (td_fold F f Own Hf l fuel it st G HL Hg s1 R HF H).
  - now rewrite (oos_eq _ _ _ _ (gives_drop _ _ _ G)).
Qed.

(** A pair of elements, as [zip] makes it. *)
Lemma td_pairm F (ma mb : M S T) : td F ma [] one -> td F mb [] one ->
  td F (pairm d ma mb) [] (fun p => [fst p; snd p]).
Proof using Hd.
  intros Ha Hb s R HF P. pose proof (Ha s R HF P) as H. unfold pairm. destruct (ma s) as [[x| | |] s1]; try exact H.
  assert (HF' : incl F (x :: R)) by (intros y Hy; right; now apply HF).
  pose proof (Hb s1 (x :: R) HF' H) as H1. destruct (mb s1) as [[y| | |] s2]; try exact H1.
  - rewrite H1. unfold one. cbn [fst snd]. psolve.
  - destruct H1 as (L & PL & HL). exists L. split; [|exact HL]. apply Hd. rewrite PL. psolve.
Qed.

Variable c : cfg.
Variable z : zops S T.
Let o := z_ops z.
Hypothesis Hclone : forall x, td [x] (o_clone o x) [] one.
Hypothesis Hzero : td [] (z_zero z) [] one.
Hypothesis Hone : td [] (z_one z) [] one.
Hypothesis His : forall x, td [x] (z_is_zero z x) [] (fun _ => []).
Hypothesis Hadd : forall x y, td [] (o_add o x y) [x; y] one.
Hypothesis Hsub : forall x y, td [] (o_sub o x y) [x; y] one.
Hypothesis Hmul : forall x y, td [] (o_mul o x y) [x; y] one.
Hypothesis Hdiv : forall x y, td [] (o_div o x y) [x; y] one.
Hypothesis Hneg : forall x, td [] (o_neg o x) [x] one.

Lemma td_clone_in x F : In x F -> td F (o_clone o x) [] one.
Proof using Hclone. intros Hx. apply (td_refs [x]); [apply Hclone|]. intros y [<-|[]]; exact Hx. Qed.
Lemma td_any {A} F (m : M S A) B E : td [] m B E -> td F m B E.
Proof. intros H. apply (td_refs []); [exact H|apply incl_nil_l]. Qed.

Lemma td_vsum n v : length v <= n -> td v (vsum_u d z n v) [] one.
Proof using Hd Hclone Hzero Hadd Hmul.
  intros L. unfold vsum_u, cloned. fold o.
  apply (td_fold_from v (o_add o) one (z_zero z) (map (fun x => o_clone o x) v)).
  - exact Hzero.
  - intros st x. apply Hadd.
  - apply imap_ret_gives, slice_iter_gives.
  - rewrite map_length. lia.
  - intros g Hg. apply in_map_iff in Hg. destruct Hg as (x & <- & Hx). now apply td_clone_in.
Qed.
Lemma td_msum row col m : rect row col m -> td (concat m) (msum_u d z row col m) [] one.
Proof using Hd Hclone Hzero Hadd Hmul.
  intros R. unfold msum_u. fold o.
  apply (td_fold_from (concat m) (o_add o) one (z_zero z) (map (fun r => vsum_u d z col r) m)).
  - exact Hzero.
  - intros st x. apply Hadd.
  - apply imap_ret_gives, slice_iter_gives.
  - rewrite map_length. destruct R. lia.
  - intros g Hg. apply in_map_iff in Hg. destruct Hg as (r & <- & Hr).
    apply (td_refs r); [apply td_vsum; pose proof (rect_row _ _ _ _ R Hr); lia|]. intros x Hx. now apply (In_concat x r).
Qed.
Lemma td_vnorm powi2 sqrt n v : (forall x, td [] (powi2 x) [x] one) -> (forall x, td [] (sqrt x) [x] one) ->
  length v = n -> td v (vnorm_u d z powi2 sqrt n v) [] one.
Proof using Hd Hclone Hzero Hadd Hmul.
  intros Hp Hs L. unfold vnorm_u, cloned. fold o.
  eapply td_bind; [|reflexivity|intros a; apply td_any; unfold one at 1; apply Hs].
  apply (td_fold_from v (o_add o) one (z_zero z) (map (fun x => a <- o_clone o x ;; powi2 a) v)).
  - exact Hzero.
  - intros st x. apply Hadd.
  - rewrite <- map_map with (f := fun x => o_clone o x) (g := fun m => a <- m ;; powi2 a).
    apply imap_gives, imap_ret_gives, slice_iter_gives.
  - rewrite map_length. lia.
  - intros g Hg. apply in_map_iff in Hg. destruct Hg as (x & <- & Hx).
    eapply td_bind; [now apply td_clone_in|reflexivity|]. intros a. apply td_any. apply Hp.
Qed.
Lemma td_vdot n a b : length a = n -> length b = n -> td (a ++ b) (vdot_u d z n a b) [] one.
Proof using Hd Hclone Hzero Hadd Hmul.
  intros La Lb. unfold vdot_u. fold o.
  eapply (td_fold_from (a ++ b) (o_add o) one (z_zero z)).
  - exact Hzero.
  - intros st x. apply Hadd.
  - apply (dot_gives d o _ _ a b); [apply slice_iter_gives|apply slice_iter_gives|congruence].
  - rewrite map_length, combine_length. lia.
  - intros g Hg. apply in_map_iff in Hg. destruct Hg as ([x y] & <- & Hx). cbn [fst snd].
    eapply td_bind; [apply td_pairm|reflexivity|].
    + apply td_clone_in, in_or_app. left. exact (in_combine_l _ _ _ _ Hx).
    + apply td_clone_in, in_or_app. right. exact (in_combine_r _ _ _ _ Hx).
    + intros [p q]. cbn [fst snd]. apply td_any, Hmul.
Qed.

Lemma td_vidx F v i : length v = 3 -> i < 3 -> incl v F -> td F (vidx c o v i) [] one.
Proof using Hclone.
  intros L Hi HI. destruct (nth_error v i) as [x|] eqn:E; [|apply nth_error_None in E; lia].
  apply (td_ext _ _ (o_clone o x)); [|apply td_clone_in, HI; now apply nth_error_In in E].
  intros s. rewrite (vidx_run c o v (fun k => nth k v x) i s L); [|intros k Hk; now apply nth_error_nth'; lia|exact Hi].
  now rewrite (nth_error_nth _ _ _ E).
Qed.
Lemma td_idx n m i j : rect n n m -> i < n -> j < n -> td (concat m) (idx c o n m i j) [] one.
Proof using Hclone.
  intros R Hi Hj. destruct (entry_some n n m i j R Hi Hj) as [x E].
  apply (td_ext _ _ (o_clone o x)); [|apply td_clone_in; now apply (entry_In m i j)].
  intros s. unfold idx, bind. now rewrite (mstatic_in c n n m i j x s R Hi Hj E).
Qed.
Lemma td_ix row col m i j : rect row col m -> i < row -> j < col -> td (concat m) (ix o m i j) [] one.
Proof using Hclone.
  intros R Hi Hj. destruct (entry_some row col m i j R Hi Hj) as [x E].
  apply (td_ext _ _ (o_clone o x)); [|apply td_clone_in; now apply (entry_In m i j)].
  intros s. unfold ix, bind. now rewrite (mindex_in m i j x s E).
Qed.

(** One step of a chain of [<-]: zero or more values held, then a known operation. *)
Ltac holds leaf := first [leaf | eapply td_hold; holds leaf].
Ltac step leaf := eapply td_bind; [holds leaf|unfold one; psolve|intros ?].
Ltac opl := first [apply td_any, Hmul|apply td_any, Hsub|apply td_any, Hadd|apply td_any, Hdiv|apply td_any, Hneg|apply td_any, Hone].
Ltac fin := eapply td_conv; [opl|unfold one; psolve|reflexivity].

Lemma td_cross_term a b i j k l : length a = 3 -> length b = 3 -> i < 3 -> j < 3 -> k < 3 -> l < 3 ->
  td (a ++ b) (cross_term_u d c z a b i j k l) [] one.
Proof using All.
  intros La Lb ? ? ? ?. unfold cross_term_u. fold o.
  Ltac vx := apply td_vidx; [assumption|assumption|first [apply incl_appl, incl_refl|apply incl_appr, incl_refl]].
  step vx. step vx. step opl. step vx. step vx. step opl. fin.
Qed.
Lemma td_vcross a b : length a = 3 -> length b = 3 -> td (a ++ b) (vcross_u d c z a b) [] (fun r => r).
Proof using All.
  intros La Lb. unfold vcross_u.
  Ltac ct := apply td_cross_term; (assumption || lia).
  step ct. step ct. step ct. apply td_ret. unfold vnew, one. psolve.
Qed.
Lemma td_det1 m : rect 1 1 m -> td (concat m) (det1 c o m) [] one.
Proof using Hclone. intros R. apply (td_idx 1); auto. Qed.
Ltac gx := apply td_idx; (assumption || lia).
Lemma td_det2 m : rect 2 2 m -> td (concat m) (det2_u d c z m) [] one.
Proof using All.
  intros R. unfold det2_u. fold o. step gx. step gx. step opl. step gx. step gx. step opl. fin.
Qed.
Lemma td_term3 m i1 j1 i2 j2 i3 j3 : rect 3 3 m -> i1 < 3 -> j1 < 3 -> i2 < 3 -> j2 < 3 -> i3 < 3 -> j3 < 3 ->
  td (concat m) (term3_u d c z m i1 j1 i2 j2 i3 j3) [] one.
Proof using All.
  intros R ? ? ? ? ? ?. unfold term3_u. fold o. step gx. step gx. step opl. step gx. fin.
Qed.
Lemma td_det3 m : rect 3 3 m -> td (concat m) (det3_u d c z m) [] one.
Proof using All.
  intros R. unfold det3_u. fold o.
  Ltac t3 := apply td_term3; (assumption || lia).
  step t3. step t3. step opl. step t3. step opl. step t3. step opl. step t3. step opl. step t3. fin.
Qed.
Lemma td_panic {A} F (E : A -> list T) : td F panic [] E.
Proof. intros s R HF P. exists []. split; [exact P|now left]. Qed.
(** Any position at all: outside, indexing panics. *)
Lemma td_ix_any m i j : td (concat m) (ix o m i j) [] one.
Proof using Hclone.
  destruct (entry m i j) as [x|] eqn:E.
  - apply (td_ext _ _ (o_clone o x)); [|apply td_clone_in; now apply (entry_In m i j)].
    intros s. unfold ix, bind. now rewrite (mindex_in m i j x s E).
  - apply (td_ext _ _ panic); [|apply td_panic]. intros s. unfold ix, bind. now rewrite (mindex_out m i j s E).
Qed.
Lemma td_add F i j : td F (usz_add c i j) [] (fun _ => []).
Proof. unfold usz_add. destruct (i + j <? W c); [now apply td_ret|]. destruct (debug c); [apply td_panic|now apply td_ret]. Qed.
Lemma td_sub F i j : td F (usz_sub c i j) [] (fun _ => []).
Proof. unfold usz_sub. destruct (j <=? i); [now apply td_ret|]. destruct (debug c); [apply td_panic|now apply td_ret]. Qed.
Lemma td_sign i j F : td F (cof_sign_z c z i j) [] one.
Proof using All.
  unfold cof_sign_z. fold o. eapply td_bind; [apply td_add|reflexivity|]. intros n. cbv beta.
  destruct (n mod 2 =? 0); [apply td_any, Hone|]. step opl. fin.
Qed.
Lemma td_cof2 m i j : td (concat m) (cof2_u d c z m (i, j)) [] one.
Proof using All.
  unfold cof2_u. fold o.
  Ltac sg := apply td_sign.
  step sg.
  assert (K : td (concat m) (a0 <- usz_sub c 1 i ;; b <- usz_sub c 1 j ;; ix o m a0 b) [] one).
  { eapply td_bind; [apply td_sub|reflexivity|]. intros a0. eapply td_bind; [apply td_sub|reflexivity|]. intros b. apply td_ix_any. }
  eapply td_bind; [exact (td_hold _ a _ _ _ K)|reflexivity|]. intros x. cbn beta. unfold one. fin.
Qed.
Lemma td_inv1 m : rect 1 1 m ->
  td (concat m) (inv1_u d c z m) [] (fun r => match r with Some i => concat i | None => [] end).
Proof using All.
  intros R. pose proof (W_big c). unfold inv1_u. fold o. step gx.
  eapply td_bind; [eapply td_hold_ref; eapply td_refs; [apply His|intros y [<-|[]]; now left]|unfold one; psolve|intros flat].
  destruct flat.
  - intros s Rs HF P. cbn [fst snd] in *. apply Hd. exact P.
  - step opl. step opl. eapply (td_ext _ _ (ret (Some [[_]]))).
    + intros s. unfold bind. rewrite mnew_spec; [reflexivity|reflexivity|lia].
    + apply td_ret. reflexivity.
Qed.
End Tidy.
