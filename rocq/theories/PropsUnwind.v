(** * PropsUnwind.v - C107: what computes one number keeps the books also when an element operation panics:
    no temporary is forgotten. *)
From Coq Require Import List Arith Bool Lia Permutation.
From Verif Require Import Rust Iter Elem VectorM MatIterM MatrixM ArithM OpsM NumM ScopeM UnwindM SpecCommon SpecAccount SpecAccountMut IterProofs OwnProofs VecProofs MatProofs AccountProofs AccountMut PropsNum OpsPure UnwindProofs Harness PropsAccount PropsAccount2.
Import ListNotations.

(** Sums, dot product and norm: one new value; when an operation panics, the partial sum, the factors and
    the clones made so far are gone.  The vectors and matrices are borrowed. *)
Theorem C107_sums : forall S T (live : S -> list T) (D leaky : Prop) (d : ety S T) (z : zops S T), tidy_ops live D leaky d z ->
  (forall n v, length v = n -> tidies live D leaky v (vsum_u d z n v) [] (fun r => [r])) /\
  (forall row col m, rect row col m -> tidies live D leaky (concat m) (msum_u d z row col m) [] (fun r => [r])) /\
  (forall n a b, length a = n -> length b = n -> tidies live D leaky (a ++ b) (vdot_u d z n a b) [] (fun r => [r])) /\
  (forall n v powi2 sqrt, length v = n ->
     (forall x, tidies live D leaky [] (powi2 x) [x] (fun r => [r])) -> (forall x, tidies live D leaky [] (sqrt x) [x] (fun r => [r])) ->
     tidies live D leaky v (vnorm_u d z powi2 sqrt n v) [] (fun r => [r])).
Proof.
  intros S T live D leaky d z []. repeat apply Logic.conj; intros.
  - apply td_vsum; auto; lia.
  - now apply td_msum.
  - now apply td_vdot.
  - now apply td_vnorm.
Qed.
Print Assumptions C107_sums.

(** The cross product: three new values, or none. *)
Theorem C107_cross : forall S T (live : S -> list T) (D leaky : Prop) (c : cfg) (d : ety S T) (z : zops S T) a b, tidy_ops live D leaky d z ->
  length a = 3 -> length b = 3 -> tidies live D leaky (a ++ b) (vcross_u d c z a b) [] (fun r => r).
Proof. intros S T live D leaky c d z a b []. now apply td_vcross. Qed.
Print Assumptions C107_cross.

(** Determinants up to size 3, the cofactors of size 2 (at any position: outside the matrix
    the panic is the code's own) and the inverse of size 1. *)
Theorem C107_small : forall S T (live : S -> list T) (D leaky : Prop) (c : cfg) (d : ety S T) (z : zops S T), tidy_ops live D leaky d z ->
  (forall m, rect 1 1 m -> tidies live D leaky (concat m) (det1 c (z_ops z) m) [] (fun r => [r])) /\
  (forall m, rect 2 2 m -> tidies live D leaky (concat m) (det2_u d c z m) [] (fun r => [r])) /\
  (forall m, rect 3 3 m -> tidies live D leaky (concat m) (det3_u d c z m) [] (fun r => [r])) /\
  (forall m i j, tidies live D leaky (concat m) (cof2_u d c z m (i, j)) [] (fun r => [r])) /\
  (forall m, rect 1 1 m -> tidies live D leaky (concat m) (inv1_u d c z m) []
     (fun r => match r with Some i => concat i | None => [] end)).
Proof.
  intros S T live D leaky c d z []. repeat apply Logic.conj; intros.
  - now apply td_det1.
  - now apply td_det2.
  - now apply td_det3.
  - apply td_cof2; auto.
  - now apply td_inv1.
Qed.
Print Assumptions C107_small.

(** For an element type whose destructor does nothing these are the functions of VectorM.v, NumM.v and
    OpsM.v. *)
Lemma hold_id {S T A} (d : ety S T) (ND : forall x s, e_drop d x s = s) x (m : M S A) s : hold d x m s = m s.
Proof. unfold hold. destruct (m s) as [[r| | |] s1]; now rewrite ?ND. Qed.
Lemma bind_ext {S A B} (m m' : M S A) (k k' : A -> M S B) s :
  (forall s, m s = m' s) -> (forall a s, k a s = k' a s) -> bind m k s = bind m' k' s.
Proof. intros H K. unfold bind. rewrite H. destruct (m' s) as [[r| | |] s1]; auto. Qed.
Lemma fold_u_id {S T A} (d : ety S T) (ND : forall x s, e_drop d x s = s) f : forall fuel (it : iter S A) st s,
  fold_u d fuel it st f s = fold fuel it st f s.
Proof.
  induction fuel as [|fuel IH]; intros it st s; [reflexivity|]. unfold fold. cbn [fold_u for_each].
  destruct (next (it, s)) as [[[x|]| | |] [it' s1]]; try reflexivity; [|now rewrite ND].
  destruct (f st x s1) as [[st'| | |] s2]; try reflexivity. apply IH.
Qed.
Lemma fold_from_u_id {S T A} (d : ety S T) (ND : forall x s, e_drop d x s = s) f fuel (it : iter S A) init s :
  fold_from_u d fuel it init f s = fold_from fuel it init f s.
Proof. unfold fold_from_u, fold_from. destruct (init s) as [[x| | |] s1]; try reflexivity. now apply fold_u_id. Qed.
Theorem C107_agrees : forall S T (d : ety S T) (c : cfg) (z : zops S T), (forall x s, e_drop d x s = s) ->
  (forall n v s, vsum_u d z n v s = vsum_z z n v s) /\
  (forall row col m s, rect row col m -> msum_u d z row col m s = msum_z z row col m s) /\
  (forall n a b s, length a = n -> length b = n -> vdot_u d z n a b s = vdot_z z n a b s) /\
  (forall n v powi2 sqrt s, vnorm_u d z powi2 sqrt n v s = vnorm_z z powi2 sqrt n v s) /\
  (forall a b s, vcross_u d c z a b s = vcross c (z_ops z) a b s) /\
  (forall m s, det2_u d c z m s = det2 c (z_ops z) m s) /\
  (forall m s, det3_u d c z m s = det3 c (z_ops z) m s) /\
  (forall m ij s, cof2_u d c z m ij s = cof2_z c z m ij s) /\
  (forall m s, inv1_u d c z m s = inv1_z c d z m s).
Proof.
  intros S T d c z ND.
  Ltac ext ND := repeat first [reflexivity | rewrite (hold_id _ ND) | apply bind_ext; intros].
  repeat apply Logic.conj.
  - intros. now apply fold_from_u_id.
  - intros row col m s [L R]. unfold msum_u, msum_z. rewrite fold_from_u_id by exact ND.
    rewrite (summing_gives z _ _ (vsum_z z col) m s); [rewrite (summing_gives z _ _ (vsum_z z col) m s); [reflexivity|apply imap_ret_gives, slice_iter_gives|lia]| |lia].
    apply (gives_ext _ (map (vsum_u d z col) m)); [|apply imap_ret_gives, slice_iter_gives].
    apply Forall2_map_map. intros r _ s0. now apply fold_from_u_id.
  - intros n a b s La Lb. unfold vdot_u, vdot_z. rewrite fold_from_u_id by exact ND.
    set (term := fun p => q <- pairm ref_ety (o_clone (z_ops z) (fst p)) (o_clone (z_ops z) (snd p)) ;; o_mul (z_ops z) (fst q) (snd q)).
    rewrite (summing_gives z _ _ term (combine a b) s); [rewrite (summing_gives z _ _ term (combine a b) s); [reflexivity| |]| |].
    + apply (dot_gives ref_ety (z_ops z) _ _ a b); [apply slice_iter_gives|apply slice_iter_gives|congruence].
    + rewrite combine_length. lia.
    + eapply gives_ext; [|apply (dot_gives d (z_ops z) _ _ a b); [apply slice_iter_gives|apply slice_iter_gives|congruence]].
      apply Forall2_map_map. intros p _ s0. subst term. cbv beta. unfold bind, pairm, ref_ety. cbn [e_drop].
      destruct (o_clone (z_ops z) (fst p) s0) as [[x| | |] s1]; try reflexivity.
      destruct (o_clone (z_ops z) (snd p) s1) as [[y| | |] s2]; try reflexivity. now rewrite ND.
    + rewrite combine_length. lia.
  - intros. unfold vnorm_u, vnorm_z. apply bind_ext; [|reflexivity]. intros. now apply fold_from_u_id.
  - intros. unfold vcross_u, vcross, cross_term_u, cross_term. ext ND.
  - intros. unfold det2_u, det2. ext ND.
  - intros. unfold det3_u, det3, term3_u, term3. ext ND.
  - intros m [i j] s. unfold cof2_u, cof2_z. apply bind_ext; [reflexivity|]. intros sgn s0. unfold bind at 1. rewrite (hold_id _ ND).
    unfold bind. destruct (usz_sub c 1 i s0) as [[a| | |] s1]; try reflexivity. destruct (usz_sub c 1 j s1) as [[b| | |] s2]; try reflexivity.
  - intros. unfold inv1_u, inv1_z. ext ND. destruct a0; [cbn; now rewrite ND|]. ext ND.
Qed.
Print Assumptions C107_agrees.

(** For any element type: they return what those functions return, in the same world, and panic exactly
    when those panic; only the world after a panic differs (by the drops).  The inverse is compared with the
    function of ScopeM.v, where the singular entry is dropped too. *)
(** [u] does what [m] does, except that the world after a panic may differ. *)
Definition falls {S A} (m u : M S A) : Prop :=
  forall s, match m s with (Panic, _) => exists s', u s = (Panic, s') | r => u s = r end.
Lemma falls_refl {S A} (m : M S A) : falls m m.
Proof. intros s. destruct (m s) as [[r| | |] s1]; try reflexivity. now exists s1. Qed.
Lemma falls_bind {S A B} (m u : M S A) (k k' : A -> M S B) : falls m u -> (forall a, falls (k a) (k' a)) -> falls (bind m k) (bind u k').
Proof.
  intros H K s. specialize (H s). unfold bind. destruct (m s) as [[r| | |] s1]; try (rewrite H; reflexivity).
  - rewrite H. apply K.
  - destruct H as (s2 & ->). now exists s2.
Qed.
Lemma falls_hold {S T A} (d : ety S T) x (m u : M S A) : falls m u -> falls m (hold d x u).
Proof.
  intros H s. specialize (H s). unfold hold. destruct (m s) as [[r| | |] s1]; try (rewrite H; reflexivity).
  destruct H as (s2 & ->). now exists (e_drop d x s2).
Qed.
Lemma falls_fold {S T A} (d : ety S T) (f : T -> A -> M S T) l l' : Forall2 falls l l' -> forall fuel (it it' : iter S A) st,
  gives it l nodrop -> gives it' l' nodrop -> length l < fuel -> falls (fold fuel it st f) (fold_u d fuel it' st f).
Proof.
  induction 1 as [|g g' l l' Hg Hl IH]; intros fuel it it' st [Gd G] [Gd' G'] HL s; (destruct fuel as [|fuel]; [cbn in HL; lia|]);
    unfold fold; cbn [for_each fold_u].
  - destruct (G s) as (i1 & E & Dr). destruct (G' s) as (i2 & E' & Dr'). rewrite E, E'. now rewrite (oos_eq _ _ _ _ Dr), (oos_eq _ _ _ _ Dr').
  - destruct (G s) as (i1 & E & Dr & K). destruct (G' s) as (i2 & E' & Dr' & K'). rewrite E, E'. specialize (Hg s).
    destruct (g s) as [[x| | |] s1].
    + rewrite Hg in *. cbn in K, K' |- *. specialize (K Logic.I). specialize (K' Logic.I).
      pose proof (falls_refl (f st x) s1) as F. destruct (f st x s1) as [[st'| | |] s2]; try reflexivity.
      * apply IH; auto. cbn in HL. lia.
      * rewrite (oos_eq _ _ _ _ Dr), (oos_eq _ _ _ _ Dr'). now eexists.
    + destruct Hg as (s2 & ->). cbn. rewrite (oos_eq _ _ _ _ Dr), (oos_eq _ _ _ _ Dr'). now eexists.
    + rewrite Hg. reflexivity.
    + rewrite Hg. reflexivity.
Qed.
Lemma falls_fold_from {S T A} (d : ety S T) (f : T -> A -> M S T) l l' init fuel (it it' : iter S A) : Forall2 falls l l' ->
  gives it l nodrop -> gives it' l' nodrop -> length l < fuel -> falls (fold_from fuel it init f) (fold_from_u d fuel it' init f).
Proof.
  intros F G G' HL s. unfold fold_from, fold_from_u. destruct (init s) as [[x| | |] s1]; try reflexivity.
  - now apply (falls_fold d f l l').
  - rewrite (oos_eq _ _ _ _ (gives_drop _ _ _ G)), (oos_eq _ _ _ _ (gives_drop _ _ _ G')). now eexists.
Qed.
Lemma falls_same {S A B} (h : B -> M S A) l : Forall2 falls (map h l) (map h l).
Proof. induction l; constructor; [apply falls_refl|exact IHl]. Qed.
Theorem C107_panics_alike : forall S T (d : ety S T) (c : cfg) (z : zops S T),
  (forall n v, length v = n -> falls (vsum_z z n v) (vsum_u d z n v)) /\
  (forall row col m, rect row col m -> falls (msum_z z row col m) (msum_u d z row col m)) /\
  (forall n a b, length a = n -> length b = n -> falls (vdot_z z n a b) (vdot_u d z n a b)) /\
  (forall n v powi2 sqrt, length v = n -> falls (vnorm_z z powi2 sqrt n v) (vnorm_u d z powi2 sqrt n v)) /\
  (forall a b, falls (vcross c (z_ops z) a b) (vcross_u d c z a b)) /\
  (forall m, falls (det2 c (z_ops z) m) (det2_u d c z m)) /\
  (forall m, falls (det3 c (z_ops z) m) (det3_u d c z m)) /\
  (forall m ij, falls (cof2_z c z m ij) (cof2_u d c z m ij)) /\
  (forall m, falls (inv1_s c d z m) (inv1_u d c z m)).
Proof.
  intros S T d c z.
  assert (VS : forall n v, length v = n -> falls (vsum_z z n v) (vsum_u d z n v)).
  { intros n v L. eapply falls_fold_from; [apply (falls_same (fun x => o_clone (z_ops z) x) v)| | |rewrite map_length; lia]; apply imap_ret_gives, slice_iter_gives. }
  Ltac fext := repeat first [apply falls_refl | apply falls_hold | apply falls_bind; [|intros]].
  repeat apply Logic.conj.
  - exact VS.
  - intros row col m [L R]. apply (falls_fold_from d _ (map (vsum_z z col) m) (map (vsum_u d z col) m)); [|apply imap_ret_gives, slice_iter_gives..|rewrite map_length; lia].
    apply Forall2_map_map. intros r Hr. apply VS. rewrite Forall_forall in R. now apply R.
  - intros n a b La Lb.
    eapply falls_fold_from; [|apply (dot_gives ref_ety (z_ops z) _ _ a b); [apply slice_iter_gives|apply slice_iter_gives|congruence]
                             |apply (dot_gives d (z_ops z) _ _ a b); [apply slice_iter_gives|apply slice_iter_gives|congruence]|rewrite map_length, combine_length; lia].
    apply Forall2_map_map. intros p _. apply falls_bind; [|intros; apply falls_refl]. intros s. unfold pairm.
    destruct (o_clone (z_ops z) (fst p) s) as [[x| | |] s1]; try reflexivity; [|now eexists].
    destruct (o_clone (z_ops z) (snd p) s1) as [[y| | |] s2]; try reflexivity. now eexists.
  - intros n v powi2 sqrt L. apply falls_bind; [|intros; apply falls_refl].
    eapply falls_fold_from; [apply (falls_same (fun x => a <- o_clone (z_ops z) x ;; powi2 a) v)| | |rewrite map_length; lia];
      rewrite <- map_map with (f := fun x => o_clone (z_ops z) x) (g := fun m => a <- m ;; powi2 a); apply imap_gives, imap_ret_gives, slice_iter_gives.
  - intros. unfold vcross_u, vcross, cross_term_u, cross_term. fext.
  - intros. unfold det2_u, det2. fext.
  - intros. unfold det3_u, det3, term3_u, term3. fext.
  - intros m [i j]. unfold cof2_u, cof2_z. apply falls_bind; [apply falls_refl|]. intros sgn s.
    assert (E : (a <- usz_sub c 1 i ;; b <- usz_sub c 1 j ;; x <- ix (z_ops z) m a b ;; o_mul (z_ops z) sgn x) s =
                (x <- (a <- usz_sub c 1 i ;; b <- usz_sub c 1 j ;; ix (z_ops z) m a b) ;; o_mul (z_ops z) sgn x) s).
    { unfold bind. destruct (usz_sub c 1 i s) as [[a| | |] s1]; try reflexivity. destruct (usz_sub c 1 j s1) as [[b| | |] s2]; reflexivity. }
    rewrite E. revert s E. intros s _. revert s. change (falls (x <- (a <- usz_sub c 1 i ;; b <- usz_sub c 1 j ;; ix (z_ops z) m a b) ;; o_mul (z_ops z) sgn x)
      (x <- hold d sgn (a <- usz_sub c 1 i ;; b <- usz_sub c 1 j ;; ix (z_ops z) m a b) ;; o_mul (z_ops z) sgn x)).
    apply falls_bind; [apply falls_hold, falls_refl|intros; apply falls_refl].
  - intros m. unfold inv1_u, inv1_s. apply falls_bind; [apply falls_refl|]. intros dd. apply falls_bind; [apply falls_hold, falls_refl|]. intros flat.
    destruct flat; [intros s; reflexivity|]. fext.
Qed.
Print Assumptions C107_panics_alike.

(** In the world of C103_ex, where multiplying by 9 panics: the element type is tidy, and with a bystander
    and the borrowed operands alive, nothing else is left after a panic in the second, third or last term. *)
Lemma takes_tidy (m : M world (nat * nat)) B : takes w_live False m B (fun r => [r]) ->
  (forall w, match m w with (Panic, w') => forall R, Permutation (w_live w) (B ++ R) -> Permutation (w_live w') R | _ => True end) ->
  tidies w_live False False [] m B one.
Proof.
  intros H HP w R HF P. specialize (H w R HF P). specialize (HP w). destruct (m w) as [[r| | |] w']; try exact H.
  exists []. split; [now apply HP|now left].
Qed.
Lemma tidy103 : tidy_ops w_live False False e103 z103.
Proof.
  assert (NP : forall x y f w, match bin f x y w with (Panic, _) => False | _ => True end).
  { intros x y f w. unfold bin, bind, use. destruct (without x (w_live w)) as [l|]; [cbn [w_live w_next w_bad]|exact Logic.I].
    destruct (without y l) as [l'|]; exact Logic.I. }
  assert (B : forall f x y, takes w_live False (bin f x y) [x; y] (fun r => [r]) -> tidies w_live False False [] (bin f x y) [x; y] one).
  { intros f x y H. apply takes_tidy; [exact H|]. intros w. specialize (NP x y f w). destruct (bin f x y w) as [[]]; auto. now destruct NP. }
  destruct books103 as [H1 H2 H3 H4 H5 H6 H7 H8 H9 H10]. split.
  - intros x y. apply B, H1.
  - intros x y. apply B, H2.
  - intros x y. apply takes_tidy; [apply H3|]. intros w. cbn. unfold bind.
    destruct (use x w) as [[u| | |] w1] eqn:E1; [|unfold use in E1; destruct (without x (w_live w)); discriminate|exact Logic.I..].
    destruct (use y w1) as [[u'| | |] w2] eqn:E2; [|unfold use in E2; destruct (without y (w_live w1)); discriminate|exact Logic.I..].
    destruct (snd y =? 9); cbn; [|exact Logic.I]. intros R P.
    destruct (use_ok x w (y :: R) P) as (l & E & P1). rewrite E in E1. injection E1 as _ <-.
    destruct (use_ok y (World (w_next w) l (w_bad w)) R P1) as (l2 & E' & P2). rewrite E' in E2. now injection E2 as _ <-.
  - intros x y. apply B, H4.
  - intros x. apply takes_tidy; [apply H5|]. intros w. cbn. unfold bind, use. destruct (without x (w_live w)); exact Logic.I.
  - exact clone_tidy.
  - apply takes_tidy; [apply H7|]. intros w. exact Logic.I.
  - apply takes_tidy; [apply H8|]. intros w. exact Logic.I.
  - intros x w R HF P. specialize (H9 x w R HF P). cbn in *. unfold bind, look in *. destruct (without x (w_live w)); exact H9.
  - exact drops103.
Qed.
Definition w107 (l : list nat) : world := World (length l) (named l) false.
Definition gone {A} (r : res A * world) (l : list nat) : Prop :=
  match r with (Panic, w) => w_bad w = false /\ w_live w = named l | _ => False end.
Example C107_ex :
  tidy_ops w_live False False e103 z103 /\
  (let l := [2; 3; 4; 5; 9; 6; 100] in
   gone (vdot_u e103 z103 3 (firstn 3 (named l)) (firstn 3 (skipn 3 (named l))) (w107 l)) l) /\
  (let l := [2; 3; 4; 5; 6; 9; 100] in
   gone (vcross_u e103 dbg z103 (firstn 3 (named l)) (firstn 3 (skipn 3 (named l))) (w107 l)) l) /\
  (let l := [2; 9; 4; 5; 100] in gone (det2_u e103 dbg z103 (rows_of 2 (named l)) (w107 l)) l) /\
  (let l := [1; 2; 3; 4; 5; 6; 7; 8; 9; 100] in gone (det3_u e103 dbg z103 (rows_of 3 (named l)) (w107 l)) l) /\
  (let l := [2; 3; 4; 9; 100] in gone (cof2_u e103 dbg z103 (rows_of 2 (named l)) (0, 0) (w107 l)) l) /\
  (let l := [2; 3; 4; 5; 100] in gone (cof2_u e103 rel z103 (rows_of 2 (named l)) (0, 2) (w107 l)) l).
Proof.
  split; [exact tidy103|]. vm_compute. repeat apply Logic.conj; reflexivity.
Qed.
