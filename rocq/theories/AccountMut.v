(** * AccountMut.v - the accounts of operations in place and of comparisons. *)
From Coq Require Import List Arith Bool Lia Permutation.
From Verif Require Import Rust Iter Elem VectorM MatIterM MatrixM ArithM CmpM ScopeMutM SpecCommon IterProofs OwnProofs VecProofs MatProofs AccProofs PropsCmp SpecAccount SpecAccountMut AccountProofs AccountLib.
Import ListNotations.

Section Mut.
Context {S T : Type} (live : S -> list T) (D leaky : Prop).
Local Notation ed own F m x B := (edits live D leaky own F m x B).
Local Notation td F m B E := (tidies live D leaky F m B E).
Lemma ed_ext {X} own F (m m' : M (X * S) unit) x B : (forall s, m (x, s) = m' (x, s)) -> ed own F m' x B -> ed own F m x B.
Proof. intros E H s R HF P. rewrite E. now apply H. Qed.
Lemma ed_own {X} (own own' : X -> list T) F m x B : (forall x, own x = own' x) -> ed own F m x B -> ed own' F m x B.
Proof.
  intros E H s R HF P. rewrite <- E in P. specialize (H s R HF P). destruct (m (x, s)) as [[u| | |] [x' s']]; try exact H; now rewrite <- E.
Qed.
Lemma ed_refs {X} (own : X -> list T) F F' m x B : ed own F m x B -> incl F F' -> ed own F' m x B.
Proof. intros H HI s R HF P. apply H; [now apply (incl_tran HI)|exact P]. Qed.
(** A loop over the slots. *)
Lemma ed_for {X} (own : X -> list T) F body l : (forall x, In x l -> ed own F body x []) ->
  ed (fun l => concat (map own l)) F (fun ls => iter_mut_for body (fst ls) (snd ls)) l [].
Proof.
  induction l as [|x l IH]; intros H s R HF P; cbn [fst snd iter_mut_for]; [exact P|].
  cbn [map concat] in P. specialize (IH (fun x Hx => H x (or_intror Hx))).
  pose proof (H x (or_introl eq_refl) s (concat (map own l) ++ R) (incl_appr _ HF)) as Hx.
  assert (P1 : Permutation (live s) (own x ++ [] ++ concat (map own l) ++ R)) by (rewrite P; psolve).
  specialize (Hx P1). destruct (body (x, s)) as [[[]| | |] [x' s1]]; try exact Hx.
  - assert (P2 : Permutation (live s1) (concat (map own l) ++ [] ++ own x' ++ R)) by (rewrite Hx; psolve).
    specialize (IH s1 (own x' ++ R) (incl_appr _ HF) P2). cbn [fst snd] in IH.
    destruct (iter_mut_for body l s1) as [[[]| | |] [l' s2]]; try exact IH.
    + cbn [map concat]. rewrite IH. psolve.
    + destruct IH as (L & PL & HL). exists L. split; [|exact HL]. cbn [map concat]. rewrite PL. psolve.
  - destruct Hx as (L & PL & HL). exists L. split; [|exact HL]. cbn [map concat]. rewrite PL. psolve.
Qed.
(** A loop over the slots and an iterator that owns its items. *)
Lemma ed_zip {X U} (own : X -> list T) (Bf : U -> list T) F (body : U -> M (X * S) unit) dr : forall l us it,
  gives it (map ret us) dr -> length l = length us ->
  (forall k s R, k <= length us -> Permutation (live s) (concat (map Bf (lastn k us)) ++ R) -> Permutation (live (dr k s)) R) ->
  (forall x u, In (x, u) (combine l us) -> ed own F (body u) x (Bf u)) ->
  ed (fun l => concat (map own l)) F (fun ls => iter_mut_zip_for it body (fst ls) (snd ls)) l (concat (map Bf us)).
Proof.
  assert (DR : forall us dr, (forall k s R, k <= length us -> Permutation (live s) (concat (map Bf (lastn k us)) ++ R) -> Permutation (live (dr k s)) R) ->
    forall s R, Permutation (live s) (concat (map Bf us) ++ R) -> Permutation (live (dr (length us) s)) R).
  { intros us dr0 HD s R P. apply (HD (length us)); [lia|]. unfold lastn. now rewrite Nat.sub_diag. }
  induction l as [|x l IH]; intros us it G L HD H s R HF P; (destruct us as [|u us]; [|]); try discriminate; cbn [fst snd iter_mut_zip_for].
  - destruct G as [Gd _]. rewrite (oos_eq _ _ _ _ Gd). cbn [map concat app] in *. apply (DR [] dr HD). exact P.
  - destruct G as [Gd G]. destruct (G s) as (it' & E & Dr & K). specialize (K Logic.I). rewrite E. cbn.
    assert (HD' : forall k s R, k <= length us -> Permutation (live s) (concat (map Bf (lastn k us)) ++ R) -> Permutation (live (dr k s)) R).
    { intros k s0 R0 Hk P0. apply (HD k); [cbn; lia|]. replace (lastn k (u :: us)) with (lastn k us); [exact P0|].
      unfold lastn. cbn [length]. replace (Datatypes.S (length us) - k) with (Datatypes.S (length us - k)) by lia. reflexivity. }
    cbn [map concat] in P.
    pose proof (H x u (or_introl eq_refl) s (concat (map own l) ++ concat (map Bf us) ++ R) (incl_appr _ (incl_appr _ HF))) as Hx.
    assert (P1 : Permutation (live s) (own x ++ Bf u ++ concat (map own l) ++ concat (map Bf us) ++ R)) by (rewrite P; psolve).
    specialize (Hx P1). destruct (body u (x, s)) as [[[]| | |] [x' s1]]; try exact Hx.
    + assert (P2 : Permutation (live s1) (concat (map own l) ++ concat (map Bf us) ++ own x' ++ R)) by (rewrite Hx; psolve).
      injection L as L. specialize (IH us it' K L HD' (fun x u Hin => H x u (or_intror Hin)) s1 (own x' ++ R) (incl_appr _ HF) P2).
      cbn [fst snd] in IH. destruct (iter_mut_zip_for it' body l s1) as [[[]| | |] [l' s2]]; try exact IH.
      * cbn [map concat]. rewrite IH. psolve.
      * destruct IH as (Lf & PL & HL). exists Lf. split; [|exact HL]. cbn [map concat]. rewrite PL. psolve.
    + destruct Hx as (Lf & PL & HL). rewrite (oos_eq _ _ _ _ Dr). rewrite map_length. exists Lf. split; [|exact HL].
      apply (DR us dr HD'). rewrite PL. cbn [map concat]. psolve.
Qed.
Lemma ed_owning {X} (own : X -> list T) d k F (m : M (X * S) unit) x : drops live d ->
  ed own (k :: F) m x [] -> ed own F (owning_mut d k m) x [k].
Proof.
  intros Hd H s R HF P. unfold owning_mut, owning.
  assert (P1 : Permutation (live s) (own x ++ [] ++ k :: R)) by (rewrite P; psolve).
  specialize (H s (k :: R)). assert (HI : incl (k :: F) (k :: R)) by (intros y [->|Hy]; [now left|right; now apply HF]).
  specialize (H HI P1). destruct (m (x, s)) as [[u| | |] [x' s1]]; try exact H; cbn.
  - apply Hd. rewrite H. psolve.
  - destruct H as (L & PL & HL). exists L. split; [|exact HL]. apply Hd. rewrite PL. psolve.
Qed.
Section Elem.
Variable d : ety S T.
Hypothesis Hd : drops live d.
Lemma dl v : forall s R, Permutation (live s) (v ++ R) -> Permutation (live (drop_all d v s)) R.
Proof. induction v as [|x v IH]; intros s R P; cbn [drop_all]; [exact P|]. unfold drop_all in *. cbn [fold_left] in *. apply IH. now apply Hd. Qed.
Lemma dr m : forall s R, Permutation (live s) (concat m ++ R) -> Permutation (live (drop_all (vec_ety d) m s)) R.
Proof.
  induction m as [|v m IH]; intros s R P; [exact P|]. unfold drop_all in *. cbn [fold_left concat] in *. apply IH. apply dl. rewrite P. psolve.
Qed.
Lemma ed_vop c n op a b : updates live D leaky op -> length a = n -> length b = n -> n < W c ->
  ed (fun v => v) [] (vop_assign c d n op b) a b.
Proof using Hd.
  intros Hop La Lb HW. apply (ed_own (fun v => concat (map one v)) (fun v => v)); [intros v; apply concat_sing|].
  rewrite <- (concat_sing b) at 2. unfold vop_assign.
  apply (ed_zip one one [] op (fun k s => drop_all d (lastn k b) s)).
  - apply into_it_gives; auto.
  - congruence.
  - intros k s R _ P. apply dl. unfold one in P. now rewrite concat_sing in P.
  - intros x u _. apply Hop.
Qed.
Lemma ed_mop c row col op a b : updates live D leaky op -> rect row col a -> rect row col b -> row < W c -> col < W c ->
  ed (fun m => concat m) [] (mop_assign c d row col op b) a (concat b).
Proof using Hd.
  intros Hop Ra Rb H1 H2. apply (ed_own (fun m => concat (map (fun r => r) m)) (fun m => concat m)); [intros m; now rewrite map_id|].
  rewrite <- (map_id b) at 2. unfold mop_assign.
  apply (ed_zip (fun r => r) (fun r => r) [] (fun rrow rs => iter_mut_zip_for (into_it c d col rrow) op (fst rs) (snd rs)) (fun k s => drop_all (vec_ety d) (lastn k b) s)).
  - apply into_it_gives; [apply Rb|exact H1].
  - destruct Ra, Rb. congruence.
  - intros k s R _ P. apply dr. now rewrite map_id in P.
  - intros x u Hin. apply (ed_vop c col op x u Hop); [apply (rect_row row col a x Ra); eapply in_combine_l; eassumption|apply (rect_row row col b u Rb); eapply in_combine_r; eassumption|exact H2].
Qed.
(** One slot scaled: the scalar is cloned for it. *)
Lemma ed_scale_slot op clone k x F : updates live D leaky op -> td [k] (clone k) [] (fun r => [r]) -> In k F ->
  ed one F (r <- lift (clone k) ;; op r) x [].
Proof.
  intros Hop Hc Hk s R HF P. unfold bind, lift, one in *. cbn [fst snd app] in *.
  assert (HI : incl [k] (x :: R)) by (intros y [<-|[]]; right; now apply HF).
  specialize (Hc s (x :: R) HI P). destruct (clone k s) as [[r| | |] s1]; try exact Hc.
  - assert (P1 : Permutation (live s1) (one x ++ [r] ++ R)) by (rewrite Hc; unfold one; psolve).
    exact (Hop x r s1 R (incl_nil_l _) P1).
  - destruct Hc as (L & PL & HL). exists L. split; [|exact HL]. rewrite PL. psolve.
Qed.
Lemma ed_vscale op clone k v F : updates live D leaky op -> td [k] (clone k) [] (fun r => [r]) -> In k F ->
  ed (fun v => v) F (vscale_assign op clone k) v [].
Proof.
  intros Hop Hc Hk. apply (ed_own (fun v => concat (map one v)) (fun v => v)); [intros w; apply concat_sing|].
  apply ed_for. intros x _. now apply ed_scale_slot.
Qed.
Lemma ed_mscale op clone k m F : updates live D leaky op -> td [k] (clone k) [] (fun r => [r]) -> In k F ->
  ed (fun m => concat m) F (mscale_assign op clone k) m [].
Proof.
  intros Hop Hc Hk. apply (ed_own (fun m => concat (map (fun r => r) m)) (fun m => concat m)); [intros w; now rewrite map_id|].
  apply (ed_for (fun r => r)). intros r _. apply (ed_vscale op clone k r F Hop Hc Hk).
Qed.
(** Comparisons. *)
Lemma td_clamp_one (clone : T -> M S T) (cmp : T -> T -> M S comparison) lo hi x :
  (forall x y, td [x; y] (cmp x y) [] (fun _ => [])) -> (forall x, td [x] (clone x) [] (fun r => [r])) ->
  td [lo; hi; x] (clamp_one clone cmp lo hi x) [] (fun r => [r]).
Proof.
  intros Hc Hcl s R HF P. unfold clamp_one, cmp_max_m, cmp_min_m, bind, ret. cbn [app] in *.
  assert (I1 : incl [x; lo] R) by (intros y [<-|[<-|[]]]; apply HF; cbn; auto).
  pose proof (Hc x lo s R I1 P) as H1. destruct (cmp x lo s) as [[o1| | |] s1]; try exact H1. cbn [app] in H1.
  set (a := match o1 with Lt => lo | _ => x end). assert (Ha : In a R) by (apply HF; unfold a; destruct o1; cbn; auto).
  assert (I2 : incl [hi; a] R) by (intros y [<-|[<-|[]]]; [apply HF; cbn; auto|exact Ha]).
  pose proof (Hc hi a s1 R I2 H1) as H2. destruct (cmp hi a s1) as [[o2| | |] s2]; try exact H2. cbn [app] in H2.
  set (b := match o2 with Gt => a | _ => hi end). assert (Hb : In b R) by (unfold b; destruct o2; auto; apply HF; cbn; auto).
  assert (I3 : incl [b] R) by (intros y [<-|[]]; exact Hb).
  exact (Hcl b s2 R I3 H2).
Qed.
Lemma ed_clamp_slot (clone : T -> M S T) (cmp : T -> T -> M S comparison) lo hi x F :
  (forall x y, td [x; y] (cmp x y) [] (fun _ => [])) -> (forall x, td [x] (clone x) [] (fun r => [r])) -> In lo F -> In hi F ->
  ed one F (clamp_slot d clone cmp lo hi) x [].
Proof using Hd.
  intros Hc Hcl H1 H2 s R HF P. unfold clamp_slot, bind, self, lift, tick, set_self, one in *. cbn [fst snd app] in *.
  assert (HI : incl [lo; hi; x] (x :: R)) by (intros y [<-|[<-|[<-|[]]]]; [right; now apply HF|right; now apply HF|now left]).
  pose proof (td_clamp_one clone cmp lo hi x Hc Hcl s (x :: R) HI P) as H. destruct (clamp_one clone cmp lo hi x s) as [[r| | |] s1]; try exact H.
  - cbn. apply Hd. rewrite H. psolve.
  - destruct H as (L & PL & HL). exists L. split; [|exact HL]. rewrite PL. psolve.
Qed.
(** Selection of the largest or smallest item; [Own] is what an item owns. *)
Lemma td_select_loop {A} (di : ety S T) (Own : T -> list T) F (cmp : T -> T -> M S comparison) wins (get : A -> M S T) :
  (forall x s R, Permutation (live s) (Own x ++ R) -> Permutation (live (e_drop di x s)) R) ->
  (forall x y, td [x; y] (cmp x y) [] (fun _ => [])) ->
  (forall x, incl (Own x) [x]) ->
  forall l fuel it sel, gives it (map get l) nodrop -> length l < fuel ->
  (forall y, In y l -> td F (get y) [] Own /\ forall s x s', get y s = (Ok x, s') -> In x (Own x) \/ In x F) -> In sel (Own sel) \/ In sel F ->
  forall s R, incl F R -> Permutation (live s) (Own sel ++ R) ->
  match select_loop di cmp wins fuel it sel s with
  | (Ok r, s') => Permutation (live s') (Own r ++ R) /\ (In r (Own r) \/ In r F)
  | (Panic, s') => exists left, Permutation (live s') (left ++ R) /\ (left = [] \/ leaky)
  | (UB, _) => False
  | (Diverge, _) => D
  end.
Proof.
  intros HD HC HO. induction l as [|y l IH]; intros fuel it sel [Gd G] HL HG Hsel s R HF P; (destruct fuel as [|fuel]; [lia|]); cbn [select_loop].
  - destruct (G s) as (it' & E & Dr). rewrite E, (oos_eq _ _ _ _ Dr). now split.
  - destruct (G s) as (it' & E & Dr & K). rewrite E. destruct (HG y (or_introl eq_refl)) as [Hg Hin].
    pose proof (Hg s (Own sel ++ R) (incl_appr _ HF) P) as H. specialize (Hin s).
    destruct (get y s) as [[x| | |] s1]; cbn in K |- *.
    + specialize (K Logic.I). specialize (Hin x s1 eq_refl).
      assert (I1 : incl [sel; x] (Own x ++ Own sel ++ R)).
      { intros u [<-|[<-|[]]]; apply in_or_app; [right; apply in_or_app; destruct Hsel; [now left|right; now apply HF]|].
        destruct Hin; [now left|right; apply in_or_app; right; now apply HF]. }
      pose proof (HC sel x s1 _ I1 H) as H2. destruct (cmp sel x s1) as [[o| | |] s2]; try exact H2.
      * cbn [app] in H2. destruct (wins o).
        -- apply (IH fuel it' x K ltac:(cbn in HL; lia) (fun y Hy => HG y (or_intror Hy)) Hin _ R HF). apply HD. rewrite H2. psolve.
        -- apply (IH fuel it' sel K ltac:(cbn in HL; lia) (fun y Hy => HG y (or_intror Hy)) Hsel _ R HF). apply HD. rewrite H2. psolve.
      * destruct H2 as (L & PL & HLk). unfold owning. rewrite (oos_eq _ _ _ _ Dr). exists L. split; [|exact HLk].
        apply HD. cbn [nodrop]. unfold nodrop. apply HD. rewrite PL. psolve.
    + destruct H as (L & PL & HLk). unfold owning. rewrite (oos_eq _ _ _ _ Dr). exists L. split; [|exact HLk].
      apply HD. unfold nodrop. rewrite PL. psolve.
    + exact H.
    + exact H.
Qed.

Lemma td_select {A} (di : ety S T) (Own : T -> list T) F (cmp : T -> T -> M S comparison) wins (get : A -> M S T) :
  (forall x s R, Permutation (live s) (Own x ++ R) -> Permutation (live (e_drop di x s)) R) ->
  (forall x y, td [x; y] (cmp x y) [] (fun _ => [])) -> (forall x, incl (Own x) [x]) ->
  forall l fuel it, gives it (map get l) nodrop -> length l <= fuel ->
  (forall y, In y l -> td F (get y) [] Own /\ forall s x s', get y s = (Ok x, s') -> In x (Own x) \/ In x F) ->
  forall s R, incl F R -> Permutation (live s) R ->
  match select di cmp wins fuel it s with
  | (Ok (Some r), s') => Permutation (live s') (Own r ++ R) /\ (In r (Own r) \/ In r F)
  | (Ok None, s') => Permutation (live s') R
  | (Panic, s') => exists left, Permutation (live s') (left ++ R) /\ (left = [] \/ leaky)
  | (UB, _) => False
  | (Diverge, _) => D
  end.
Proof.
  intros HD HC HO l fuel it G HL HG s R HF P. unfold select. destruct l as [|y l]; destruct G as [Gd G].
  - destruct (G s) as (it' & E & Dr). rewrite E, (oos_eq _ _ _ _ Dr). exact P.
  - destruct (G s) as (it' & E & Dr & K). rewrite E. destruct (HG y (or_introl eq_refl)) as [Hg Hin].
    pose proof (Hg s R HF P) as H. specialize (Hin s).
    destruct (get y s) as [[x| | |] s1]; cbn in K |- *; try exact H.
    + specialize (K Logic.I). specialize (Hin x s1 eq_refl). unfold bind, ret.
      pose proof (td_select_loop di Own F cmp wins get HD HC HO l fuel it' x K ltac:(cbn in HL; lia) (fun y Hy => HG y (or_intror Hy)) Hin s1 R HF H) as H2.
      destruct (select_loop di cmp wins fuel it' x s1) as [[r| | |] s2]; exact H2.
    + rewrite (oos_eq _ _ _ _ Dr). exact H.
Qed.
Lemma td_vselect wins (clone : T -> M S T) (cmp : T -> T -> M S comparison) n v :
  (forall x y, td [x; y] (cmp x y) [] (fun _ => [])) -> (forall x, td [x] (clone x) [] (fun r => [r])) -> length v = n ->
  td v (vselect_m wins clone cmp n v) [] (fun r => [r]).
Proof.
  intros HC Hcl L s R HF P. unfold vselect_m, bind.
  pose proof (td_select ref_ety (fun _ => []) v cmp wins ret (fun x s R P => P) HC (fun x => incl_nil_l _) v n (viter v) (slice_iter_gives v) ltac:(lia)) as H.
  assert (HG : forall y, In y v -> td v (ret y) [] (fun _ => []) /\ forall (s : S) x s', ret y s = (Ok x, s') -> In x [] \/ In x v).
  { intros y Hy. split; [intros s0 R0 _ P0; exact P0|]. intros s0 x s' E. right. unfold ret in E. now injection E as <- _. }
  specialize (H HG s R HF P).
  destruct (select ref_ety cmp wins n (viter v) s) as [[[x|]| | |] s1]; try exact H.
  - cbn [In app] in H. destruct H as [H [[]|Hx]]. assert (HI : incl [x] R) by (intros y [<-|[]]; now apply HF).
    specialize (Hcl x s1 R HI H). cbn. destruct (clone x s1) as [[y| | |] s2]; exact Hcl.
  - cbn. exists []. split; [exact H|now left].
Qed.
Lemma td_mselect wins (clone : T -> M S T) (cmp : T -> T -> M S comparison) n m :
  (forall x y, td [x; y] (cmp x y) [] (fun _ => [])) -> (forall x, td [x] (clone x) [] (fun r => [r])) -> rect n n m ->
  td (concat m) (o <- select d cmp wins n (imap (vselect_m wins clone cmp n) (viter m)) ;; unwrap o) [] (fun r => [r]).
Proof using Hd.
  intros HC Hcl Rm s R HF P. unfold bind.
  pose proof (td_select d one (concat m) cmp wins (vselect_m wins clone cmp n) (fun x s R P => Hd x s R P) HC (fun x => incl_refl _) m n
    (imap (vselect_m wins clone cmp n) (viter m)) (imap_ret_gives _ _ _ _ (slice_iter_gives m)) ltac:(destruct Rm; lia)) as H.
  assert (HG : forall y, In y m -> td (concat m) (vselect_m wins clone cmp n y) [] one /\
     forall s x s', vselect_m wins clone cmp n y s = (Ok x, s') -> In x (one x) \/ In x (concat m)).
  { intros y Hy. split; [|intros; left; now left]. intros s0 R0 HF0 P0.
    apply (td_vselect wins clone cmp n y HC Hcl); [now apply (rect_row n n m)|intros u Hu; apply HF0; now apply (In_concat u y)|exact P0]. }
  specialize (H HG s R HF P). destruct (select d cmp wins n (imap (vselect_m wins clone cmp n) (viter m)) s) as [[[x|]| | |] s1]; try exact H; cbn.
  - apply H.
  - exists []. split; [exact H|now left].
Qed.
(** Equality. *)
Lemma td_veq (peq : T -> T -> M S bool) a b : (forall x y, td [x; y] (peq x y) [] (fun _ => [])) ->
  td (a ++ b) (veq_m peq a b) [] (fun _ => []).
Proof.
  intros HP. unfold veq_m, slice_eq_m, as_slice. destruct (length a =? length b); [|intros s R HF P; exact P].
  revert b. induction a as [|x a IH]; intros [|y b] s R HF P; cbn [slice_eq_loop]; try exact P.
  unfold bind. assert (HI : incl [x; y] R) by (intros u [<-|[<-|[]]]; apply HF; [now left|apply in_or_app; right; now left]).
  pose proof (HP x y s R HI P) as H. destruct (peq x y s) as [[[|]| | |] s1]; try exact H.
  apply (IH b s1 R); [|exact H]. intros u Hu. apply HF. apply in_app_or in Hu as [Hu|Hu]; [right; apply in_or_app; now left|right; apply in_or_app; right; now right].
Qed.
Lemma td_meq (peq : T -> T -> M S bool) a b : (forall x y, td [x; y] (peq x y) [] (fun _ => [])) ->
  td (concat a ++ concat b) (meq_m peq a b) [] (fun _ => []).
Proof.
  intros HP. unfold meq_m, veq_m at 1, slice_eq_m, as_slice. destruct (length a =? length b); [|intros s R HF P; exact P].
  revert b. induction a as [|x a IH]; intros [|y b] s R HF P; cbn [slice_eq_loop]; try exact P.
  unfold bind. cbn [concat] in HF. assert (HI : incl (x ++ y) R) by (intros u Hu; apply HF; apply in_app_or in Hu as [Hu|Hu]; repeat rewrite in_app_iff; auto).
  pose proof (td_veq peq x y HP s R HI P) as H. destruct (veq_m peq x y s) as [[[|]| | |] s1]; try exact H.
  apply (IH b s1 R); [|exact H]. intros u Hu. apply HF. apply in_app_or in Hu as [Hu|Hu]; repeat rewrite in_app_iff; auto.
Qed.
End Elem.
End Mut.
