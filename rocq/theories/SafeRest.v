(** * SafeRest.v - the remaining functions, in the logic of SafeProofs.v. *)
From Coq Require Import List Arith Bool Lia.
From Verif Require Import Rust Iter Elem VectorM MatIterM MatrixM ArithM OpsM CmpM FmtM IterProofs MatProofs SpecCommon ChunkProofs Harness.
From Verif Require Import SpecSafe SafeProofs SafeLib.
Import ListNotations.

Section R.
Context {S : Type} (D : Prop) (I : S -> Prop) (c : cfg).
Notation "'T'" := (tri D I).

Section MZip.
Context {A B C : Type} (PA : A -> Prop) (PB : B -> Prop) (PC : C -> Prop).
Variables (da : ety S A) (db : ety S B) (dc : ety S C).
Variable op : A -> B -> M S C.
Hypothesis (Ha : dsafe I da) (Hb : dsafe I db) (Hc : dsafe I dc).
Hypothesis Hop : forall x y, PA x -> PB y -> T PC (op x y).
Variables (row col : nat) (a : list (list A)) (b : list (list B)).
Hypothesis (HW1 : row < W c) (HW2 : col < W c) (Ma : mat row col PA a) (Mb : mat row col PB b).
Let Ha' := dsafe_vec I da Ha.
Let Hb' := dsafe_vec I db Hb.
Let Hc' := dsafe_vec I dc Hc.
Lemma t_mzip_vv : T (mat row col PC) (mzip_vv c da db dc row col op a b).
Proof.
  apply (t_vzip_vv D I c (vec col PA) (vec col PB) (vec col PC)); auto.
  intros x y Hx Hy. now apply (t_vzip_vv D I c PA PB PC).
Qed.
Lemma t_mzip_vr : T (mat row col PC) (mzip_vr c da dc row col op a b).
Proof.
  apply (t_vzip_vr D I c (vec col PA) (vec col PB) (vec col PC)); auto.
  intros x y Hx Hy. now apply (t_vzip_vr D I c PA PB PC).
Qed.
Lemma t_mzip_rv : T (mat row col PC) (mzip_rv c db dc row col op a b).
Proof.
  apply (t_vzip_rv D I c (vec col PA) (vec col PB) (vec col PC)); auto.
  intros x y Hx Hy. now apply (t_vzip_rv D I c PA PB PC).
Qed.
Lemma t_mzip_rr : T (mat row col PC) (mzip_rr c dc row col op a b).
Proof.
  apply (t_vzip_rr D I c (vec col PA) (vec col PB) (vec col PC)); auto.
  intros x y Hx Hy. now apply (t_vzip_rr D I c PA PB PC).
Qed.
End MZip.

Lemma t_mneg {A C} (PA : A -> Prop) (PC : C -> Prop) (d : ety S A) (dc : ety S C) row col neg m :
  dsafe I d -> dsafe I dc -> row < W c -> col < W c -> (forall x, PA x -> T PC (neg x)) -> mat row col PA m ->
  T (mat row col PC) (mneg c d dc row col neg m).
Proof.
  intros Hd Hdc H1 H2 Hn Hm. apply t_collect; [now apply dsafe_vec|].
  apply (isafe_imap _ _ _ _ _ _ _ _ (isafe_into D I False (vec col PA) c (vec_ety d) row m (dsafe_vec I d Hd) H1 Hm)).
  intros r Hr. now apply (t_vneg D I c PA PC).
Qed.
Lemma t_mop_assign {A U} (PA : A -> Prop) (PU : U -> Prop) (du : ety S U) row col op rhs :
  dsafe I du -> row < W c -> col < W c -> (forall u, PU u -> tri D (pI PA I) any (op u)) -> mat row col PU rhs ->
  tri D (pI (mat row col PA) I) any (mop_assign c du row col op rhs).
Proof.
  intros Hd H1 H2 Hop Hr.
  refine (tri_iter_mut_zip D I (vec col PA) False (vec col PU) row _ _ row _
    (isafe_into D I False (vec col PU) c (vec_ety du) row rhs (dsafe_vec I du Hd) H1 Hr)).
  intros r Hrr. exact (t_vop_assign D I c PA PU du col op r Hd H2 Hop Hrr).
Qed.
Lemma t_mscale_assign {A} (P : A -> Prop) row col op cl (rhs : A) :
  (forall u, P u -> tri D (pI P I) any (op u)) -> (forall u, P u -> T P (cl u)) -> P rhs ->
  tri D (pI (mat row col P) I) any (@mscale_assign S A op cl rhs).
Proof.
  intros Hop Hcl Hr. refine (tri_iter_mut D I (vec col P) row _ _).
  exact (t_vscale_assign D I P P col op cl rhs Hop Hcl Hr).
Qed.
Lemma t_vnorm {A} (P : A -> Prop) (o : fops S A) n v : ops_ok D I P (f_ops o) ->
  (forall x, P x -> T P (f_powi2 o x)) -> (forall x, P x -> T P (f_sqrt o x)) -> vec n P v ->
  T P (vnorm o n v).
Proof.
  intros K H2 Hs Hv. eapply tri_bind; [|exact Hs].
  apply (t_fold D I P P); [|apply K|apply K].
  apply (isafe_imap _ _ _ P P); [|exact H2]. apply s_cloned; [apply K|]. now apply s_viter.
Qed.
Lemma t_vnormalized {A} (P : A -> Prop) (d : ety S A) (o : fops S A) n v : dsafe I d -> n < W c ->
  ops_ok D I P (f_ops o) ->
  (forall x, P x -> T P (f_powi2 o x)) -> (forall x, P x -> T P (f_sqrt o x)) -> vec n P v ->
  T (vec n P) (vnormalized c d o n v).
Proof.
  intros Hd HW K H2 Hs Hv. eapply tri_bind; [apply (t_vclone D I c P); auto; apply K|]. intros cl Hcl.
  eapply tri_bind; [apply (t_vnorm P); auto|]. intros nm Hnm. apply (t_vscale D I c P P P); auto; apply K.
Qed.
Definition cplx_ok {A} (P : A -> Prop) (z : complex A) : Prop := P (re z) /\ P (im z).
Lemma t_mconjugate {A} (P : A -> Prop) (d : ety S (complex A)) (o : ops S A) row col m :
  dsafe I d -> row < W c -> col < W c -> ops_ok D I P o -> mat row col (cplx_ok P) m ->
  T (mat row col (cplx_ok P)) (mconjugate c d o row col m).
Proof.
  intros Hd H1 H2 K Hm. unfold mconjugate. eapply (tri_bind D I (mat row col (cplx_ok P))).
  - apply (t_vclone D I c (vec col (cplx_ok P))); [now apply dsafe_vec| |exact Hm].
    intros r Hr. apply (t_vclone D I c (cplx_ok P)); [exact Hd| |exact Hr].
    intros z [Hz1 Hz2]. eapply tri_bind; [apply (k_clone D I P o K _ Hz1)|]. intros x Hx.
    eapply tri_bind; [apply (k_clone D I P o K _ Hz2)|]. intros y Hy. now apply tri_ret.
  - intros cl Hcl. apply (t_mmap D I c (cplx_ok P)); auto. intros i j z _ _ [Hz1 Hz2].
    eapply tri_bind; [apply (k_clone D I P o K _ Hz1)|]. intros x Hx.
    eapply tri_bind; [apply (k_clone D I P o K _ Hz2)|]. intros y Hy.
    eapply tri_bind; [apply (k_neg D I P o K _ Hy)|]. intros w Hw. now apply tri_ret.
Qed.
Lemma t_mdefault {A} (P : A -> Prop) (d : ety S A) dflt row col : dsafe I d -> T P dflt ->
  T (mat row col P) (mdefault c d dflt row col).
Proof.
  intros Hd H. apply (t_vgenerate D I c (vec col P)); [now apply dsafe_vec|]. intros i _.
  apply (t_vgenerate D I c P); [exact Hd|]. now intros j _.
Qed.
Lemma t_mtranspose {A} (P : A -> Prop) (d : ety S A) cl n : dsafe I d -> n < W c ->
  (forall x, P x -> T P (cl x)) -> tri D (pI (mat n n P) I) any (mtranspose c d cl n).
Proof.
  intros Hd HW Hcl. eapply tri_bind; [apply tri_self|]. intros m Hm.
  eapply tri_bind; [apply tri_lift; apply (t_mtransposed D I c P d Hd n n cl m HW Hcl Hm)|].
  intros m' Hm'. now apply tri_set.
Qed.
Section Clamp.
Context {A : Type} (P : A -> Prop) (d : ety S A) (clone : A -> M S A) (cmp : A -> A -> M S comparison).
Hypothesis (Hd : dsafe I d) (Hcl : forall x, P x -> T P (clone x)) (Hco : forall x y, P x -> P y -> T any (cmp x y)).
Variables (mn mx : A).
Hypothesis (Hmn : P mn) (Hmx : P mx).
Lemma t_vclamped n v : vec n P v -> T (vec n P) (vclamped_m c d clone cmp n v mn mx).
Proof.
  intros Hv. apply t_owning; [exact Hd|]. apply t_owning; [exact Hd|]. apply t_collect; [exact Hd|].
  apply (isafe_imap _ _ _ _ _ _ _ _ (s_viter D I P n v Hv)). intros x Hx. now apply t_clamp_one.
Qed.
Lemma t_mclamped row col m : mat row col P m -> T (mat row col P) (mclamped_m c d clone cmp row col m mn mx).
Proof.
  intros Hm. apply t_owning; [exact Hd|]. apply t_owning; [exact Hd|]. apply t_collect; [now apply dsafe_vec|].
  apply (isafe_imap _ _ _ _ _ _ _ _ (s_viter D I (vec col P) row m Hm)). intros r Hr. apply t_collect; [exact Hd|].
  apply (isafe_imap _ _ _ _ _ _ _ _ (s_viter D I P col r Hr)). intros x Hx. now apply t_clamp_one.
Qed.
Lemma t_clamp_slot : tri D (pI P I) any (clamp_slot d clone cmp mn mx).
Proof.
  eapply tri_bind; [apply tri_self|]. intros x Hx.
  eapply tri_bind; [apply tri_lift; exact (t_clamp_one D I P clone Hcl cmp mn mx x Hco Hmn Hmx Hx)|]. intros y Hy.
  eapply tri_seq; [apply tri_lift, tri_tick; intros s Hs; now apply Hd|]. now apply tri_set.
Qed.
Lemma t_vclamp n : tri D (pI (vec n P) I) any (vclamp_m d clone cmp mn mx).
Proof.
  apply t_owning; [now apply dsafe_lift|]. apply t_owning; [now apply dsafe_lift|]. apply tri_iter_mut, t_clamp_slot.
Qed.
Lemma t_mclamp row col : tri D (pI (mat row col P) I) any (mclamp_m d clone cmp mn mx).
Proof.
  apply t_owning; [now apply dsafe_lift|]. apply t_owning; [now apply dsafe_lift|].
  apply (tri_iter_mut D I (vec col P)). apply (tri_iter_mut D I P), t_clamp_slot.
Qed.
End Clamp.
Lemma t_meq {A} (P : A -> Prop) peq r1 c1 r2 c2 a b :
  (forall x y, P x -> P y -> T any (peq x y)) -> mat r1 c1 P a -> mat r2 c2 P b -> T any (meq_m peq a b).
Proof.
  intros H Ha Hb. apply (t_veq D I (vec c1 P) (vec c2 P) _ r1 r2); auto.
  intros x y Hx Hy. now apply (t_veq D I P P _ c1 c2).
Qed.
End R.
