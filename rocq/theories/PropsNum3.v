(** * PropsNum3.v - C102 continued: whatever zero, one, the bounds and [is_zero] of the element type do,
    nothing has undefined behaviour, and only well-shaped values are built. *)
From Coq Require Import List Arith Bool Lia.
From Verif Require Import Rust Iter Elem VectorM MatIterM MatrixM ArithM OpsM NumM SpecCommon Harness IterProofs OwnProofs MatProofs ChunkProofs.
From Verif Require Import SpecSafe SafeProofs SafeLib SafeRest PropsSafe PropsNum.
Import ListNotations.

(** As [ops_no_ub] (SpecSafe.v), and the four calls may panic and have any effect too. *)
Definition zops_no_ub {S T} (D : Prop) (P : T -> Prop) (z : zops S T) : Prop :=
  ops_no_ub D P (z_ops z) /\ no_ub D P (z_zero z) /\ no_ub D P (z_one z) /\
  (forall x, P x -> no_ub D anything (z_is_zero z x)).

Section Lib.
Context {S : Type} (D : Prop) (I : S -> Prop) (c : cfg).
Context {A : Type} (P : A -> Prop) (d : ety S A) (z : zops S A).
Let o := z_ops z.
Notation "'T'" := (tri D I).
Hypothesis (Hd : dsafe I d) (K : ops_ok D I P o).
Hypothesis (Kz : T P (z_zero z)) (K1 : T P (z_one z)) (Kb : forall x, P x -> T any (z_is_zero z x)).
Let Hdv : dsafe I (vec_ety d).
Proof. now apply dsafe_vec. Qed.
Let Ka : forall x y, P x -> P y -> T P (o_add o x y).
Proof. apply K. Qed.
Let Km : forall x y, P x -> P y -> T P (o_mul o x y).
Proof. apply K. Qed.
Let Kd : forall x y, P x -> P y -> T P (o_div o x y).
Proof. apply K. Qed.
Let Kn : forall x, P x -> T P (o_neg o x).
Proof. apply K. Qed.
Let Kc : forall x, P x -> T P (o_clone o x).
Proof. apply K. Qed.

Lemma t_fold_from {X C} (Q : X -> Prop) (R : C -> Prop) n it init body :
  isafe D I False Q n it -> T R init -> (forall st x, R st -> Q x -> T R (body st x)) ->
  T R (fold_from (Datatypes.S n) it init body).
Proof.
  intros Hit HR HB s HI. unfold fold_from. pose proof (HR s HI) as G. destruct (init s) as [[st| | |] s1]; auto.
  - destruct G as [HI1 Hst]. exact (t_fold D I Q R n it st body Hit Hst HB s1 HI1).
  - exact (tri_oos_panic D I R it (isafe_drop D I False Q n it Hit) s1 G).
Qed.
Lemma z_vis_zero n v : vec n P v -> T any (vis_zero_z z n v).
Proof. intros Hv. apply (t_all D I P); [now apply s_viter|exact Kb]. Qed.
Lemma z_mis_zero row col m : mat row col P m -> T any (mis_zero_z z row col m).
Proof.
  intros Hm. apply (t_all D I (vec col P)); [now apply s_viter|]. intros r Hr. apply (t_all D I P); [now apply s_viter|exact Kb].
Qed.
Lemma s_clv n v : vec n P v -> isafe D I False P n (cloned (o_clone o) (viter v)).
Proof using Kc. intros Hv. apply s_cloned; [exact Kc|now apply s_viter]. Qed.
Lemma z_vsum n v : vec n P v -> T P (vsum_z z n v).
Proof. intros Hv. apply (t_fold_from P P); [now apply s_clv|exact Kz|exact Ka]. Qed.
Lemma z_msum row col m : mat row col P m -> T P (msum_z z row col m).
Proof.
  intros Hm. apply (t_fold_from P P); [|exact Kz|exact Ka].
  apply (isafe_imap _ _ _ _ _ _ _ _ (s_viter D I (vec col P) row m Hm)). intros r Hr. now apply z_vsum.
Qed.
Lemma z_vdot n a b : vec n P a -> vec n P b -> T P (vdot_z z n a b).
Proof.
  intros Va Vb. apply (t_fold_from P P); [|exact Kz|exact Ka].
  apply (isafe_imap _ _ _ _ _ _ _ _ (isafe_zip D I False False P P ref_ety n n _ _ (dsafe_ref I) (s_clv n a Va) (s_clv n b Vb))).
  intros [x y] [Hx Hy]. now apply Km.
Qed.
Lemma z_vnorm powi2 sqrt n v : (forall x, P x -> T P (powi2 x)) -> (forall x, P x -> T P (sqrt x)) -> vec n P v ->
  T P (vnorm_z z powi2 sqrt n v).
Proof.
  intros H2 Hs Hv. eapply tri_bind; [|exact Hs]. apply (t_fold_from P P); [|exact Kz|exact Ka].
  apply (isafe_imap _ _ _ _ _ _ _ _ (s_clv n v Hv)). exact H2.
Qed.
Lemma z_midentity n : T (mat n n P) (midentity_z c d z n).
Proof. apply t_mgenerate; [exact Hd|]. intros i j _ _. now destruct (i =? j). Qed.
Lemma z_entry_cloned n rc rhs lrow rcol : n < W c -> mat n rc P rhs -> vec n P lrow -> colit n rc rcol ->
  T P (entry_cloned_z c d z n rc rhs lrow rcol).
Proof.
  intros HW Hm Hl Hc. apply (t_fold_from P P); [|exact Kz|exact Ka].
  assert (Ia : isafe D I False P n (cloned (o_clone o) (slice_iter lrow))) by (now apply s_clv).
  assert (Ib : isafe D I False P n (cloned (o_clone o) (cin_iter c n rc rhs rcol)))
    by (apply s_cloned; [exact Kc|now apply isafe_cin]).
  apply (isafe_imap _ _ _ _ _ _ _ _ (isafe_zip D I False False P P d n n _ _ Hd Ia Ib)).
  intros [x y] [Hx Hy]. now apply Km.
Qed.
Lemma z_entry_ref n rc rhs lrow rcol : n < W c -> mat n rc P rhs -> vec n P lrow -> colit n rc rcol ->
  T P (entry_ref_z c d z n rc rhs lrow rcol).
Proof.
  intros HW Hm Hl Hc. apply (t_fold_from P P); [|exact Kz|exact Ka].
  assert (Ia : isafe D I False P n (cloned (o_clone o) (slice_iter lrow))) by (now apply s_clv).
  assert (Ib : isafe D I False P n (cin_iter c n rc rhs rcol)) by now apply isafe_cin.
  apply (isafe_imap _ _ _ _ _ _ _ _ (isafe_zip D I False False P P d n n _ _ Hd Ia Ib)).
  intros [x y] [Hx Hy]. now apply Km.
Qed.
Lemma z_mmul_vv lr n rc a b : lr < W c -> n < W c -> rc < W c -> mat lr n P a -> mat n rc P b ->
  T (mat lr rc P) (mmul_vv_z c d z lr n rc a b).
Proof. intros W1 W2 W3 Ma Mb. apply t_mul0; try assumption. intros. now apply z_entry_cloned. Qed.
Lemma z_mmul_vr lr n rc a b : lr < W c -> n < W c -> rc < W c -> mat lr n P a -> mat n rc P b ->
  T (mat lr rc P) (mmul_vr_z c d z lr n rc a b).
Proof. intros W1 W2 W3 Ma Mb. apply t_mul0; try assumption. intros. now apply z_entry_ref. Qed.
Lemma z_mul_assign n rhs : n < W c -> mat n n P rhs -> tri D (pI (mat n n P) I) any (mmul_assign_z c d z n rhs).
Proof.
  intros HW Hr. eapply tri_bind; [apply tri_self|]. intros m Hm.
  eapply tri_bind; [apply tri_lift; apply (z_mmul_vv n n n m rhs HW HW HW Hm Hr)|].
  intros m' Hm'. now apply tri_set.
Qed.
Lemma z_mmulv row col m v : row < W c -> mat row col P m -> vec col P v -> T (vec row P) (mmulv_z c d z row col m v).
Proof.
  intros H1 Hm Hv. apply t_collect; [exact Hd|].
  apply (isafe_imap _ _ _ _ _ _ _ _ (isafe_rr D I False (vec col P) c row m Hm H1)).
  intros r Hr. apply (t_fold_from P P); [|exact Kz|exact Ka].
  apply (isafe_imap _ _ _ _ _ _ _ _
           (isafe_zip D I False False P P ref_ety col col _ _ (dsafe_ref I) (s_viter D I P col r Hr) (s_clv col v Hv))).
  intros [x y] [Hx Hy]. eapply tri_bind; [apply Kc, Hx|]. intros x' Hx'. now apply Km.
Qed.
Lemma z_mmulv_ref row col m v : row < W c -> col < W c -> mat row col P m -> vec col P v ->
  T (vec row P) (mmulv_ref_z c d z row col m v).
Proof.
  intros H1 H2 Hm Hv. apply t_collect; [exact Hd|].
  apply (isafe_imap _ _ _ _ _ _ _ _ (isafe_into D I False (vec col P) c (vec_ety d) row m Hdv H1 Hm)).
  intros r Hr. apply (t_fold_from P P); [|exact Kz|exact Ka].
  apply (isafe_imap _ _ _ _ _ _ _ _
           (isafe_zip D I False False P P d col col _ _ Hd (isafe_into D I False P c d col r Hd H2 Hr) (s_viter D I P col v Hv))).
  intros [x y] [Hx Hy]. now apply Km.
Qed.
Lemma z_mpow n m e : n < W c -> mat n n P m -> T (mat n n P) (mpow_z c d z n m e).
Proof.
  intros HW Hm. unfold mpow_z. eapply tri_bind; [apply (t_mclone D I c P d o Hd K n n m Hm)|]. intros m' Hm'.
  apply t_pow; [intros x y Hx Hy; now apply z_mmul_vv|intros x Hx; now apply (t_mclone D I c P d o Hd K)|apply z_midentity|exact Hm'].
Qed.

(** Determinant, cofactor, inverse. *)
Ltac zstep :=
  match goal with
  | |- tri _ _ _ (bind (idx _ _ _ _ _ _) _) => eapply tri_bind; [apply (t_idx D I c P o K); [eassumption|lia|lia]|intros ? ?]
  | |- tri _ _ _ (bind (ix _ _ _ _) _) => eapply tri_bind; [eapply (t_ix D I P o K); eassumption|intros ? ?]
  | |- tri _ _ _ (bind (o_mul _ _ _) _) => eapply tri_bind; [apply Km; eassumption|intros ? ?]
  | |- tri _ _ _ (bind (o_div _ _ _) _) => eapply tri_bind; [apply Kd; eassumption|intros ? ?]
  | |- tri _ _ _ (bind (o_neg _ _) _) => eapply tri_bind; [apply Kn; eassumption|intros ? ?]
  | |- tri _ _ _ (bind (z_one _) _) => eapply tri_bind; [exact K1|intros ? ?]
  | |- tri _ _ _ (bind (z_is_zero _ _) _) => eapply tri_bind; [apply Kb; eassumption|intros [|] _; [now apply tri_ret|]]
  | |- tri _ _ _ (bind (ms _ _ _ _ _ _ _ _ _ _ _) _) => eapply tri_bind; [apply (t_ms D I c P o K); [eassumption|lia..]|intros ? ?]
  | |- tri _ _ _ (o_mul _ _ _) => apply Km; assumption
  end.
Ltac zmat := repeat (first [assumption | split; [reflexivity|] | constructor]).
Lemma z_expand n m cof : mat n n P m -> (forall ij, T P (cof ij)) -> T P (expand_col0_z z n m cof).
Proof.
  intros Hm Hcof. apply (t_fold_from P P); [|exact Kz|exact Ka]. apply t_range. intros i _. fold o.
  zstep. eapply tri_bind; [apply Hcof|intros ? ?]. zstep.
Qed.
Lemma z_det_big n m cof : mat n n P m -> (forall ij, T P (cof ij)) -> T P (det_big_z c d z n m cof).
Proof.
  intros Hm Hcof. unfold det_big_z. fold o. eapply tri_bind; [apply (t_mclone D I c P d o Hd K n n m Hm)|]. intros m0 H0.
  eapply (tri_bind D I (either (mat n n P) P)).
  - apply tri_for_range_ret; [|exact H0]. intros i m1 _ H1. apply tri_for_range_ret; [|exact H1].
    intros j m2 _ H2. eapply tri_bind; [apply (t_mindex D I P n n m2 (i, i) H2)|]. intros piv Hp.
    eapply tri_bind; [apply Kb, Hp|intros [|] _].
    + eapply tri_bind; [apply (z_expand n m cof Hm Hcof)|]. intros v Hv. now apply tri_ret.
    + do 3 zstep. eapply tri_bind; [apply (t_elim_row D I P o K); eassumption|]. intros m3 Hm3. now apply tri_ret.
  - intros [m1|v] H1; [|now apply tri_ret]. cbn in H1.
    apply (t_fold_from P P); [|exact K1|exact Km]. apply t_range. intros i _. now apply (t_ix D I P o K n).
Qed.
Lemma z_cof_sign i j : T P (cof_sign_z c z i j).
Proof.
  eapply tri_bind; [apply tri_usz_add|]. intros s _. destruct (_ =? _); [exact K1|].
  eapply tri_bind; [exact K1|]. intros u Hu. now apply Kn.
Qed.
Lemma z_cof2 m ij : mat 2 2 P m -> T P (cof2_z c z m ij).
Proof.
  intros Hm. destruct ij as [i j]. cbn [cof2_z]. eapply tri_bind; [apply z_cof_sign|intros sg Hs].
  eapply tri_bind; [apply tri_usz_sub|intros a _]. eapply tri_bind; [apply tri_usz_sub|intros b _]. fold o. repeat zstep.
Qed.
Lemma z_cof3 m ij : mat 3 3 P m -> T P (cof3_z c d z m ij).
Proof.
  intros Hm. destruct ij as [i j]. apply t_assert_then. intros E. apply andb_prop in E. destruct E as [E1 E2].
  apply Nat.ltb_lt in E1, E2. fold o.
  eapply tri_bind; [apply z_cof_sign|intros sg Hs].
  eapply tri_bind; [apply (t_submatrix D I c P d o Hd K); [pose proof (W_gt c); lia|exact Hm|exact E1|exact E2]|intros a Ha].
  eapply tri_bind; [apply (t_det2 D I c P o K a Ha)|intros dt Hdt]. zstep.
Qed.
Lemma z_cof_big n det' m ij : n < W c -> (forall a, mat (n - 1) (n - 1) P a -> T P (det' a)) -> mat n n P m ->
  T P (cof_big_z c d z n det' m ij).
Proof.
  intros HW Hdet Hm. destruct ij as [i j]. apply t_assert_then. intros E. apply andb_prop in E. destruct E as [E1 E2].
  apply Nat.ltb_lt in E1, E2. fold o.
  eapply tri_bind; [apply (t_submatrix D I c P d o Hd K n m i j HW Hm E1 E2)|intros a Ha].
  eapply tri_bind; [apply z_cof_sign|intros sg Hs].
  eapply tri_bind; [apply (Hdet a Ha)|intros dt Hdt]. zstep.
Qed.
Lemma z_det : forall n m, 0 < n -> n < W c -> mat n n P m -> T P (det_z c d z n m).
Proof.
  induction n as [|n IH]; intros m H0 HW Hm; [lia|].
  destruct n as [|[|[|n]]]; [now apply t_det1|now apply t_det2|now apply t_det3|].
  apply z_det_big; [exact Hm|]. intros ij. apply z_cof_big; [exact HW| |exact Hm].
  intros a Ha. apply IH; [lia|lia|exact Ha].
Qed.
Lemma z_cofactor n m ij : 1 < n -> n < W c -> mat n n P m -> T P (cofactor_z c d z n m ij).
Proof.
  intros H0 HW Hm. destruct n as [|[|[|[|n]]]]; [lia|lia|now apply z_cof2|now apply z_cof3|].
  apply z_cof_big; [exact HW| |exact Hm]. intros a Ha. apply z_det; [lia|lia|exact Ha].
Qed.
Lemma z_inverse n m : 0 < n -> n < W c -> mat n n P m -> T (opt (mat n n P)) (inverse_z c d z n m).
Proof.
  intros H0 HW Hm. destruct n as [|[|[|[|n]]]]; [lia| | | |].
  - unfold inverse_z, inv1_z. fold o. repeat zstep.
    apply (t_new_some D I c P d Hd); [exact HW|zmat|]. intros r Hr. now apply tri_ret.
  - unfold inverse_z, inv2_z. fold o. eapply tri_bind; [apply (t_det2 D I c P o K m Hm)|intros dt Hdt]. repeat zstep.
    apply (t_new_some D I c P d Hd); [exact HW|zmat|]. intros mm Hmm.
    eapply tri_bind; [apply (t_mscale D I c P d Hd 2 2 _ _ mm dt HW HW Kd Kc Hmm Hdt)|]. intros r Hr. now apply tri_ret.
  - unfold inverse_z, inv3_z. fold o. eapply tri_bind; [apply (t_det3 D I c P o K m Hm)|intros dt Hdt]. repeat zstep.
    apply (t_new_some D I c P d Hd); [exact HW|zmat|]. intros mm Hmm.
    eapply tri_bind; [apply (t_mscale D I c P d Hd 3 3 _ _ mm dt HW HW Kd Kc Hmm Hdt)|]. intros r Hr. now apply tri_ret.
  - set (N := Datatypes.S (Datatypes.S (Datatypes.S (Datatypes.S n)))) in *.
    change (inverse_z c d z N m) with (inv_big_z c d z N m). clearbody N.
    unfold inv_big_z. fold o. eapply tri_bind; [apply (t_mclone D I c P d o Hd K N N m Hm)|]. intros m0 Hm0.
    eapply tri_bind; [apply (z_midentity N)|]. intros v0 Hv0.
    pose (R := fun mi : list (list A) * list (list A) => mat N N P (fst mi) /\ mat N N P (snd mi)).
    eapply (tri_bind D I (either R any)).
    + apply tri_for_range_ret; [|now split]. intros i mi _ Hmi. destruct Hmi as [Hm1 Hm2].
      eapply tri_bind; [apply (t_ix D I P o K N _ i i Hm1)|]. intros dd Hdd. repeat zstep.
      eapply tri_bind; [apply (t_scale_rows D I P o K); [split; [exact Hm1|exact Hm2]|eassumption]|]. intros mi1 Hmi1.
      eapply (tri_bind D I R).
      * apply tri_for_range; [|exact Hmi1]. intros j mi2 _ Hmi2. destruct (_ =? _); [now apply tri_ret|].
        eapply tri_bind; [apply (t_ix D I P o K N _ j i (proj1 Hmi2))|]. intros a Ha. now apply (t_elim_rows D I P o K).
      * intros mi2 Hmi2. now apply tri_ret.
    + intros [mi|u] H1; apply tri_ret; [exact (proj2 H1)|exact Logic.I].
Qed.
Lemma z_mdiag row col k elems : k < W c -> vec k P elems -> T (mat row col P) (mdiag_z c d z row col k elems).
Proof.
  intros HW He s HI. unfold mdiag_z.
  assert (G : tri D (pI (live P k) I) (mat row col P) (mgenerate c (lift_ety d) row col
        (fun '(i, j) => if i =? j then x <- ii_next_fn c d k ;; unwrap x else lift (z_zero z)))).
  { apply t_mgenerate; [now apply dsafe_lift|]. intros i j _ _. destruct (i =? j); [|now apply tri_lift].
    eapply tri_bind; [apply (t_ii_next D I c P d k HW)|]. intros x Hx. now apply tri_unwrap. }
  specialize (G (into_iter k elems, s) (Logic.conj (live_new P k elems He) HI)). unfold vnew.
  match goal with |- context [mgenerate ?c' ?d' ?n' ?n2' ?f' ?st'] => destruct (mgenerate c' d' n' n2' f' st') as [r [ii s']] end.
  destruct r as [m| | |]; auto.
  - destruct G as [[Hl HI'] Hm]. cbn in Hl, HI'.
    exact (tri_seq D I (mat row col P) _ _ (t_ii_drop D I P d Hd k ii Hl) (tri_ret D I _ m Hm) s' HI').
  - destruct G as [Hl HI']. cbn in Hl, HI'.
    exact (tri_seq D I (mat row col P) _ _ (t_ii_drop D I P d Hd k ii Hl) (tri_panic D I _) s' HI').
Qed.
End Lib.

Theorem C102_no_ub : forall (S T : Type) (D : Prop) (P : T -> Prop) (c : cfg) (d : ety S T) (z : zops S T),
  zops_no_ub D P z ->
  (forall n, no_ub D (vec n P) (vzero_z c d z n)) /\
  (forall row col, no_ub D (mat row col P) (mzero_z c d z row col)) /\
  (forall n bound, no_ub D P bound -> no_ub D (vec n P) (vbounded_z c d n bound)) /\
  (forall row col bound, no_ub D P bound -> no_ub D (mat row col P) (mbounded_z c d bound row col)) /\
  (forall n, no_ub D (mat n n P) (midentity_z c d z n)) /\
  (forall row col k elems, k < W c -> vec k P elems -> no_ub D (mat row col P) (mdiag_z c d z row col k elems)) /\
  (forall n v, vec n P v -> no_ub D anything (vis_zero_z z n v) /\ no_ub D P (vsum_z z n v)) /\
  (forall row col m, mat row col P m -> no_ub D anything (mis_zero_z z row col m) /\ no_ub D P (msum_z z row col m)) /\
  (forall n a b, vec n P a -> vec n P b -> no_ub D P (vdot_z z n a b)) /\
  (forall powi2 sqrt n v, op1_no_ub D P P powi2 -> op1_no_ub D P P sqrt -> vec n P v -> no_ub D P (vnorm_z z powi2 sqrt n v)).
Proof.
  intros S T D P c d z (HO & Hz & H1 & Hb). pose proof (to_ops D P _ HO) as K. pose proof (all_dsafe d) as Hd.
  apply to_tri in Hz, H1. assert (Kb : forall x, P x -> tri D any any (z_is_zero z x)) by (intros x Hx; now apply to_tri, Hb).
  repeat match goal with |- _ /\ _ => split end; intros.
  - apply of_tri, t_vgenerate; auto.
  - apply of_tri, t_mgenerate; auto.
  - apply of_tri, t_vgenerate; auto. intros; now apply to_tri.
  - apply of_tri, t_mgenerate; auto. intros; now apply to_tri.
  - apply of_tri. now apply z_midentity.
  - apply of_tri. now apply z_mdiag.
  - split; apply of_tri; [now apply (z_vis_zero D any P)|now apply z_vsum].
  - split; apply of_tri; [now apply (z_mis_zero D any P)|now apply z_msum].
  - apply of_tri. now apply z_vdot.
  - apply of_tri, z_vnorm; auto; now apply to_op1.
Qed.
Print Assumptions C102_no_ub.
Theorem C102_no_ub_products : forall (S T : Type) (D : Prop) (P : T -> Prop) (c : cfg) (d : ety S T) (z : zops S T),
  zops_no_ub D P z ->
  (forall lr n rc a b, lr < W c -> n < W c -> rc < W c -> mat lr n P a -> mat n rc P b ->
     no_ub D (mat lr rc P) (mmul_vv_z c d z lr n rc a b) /\
     no_ub D (mat lr rc P) (mmul_vr_z c d z lr n rc a b) /\
     no_ub D (mat lr rc P) (mmul_rv_z c d z lr n rc a b) /\
     no_ub D (mat lr rc P) (mmul_rr_z c d z lr n rc a b)) /\
  (forall n b, n < W c -> mat n n P b -> no_ub_mut D (mat n n P) anything (mmul_assign_z c d z n b)) /\
  (forall row col m v, row < W c -> col < W c -> mat row col P m -> vec col P v ->
     no_ub D (vec row P) (mmulv_z c d z row col m v) /\ no_ub D (vec row P) (mmulv_ref_z c d z row col m v)) /\
  (forall n m e, n < W c -> mat n n P m -> no_ub D (mat n n P) (mpow_z c d z n m e)).
Proof.
  intros S T D P c d z (HO & Hz & H1 & Hb). pose proof (to_ops D P _ HO) as K. pose proof (all_dsafe d) as Hd.
  apply to_tri in Hz, H1.
  repeat match goal with |- _ /\ _ => split end; intros.
  - repeat split; apply of_tri; [now apply z_mmul_vv|now apply z_mmul_vr|now apply z_mmul_vv|now apply z_mmul_vr].
  - now apply of_mut, z_mul_assign.
  - split; apply of_tri; [now apply z_mmulv|now apply z_mmulv_ref].
  - now apply of_tri, z_mpow.
Qed.
Print Assumptions C102_no_ub_products.
Theorem C102_no_ub_determinant : forall (S T : Type) (D : Prop) (P : T -> Prop) (c : cfg) (d : ety S T) (z : zops S T) n m,
  zops_no_ub D P z -> 0 < n -> n < W c -> mat n n P m ->
  no_ub D P (det_z c d z n m) /\
  (1 < n -> forall ij, no_ub D P (cofactor_z c d z n m ij)) /\
  no_ub D (if_some (mat n n P)) (inverse_z c d z n m).
Proof.
  intros S T D P c d z n m (HO & Hz & H1 & Hb) H0 HW Hm. pose proof (to_ops D P _ HO) as K. pose proof (all_dsafe d) as Hd.
  apply to_tri in Hz, H1. assert (Kb : forall x, P x -> tri D any any (z_is_zero z x)) by (intros x Hx; now apply to_tri, Hb).
  repeat match goal with |- _ /\ _ => split end; intros; apply of_tri.
  - now apply z_det.
  - now apply z_cofactor.
  - now apply (z_inverse D any c P).
Qed.
Print Assumptions C102_no_ub_determinant.
